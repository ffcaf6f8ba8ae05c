(* Units and histories used by the examples and refutations of RealnetProperties.v. *)
From Coq Require Import QArith Lia.
From Verif Require Export RealnetHistory FadeExamples.
Local Open Scope nat_scope.

(* a constant signal that can be set, and the placeholder *)
Inductive voice := Voice (v : Q) | Silent (i o : nat).
Definition voice_tick (u : voice) (i : list Q) : voice * list Q := match u with Voice v => (u, [v]) | Silent _ o => (u, repeat 0%Q o) end.
Definition voice_ops : unit_ops Q Q voice :=
  mkUnit Q Q voice (fun u => match u with Voice _ => 0 | Silent i _ => i end) (fun u => match u with Voice _ => 1 | Silent _ o => o end) voice_tick
    (fun u size inb out => default_process 0%Q voice_tick size u inb out)
    (fun u s => match u with Voice _ => Voice (s_par s) | _ => u end) (fun u => u) (fun _ => 2%N) (fun u _ => u).
Definition voice_ping (probe : bool) (u : voice) (h : N) : voice * N := (u, h).
Lemma voice_control : control_laws voice_ops voice_ping.
Proof. constructor; try (intros [] ?; reflexivity); try (intros []; reflexivity); intros ? [] ?; reflexivity. Qed.
Lemma voice_dummy : dummy_laws voice_ops Silent.
Proof. split; reflexivity. Qed.
Definition ahash0 (a b : N) : N := a.

Notation vstep := (step Qnum_ops Q_at voice_ops 1%Q voice_ping ahash0).
Notation vallowed := (allowed Qnum_ops Q_at voice_ops 1%Q).
Notation vhappens := (happens Qnum_ops Q_at voice_ops 1%Q voice_ping ahash0).
Notation vevent := (@event Q Q voice).
Notation vwatched := (@watched Q Q voice).

(* histories from a list of events *)
Fixpoint run (cap : nat) (es : list vevent) (w : vwatched) : option vwatched :=
  match es with [] => Some w | e :: r => match vstep cap Silent e (w_sys w) with Some s => run cap r (watch w e s) | None => None end end.
Fixpoint fine (cap : nat) (es : list vevent) (w : vwatched) : Prop :=
  match es with [] => True | e :: r => vallowed cap (w_used w) (w_sys w) e /\ match vstep cap Silent e (w_sys w) with Some s => fine cap r (watch w e s) | None => False end end.
Lemma run_happens cap es : forall w w', vhappens cap Silent w -> fine cap es w -> run cap es w = Some w' -> vhappens cap Silent w'.
Proof.
  induction es as [|e r IH]; cbn; intros w w' Hw Hf Hr; [congruence|]. destruct Hf as [Ha Hf]. destruct (vstep cap Silent e (w_sys w)) as [s|] eqn:E; [|contradiction]. eapply IH; [|exact Hf|exact Hr]. eapply h_step; eauto.
Qed.
(* the start: a network without inputs, with one output and no nodes *)
Definition empty_net : net Q (slotx Q voice) := net_new 0 1.
Definition w0 : vwatched :=
  match start voice_ping ahash0 empty_net with
  | Some s => mkW s [] (fun _ => false) (fun _ => false) empty_net
  | None => mkW (mkSys empty_net [] [] empty_net) [] (fun _ => false) (fun _ => false) empty_net
  end.
Lemma w0_happens cap : vhappens cap Silent w0.
Proof. apply (h_start Qnum_ops Q_at voice_ops 1%Q voice_ping ahash0 cap Silent empty_net); [apply r_new|reflexivity]. Qed.

Definition five : nedit Q voice := mkEdit (Voice 5) Smooth 1%Q.
Definition set1 (v : Q) : setting Q := mkSetting v [ANode 1].
Definition evs_push : list vevent := [Edit (Push 1%N (Voice 5)); Edit (PipeOutput 1%N)].
Definition evs_fade : list vevent := [FadeIn 1%N five; Edit (PipeOutput 1%N)].
(* a setting after a commit, drained together *)
Definition evs_lost : list vevent := evs_push ++ [Commit; Setting (set1 7)].
Definition evs_heard : list vevent := evs_push ++ [Commit; Poll; Setting (set1 7)].
(* two commits between polls *)
Definition evs_twice : list vevent := evs_fade ++ [Commit; Commit].
Definition evs_once : list vevent := evs_fade ++ [Commit].
Definition evs_reset : list vevent := evs_fade ++ [Commit; BackTick []; BackTick []; BackTick []; Edit Reset_; Commit].

Definition after (es : list vevent) : vwatched := match run 8 es w0 with Some w => w | None => w0 end.
Lemma after_happens es : fine 8 es w0 -> (exists w, run 8 es w0 = Some w) -> vhappens 8 Silent (after es).
Proof. intros Hf (w & Hw). unfold after. rewrite Hw. exact (run_happens 8 es w0 w (w0_happens 8) Hf Hw). Qed.
Ltac fine_tac := apply after_happens; [vm_compute; intuition (congruence || lia)|eexists; vm_compute; reflexivity].
Lemma h_push : vhappens 8 Silent (after evs_push). Proof. fine_tac. Qed.
Lemma h_lost : vhappens 8 Silent (after evs_lost). Proof. fine_tac. Qed.
Lemma h_heard : vhappens 8 Silent (after evs_heard). Proof. fine_tac. Qed.
Lemma h_twice : vhappens 8 Silent (after evs_twice). Proof. fine_tac. Qed.
Lemma h_once : vhappens 8 Silent (after evs_once). Proof. fine_tac. Qed.
Lemma h_reset : vhappens 8 Silent (after evs_reset). Proof. fine_tac. Qed.

(* filling the channel with settings addressed to nothing *)
Definition nullset : setting Q := mkSetting 0%Q [].
Lemma fill cap k : k <= cap -> exists w, vhappens cap Silent w /\ w_sys w = mkSys (s_front (w_sys (after evs_push))) [] (repeat (MSet nullset) k) (s_back (w_sys (after evs_push))).
Proof.
  induction k as [|k IH]; intros Hk.
  - destruct (run cap evs_push w0) as [w|] eqn:E; [|vm_compute in E; discriminate]. exists w. split; [apply (run_happens cap evs_push w0 w (w0_happens cap)); auto; vm_compute; intuition congruence|].
    vm_compute in E. injection E as <-. vm_compute. reflexivity.
  - destruct (IH ltac:(lia)) as (w & Hw & Es). eexists. split.
    + apply (h_step _ _ _ _ _ _ _ _ w (Setting nullset)); [exact Hw| |cbn [step]; reflexivity]. split; [intros ? []|]. rewrite Es. cbn [s_queue]. rewrite repeat_length. lia.
    + cbn [watch w_sys]. rewrite Es. unfold front_set, send. cbn [s_queue s_front s_edits s_back]. rewrite repeat_length. destruct (Nat.ltb_spec k cap) as [_|L]; [|lia]. cbn [repeat]. now rewrite (repeat_cons k (MSet nullset)).
Qed.
Lemma drain_null k (n : net Q (slotx Q voice)) l : drain Qnum_ops Q_at voice_ops 1%Q (repeat (MSet nullset) k) n l = (n, l).
Proof. induction k as [|k IH]; cbn [repeat drain]; auto. Qed.
Lemma full_queue cap : exists w s s2, vhappens cap Silent w /\ commit voice_ping ahash0 cap (w_sys w) = Some s /\ poll Qnum_ops Q_at voice_ops 1%Q s = Some s2 /\
  contains (s_front (w_sys w)) 1 /\ ~ contains (s_back s2) 1 /\ s_queue s2 = [] /\ s_edits s2 = [].
Proof.
  destruct (fill cap cap (le_n cap)) as (w & Hw & Es). exists w. set (w1 := w_sys (after evs_push)) in *.
  destruct (ordered (xping voice_ping) ahash0 (s_front w1)) as [n1|] eqn:E; [|vm_compute in E; discriminate].
  exists (mkSys (bump n1) [] (repeat (MSet nullset) cap) (s_back w1)), (mkSys (bump n1) [] [] (s_back w1)). split; [exact Hw|]. rewrite Es. split; [|split; [|split; [|split]]].
  - unfold commit. cbn [s_front s_back s_edits s_queue]. replace (_ && _) with true by (vm_compute; reflexivity). rewrite E. unfold send. now rewrite repeat_length, Nat.ltb_irrefl.
  - unfold poll. cbn [s_front s_back s_edits s_queue]. now rewrite drain_null.
  - vm_compute. discriminate.
  - vm_compute. auto.
  - split; reflexivity.
Qed.
