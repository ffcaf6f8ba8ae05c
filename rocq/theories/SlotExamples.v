(* Slots: units that meet the hypotheses of SlotProperties.v, and counterexamples. *)
From Coq Require Import Reals Lra QArith Permutation.
From Verif Require Export SlotSound SlotRate FadeExamples.
Close Scope R_scope. Close Scope Q_scope. Open Scope nat_scope.

(* a generator of its own number; it also keeps its sample rate *)
Definition play_ops {F D} (n : num F) : unit_ops F F (nat * D) :=
  let tick := fun (u : nat * D) (_ : list F) => (u, [nofZ n (Z.of_nat (fst u))]) in
  mkUnit F F (nat * D) (fun _ => 0) (fun _ => 1) tick (fun u size inb out => default_process (n0 n) tick size u inb out)
    (fun u _ => u) (fun u => u) (fun _ => 2%N) (fun u _ => u).
Definition play_rate {D} (u : nat * D) (r : D) : nat * D := (fst u, r).
Lemma play_same {F D} (n : num F) (u : nat * D) size inb out : fst (u_process (play_ops n) u size inb out) = u.
Proof.
  cbn [u_process play_ops]. unfold default_process. generalize (length out). intros m. generalize 0. revert out. induction size as [|k IH]; intros out i; cbn; auto.
Qed.
Lemma play_names {F D} (n : num F) : names (play_ops n) (@play_rate D) fst.
Proof. split; [reflexivity|]. split; [intros; now rewrite play_same|]. split; reflexivity. Qed.
Lemma play_rates {F D} (n : num F) : rates (play_ops n) (@play_rate D) snd.
Proof. split; [reflexivity|]. split; [intros; now rewrite play_same|]. split; reflexivity. Qed.

(* an update that finds the channel full *)
Section Fill.
  Notation run := (slot_run (F := R) Rnum_ops Rnum_ops (fun x => x) R_at R_at (play_ops Rnum_ops) play_rate 0 1).
  Lemma fill (e : nedit R (nat * R)) k : forall s, length (sl_updates s) + k <= CHANNEL -> exists s', run (repeat (Set_ e) k) s = Some s' /\ length (sl_updates s') = length (sl_updates s) + k.
  Proof.
    induction k as [|k IH]; intros s H; cbn [repeat slot_run]; [exists s; split; auto; lia|]. cbn [slot_step]. unfold slot_set. cbn [play_ops u_ins u_outs Nat.eqb andb]. unfold try_send.
    destruct (Nat.ltb_spec (length (sl_updates s)) CHANNEL) as [L|L]; [|lia]. destruct (IH (mkSlot (sl_back s) (sl_updates s ++ [e]) [] (sl_freed s ++ sl_returns s) (sl_refused s) (sl_dropped s))) as (s' & A & B).
    { cbn [sl_updates]. rewrite app_length. cbn. lia. } exists s'. split; auto. rewrite B. cbn [sl_updates]. rewrite app_length. cbn. lia.
  Qed.
  Definition flood : list (slot_event R R (nat * R)) := repeat (Set_ (mkEdit (1, 1%R) Smooth 1%R)) CHANNEL ++ [Set_ (mkEdit (2, 1%R) Smooth 1%R)].
  Lemma last_lost : exists s, run flood (slot_new Rnum_ops Rnum_ops (play_ops Rnum_ops) play_rate 1%R (0, 1%R)) = Some s /\
    forall rs s', sets rs = [] -> run rs s = Some s' -> fst (sb_current (sl_back s')) <> 2.
  Proof.
    set (s0 := slot_new Rnum_ops Rnum_ops (play_ops Rnum_ops) play_rate 1%R (0, 1%R)).
    destruct (fill (mkEdit (1, 1%R) Smooth 1%R) CHANNEL s0) as (s1 & R1 & L1); [cbn; lia|]. change (length (sl_updates s0)) with 0 in L1. cbn [Nat.add] in L1.
    set (s2 := mkSlot (sl_back s1) (sl_updates s1) [] (sl_freed s1 ++ sl_returns s1) (sl_refused s1 ++ [(2, 1%R)]) (sl_dropped s1)).
    assert (R2 : run flood s0 = Some s2).
    { unfold flood. rewrite run_app, R1. cbn [slot_run slot_step]. unfold slot_set. cbn [play_ops u_ins u_outs Nat.eqb andb]. unfold try_send. rewrite L1, Nat.ltb_irrefl. reflexivity. }
    exists s2. split; auto. intros rs s' N R'.
    assert (O0 : ordered s0) by (intros _; reflexivity).
    destruct (run_perm Rnum_ops Rnum_ops (fun x => x) R_at R_at (play_ops Rnum_ops) play_rate 0 1 fst (play_names Rnum_ops) flood _ _ R2 O0) as [_ P2].
    apply (refused_never Rnum_ops (fun x => x) R_at R_at (play_ops Rnum_ops) play_rate 0 1 fst (play_names Rnum_ops) flood s0 rs s2 (2, 1%R) R2 O0); auto.
    - cbn [sl_refused s2]. apply in_or_app. right. now left.
    - rewrite (proj1 (Permutation_count_occ Nat.eq_dec _ _) P2). unfold flood. rewrite sets_app, map_app, !count_occ_app.
      assert (Z : forall k, count_occ Nat.eq_dec (map fst (sets (F := R) (repeat (Set_ (mkEdit (1, 1%R) Smooth 1%R)) k))) 2 = 0). { induction k as [|k IH]; [reflexivity|]. cbn [repeat]. unfold sets in *. cbn [map concat app]. exact IH. }
      rewrite Z. reflexivity.
  Qed.
End Fill.

(* units that come back when the channel is full are dropped by the audio thread *)
Section Drop.
  Definition q_new := slot_new Qnum_ops Qnum_ops (play_ops Qnum_ops) play_rate 1%Q (0, 1%Q).
  Notation run := (slot_run (F := Q) Qnum_ops Qnum_ops (fun x => x) Q_at Q_at (play_ops Qnum_ops) play_rate 0 1).
  Definition q_set (u : nat) (t : Q) : slot_event Q Q (nat * Q) := Set_ (mkEdit (u, 1%Q) Smooth t).
  Definition crowd : list (slot_event Q Q (nat * Q)) := [q_set 1 8%Q; SlotSpec.Tick []; q_set 2 8%Q; SlotSpec.Tick []] ++ repeat (q_set 3 8%Q) CHANNEL ++ [SlotSpec.Tick []; SlotSpec.Reset].
End Drop.
