(* Granular synthesizer: proofs. *)
From Coq Require Import Reals Lra Lia Psatz.
From Verif Require Export GranSpec.
Local Open Scope R_scope.

Fixpoint ends {U} (s : R) (l : list (grain R U)) : R := match l with [] => s | e :: l => ends (s + gr_length e - gr_envelope e) l end.
Fixpoint chained {U} (s : R) (l : list (grain R U)) : Prop := match l with [] => True | e :: l => gr_start e = s /\ chained (s + gr_length e - gr_envelope e) l end.
Lemma ends_snoc {U} (l : list (grain R U)) e : forall s, ends s (l ++ [e]) = ends s l + gr_length e - gr_envelope e.
Proof. induction l as [|x l IH]; intros s; [reflexivity|]. cbn [app ends]. apply IH. Qed.
Lemma chained_snoc {U} (l : list (grain R U)) e : forall s, chained s l -> gr_start e = ends s l -> chained s (l ++ [e]).
Proof. induction l as [|x l IH]; intros s H E; [split; [exact E|exact I]|]. cbn [app chained ends] in *. destruct H. split; auto. Qed.
Lemma tiles_of {U} now (l : list (grain R U)) : forall s, chained s l -> Forall (fun e => gr_start e < now) l -> now <= ends s l -> tiles s now l.
Proof. induction l as [|x l IH]; intros s C F E; [exact E|]. cbn [tiles chained ends] in *. apply Forall_cons_iff in F as [F1 F2]. destruct C as [C1 C2]. rewrite C1 in F1. auto. Qed.
Lemma voice_snoc {U} v (l : list (grain R U)) e : of_voice v (l ++ [e]) = if Nat.eqb (gr_voice e) v then of_voice v l ++ [e] else of_voice v l.
Proof. unfold of_voice. rewrite filter_app. cbn [filter]. destruct (Nat.eqb (gr_voice e) v); [reflexivity|apply app_nil_r]. Qed.
Lemma nth_upd_eq {A} (l : list A) i x d : (i < length l)%nat -> nth i (upd l i x) d = x.
Proof. intros H. rewrite nth_upd, Nat.eqb_refl. destruct (Nat.ltb_spec i (length l)); [reflexivity|lia]. Qed.
Lemma nth_upd_ne {A} (l : list A) i j x d : j <> i -> nth j (upd l i x) d = nth j l d.
Proof. intros H. rewrite nth_upd. destruct (Nat.eqb_spec i j); [congruence|reflexivity]. Qed.
Lemma index_nth {A} (l : list A) i d : (i < length l)%nat -> index l i = Val (nth i l d).
Proof. intros H. unfold index. now rewrite (nth_error_nth' l i d H). Qed.

Section Log.
  Context {U Rn : Type}.
  Variables (cos_ sin_ : R -> R) (tau : R) (rnd_f32 : Rn -> R * Rn) (rnd_u64 : Rn -> N * Rn) (rnd_from : N -> Rn).
  Variables (texture : R * R * R -> R * R * R) (ping : N -> U -> U) (generator : R -> R -> R -> R -> R -> R -> R * R * U).
  Variables (voices : nat) (beat_length : R) (beats_per_cycle : nat) (inner_radius outer_radius jitter : R).
  Notation gran := (granular R Rn (list (call U))).
  Notation inst := (instantiate Rnum_ops cos_ sin_ tau rnd_f32 rnd_u64 texture ping generator (fun l e => CPush e :: l) voices beat_length beats_per_cycle inner_radius outer_radius jitter).
  Notation fillv := (fill_voice Rnum_ops cos_ sin_ tau rnd_f32 rnd_u64 texture ping generator (fun l e => CPush e :: l) voices beat_length beats_per_cycle inner_radius outer_radius jitter).
  Notation fillall := (instantiate_voices Rnum_ops cos_ sin_ tau rnd_f32 rnd_u64 texture ping generator (fun l e => CPush e :: l) voices beat_length beats_per_cycle inner_radius outer_radius jitter).
  Notation stp := (gran_step Rnum_ops cos_ sin_ tau rnd_f32 rnd_u64 rnd_from texture ping generator (fun l e => CPush e :: l) (fun l => (CTick :: l, tt)) (fun size l => (CBlock size :: l, tt)) (fun l => CReset :: l) (fun sr l => CRate sr :: l)
      voices beat_length beats_per_cycle inner_radius outer_radius jitter).
  Notation run := (log_run cos_ sin_ tau rnd_f32 rnd_u64 rnd_from texture ping generator voices beat_length beats_per_cycle inner_radius outer_radius jitter).
  Notation genuine := (genuine cos_ sin_ tau texture ping generator voices beat_length beats_per_cycle inner_radius outer_radius jitter).
  Variable d : R.
  Hypothesis d_pos : 0 < d.
  Hypothesis gens : generates generator d.

  Definition off (e0 : grain R U) (v : nat) : R := (gr_length e0 - gr_envelope e0) * INR v / INR voices.
  Definition started (next : list R) (l : list (grain R U)) : Prop :=
    exists e0 r, l = e0 :: r /\ gr_voice e0 = 0%nat /\ Forall (fun e => (gr_voice e < voices)%nat) l /\
      forall v, (v < voices)%nat -> 0 < nth v next 0 /\ chained (off e0 v) (of_voice v l) /\ nth v next 0 = ends (off e0 v) (of_voice v l).
  Definition state (next : list R) (l : list (grain R U)) : Prop := length next = voices /\ Forall genuine l /\ ((l = [] /\ next = repeat 0 voices) \/ started next l).
  Lemma repeat_nth0 v : nth v (repeat 0 voices) 0 = 0. Proof. apply nth_repeat. Qed.

  (* one grain *)
  Lemma inst_ok (g : gran) v : state (g_next g) (recent (g_seq g)) -> (v < voices)%nat -> (recent (g_seq g) = [] -> v = 0%nat) ->
    exists e next rn, inst g v = Val (mkGran next (CPush e :: g_seq g) (g_rate g) (g_time g) (g_seed g) rn) /\ state next (recent (g_seq g) ++ [e]) /\ gr_voice e = v /\ gr_start e = nth v (g_next g) 0
      /\ nth v (g_next g) 0 + d <= nth v next 0 /\ (recent (g_seq g) <> [] -> forall w, w <> v -> nth w next 0 = nth w (g_next g) 0) /\ (recent (g_seq g) = [] -> forall w, (w < voices)%nat -> 0 < nth w next 0).
  Proof.
    intros (L & G & ST) Hv H0. unfold instantiate. rewrite (index_nth _ v 0) by lia. cbn [bind]. set (t := nth v (g_next g) 0).
    unfold helix_position. destruct (rnd_f32 (g_rnd g)) as [r1 s1]. destruct (rnd_f32 s1) as [r2 s2]. destruct (rnd_f32 s2) as [r3 s3].
    set (p := texture _). destruct (generate Rnum_ops generator voices beat_length v t p) as [[len env] u] eqn:GE.
    assert (B : 0 <= env /\ env + d <= len). { unfold generate in GE. destruct p as [[x y] z]. specialize (gens t (t / beat_length) (voice_place Rnum_ops voices v * 2 - 1) (clamp11_ Rnum_ops x) (clamp11_ Rnum_ops y) (clamp11_ Rnum_ops z)).
      cbn [ndiv nmul nsub nofZ Rnum_ops] in GE. change (n1 Rnum_ops) with 1 in GE. rewrite GE in gens. exact gens. }
    cbn [nleb nltb nofZ Rnum_ops nadd nsub]. destruct (Rle_dec 0 env) as [P1|]; [|lra]. destruct (Rlt_dec env len) as [P2|]; [|lra]. cbn [negb].
    destruct (rnd_u64 s3) as [h rn] eqn:RE.
    assert (V0 : (0 < voices)%nat) by lia. assert (IV : 0 < INR voices) by (apply lt_0_INR; lia).
    set (e := mkGrain v t len env (ping h u)).
    assert (GN : genuine e) by (exists r1, r2, r3, h, u; split; [exact GE|reflexivity]).
    destruct ST as [[EL EN]|(e0 & r & EL & E0 & FV & CH)].
    - (* the first grain *)
      specialize (H0 EL). subst v. assert (T0 : t = 0) by (unfold t; rewrite EN; apply repeat_nth0).
      assert (EQ : equal Rnum_ops t 0 = true). { unfold equal. cbn [nleb Rnum_ops]. rewrite T0. destruct (Rle_dec 0 0); [reflexivity|lra]. }
      rewrite EQ. cbn [bind Nat.eqb]. set (nx := offsets Rnum_ops len env (g_next g)).
      assert (LX : length nx = voices) by (unfold nx, offsets; now rewrite map_length, seq_length).
      assert (NX : forall w, (w < voices)%nat -> w <> 0%nat -> nth w nx 0 = off e w).
      { intros w Hw W0. unfold nx, offsets. rewrite (nth_indep _ 0 ((fun i => if (i =? 0)%nat then nth 0 (g_next g) (nofZ Rnum_ops 0) else ndiv Rnum_ops (nmul Rnum_ops (nsub Rnum_ops len env) (nofZ Rnum_ops (Z.of_nat i))) (nofZ Rnum_ops (Z.of_nat (length (g_next g))))) 0%nat)) by (rewrite map_length, seq_length; lia).
        rewrite (map_nth (fun i => if (i =? 0)%nat then _ else _)), seq_nth by lia. cbn [plus]. destruct (Nat.eqb_spec w 0); [congruence|]. cbn [ndiv nmul nsub nofZ Rnum_ops]. rewrite <- !INR_IZR_INZ, L. reflexivity. }
      exists e, (upd nx 0 (t + len - env)), rn. split; [reflexivity|]. rewrite EL. cbn [app].
      assert (PO : forall w, (w < voices)%nat -> 0 < nth w (upd nx 0 (t + len - env)) 0).
      { intros w Hw. destruct (Nat.eq_dec w 0) as [->|W0]; [rewrite nth_upd_eq by lia; lra|]. rewrite nth_upd_ne, NX by auto. unfold off, e. cbn [gr_length gr_envelope].
        assert (0 < INR w) by (apply lt_0_INR; lia). apply Rdiv_lt_0_compat; auto. apply Rmult_lt_0_compat; lra. }
      split; [|split; [reflexivity|split; [reflexivity|split; [rewrite nth_upd_eq by lia; lra|split; [congruence|intros _; exact PO]]]]].
      split; [now rewrite length_upd|]. split; [now constructor|]. right. exists e, []. split; [reflexivity|]. split; [reflexivity|]. split; [now constructor|].
      intros w Hw. split; [now apply PO|]. unfold of_voice. cbn [filter gr_voice e]. destruct (Nat.eqb_spec 0 w) as [<-|W0].
      + cbn [chained ends]. rewrite nth_upd_eq by lia. assert (Z0 : off e 0 = 0) by (unfold off; cbn [INR]; unfold Rdiv; ring). unfold e in *. rewrite Z0. cbn [gr_start gr_length gr_envelope]. rewrite T0. split; [split; [reflexivity|exact I]|lra].
      + cbn [chained ends]. rewrite nth_upd_ne, NX by auto. auto.
    - (* a later grain *)
      destruct (CH v Hv) as (P & C & N). assert (EQ : equal Rnum_ops t 0 = false). { unfold equal. cbn [nleb Rnum_ops]. fold t in P. destruct (Rle_dec t 0); [lra|reflexivity]. }
      rewrite EQ. cbn [bind]. exists e, (upd (g_next g) v (t + len - env)), rn. split; [reflexivity|].
      split; [|split; [reflexivity|split; [reflexivity|split; [rewrite nth_upd_eq by lia; fold t; lra|split; [intros _ w Hw; now apply nth_upd_ne|intros Q; rewrite Q in EL; discriminate]]]]].
      split; [now rewrite length_upd|]. split; [apply Forall_app; auto|]. right. exists e0, (r ++ [e]). rewrite EL. split; [reflexivity|]. split; [exact E0|]. split; [apply Forall_app; rewrite EL in FV; auto|].
      intros w Hw. rewrite voice_snoc. change (gr_voice e) with v. rewrite <- EL. destruct (Nat.eqb_spec v w) as [<-|W].
      + rewrite nth_upd_eq by lia. fold t in P, N. split; [lra|]. split; [apply chained_snoc; [exact C|exact N]|]. rewrite ends_snoc, <- N. reflexivity.
      + rewrite nth_upd_ne by auto. now apply CH.
  Qed.

  (* the pushes of a voice *)
  Definition extends (g g' : gran) (from to_ : R) : Prop :=
    exists es, g_seq g' = rev (map CPush es) ++ g_seq g /\ Forall (fun e => from <= gr_start e < to_) es /\ g_rate g' = g_rate g /\ g_time g' = g_time g /\ g_seed g' = g_seed g.
  Lemma recent_pushes es : forall l : list (call U), recent (rev (map CPush es) ++ l) = recent l ++ es.
  Proof. induction es as [|e es IH]; intros l; [symmetry; apply app_nil_r|]. cbn [map rev]. rewrite <- app_assoc. cbn [app]. rewrite IH. cbn [recent]. now rewrite <- app_assoc. Qed.
  Lemma extends_refl g a b : extends g g a b. Proof. exists []. repeat split; auto. Qed.
  Lemma extends_trans g1 g2 g3 a b : extends g1 g2 a b -> extends g2 g3 a b -> extends g1 g3 a b.
  Proof.
    intros (e1 & A1 & B1 & C1 & D1 & E1) (e2 & A2 & B2 & C2 & D2 & E2). exists (e1 ++ e2). rewrite A2, A1, map_app, rev_app_distr, <- app_assoc. split; [reflexivity|]. split; [now apply Forall_app|]. repeat split; congruence.
  Qed.
  Lemma fill_ok v before lo : (v < voices)%nat -> forall fuel (g : gran), state (g_next g) (recent (g_seq g)) -> (recent (g_seq g) = [] -> v = 0%nat \/ before <= 0) -> lo <= nth v (g_next g) 0 -> before - nth v (g_next g) 0 <= INR fuel * d ->
    exists g', fillv fuel g v before = Val g' /\ state (g_next g') (recent (g_seq g')) /\ before <= nth v (g_next g') 0 /\ extends g g' lo before
      /\ (recent (g_seq g) <> [] -> recent (g_seq g') <> [] /\ forall w, w <> v -> nth w (g_next g') 0 = nth w (g_next g) 0)
      /\ (recent (g_seq g) = [] -> 0 < before -> recent (g_seq g') <> [] /\ forall w, (w < voices)%nat -> 0 <= nth w (g_next g') 0)
      /\ (before <= nth v (g_next g) 0 -> g' = g).
  Proof.
    intros Hv. induction fuel as [|fuel IH]; intros g ST H0 LO HF; pose proof (proj1 ST) as L; cbn [fill_voice]; rewrite (index_nth _ v 0) by lia; cbn [bind nltb Rnum_ops]; destruct (Rlt_dec (nth v (g_next g) 0) before) as [l|l].
    - exfalso. cbn [INR] in HF. lra.
    - exists g. split; [reflexivity|]. split; [exact ST|]. split; [lra|]. split; [apply extends_refl|]. split; [auto|]. split; [|auto]. intros E B. exfalso. destruct ST as (_ & _ & [[_ N]|(e0 & r & Q & _)]); [|congruence]. rewrite N, repeat_nth0 in l. lra.
    - assert (H1 : recent (g_seq g) = [] -> v = 0%nat). { intros E. destruct (H0 E); auto. exfalso. destruct ST as (_ & _ & [[_ N]|(e0 & r & Q & _)]); [|congruence]. rewrite N, repeat_nth0 in l. lra. }
      destruct (inst_ok g v ST Hv H1) as (e & next & rn & -> & ST' & EV & ES & ED & EO & EF). cbn [bind]. set (g1 := mkGran next _ _ _ _ _).
      destruct (IH g1) as (g' & E' & S' & B' & X' & K1 & K2 & K3).
      + exact ST'.
      + cbn [g1 g_seq recent]. intros Q. now apply app_eq_nil in Q as [_ Q].
      + cbn [g1 g_next]. lra.
      + cbn [g1 g_next]. rewrite S_INR in HF. lra.
      + exists g'. split; [exact E'|]. split; [exact S'|]. split; [exact B'|].
        assert (X1 : extends g g1 lo before). { exists [e]. cbn [map rev app g1 g_seq g_rate g_time g_seed]. split; [reflexivity|]. split; [|auto]. constructor; [|constructor]. rewrite ES. lra. }
        split; [exact (extends_trans _ _ _ _ _ X1 X')|]. assert (NE : recent (g_seq g1) <> []) by (cbn [g1 g_seq recent]; intros Q; now apply app_eq_nil in Q as [_ Q]).
        destruct (K1 NE) as [K4 K5]. split; [|split; [|intros Q; lra]].
        * intros Q. split; [exact K4|]. intros w Hw. rewrite K5 by auto. now apply EO.
        * intros Q _. split; [exact K4|]. intros w Hw. destruct (Nat.eq_dec w v) as [->|W].
          -- assert (0 <= before) by (destruct ST as (_ & _ & [[_ N]|(e0 & r & Q' & _)]); [|congruence]; rewrite N, repeat_nth0 in l; lra). lra.
          -- rewrite K5 by auto. cbn [g1 g_next]. left. now apply EF.
    - exists g. split; [reflexivity|]. split; [exact ST|]. split; [lra|]. split; [apply extends_refl|]. split; [auto|]. split; [|auto]. intros E B. exfalso. destruct ST as (_ & _ & [[_ N]|(e0 & r & Q & _)]); [|congruence]. rewrite N, repeat_nth0 in l. lra.
  Qed.
  (* all voices *)
  Lemma all_ok fuel before lo (g : gran) : state (g_next g) (recent (g_seq g)) -> (forall v, (v < voices)%nat -> lo <= nth v (g_next g) 0) -> (recent (g_seq g) = [] -> voices = 0%nat \/ lo <= 0) -> before - lo <= INR fuel * d ->
    exists g', fillall fuel g before = Val g' /\ state (g_next g') (recent (g_seq g')) /\ (forall v, (v < voices)%nat -> before <= nth v (g_next g') 0) /\ extends g g' lo before.
  Proof.
    intros ST LO L0 HF. unfold instantiate_voices.
    assert (K : forall k, (k <= voices)%nat -> exists g', fold_left (fun o voice => do g <- o; fillv fuel g voice before) (seq 0 k) (Val g) = Val g' /\ state (g_next g') (recent (g_seq g')) /\ (forall v, (v < k)%nat -> before <= nth v (g_next g') 0)
      /\ (forall v, (v < voices)%nat -> lo <= nth v (g_next g') 0) /\ extends g g' lo before /\ (recent (g_seq g') = [] -> k = 0%nat \/ before <= 0)).
    { induction k as [|k IH]; intros Hk.
      - exists g. split; [reflexivity|]. split; [exact ST|]. split; [lia|]. split; [exact LO|]. split; [apply extends_refl|auto].
      - destruct (IH ltac:(lia)) as (g1 & E1 & S1 & B1 & LO1 & X1 & N1). rewrite seq_S, fold_left_app. cbn [plus fold_left]. rewrite E1. cbn [bind].
        assert (NN : recent (g_seq g1) = [] -> k = 0%nat \/ before <= 0) by exact N1.
        destruct (fill_ok k before lo ltac:(lia) fuel g1 S1 NN (LO1 k ltac:(lia)) ltac:(specialize (LO1 k ltac:(lia)); lra)) as (g' & E' & S' & B' & X' & K1 & K2 & K3).
        exists g'. split; [exact E'|]. split; [exact S'|].
        assert (D : recent (g_seq g1) = [] \/ recent (g_seq g1) <> []) by (destruct (recent (g_seq g1)); [left; reflexivity|right; discriminate]).
        assert (ZERO : recent (g_seq g1) = [] -> before <= 0 -> g' = g1). { intros Q HB. apply K3. destruct S1 as (_ & _ & [[_ N]|(e0 & r & Q' & _)]); [|congruence]. rewrite N, repeat_nth0. lra. }
        destruct D as [D|D].
        + destruct (Rle_dec before 0) as [HB|HB].
          * rewrite (ZERO D HB) in *. split; [intros v Hv; destruct (Nat.eq_dec v k) as [->|]; [exact B'|apply B1; lia]|]. split; [exact LO1|]. split; [exact X1|]. intros _. now right.
          * destruct (K2 D ltac:(lra)) as [K4 K5]. destruct (N1 D) as [->|]; [|lra]. split; [intros v Hv; assert (v = 0%nat) as -> by lia; exact B'|]. split; [intros v Hv; specialize (K5 v Hv); assert (RG : recent (g_seq g) = []) by (destruct X1 as (es & XE & _); rewrite XE, recent_pushes in D; now apply app_eq_nil in D as [D _]); destruct (L0 RG); [lia|lra]|].
            split; [exact (extends_trans _ _ _ _ _ X1 X')|]. intros Q. contradiction.
        + destruct (K1 D) as [K4 K5]. split; [|split; [|split; [exact (extends_trans _ _ _ _ _ X1 X')|intros Q; contradiction]]].
          * intros v Hv. destruct (Nat.eq_dec v k) as [->|W]; [exact B'|]. rewrite K5 by auto. apply B1. lia.
          * intros v Hv. destruct (Nat.eq_dec v k) as [->|W]; [|rewrite K5 by auto; now apply LO1].
            destruct (Rle_dec before (nth k (g_next g1) 0)) as [HB|HB]; [rewrite (K3 HB); now apply LO1|]. pose proof (LO1 k Hv). lra. }
    destruct (K voices (le_n _)) as (g' & E' & S' & B' & _ & X' & _). exists g'. auto.
  Qed.

  (* one operation *)
  Definition good (g : gran) : Prop := state (g_next g) (recent (g_seq g)) /\ (forall v, (v < voices)%nat -> g_time g <= nth v (g_next g) 0) /\ Forall (fun e => gr_start e < g_time g) (recent (g_seq g)) /\ (recent (g_seq g) = [] -> voices = 0%nat \/ g_time g <= 0) /\ 0 < g_rate g.
  Definition advance_of (g : gran) (a : gopR) : R := match a with GTick => 1 / g_rate g | GBlock size => INR size / g_rate g | _ => 0 end.
  Lemma play_ok fuel (g : gran) dt (c : call U) : good g -> 0 <= dt -> dt <= INR fuel * d -> (forall l, recent (c :: l) = recent l) ->
    exists g', fillall fuel (g_at g (g_time g + dt)) (g_time g + dt) = Val g' /\ exists es, g_seq g' = rev (map CPush es) ++ g_seq g /\ Forall (fun e => g_time g <= gr_start e < g_time g + dt) es
      /\ g_rate g' = g_rate g /\ g_time g' = g_time g + dt /\ g_seed g' = g_seed g /\ good (mkGran (g_next g') (c :: g_seq g') (g_rate g') (g_time g') (g_seed g') (g_rnd g')).
  Proof.
    intros (ST & NX & SB & EM & RP) D0 DF CR.
    destruct (all_ok fuel (g_time g + dt) (g_time g) (g_at g (g_time g + dt)) ST NX EM ltac:(lra)) as (g' & E & S' & B' & (es & X1 & X2 & X3 & X4 & X5)). cbn [g_at g_seq g_rate g_time g_seed] in *.
    exists g'. split; [exact E|]. exists es. split; [exact X1|]. split; [exact X2|]. split; [exact X3|]. split; [exact X4|]. split; [exact X5|].
    unfold good. cbn [g_next g_seq g_time g_rate]. rewrite CR, X4, X3. split; [exact S'|]. split; [exact B'|]. split; [|split; [|exact RP]].
    - rewrite X1, recent_pushes. apply Forall_app. split; [eapply Forall_impl; [|exact SB]; cbn; intros; lra|]. eapply Forall_impl; [|exact X2]. cbn. intros. lra.
    - intros Q. destruct (Nat.eq_dec voices 0) as [V0|V0]; [now left|]. right. destruct S' as (_ & _ & [[_ N]|(e0 & r & Q' & _)]); [|congruence]. specialize (B' 0%nat ltac:(lia)). rewrite N, repeat_nth0 in B'. exact B'.
  Qed.
  Lemma reset_state (l : list R) : length l = voices -> map (fun _ => nofZ Rnum_ops 0) l = repeat 0 voices.
  Proof. intros <-. induction l as [|x l IH]; [reflexivity|]. cbn [map length repeat]. now rewrite IH. Qed.
  Lemma step_ok fuel (g : gran) a : good g -> gran_ok a -> advance_of g a <= INR fuel * d ->
    exists g' o, stp fuel g a = Val (g', o) /\ good g' /\ g_rate g' = (match a with GRate sr => sr | _ => g_rate g end) /\ g_time g' = (match a with GReset => 0 | _ => g_time g + advance_of g a end)
      /\ exists es, g_seq g' = told a es ++ g_seq g /\ Forall (fun e => g_time g <= gr_start e < g_time g + advance_of g a) es.
  Proof.
    intros GG OK DF. pose proof GG as (ST & NX & SB & EM & RP). destruct a as [|size| |sr|h]; cbn [gran_step told advance_of gran_ok] in *.
    - assert (0 < 1 / g_rate g) by (apply Rdiv_lt_0_compat; lra).
      destruct (play_ok fuel g (1 / g_rate g) CTick GG ltac:(lra) DF (fun _ => eq_refl)) as (g' & E & es & A & B & C & D & F & G). unfold granular_tick, g_at in *. cbn [nadd ndiv Rnum_ops g_time]. change (n1 Rnum_ops) with 1.
      rewrite E. cbn [bind g_play]. eexists. eexists. split; [reflexivity|]. split; [exact G|]. split; [exact C|]. split; [exact D|]. exists es. split; [cbn [g_seq app]; now rewrite A|exact B].
    - assert (0 <= INR size / g_rate g) by (apply Rmult_le_pos; [apply pos_INR|left; now apply Rinv_0_lt_compat]).
      destruct (play_ok fuel g (INR size / g_rate g) (CBlock size) GG ltac:(lra) DF (fun _ => eq_refl)) as (g' & E & es & A & B & C & D & F & G). unfold granular_process, g_at in *. cbn [nadd ndiv nofZ Rnum_ops g_time]. rewrite <- INR_IZR_INZ.
      rewrite E. cbn [bind g_play]. eexists. eexists. split; [reflexivity|]. split; [exact G|]. split; [exact C|]. split; [exact D|]. exists es. split; [cbn [g_seq app]; now rewrite A|exact B].
    - eexists. eexists. split; [reflexivity|]. unfold granular_reset. cbn [g_next g_seq g_time g_rate]. split; [|split; [reflexivity|split; [reflexivity|exists []; split; [reflexivity|constructor]]]].
      unfold good. cbn [g_next g_seq g_time g_rate recent]. rewrite reset_state by apply ST. split; [|split; [|split; [constructor|split; [right; cbn; lra|exact RP]]]].
      + split; [apply repeat_length|]. split; [constructor|]. left. auto.
      + intros v _. rewrite repeat_nth0. cbn. lra.
    - eexists. eexists. split; [reflexivity|]. unfold granular_rate. cbn [g_next g_seq g_time g_rate]. split; [exact (conj ST (conj NX (conj SB (conj EM OK))))|]. split; [reflexivity|]. split; [ring|]. exists []. split; [reflexivity|constructor].
    - eexists. eexists. split; [reflexivity|]. unfold granular_hash. cbn [g_next g_seq g_time g_rate]. split; [exact GG|]. split; [reflexivity|]. split; [ring|]. exists []. split; [reflexivity|constructor].
  Qed.

  (* all operations *)
  Lemma run_app fuel l : forall g r, run fuel g (l ++ r) = do (g, o) <- run fuel g l; do (g, o') <- run fuel g r; Val (g, o ++ o').
  Proof.
    induction l as [|a l IH]; intros g r; unfold log_run in *; cbn [app gran_run bind]; [destruct (gran_run _ _ _ _ _ _ _ _ _ _ _ _ _ _ _ _ _ _ _ _ _ fuel g r) as [[g' o]| |]; reflexivity|].
    destruct (stp fuel g a) as [[g1 o1]| |]; cbn [bind]; auto. rewrite IH. destruct (gran_run _ _ _ _ _ _ _ _ _ _ _ _ _ _ _ _ _ _ _ _ _ fuel g1 l) as [[g2 o2]| |]; cbn [bind]; auto.
    destruct (gran_run _ _ _ _ _ _ _ _ _ _ _ _ _ _ _ _ _ _ _ _ _ fuel g2 r) as [[g3 o3]| |]; cbn [bind]; auto. now rewrite app_assoc.
  Qed.
  Notation new := (log_new rnd_from voices).
  Lemma new_good sr seed : 0 < sr -> good (new sr seed).
  Proof.
    intros H. unfold log_new, granular_new, granular_reset. cbn [g_next g_seq g_rate g_time g_seed g_rnd]. rewrite reset_state by apply repeat_length. unfold good. cbn [g_next g_seq g_time g_rate recent].
    split; [|split; [|split; [constructor|split; [right; cbn; lra|exact H]]]].
    - split; [apply repeat_length|]. split; [constructor|]. left. auto.
    - intros v _. rewrite repeat_nth0. cbn. lra.
  Qed.
  Lemma run_ok fuel sr seed : 0 < sr -> forall h, Forall gran_ok h -> steps_within (INR fuel * d) sr h ->
    exists g o, run fuel (new sr seed) (rev h) = Val (g, o) /\ good g /\ g_rate g = gran_rate sr h /\ g_time g = gran_time sr h.
  Proof.
    intros SR. induction h as [|a h IH]; intros OK W; [eexists; eexists; split; [reflexivity|]; split; [now apply new_good|split; reflexivity]|].
    apply Forall_cons_iff in OK as [O1 O2]. assert (W' : steps_within (INR fuel * d) sr h) by (destruct a; cbn [steps_within] in W; tauto). destruct (IH O2 W') as (g & o & E & GG & ER & ET).
    assert (AD : advance_of g a <= INR fuel * d). { destruct a; cbn [advance_of steps_within] in *; rewrite ?ER; try tauto; apply Rmult_le_pos; try apply pos_INR; lra. }
    destruct (step_ok fuel g a GG O1 AD) as (g' & o' & E' & GG' & R' & T' & _). cbn [rev]. rewrite run_app, E. cbn [bind]. unfold log_run. cbn [gran_run]. rewrite E'. cbn [bind].
    eexists. eexists. split; [reflexivity|]. split; [exact GG'|]. rewrite R', T'. destruct a; cbn [gran_rate gran_time advance_of]; rewrite ?ER, ?ET; split; reflexivity || ring.
  Qed.
  Lemma good_tiling (g : gran) : good g -> tiling voices (g_time g) (recent (g_seq g)).
  Proof.
    intros ((L & G & ST) & NX & SB & EM & RP). destruct ST as [[E N]|(e0 & r & E & E0 & F & C)]; [rewrite E in *; cbn [tiling]; now apply EM|].
    rewrite E in *. cbn [tiling]. split; [exact E0|]. split; [exact F|]. intros v Hv. destruct (C v Hv) as (_ & C1 & C2). apply (tiles_of _ _ (off e0 v)); [exact C1| |rewrite <- C2; now apply NX].
    unfold of_voice. apply Forall_forall. intros e He. apply filter_In in He as [He _]. rewrite Forall_forall in SB. now apply SB.
  Qed.
End Log.
