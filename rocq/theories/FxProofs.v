(* Proofs about chorus, flanger and phaser. *)
From Coq Require Import Reals Lra Lia Psatz.
From Verif Require Export FxSpec.
From Verif Require Import DelayReals EnvProofs MathReals ShapeProofs ShapeSpec.
Import ListNotations.
Local Open Scope R_scope.
Notation nR := Rnum_ops.

(* ---- runs ---- *)
Section Runs.
  Context {X : Type} (f : X -> list R -> X * list R).
  Notation tks := (BufModel.ticks f).
  Lemma tks_nth l : forall s k d, (k < length l)%nat -> nth k (snd (tks s l)) d = snd (f (fst (tks s (firstn k l))) (nth k l [])).
  Proof.
    induction l as [|i l IH]; intros s k d Hk; [cbn in Hk; lia|]. destruct k as [|k]; cbn [firstn BufModel.ticks nth].
    - destruct (f s i) as [s' o] eqn:E. destruct (tks s' l). cbn. now rewrite E.
    - destruct (f s i) as [s' o]. specialize (IH s' k d ltac:(cbn in Hk; lia)). destruct (tks s' l) as [a b]. destruct (tks s' (firstn k l)) as [a' b']. exact IH.
  Qed.
  Lemma tks_S l : forall s k, (k < length l)%nat -> fst (tks s (firstn (S k) l)) = fst (f (fst (tks s (firstn k l))) (nth k l [])).
  Proof.
    induction l as [|i l IH]; intros s k Hk; [cbn in Hk; lia|]. rewrite firstn_cons. destruct k as [|k].
    - cbn. destruct (f s i); reflexivity.
    - rewrite firstn_cons. cbn [BufModel.ticks nth]. destruct (f s i) as [s' o]. specialize (IH s' k ltac:(cbn in Hk; lia)). destruct (tks s' (firstn (S k) l)) as [a b]. destruct (tks s' (firstn k l)) as [a' b']. exact IH.
  Qed.
  Lemma tks_len l : forall s, length (snd (tks s l)) = length l.
  Proof. induction l as [|i l IH]; intros s; cbn; [reflexivity|]. destruct (f s i) as [s' o]. specialize (IH s'). destruct (tks s' l). cbn in *. lia. Qed.
End Runs.
Lemma frame1 l k : stream 1 l -> (k < length l)%nat -> nth k l [] = [sample_of l k].
Proof.
  intros H Hk. unfold sample_of. unfold stream in H. rewrite Forall_forall in H. specialize (H (nth k l []) (nth_In _ _ Hk)). destruct (nth k l []) as [|a [|b r]]; cbn in *; try lia. reflexivity.
Qed.

(* ---- history ---- *)
Fixpoint hist (u : nat -> R) (k : nat) : list R := match k with O => [] | S k => u k :: hist u k end.
Lemma hist_nth u k j : nth j (hist u (S k)) 0 = recent u k j.
Proof.
  revert j. induction k as [|k IH]; intros j.
  - destruct j as [|j]; [reflexivity|]. cbn [hist nth]. destruct j; reflexivity.
  - destruct j as [|j]; [reflexivity|]. change (nth (S j) (hist u (S (S k))) 0) with (nth j (hist u (S k)) 0). rewrite IH. unfold recent. reflexivity.
Qed.

(* ---- the tap ---- *)
Section Tap.
  Variables (sr lo hi : R).
  Hypothesis Hs : 0 < sr. Hypothesis Hhi : 0 <= hi.
  Notation L := (tap_length nR sr hi).
  Notation has s h := (holds 0 L (l_buf s) (l_i s) h).
  Lemma tap_step s u k dls : has s (hist u k) -> let r := tap_tick nR lo hi sr s (u k :: dls) in
    has (fst r) (hist u (S k)) /\ snd r = [fold_left (fun a dl => a + delayed_by sr lo hi u k dl) dls 0].
  Proof.
    intros H. destruct (pow_of (Z.to_nat (ceilZ nR (hi * sr)%R + 3 + 8))) as [q E].
    destruct (taps_tick_ok nR _ _ L q E 7 (tap_reads sr lo hi Hs Hhi) (cubic_spec_ext nR _ _ sr) s (hist u k) (u k :: dls) H) as [A B].
    split; [exact A|]. unfold tap_tick. rewrite B. unfold out_of. cbn [tl nth]. f_equal. apply fold_ext. intros a dl. unfold delayed_by. cbn [nadd Rnum_ops].
    assert (Ec : c1_00001 nR = 1.00001) by (unfold c1_00001; cbn; lra).
    unfold tap_min, tap_max. rewrite Ec. cbn [nmax ndiv Rnum_ops]. f_equal. apply cubic_spec_ext. intros j. exact (hist_nth u k j).
  Qed.
  Lemma tap_len s i : length (l_buf (fst (tap_tick nR lo hi sr s i))) = length (l_buf s).
  Proof. unfold tap_tick, taps_tick, write. cbn [fst l_buf]. apply length_upd. Qed.
End Tap.
Lemma delayed_bound sr lo hi u k dl B : (forall j, (j <= k)%nat -> Rabs (u j) <= B) -> Rabs (delayed_by sr lo hi u k dl) <= 5 / 4 * B.
Proof.
  intros H. assert (P : 0 <= B). { specialize (H 0%nat ltac:(lia)). pose proof (Rabs_pos (u 0%nat)). lra. }
  assert (H' : forall j, - B <= recent u k j <= B). { intros j. unfold recent. destruct (Nat.leb_spec j k) as [Lj|]; [|lra]. specialize (H (k - j)%nat ltac:(lia)). unfold Rabs in H. destruct (Rcase_abs (u (k - j)%nat)); lra. }
  unfold delayed_by, cubic_spec. cbv zeta. set (t := nmul nR _ sr).
  assert (I : in01 (nsub nR t (nofZ nR (nfloor nR t)))). { cbn [nsub nofZ nfloor Rnum_ops]. pose proof (base_Int_part t). unfold in01. lra. }
  set (f := Z.to_nat (nfloor nR t)).
  pose proof (spline_over (- B) B _ _ _ _ _ (H' (f - 1)%nat) (H' f) (H' (f + 1)%nat) (H' (f + 2)%nat) I) as S. apply Rabs_le.
  change (- (5 / 4 * B) <= spline nR (recent u k (f - 1)%nat) (recent u k f) (recent u k (f + 1)%nat) (recent u k (f + 2)%nat) (nsub nR t (nofZ nR (nfloor nR t))) <= 5 / 4 * B). lra.
Qed.

(* ---- the envelope ---- *)
Notation etick f := (env_tick nR nR idR (pure f)).
Definition env0 (sr : R) (h : N) (ch : nat) (interval : R) : env R R unit := let z := repeat 0 ch in mkEnv tt 0 0 0 0%N z z z z interval (1 / sr) h.
Definition start (sr : R) (h : N) (ch : nat) (interval : R) (E : R -> list R) : env R R unit := env_reset nR idR (pure E) (env0 sr h ch interval).
Lemma lfo_start sr h ch interval E : lfo nR sr h ch interval E = XLfo ch E (start sr h ch interval E).
Proof. reflexivity. Qed.
Lemma env0_fits sr h ch interval : 0 < sr -> 4 / 3 <= interval * sr <= IZR (2 ^ 62) -> (h < 2 ^ 64)%N -> fits (env0 sr h ch interval).
Proof.
  intros Hs [A B] Hh. unfold fits, env0. cbn [e_sd e_int e_hash].
  assert (P : 0 < 1 / sr) by (apply Rdiv_lt_0_compat; lra).
  assert (Q : interval * sr * (1 / sr) = interval) by (field; lra).
  split; [split; [exact P|]|split; [|exact Hh]].
  - assert (4 / 3 * (1 / sr) <= interval) by (rewrite <- Q; apply Rmult_le_compat_r; lra). lra.
  - rewrite <- Q at 1. apply Rmult_le_compat_r; lra.
Qed.
Lemma range_of sr h ch interval E j lo hi k : 0 < sr -> 4 / 3 <= interval * sr <= IZR (2 ^ 62) -> (h < 2 ^ 64)%N -> (forall t, length (E t) = ch) -> (j < ch)%nat ->
  (forall t, 0 <= t -> lo <= nth j (E t) 0 <= hi) -> lo <= nth j (envelope_of sr h ch interval E k) 0 <= hi.
Proof. intros Hs Hi Hh HE Hj H. exact (envelope_range E ch (env0 sr h ch interval) k j lo hi HE (env0_fits sr h ch interval Hs Hi Hh) Hj H). Qed.
Lemma length_of sr h ch interval E k : 0 < sr -> 4 / 3 <= interval * sr <= IZR (2 ^ 62) -> (h < 2 ^ 64)%N -> (forall t, length (E t) = ch) -> length (envelope_of sr h ch interval E k) = ch.
Proof. intros Hs Hi Hh HE. exact (proj1 (envelope_line E ch (env0 sr h ch interval) k HE (env0_fits sr h ch interval Hs Hi Hh))). Qed.
Lemma etick_at sr h ch interval E k : etick E (env_state (pure E) (start sr h ch interval E) k) =
  (env_state (pure E) (start sr h ch interval E) (S k), envelope_of sr h ch interval E k).
Proof. unfold envelope_of. cbn [env_state]. unfold env_at. fold (start sr h ch interval E). apply surjective_pairing. Qed.
(* what is kept *)
Definition like (a b : env R R unit) : Prop := e_int a = e_int b /\ e_sd a = e_sd b /\ e_hash a = e_hash b.
Lemma etick_like E s : like (fst (etick E s)) s.
Proof. unfold env_tick. destruct (nleb nR (e_t1 s) (e_t s)); repeat split. Qed.
Lemma reset_tick E a b : like a b -> etick E (env_reset nR idR (pure E) a) = etick E (env_reset nR idR (pure E) b).
Proof.
  intros (A & B & C). unfold env_tick, env_reset. cbn [pure e_t e_t1]. assert (T : nleb nR (n0 nR) (n0 nR) = true) by (cbn; destruct (Rle_dec 0 0) as [|N]; [reflexivity|exfalso; apply N; lra]).
  rewrite T. unfold env_next, segment_from. cbn [pure e_t e_t1 e_t0 e_seed e_v1 e_int e_sd e_hash e_st]. rewrite A, B, C. reflexivity.
Qed.
