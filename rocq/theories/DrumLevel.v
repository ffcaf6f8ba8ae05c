(* How loud the snare drum of DrumModel.v can become. *)
From Coq Require Import Reals Lra Lia Psatz.
From Verif Require Import EnvProofs OscProofs MeterProofs FxProofs PreProofs SoundProofs SoundCurves.
From Verif Require Import DrumSpec DrumProofs DrumSnare.
Import ListNotations.
Local Open Scope R_scope.

Lemma exp_le a b : a <= b -> exp a <= exp b.
Proof. intros [L| ->]; [left; now apply exp_increasing|lra]. Qed.
Lemma exp_small x : 0 <= x < 1 -> exp x <= 1 / (1 - x).
Proof.
  intros H. pose proof (exp_ineq1_le (- x)) as Q. pose proof (exp_pos x) as P. assert (M : exp x * exp (- x) = 1) by (rewrite <- exp_plus, Rplus_opp_r; apply exp_0).
  apply Rmult_le_reg_r with (1 - x); [lra|]. unfold Rdiv. rewrite Rmult_assoc, Rinv_l by lra. nra.
Qed.
(* ---- the filter gains no more energy than it is given ---- *)
Definition stored (s : R * R) : R := fst s * fst s + snd s * snd s.
Lemma stored_step g x s : stored (2 * band_of g x s - fst s, 2 * low_of g x s - snd s) = stored s + 4 * g * (band_of g x s * (x - band_of g x s)).
Proof.
  unfold stored. cbn [fst snd]. assert (E : band_of g x s * (1 + g + g * g) = fst s + g * (x - snd s)) by (unfold band_of; pose proof (den_pos g); field; lra).
  unfold low_of. set (v := band_of g x s) in *. clearbody v. destruct s as [a b]. cbn [fst snd] in *. assert (Ea : a = v * (1 + g + g * g) - g * (x - b)) by lra. rewrite Ea. ring.
Qed.
Section Energy.
  Variables (sr : R) (f x : nat -> R) (G : R).
  Hypothesis HG : forall n, 0 <= warped sr f n <= G.
  Lemma stored_bound n : stored (low_state sr f x n) <= G * sum_to (fun k => x k * x k) n.
  Proof.
    induction n as [|n IH]; [unfold stored; cbn; lra|]. cbn [low_state sum_to]. cbv zeta. rewrite stored_step. set (v := band_of _ _ _). specialize (HG n). set (g := warped sr f n) in *.
    assert (A : 4 * (v * (x n - v)) <= x n * x n) by (pose proof (Rle_0_sqr (x n - 2 * v)) as Q; unfold Rsqr in Q; lra). assert (B : g * (4 * (v * (x n - v))) <= g * (x n * x n)) by (apply Rmult_le_compat_l; lra). assert (C : g * (x n * x n) <= G * (x n * x n)) by (apply Rmult_le_compat_r; [apply Rle_0_sqr|lra]). lra.
  Qed.
  Lemma low_level n : lowpassed sr f x n * lowpassed sr f x n <= G * sum_to (fun k => x k * x k) (S n).
  Proof.
    pose proof (stored_bound n) as A. pose proof (stored_bound (S n)) as B. assert (M : G * sum_to (fun k => x k * x k) n <= G * sum_to (fun k => x k * x k) (S n)).
    { cbn [sum_to]. apply Rmult_le_compat_l; [specialize (HG n); lra|nra]. }
    cbn [low_state] in B. cbv zeta in B. unfold lowpassed. set (y := low_of _ _ _) in *. unfold stored in A, B. cbn [fst snd] in B. set (s := low_state sr f x n) in *. set (u := 2 * band_of _ _ _ - fst s) in *.
    set (E := G * sum_to (fun k => x k * x k) (S n)) in *. clearbody u y E. nra.
  Qed.
End Energy.

Section Level.
  Variables (sr : R) (h : nat -> N) (r : nat -> R).
  Hypothesis HS : usual sr.
  Hypothesis HH : forall i, (h i < 2 ^ 64)%N.
  Let w := exp (- (24 / sr)).
  Lemma w_unit : 0 < w < 1.
  Proof. split; [apply exp_pos|]. unfold w. rewrite <- exp_0. apply exp_increasing. apply Ropp_lt_gt_0_contravar. destruct HS. apply Rdiv_lt_0_compat; lra. Qed.
  Lemma w_pow n : w ^ n = exp (- (24 * (INR n / sr))).
  Proof. induction n as [|n IH]; [cbn [pow INR]; rewrite <- exp_0; f_equal; unfold Rdiv; ring|]. cbn [pow]. rewrite IH. unfold w. rewrite <- exp_plus. f_equal. rewrite S_INR. unfold Rdiv. ring. Qed.
  Lemma fading_level i c n : 12 <= c -> 0 <= control sr h i (fading c) n <= exp (- (12 * (INR n / sr - 1 / 400))) /\ control sr h i (fading c) n <= 1.
  Proof.
    intros C. unfold control. destruct (lfo_line sr (h i) 1 (fun t => [fading c t]) n HS (HH i) ltac:(reflexivity)) as (b0 & b1 & B0 & B1 & D & V). rewrite (V 0%nat ltac:(lia)). cbn [nth]. clear V. set (t := INR n / sr) in *.
    assert (P : forall b, 0 <= b -> t - 1 / 400 <= b -> 0 <= fading c b <= exp (- (12 * (t - 1 / 400))) /\ fading c b <= 1).
    { intros b Hb Ht. unfold fading. split; [split; [left; apply exp_pos|]|]; [apply exp_le; nra|]. rewrite <- exp_0. apply exp_le. nra. }
    destruct (P b0 ltac:(lra) ltac:(lra)) as [[P0 P1] P2]. destruct (P b1 ltac:(lra) ltac:(lra)) as [[Q0 Q1] Q2].
    split; [split; [apply on_line_min; lra|apply on_line_max; lra]|apply on_line_max; lra].
  Qed.
  Lemma mode_level i n : -1 <= mode sr h r i n <= 1.
  Proof. unfold mode, sine_of. apply SIN_bound. Qed.
  Lemma mixed_level n : Rabs (snare_mixed sr h r n) <= 6.707 * exp (- (12 * (INR n / sr - 1 / 400))) /\ Rabs (snare_mixed sr h r n) <= 6.707.
  Proof.
    unfold snare_mixed. destruct (fading_level 18 16 n ltac:(lra)) as [A A1]. destruct (fading_level 19 14 n ltac:(lra)) as [B B1]. destruct (fading_level 21 12 n ltac:(lra)) as [C C1].
    set (e := exp (- (12 * (INR n / sr - 1 / 400)))) in *. set (a := control sr h 18 _ n) in *. set (b := control sr h 19 _ n) in *. set (c := control sr h 21 _ n) in *.
    pose proof (pink_level (h 20%nat) n) as P. set (p := pinked _ n) in *.
    assert (P' : - (8.01) <= p <= 8.01) by (unfold Rabs in P; destruct (Rcase_abs p); lra).
    assert (M2 : -2 <= mode sr h r 0 n + mode sr h r 1 n <= 2) by (pose proof (mode_level 0 n); pose proof (mode_level 1 n); lra).
    assert (M7 : -7 <= mode sr h r 2 n + mode sr h r 3 n + mode sr h r 4 n + mode sr h r 5 n + mode sr h r 6 n + mode sr h r 7 n + mode sr h r 8 n <= 7).
    { pose proof (mode_level 2 n). pose proof (mode_level 3 n). pose proof (mode_level 4 n). pose proof (mode_level 5 n). pose proof (mode_level 6 n). pose proof (mode_level 7 n). pose proof (mode_level 8 n). lra. }
    set (m := mode sr h r 0 n + _) in *. set (k := _ + mode sr h r 8 n) in *. clearbody e a b c p m k.
    assert (T : forall u v z U, - U <= u <= U -> 0 <= v <= z -> - (U * z) <= u * v <= U * z) by (intros; split; nra).
    split; apply Rabs_le.
    - pose proof (T m a e 2 M2 A). pose proof (T k b e 7 M7 B). pose proof (T p c e 8.01 P' C). lra.
    - pose proof (T m a 1 2 M2 ltac:(lra)). pose proof (T k b 1 7 M7 ltac:(lra)). pose proof (T p c 1 8.01 P' ltac:(lra)). lra.
  Qed.
  Lemma mixed_energy n : sum_to (fun k => snare_mixed sr h r k * snare_mixed sr h r k) n <= 48 + 2 * sr.
  Proof.
    pose proof w_unit as W. assert (S0 : 1000 <= sr) by (destruct HS; lra).
    assert (E6 : exp 0.06 <= 1.064) by (eapply Rle_trans; [apply exp_small; lra|lra]).
    assert (T : forall k, snare_mixed sr h r k * snare_mixed sr h r k <= 48 * w ^ k).
    { intros k. destruct (mixed_level k) as [A _]. set (m := snare_mixed sr h r k) in *. rewrite w_pow. set (t := INR k / sr) in *. set (e := exp (- (12 * (t - 1 / 400)))) in *.
      assert (Ee : e * e = exp 0.06 * exp (- (24 * t))) by (unfold e; rewrite <- !exp_plus; f_equal; lra). pose proof (exp_pos (- (24 * t))) as Z. assert (e0 : 0 < e) by apply exp_pos.
      assert (Q : m * m <= (6.707 * e) * (6.707 * e)) by (rewrite <- (Rabs_mult_self m) || (replace (m * m) with (Rabs m * Rabs m) by (rewrite <- Rabs_mult; apply Rabs_pos_eq; nra)); apply Rmult_le_compat; try apply Rabs_pos; exact A).
      replace (6.707 * e * (6.707 * e)) with (6.707 * 6.707 * (e * e)) in Q by ring. rewrite Ee in Q. set (z := exp (- (24 * t))) in *. set (q := exp 0.06) in *. clearbody z q. nra. }
    assert (Gm : sum_to (fun k => w ^ k) n * (1 - w) = 1 - w ^ n) by (clear T; induction n as [|n IH]; cbn [sum_to pow]; lra).
    assert (Le : sum_to (fun k => snare_mixed sr h r k * snare_mixed sr h r k) n <= 48 * sum_to (fun k => w ^ k) n) by (clear Gm; induction n as [|n IH]; cbn [sum_to]; [lra|specialize (T n); lra]).
    assert (W1 : 24 / sr <= (1 - w) * (1 + 24 / sr)).
    { pose proof (exp_ineq1_le (24 / sr)) as Q. assert (M : w * exp (24 / sr) = 1) by (unfold w; rewrite <- exp_plus, Rplus_opp_l; apply exp_0). assert (0 < 24 / sr) by (apply Rdiv_lt_0_compat; lra). set (u := 24 / sr) in *. nra. }
    assert (Wn : 0 <= w ^ n) by (apply pow_le; lra). set (sm := sum_to (fun k => w ^ k) n) in *.
    assert (Es : 24 / sr * (1 + sr / 24) = 1 + 24 / sr) by (field; lra). assert (U : 0 < 24 / sr) by (apply Rdiv_lt_0_compat; lra). set (u := 24 / sr) in *. set (z := 1 + sr / 24) in *.
    assert (sm <= z). { apply Rmult_le_reg_r with (1 - w); [lra|]. rewrite Gm. assert (Z0 : 0 < z) by (unfold z; lra). assert (u * 1 <= u * ((1 - w) * z)) by (replace (u * ((1 - w) * z)) with ((1 - w) * (u * z)) by ring; rewrite Es; lra). assert (1 <= (1 - w) * z) by nra. lra. }
    unfold z in *. lra.
  Qed.
  Lemma cutoff_range n : 0 <= control sr h 22 snare_cutoff n <= 15000.
  Proof.
    unfold control. apply lfo_range; [exact HS|apply HH|]. intros t Ht. unfold snare_cutoff, Rpower. pose proof (exp_pos (t * ln (1 / 15))) as P.
    assert (L : ln (1 / 15) < 0) by (rewrite <- ln_1; apply ln_increasing; lra). set (l := ln (1 / 15)) in *. clearbody l. assert (exp (t * l) <= exp 0) by (apply exp_le; nra). rewrite exp_0 in H. lra.
  Qed.
  Lemma snare_level sharpness n : 30000 < sr -> Rabs (snare_of sr h r sharpness n) <= sqrt (tan (PI * 15000 / sr) * (48 + 2 * sr)) /\ snare_of sr h r sharpness 0 = 0.
  Proof.
    intros S3. pose proof PI_RGT_0 as PI0. assert (Nyq : PI * 15000 / sr < PI / 2). { apply Rmult_lt_reg_r with sr; [lra|]. unfold Rdiv. rewrite Rmult_assoc, Rinv_l by lra. nra. }
    assert (HG : forall k, 0 <= warped sr (control sr h 22 snare_cutoff) k <= tan (PI * 15000 / sr)).
    { intros k. pose proof (cutoff_range k) as C. unfold warped. set (c := control sr h 22 snare_cutoff k) in *. assert (C1 : 0 <= PI * c / sr <= PI * 15000 / sr).
      { split; [apply Rle_mult_inv_pos; nra|]. unfold Rdiv. apply Rmult_le_compat_r; [left; apply Rinv_0_lt_compat; lra|nra]. }
      set (p := PI * c / sr) in *. set (q := PI * 15000 / sr) in *. clearbody p q. split.
      - destruct C1 as [[P|<-] PQ]; [left; apply tan_gt_0; lra|rewrite tan_0; lra].
      - destruct C1 as [P [L| ->]]; [|lra]. left. apply tan_increasing; lra. }
    split.
    - unfold snare_of. set (f := control sr h 22 snare_cutoff) in *. set (y := lowpassed sr f (snare_mixed sr h r) n).
      pose proof (low_level sr f (snare_mixed sr h r) (tan (PI * 15000 / sr)) HG n) as L. fold y in L. pose proof (mixed_energy (S n)) as En. set (T := tan (PI * 15000 / sr)) in *.
      assert (T0 : 0 <= T) by (specialize (HG 0%nat); lra). assert (Y : y * y <= T * (48 + 2 * sr)). { eapply Rle_trans; [exact L|]. apply Rmult_le_compat_l; assumption. }
      assert (Gn : 0 <= gain (snare_attack sharpness) (INR n / sr) <= 1) by (apply gain_01; apply Rle_mult_inv_pos; [apply pos_INR|lra]). set (g := gain _ _) in *.
      assert (Ys : Rabs y <= sqrt (T * (48 + 2 * sr))). { rewrite <- sqrt_Rsqr_abs. apply sqrt_le_1_alt. exact Y. }
      rewrite Rabs_mult, (Rabs_pos_eq g) by lra. pose proof (Rabs_pos y). nra.
    - unfold snare_of. assert (A : 0 < snare_attack sharpness) by (unfold snare_attack; apply Rmult_lt_0_compat; [lra|apply exp_pos]). cbn [INR]. replace (0 / sr) with 0 by (unfold Rdiv; ring). unfold gain.
      destruct (Rlt_dec 0 (snare_attack sharpness)); [|lra]. cbv zeta. replace (0 / snare_attack sharpness) with 0 by (unfold Rdiv; ring). ring.
  Qed.
End Level.
