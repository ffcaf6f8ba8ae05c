(* Proofs about the loudness curves, dissonance_max, the voices of the glissando and generated control signals. *)
From Coq Require Import Reals Lra Lia Psatz.
From Coquelicot Require Import Coquelicot.
From Verif Require Import EnvProofs OscProofs FxProofs MathReals MathNoise SoundProofs.
From Verif Require Import SoundSpec.
Import ListNotations.
Local Open Scope R_scope.
Local Notation nR := Rnum_ops.

(* ---- dissonance_max ---- *)
Lemma grow (f f' : R -> R) : (forall x, is_derive f x (f' x)) -> (forall x, 0 <= x -> 0 <= f' x) -> f 0 = 0 -> forall x, 0 <= x -> 0 <= f x.
Proof.
  intros D P Z x [Hx| <-]; [|lra]. destruct (MVT_cor2 f f' 0 x Hx) as (c & E & C). { intros c _. apply is_derive_Reals. apply D. }
  rewrite Z in E. assert (0 <= f' c) by (apply P; lra). assert (0 <= f' c * (x - 0)) by (apply Rmult_le_pos; lra). lra.
Qed.
Lemma exp_low x : 0 <= x -> 0 <= Rtrigo_def.exp (- x) - (1 - x).
Proof. intros H. pose proof (exp_ineq1_le (- x)). lra. Qed.
Lemma exp_high x : 0 <= x -> 0 <= 1 - x + x ^ 2 / 2 - Rtrigo_def.exp (- x).
Proof.
  apply (grow (fun x => 1 - x + x ^ 2 / 2 - Rtrigo_def.exp (- x)) (fun x => Rtrigo_def.exp (- x) - (1 - x))); [|exact exp_low|rewrite Ropp_0, exp_0; lra].
  intros c. auto_derive; [exact I|]. field.
Qed.
Lemma exp_low3 x : 0 <= x -> 0 <= Rtrigo_def.exp (- x) - (1 - x + x ^ 2 / 2 - x ^ 3 / 6).
Proof.
  apply (grow (fun x => Rtrigo_def.exp (- x) - (1 - x + x ^ 2 / 2 - x ^ 3 / 6)) (fun x => 1 - x + x ^ 2 / 2 - Rtrigo_def.exp (- x))); [|exact exp_high|rewrite Ropp_0, exp_0; lra].
  intros c. auto_derive; [exact I|]. field.
Qed.
Lemma near_peak y : 94630 / 100000 <= y <= 94640 / 100000 -> 99999 / 100000 <= 5531753 / 1000000 * (y ^ 14 - y ^ 23).
Proof.
  intros H. set (a := 94630 / 100000) in *. destruct (Req_dec y a) as [->|N]. { unfold a. lra. }
  destruct (MVT_cor2 (fun y => y ^ 14 - y ^ 23) (fun y => 14 * y ^ 13 - 23 * y ^ 22) a y ltac:(lra)) as (c & E & C). { intros c _. apply is_derive_Reals. auto_derive; [exact I|]. cbn [pred INR]. ring. }
  assert (B : - (1 / 100) <= 14 * c ^ 13 - 23 * c ^ 22).
  { replace (14 * c ^ 13 - 23 * c ^ 22) with (c ^ 13 * (14 - 23 * c ^ 9)) by ring. assert (L : a ^ 9 <= c ^ 9 <= (9464 / 10000) ^ 9) by (split; apply pow_incr; unfold a in *; lra).
    assert (L13 : 0 <= c ^ 13 <= 1). { split; [apply pow_le; unfold a in *; lra|]. rewrite <- (pow1 13). apply pow_incr. unfold a in *; lra. }
    assert (M : (9464 / 10000) ^ 9 <= 6091 / 10000) by lra. assert (Z : - (1 / 100) <= 14 - 23 * c ^ 9) by lra. set (z := 14 - 23 * c ^ 9) in *. set (w := c ^ 13) in *. clearbody z w. nra. }
  assert (Ha : 999997 / 1000000 <= 5531753 / 1000000 * (a ^ 14 - a ^ 23)) by (unfold a; lra).
  assert (- (1 / 100) * (y - a) <= (14 * c ^ 13 - 23 * c ^ 22) * (y - a)) by (apply Rmult_le_compat_r; lra). assert (y - a <= 1 / 10000) by (unfold a; lra). cbv beta in E. 
  set (u := y ^ 14 - y ^ 23) in *. set (v := a ^ 14 - a ^ 23) in *. clearbody u v. lra.
Qed.
Lemma dissonance_peak f : 0 <= f -> f < dissonance_max nR f /\ 99999 / 100000 <= dissonance nR Rtrigo_def.exp f (dissonance_max nR f).
Proof.
  intros H. unfold dissonance_max. cbn [nadd nmul ndiv nofZ Rnum_ops]. set (g := 10193 / 10000 * f + 174672 / 10000). assert (G : f < g) by (unfold g; lra). split; [exact G|].
  unfold dissonance. cbn [nadd nsub nmul ndiv nofZ nabs nmin Rnum_ops]. rewrite Rmin_left by lra. rewrite Rabs_left by lra. set (q := - (f - g) / (21 / 1000 * f + 19)).
  assert (D : 0 < 21 / 1000 * f + 19) by lra. assert (Q : 91904 / 100000 <= q <= 91933 / 100000).
  { unfold q. split; apply Rmult_le_reg_r with (21 / 1000 * f + 19); try exact D; unfold Rdiv; rewrite ?Rmult_assoc, ?Rinv_l by lra; unfold g; lra. }
  clearbody q. set (x := 6 / 100 * q). assert (X : 551424 / 10000000 <= x <= 551598 / 10000000) by (unfold x; lra).
  set (y := Rtrigo_def.exp (- x)). assert (Y : 94630 / 100000 <= y <= 94640 / 100000).
  { pose proof (exp_high x ltac:(lra)) as U. pose proof (exp_low3 x ltac:(lra)) as L. fold y in U, L. clearbody y. assert (x ^ 2 <= (551598 / 10000000) ^ 2) by (apply pow_incr; lra). assert ((551424 / 10000000) ^ 2 <= x ^ 2) by (apply pow_incr; lra). assert (x ^ 3 <= (551598 / 10000000) ^ 3) by (apply pow_incr; lra). lra. }
  assert (E14 : Rtrigo_def.exp (-84 / 100 * q) = y ^ 14). { unfold y. rewrite <- exp_pow. f_equal. unfold x. cbn [INR]. lra. }
  assert (E23 : Rtrigo_def.exp (-138 / 100 * q) = y ^ 23). { unfold y. rewrite <- exp_pow. f_equal. unfold x. cbn [INR]. lra. }
  rewrite E14, E23. now apply near_peak.
Qed.

(* ---- loudness curves ---- *)
Lemma a_weight_R f : a_weightR f = 12589048990582914 / IZR (10 ^ 16) * (12194 * 12194) * (f * f) * (f * f) /
  ((f * f + 206 / 10 * (206 / 10)) * sqrt ((f * f + 1077 / 10 * (1077 / 10)) * (f * f + 7379 / 10 * (7379 / 10))) * (f * f + 12194 * 12194)).
Proof. reflexivity. Qed.
Lemma weight_den s : 0 <= s -> 0 < (s + 206 / 10 * (206 / 10)) * sqrt ((s + 1077 / 10 * (1077 / 10)) * (s + 7379 / 10 * (7379 / 10))) * (s + 12194 * 12194).
Proof. intros H. apply Rmult_lt_0_compat; [apply Rmult_lt_0_compat; [lra|apply sqrt_lt_R0; apply Rmult_lt_0_compat; lra]|lra]. Qed.
Lemma a_weight_pos f : f <> 0 -> 0 < a_weightR f < 126 / 100.
Proof.
  intros N. rewrite a_weight_R. assert (S : 0 < f * f) by (destruct (Rtotal_order f 0) as [L|[L|L]]; [nra|contradiction|nra]). set (s := f * f) in *. clearbody s.
  pose proof (weight_den s ltac:(lra)) as D. set (c := 12589048990582914 / IZR (10 ^ 16)). assert (C : 0 < c < 126 / 100) by (unfold c; lra). clearbody c.
  set (A := s + 206 / 10 * (206 / 10)) in *. set (C0 := s + 12194 * 12194) in *. set (Q := sqrt _) in *.
  assert (HQ : s < Q). { unfold Q. rewrite <- (sqrt_square s) at 1 by lra. apply sqrt_lt_1; nra. }
  assert (HA : s < A) by (unfold A; lra). assert (HC : 12194 * 12194 < C0) by (unfold C0; lra). clearbody A Q C0. split.
  - apply Rdiv_lt_0_compat; [|exact D]. repeat apply Rmult_lt_0_compat; lra.
  - apply Rmult_lt_reg_r with (A * Q * C0); [exact D|]. unfold Rdiv. rewrite Rmult_assoc, Rinv_l by lra. rewrite Rmult_1_r.
    assert (M : s * s <= A * Q) by (apply Rmult_le_compat; lra). assert (M2 : s * s * (12194 * 12194) <= A * Q * C0) by (apply Rmult_le_compat; nra).
    assert (P : 0 < s * s * (12194 * 12194)) by nra. set (m := s * s * (12194 * 12194)) in *. set (d := A * Q * C0) in *. replace (c * (12194 * 12194) * s * s) with (c * m) by (unfold m; ring). clearbody m d. nra.
Qed.
Lemma a_weight_even f : a_weightR (- f) = a_weightR f.
Proof. rewrite !a_weight_R. replace (- f * - f) with (f * f) by ring. reflexivity. Qed.
Lemma a_weight_0 : a_weightR 0 = 0.
Proof. rewrite a_weight_R. unfold Rdiv. ring. Qed.
Lemma sqrt_between a b x : 0 <= a -> 0 <= b -> a * a <= x <= b * b -> a <= sqrt x <= b.
Proof. intros A B H. split; [rewrite <- (sqrt_square a) by auto|rewrite <- (sqrt_square b) by auto]; apply sqrt_le_1; nra. Qed.
Lemma a_weight_1k : Rabs (a_weightR 1000 - 1) <= 1 / 1000000.
Proof.
  rewrite a_weight_R. set (Q := sqrt _). assert (B : 12499645882 / 10000 <= Q <= 12499645883 / 10000) by (apply sqrt_between; lra). clearbody Q. set (N := 12589048990582914 / IZR (10 ^ 16) * (12194 * 12194) * (1000 * 1000) * (1000 * 1000)).
  assert (P : 0 < (1000 * 1000 + 206 / 10 * (206 / 10)) * Q * (1000 * 1000 + 12194 * 12194)) by lra. set (D := _ * Q * _) in *.
  assert (E : N / D - 1 = (N - D) / D) by (field; lra). rewrite E. unfold Rdiv. rewrite Rabs_mult, (Rabs_pos_eq (/ D)) by (left; now apply Rinv_0_lt_compat). apply Rmult_le_reg_r with D; [exact P|]. rewrite Rmult_assoc, Rinv_l by lra. rewrite Rmult_1_r.
  apply Rabs_le. unfold N, D. lra.
Qed.
Lemma m_weight_R f : exists c1 c2 c3 c4 c5 c6, c1 = -4737338981378384 / IZR (10 ^ 39) /\ c2 = 204382833606125 / IZR (10 ^ 29) /\ c3 = -1363894795463638 / IZR (10 ^ 22) /\
  c4 = 1306612257412824 / IZR (10 ^ 34) /\ c5 = -2118150887518656 / IZR (10 ^ 26) /\ c6 = 5559488023498642 / IZR (10 ^ 19) /\
  m_weightR f = 8164578311186197 / IZR (10 ^ 15) * (1246332637532143 / IZR (10 ^ 19)) * f /
    sqrt ((c1 * (f * f * (f * f)) * (f * f) + c2 * (f * f * (f * f)) + c3 * (f * f) + 1) * (c1 * (f * f * (f * f)) * (f * f) + c2 * (f * f * (f * f)) + c3 * (f * f) + 1) +
          (c4 * (f * f * (f * f)) * f + c5 * (f * f) * f + c6 * f) * (c4 * (f * f * (f * f)) * f + c5 * (f * f) * f + c6 * f)).
Proof. do 6 eexists. do 6 (split; [reflexivity|]). reflexivity. Qed.
Lemma m_weight_1k : Rabs (m_weightR 1000 - 1) <= 1 / 1000000.
Proof.
  destruct (m_weight_R 1000) as (c1 & c2 & c3 & c4 & c5 & c6 & E1 & E2 & E3 & E4 & E5 & E6 & ->). set (Q := sqrt _). assert (B : 10175780420 / 10000000000 <= Q <= 10175780422 / 10000000000). { apply sqrt_between; [lra|lra|]. subst c1 c2 c3 c4 c5 c6. lra. }
  clearbody Q. clear - B. set (N := _ * _ * 1000). assert (E : N / Q - 1 = (N - Q) / Q) by (field; lra). rewrite E. unfold Rdiv. rewrite Rabs_mult, (Rabs_pos_eq (/ Q)) by (left; apply Rinv_0_lt_compat; lra). apply Rmult_le_reg_r with Q; [lra|]. rewrite Rmult_assoc, Rinv_l by lra. rewrite Rmult_1_r.
  apply Rabs_le. unfold N. lra.
Qed.
Lemma no_common_zero s c1 c2 c3 c4 c5 c6 : c1 = -4737338981378384 / IZR (10 ^ 39) -> c2 = 204382833606125 / IZR (10 ^ 29) -> c3 = -1363894795463638 / IZR (10 ^ 22) ->
  c4 = 1306612257412824 / IZR (10 ^ 34) -> c5 = -2118150887518656 / IZR (10 ^ 26) -> c6 = 5559488023498642 / IZR (10 ^ 19) ->
  c1 * (s * s) * s + c2 * (s * s) + c3 * s + 1 = 0 -> c4 * (s * s) + c5 * s + c6 = 0 -> False.
Proof.
  intros E1 E2 E3 E4 E5 E6 Z1 Z2. assert (N4 : c4 <> 0) by (subst c4; lra). set (p := c1 / c4). set (r := (c2 - p * c5) / c4).
  assert (L : (c3 - p * c6 - r * c5) * s + (1 - r * c6) = 0). { assert (Q : c1 * (s * s) * s + c2 * (s * s) + c3 * s + 1 - (p * s + r) * (c4 * (s * s) + c5 * s + c6) = (c3 - p * c6 - r * c5) * s + (1 - r * c6)) by (unfold r, p; field; auto). rewrite <- Q, Z1, Z2. ring. }
  set (A := c3 - p * c6 - r * c5) in *. set (B := 1 - r * c6) in *.
  assert (K : c4 * (B * B) - c5 * A * B + c6 * (A * A) = 0). { assert (EB : B = - (A * s)) by lra. rewrite EB. replace (c4 * (- (A * s) * - (A * s)) - c5 * A * - (A * s) + c6 * (A * A)) with ((A * A) * (c4 * (s * s) + c5 * s + c6)) by ring. rewrite Z2. ring. }
  revert K. unfold B, A, r, p. subst c1 c2 c3 c4 c5 c6. clear. lra.
Qed.
Lemma m_weight_pos f : 0 < f -> 0 < m_weightR f.
Proof.
  intros H. destruct (m_weight_R f) as (c1 & c2 & c3 & c4 & c5 & c6 & E1 & E2 & E3 & E4 & E5 & E6 & ->).
  set (a := c1 * (f * f * (f * f)) * (f * f) + c2 * (f * f * (f * f)) + c3 * (f * f) + 1). set (b := c4 * (f * f * (f * f)) * f + c5 * (f * f) * f + c6 * f).
  apply Rdiv_lt_0_compat; [apply Rmult_lt_0_compat; [lra|exact H]|]. apply sqrt_lt_R0.
  destruct (Req_dec a 0) as [Za|Za]; [|pose proof (Rle_0_sqr b) as Qb; unfold Rsqr in Qb; destruct (Rtotal_order a 0) as [L|[L|L]]; [nra|contradiction|nra]].
  destruct (Req_dec b 0) as [Zb|Zb]; [|pose proof (Rle_0_sqr a) as Qa; unfold Rsqr in Qa; destruct (Rtotal_order b 0) as [L|[L|L]]; [nra|contradiction|nra]].
  exfalso. apply (no_common_zero (f * f) c1 c2 c3 c4 c5 c6 E1 E2 E3 E4 E5 E6); [exact Za|]. apply Rmult_eq_reg_l with f; [|lra]. rewrite Rmult_0_r, <- Zb. unfold b. ring.
Qed.

(* ---- the voices of the glissando ---- *)
Lemma frac_is_unique x z y : 0 <= y < 1 -> x = IZR z + y -> frac_part x = y.
Proof.
  intros H ->. unfold frac_part. assert (E : Int_part (IZR z + y) = z). { apply int_part_spec; lra. } rewrite E. lra.
Qed.
Lemma position_unit i t : 0 <= position i t < 1.
Proof. unfold position, frac_part. destruct (base_Int_part (t / 100 + INR i / 40)). lra. Qed.
Lemma frac_part_shift x z : frac_part (x + IZR z) = frac_part x.
Proof. apply (frac_is_unique _ (Int_part x + z)). { unfold frac_part. destruct (base_Int_part x). lra. } rewrite plus_IZR. unfold frac_part. lra. Qed.
Lemma handover i t : position i (t + 5 / 2) = position (S i) t /\ position (i + 40) t = position i t /\ position i (t + 100) = position i t /\ (forall d, 0 <= d -> position i t + d / 100 < 1 -> position i (t + d) = position i t + d / 100).
Proof.
  split; [unfold position; f_equal; rewrite S_INR; lra|]. split; [|split].
  - unfold position. rewrite plus_INR. replace (t / 100 + (INR i + INR 40) / 40) with (t / 100 + INR i / 40 + IZR 1) by (cbn [INR]; lra). apply frac_part_shift.
  - unfold position. replace ((t + 100) / 100 + INR i / 40) with (t / 100 + INR i / 40 + IZR 1) by lra. apply frac_part_shift.
  - intros d D L. pose proof (position_unit i t). unfold position at 1. apply (frac_is_unique _ (Int_part (t / 100 + INR i / 40))); [assert (0 <= d / 100) by lra; lra|]. unfold position, frac_part. lra.
Qed.
Lemma pitch_octave p : pitch_at true (p + 1 / 10) = 2 * pitch_at true p /\ pitch_at false (p + 1 / 10) = pitch_at false p / 2.
Proof.
  unfold pitch_at. split.
  - replace (10 * (p + 1 / 10)) with (10 * p + 1) by lra. rewrite Rpower_plus, Rpower_1 by lra. ring.
  - replace (- (10 * (p + 1 / 10))) with (- (10 * p) + - (1)) by lra. rewrite Rpower_plus, (Rpower_Ropp _ 1), Rpower_1 by lra. field.
Qed.
Lemma Rpower2_mono a b : a <= b -> Rpower 2 a <= Rpower 2 b.
Proof. intros H. apply Rle_Rpower; lra. Qed.
Lemma Rpower2_10 : Rpower 2 10 = 1024.
Proof. replace 10 with (INR 10) by (cbn; lra). rewrite Rpower_pow by lra. lra. Qed.
Lemma pitch_range up p : 0 <= p <= 1 -> 20 <= pitch_at up p <= 20480.
Proof.
  intros H. unfold pitch_at. destruct up.
  - pose proof (Rpower2_mono 0 (10 * p) ltac:(lra)) as A. pose proof (Rpower2_mono (10 * p) 10 ltac:(lra)) as B. rewrite Rpower2_10 in B. rewrite Rpower_O in A by lra. lra.
  - pose proof (Rpower2_mono (-(10)) (- (10 * p)) ltac:(lra)) as A. pose proof (Rpower2_mono (- (10 * p)) 0 ltac:(lra)) as B. rewrite (Rpower_Ropp _ 10), Rpower2_10 in A. rewrite Rpower_O in B by lra. lra.
Qed.
Lemma pitch_ends : pitch_at true 0 = 20 /\ pitch_at true 1 = 20480 /\ pitch_at false 0 = 20480 /\ pitch_at false 1 = 20.
Proof.
  unfold pitch_at. rewrite Rmult_0_r, Ropp_0, Rmult_1_r, Rpower_Ropp, Rpower_O, Rpower2_10 by lra. lra.
Qed.
Lemma sin_small x : 0 <= x -> sin x <= x.
Proof. intros [H| <-]; [left; now apply sin_lt_x|rewrite sin_0; lra]. Qed.
Lemma swell_facts p : 0 <= p <= 1 -> 0 <= swell p <= 1 /\ swell p <= 3 * (PI * p) ^ 2 /\ swell p <= 3 * (PI * (1 - p)) ^ 2 /\ swell (1 / 2) = 1.
Proof.
  intros H. pose proof PI_RGT_0 as P. assert (S0 : 0 <= sin (PI * p)) by (apply sin_ge_0; nra). pose proof (SIN_bound (PI * p)) as B. assert (A : sin (PI * p) <= PI * p) by (apply sin_small; nra).
  assert (C : sin (PI * p) <= PI * (1 - p)). { replace (sin (PI * p)) with (sin (PI * (1 - p))); [apply sin_small; nra|]. replace (PI * (1 - p)) with (PI - PI * p) by ring. apply sin_PI_x. }
  unfold swell. replace (PI * (1 / 2)) with (PI / 2) by field. rewrite sin_PI2. set (s := sin (PI * p)) in *. set (x := PI * p) in *. set (y := PI * (1 - p)) in *. clearbody s x y. cbv zeta.
  assert (T : 0 <= s ^ 3) by (apply pow_le; lra). assert (X : s ^ 2 <= x ^ 2) by (apply pow_incr; lra). assert (Y : s ^ 2 <= y ^ 2) by (apply pow_incr; lra).
  assert (U : 0 <= (1 - s) ^ 2 * (1 + 2 * s)) by (apply Rmult_le_pos; [apply pow2_ge_0|lra]). assert (V : 0 <= s ^ 2 * (3 - 2 * s)) by (apply Rmult_le_pos; [apply pow2_ge_0|lra]).
  replace ((1 - s) ^ 2 * (1 + 2 * s)) with (1 - (3 * s ^ 2 - 2 * s ^ 3)) in U by ring. replace (s ^ 2 * (3 - 2 * s)) with (3 * s ^ 2 - 2 * s ^ 3) in V by ring.
  split; [split; lra|]. split; [lra|]. split; lra.
Qed.
Lemma detuned_range i : (i < 40)%nat -> -1 <= detuned i < 1.
Proof. intros H. unfold detuned. pose proof (rnd1_unit (N.of_nat i)). assert ((N.of_nat i < 2 ^ 64)%N). { assert ((N.of_nat i < 40)%N) by lia. eapply N.lt_trans; [exact H1|reflexivity]. } specialize (H0 H1). lra. Qed.
Lemma gliding_facts up i t : (i < 40)%nat -> exists a f, gliding up i t = [a; f] /\ 0 <= a /\ 19 <= f <= 20481 /\ Rabs (f - pitch_at up (position i t)) <= 1 /\ a * a_weightR f = swell (position i t).
Proof.
  intros H. pose proof (position_unit i t) as P. pose proof (pitch_range up (position i t) ltac:(lra)) as F. pose proof (detuned_range i H) as D. destruct (swell_facts (position i t) ltac:(lra)) as (S & _).
  unfold gliding. set (f := pitch_at up (position i t) + detuned i) in *. cbv zeta. exists (swell (position i t) / a_weightR f), f. destruct (a_weight_pos f ltac:(unfold f; lra)) as [W _].
  split; [reflexivity|]. split; [apply Rle_mult_inv_pos; lra|]. split; [unfold f; lra|]. split; [apply Rabs_le; unfold f; lra|]. field. lra.
Qed.
Definition tenth (m k i : nat) : bool := Nat.leb (4 * k) ((m + i) mod 40) && Nat.ltb ((m + i) mod 40) (4 * k + 4).
Lemma four_all : forallb (fun m => forallb (fun k => Nat.eqb (length (filter (tenth m k) (seq 0 40))) 4) (seq 0 10)) (seq 0 40) = true.
Proof. vm_compute. reflexivity. Qed.
Lemma four m k : (m < 40)%nat -> (k < 10)%nat -> length (filter (tenth m k) (seq 0 40)) = 4%nat.
Proof.
  intros Hm Hk. pose proof four_all as A. rewrite forallb_forall in A. specialize (A m ltac:(apply in_seq; lia)). rewrite forallb_forall in A. specialize (A k ltac:(apply in_seq; lia)). now apply Nat.eqb_eq in A.
Qed.
Lemma spread_out t k : (k < 10)%nat -> exists l, NoDup l /\ length l = 4%nat /\ forall i, In i l <-> (i < 40)%nat /\ INR k / 10 <= position i t < INR (k + 1) / 10.
Proof.
  intros Hk. set (x := 40 * frac_part (t / 100)). assert (X : 0 <= x < 40) by (unfold x, frac_part; destruct (base_Int_part (t / 100)); lra).
  set (m := Z.to_nat (Int_part x)). set (r := frac_part x). assert (R0 : 0 <= r < 1) by (unfold r, frac_part; destruct (base_Int_part x); lra).
  assert (Z0 : (0 <= Int_part x < 40)%Z). { destruct (base_Int_part x). split; [assert (-1 < Int_part x)%Z by (apply lt_IZR; lra); lia|apply lt_IZR; lra]. }
  assert (M : x = INR m + r). { unfold m, r, frac_part. rewrite INR_IZR_INZ, Z2Nat.id by lia. lra. } assert (Hm : (m < 40)%nat) by (unfold m; lia). clearbody m r.
  assert (E : forall i, position i t = (INR ((m + i) mod 40) + r) / 40).
  { intros i. pose proof (Nat.div_mod (m + i) 40 ltac:(lia)) as Dm. pose proof (Nat.mod_upper_bound (m + i) 40 ltac:(lia)) as U. set (q := ((m + i) / 40)%nat) in *. set (w := ((m + i) mod 40)%nat) in *.
    assert (Q : INR m + INR i = 40 * INR q + INR w). { rewrite <- plus_INR, Dm, plus_INR, mult_INR. cbn [INR]. lra. }
    assert (W : 0 <= INR w <= 39). { split; [apply pos_INR|]. replace 39 with (INR 39) by (cbn; lra). apply le_INR. lia. }
    unfold position. apply (frac_is_unique _ (Int_part (t / 100) + Z.of_nat q)); [lra|]. rewrite plus_IZR, <- INR_IZR_INZ. unfold x, frac_part in M. lra. }
  exists (filter (tenth m k) (seq 0 40)). split; [apply NoDup_filter, seq_NoDup|]. split; [now apply four|]. intros i. rewrite filter_In, in_seq. unfold tenth. rewrite Bool.andb_true_iff, Nat.leb_le, Nat.ltb_lt, (E i), plus_INR. set (w := ((m + i) mod 40)%nat). clearbody w.
  split.
  - intros (A & B & C). split; [lia|]. apply le_INR in B. assert (C' : (w + 1 <= 4 * k + 4)%nat) by lia. apply le_INR in C'. rewrite !plus_INR, !mult_INR in C'. rewrite mult_INR in B. cbn [INR] in *. lra.
  - intros (A & B & C). split; [lia|]. split.
    + assert (W : (4 * k < w + 1)%nat); [|lia]. apply INR_lt. rewrite plus_INR, mult_INR. cbn [INR] in *. lra.
    + apply INR_lt. rewrite plus_INR, mult_INR. cbn [INR] in *. lra.
Qed.
(* ---- generated control signals ---- *)
Lemma lfo_range sr h E lo hi n : usual sr -> (h < 2 ^ 64)%N -> (forall t, 0 <= t -> lo <= E t <= hi) -> lo <= nth 0 (lfo_of sr h 1 (fun t => [E t]) n) 0 <= hi.
Proof. intros [A B] H HE. apply range_of; [lra|split; lra|exact H|reflexivity|lia|exact HE]. Qed.
Lemma slow_range hash64a hash64g seed f o t : (forall s, word 64 (hash64a s)) -> 0 <= slow_sine nR sin (2 * PI) f o t <= 1 /\ 0 <= slow_noise nR hash64a hash64g seed f t <= 1.
Proof.
  intros W. unfold slow_sine, slow_noise. cbn [nadd nmul ndiv nofZ Rnum_ops]. change (n1 nR) with 1. pose proof (spline_noise_range hash64a hash64g W seed (t * f)) as Q. unfold is11 in Q. unfold sin_hz. cbn [nmul Rnum_ops].
  pose proof (SIN_bound ((t + o) * f * (2 * PI))). split; lra.
Qed.
