(* The discrete Fourier transform of real numbers and its inverse. *)
From Coq Require Import Reals Lra Lia Psatz.
From Verif Require Export OverProofs ResynthSpec.
Local Open Scope R_scope.

Lemma total_plus n f g : total n (fun i => f i + g i) = total n f + total n g.
Proof. induction n as [|n IH]; cbn [total]; [lra|]. rewrite IH. lra. Qed.
Lemma total_minus n f g : total n (fun i => f i - g i) = total n f - total n g.
Proof. induction n as [|n IH]; cbn [total]; [lra|]. rewrite IH. lra. Qed.
Lemma total_swap n m f : total n (fun i => total m (f i)) = total m (fun j => total n (fun i => f i j)).
Proof. induction n as [|n IH]; cbn [total]; [symmetry; now apply total_zero|]. rewrite IH. symmetry. apply total_plus. Qed.
Lemma total_one n f i : (i < n)%nat -> (forall j, (j < n)%nat -> j <> i -> f j = 0) -> total n f = f i.
Proof.
  induction n as [|n IH]; [lia|]. intros H Z. cbn [total]. destruct (Nat.eq_dec i n) as [->|E].
  - rewrite total_zero; [lra|]. intros j J. apply Z; lia.
  - rewrite IH by (try lia; intros; apply Z; lia). rewrite (Z n) by lia. lra.
Qed.
Lemma total_const n a : total n (fun _ => a) = INR n * a.
Proof. induction n as [|n IH]; [cbn; lra|]. cbn [total]. rewrite IH, S_INR. lra. Qed.
(* sums of equally spaced cosines *)
Lemma cos_sum n a : 2 * sin (a / 2) * total n (fun k => cos (INR k * a)) = sin (INR n * a - a / 2) + sin (a / 2).
Proof.
  induction n as [|n IH]; [cbn [total INR]; rewrite Rmult_0_l, Rminus_0_l, sin_neg; lra|]. cbn [total]. rewrite Rmult_plus_distr_l, IH, S_INR.
  replace ((INR n + 1) * a - a / 2) with (INR n * a + a / 2) by lra. rewrite sin_plus, sin_minus. lra.
Qed.
Lemma sin_multiple k : sin (PI * INR k) = 0.
Proof. induction k as [|k IH]; [now rewrite Rmult_0_r, sin_0|]. rewrite S_INR, Rmult_plus_distr_l, Rmult_1_r, neg_sin, IH. lra. Qed.
Lemma cos_multiple k : cos (2 * PI * INR k) = 1.
Proof. replace (2 * PI * INR k) with (0 + 2 * INR k * PI) by lra. rewrite cos_period. apply cos_0. Qed.
Lemma cos_orthogonal N m : (0 < m < N)%nat -> total N (fun k => cos (turn k m N)) = 0.
Proof.
  intros H. assert (N0 : INR N <> 0) by (apply not_0_INR; lia). set (a := 2 * PI * (INR m / INR N)). assert (P : 0 < INR N) by (apply lt_0_INR; lia).
  assert (A : 0 < a / 2 < PI). { unfold a. pose proof PI_RGT_0. assert (0 < INR m / INR N < 1). { split; [apply Rdiv_lt_0_compat; [apply lt_0_INR; lia|assumption]|]. apply (Rmult_lt_reg_r (INR N)); [assumption|]. unfold Rdiv. rewrite Rmult_assoc, Rinv_l, Rmult_1_r, Rmult_1_l by assumption. apply lt_INR. lia. } nra. }
  pose proof (sin_gt_0 (a / 2) (proj1 A) (proj2 A)) as S. pose proof (cos_sum N a) as E. assert (Z : sin (INR N * a - a / 2) = - sin (a / 2)).
  { replace (INR N * a) with (2 * INR m * PI) by (unfold a; field; assumption). replace (2 * INR m * PI - a / 2) with (- (a / 2) + 2 * INR m * PI) by lra. rewrite sin_period. apply sin_neg. }
  rewrite Z in E. assert (E' : total N (fun k => cos (INR k * a)) = 0) by nra. rewrite <- E' at 1. apply total_ext. intros k _. f_equal. unfold turn, a. field. assumption.
Qed.
Lemma turn_minus b j n N : INR N <> 0 -> (j <= n)%nat -> turn b n N - turn b j N = turn b (n - j) N.
Proof. intros H L. unfold turn. rewrite minus_INR by assumption. field. assumption. Qed.
(* half of a spectrum, mirrored, is all of it *)
Lemma turn_mirror b n N : (b <= N)%nat -> INR N <> 0 -> cos (turn (N - b) n N) = cos (turn b n N) /\ sin (turn (N - b) n N) = - sin (turn b n N).
Proof.
  intros H N0. replace (turn (N - b) n N) with (- turn b n N + 2 * INR n * PI) by (unfold turn; rewrite minus_INR by assumption; field; assumption).
  rewrite cos_period, sin_period, cos_neg, sin_neg. auto.
Qed.
(* the inverse transform of the transform *)
Lemma dft_inverse N (x : nat -> R) n : (n < N)%nat ->
  total N (fun b => total N (fun j => x j * cos (turn b j N)) * cos (turn b n N) - - total N (fun j => x j * sin (turn b j N)) * sin (turn b n N)) / INR N = x n.
Proof.
  intros H. assert (N0 : INR N <> 0) by (apply not_0_INR; lia).
  rewrite (total_ext N _ (fun b => total N (fun j => x j * cos (turn b n N - turn b j N)))).
  - rewrite total_swap. rewrite (total_one N _ n H).
    + rewrite (total_ext N _ (fun _ => x n)); [rewrite total_const; field; assumption|]. intros i _. rewrite Rminus_diag_eq by reflexivity. rewrite cos_0. lra.
    + intros j J E. rewrite (total_ext N _ (fun b => x j * cos (turn b (if Nat.ltb j n then n - j else j - n) N))).
      * rewrite total_scale, cos_orthogonal; [lra|]. destruct (Nat.ltb_spec j n); lia.
      * intros b _. f_equal. destruct (Nat.ltb_spec j n); [now rewrite turn_minus by (auto; lia)|]. rewrite <- cos_neg, Ropp_minus_distr, turn_minus by (auto; lia). reflexivity.
  - intros b _. transitivity (cos (turn b n N) * total N (fun j => x j * cos (turn b j N)) + sin (turn b n N) * total N (fun j => x j * sin (turn b j N))); [ring|]. rewrite <- !total_scale, <- total_plus. apply total_ext. intros j _. rewrite cos_minus. ring.
Qed.
Lemma dft_mirrored N (x : nat -> R) b : (N / 2 < b < N)%nat ->
  let X k := (total N (fun j => x j * cos (turn k j N)), - total N (fun j => x j * sin (turn k j N))) in (fst (X (N - b)%nat), - snd (X (N - b)%nat)) = X b.
Proof.
  intros H X. assert (N0 : INR N <> 0) by (apply not_0_INR; lia). unfold X; cbn [fst snd]. f_equal.
  - apply total_ext. intros j _. now rewrite (proj1 (turn_mirror b j N ltac:(lia) N0)).
  - f_equal. rewrite <- (Rmult_1_l (total N (fun j => x j * sin (turn b j N)))). rewrite <- (Ropp_involutive (_ * total _ _)), Ropp_mult_distr_l, <- total_scale.
    f_equal. apply total_ext. intros j _. rewrite (proj2 (turn_mirror b j N ltac:(lia) N0)). lra.
Qed.
(* squares of Hann windows at distances of a quarter add up to 3/2 *)
Lemma hann_overlap N q j : (0 < q)%nat -> N = (4 * q)%nat -> hann_window N j ^ 2 + hann_window N (q + j) ^ 2 + hann_window N (2 * q + j) ^ 2 + hann_window N (3 * q + j) ^ 2 = 3 / 2.
Proof.
  intros Q ->. unfold hann_window. rewrite !plus_INR, !mult_INR. replace (INR 4) with 4 by (cbn; lra). replace (INR 3) with 3 by (cbn; lra). replace (INR 2) with 2 by (cbn; lra). assert (Q0 : INR q <> 0) by (apply not_0_INR; lia).
  set (t := PI * (INR j / (4 * INR q))). replace (PI * ((INR q + INR j) / (4 * INR q))) with (t + PI / 4) by (unfold t; field; assumption).
  replace (PI * ((2 * INR q + INR j) / (4 * INR q))) with (t + PI / 2) by (unfold t; field; assumption). replace (PI * ((3 * INR q + INR j) / (4 * INR q))) with (t + PI / 4 + PI / 2) by (unfold t; field; assumption).
  rewrite !(sin_plus (_) (PI / 2)), cos_PI2, sin_PI2, !Rmult_0_r, !Rmult_1_r, !Rplus_0_l. rewrite sin_plus, cos_plus, cos_PI4, sin_PI4. set (s := sin t). set (c := cos t).
  assert (E : s * s + c * c = 1) by (pose proof (sin2_cos2 t) as E; unfold Rsqr in E; exact E). set (h := 1 / sqrt 2). assert (W : h * h = 1 / 2).
  { unfold h. assert (sqrt 2 * sqrt 2 = 2) by (apply sqrt_sqrt; lra). assert (sqrt 2 <> 0) by (intro Z; rewrite Z in *; lra). replace (1 / sqrt 2 * (1 / sqrt 2)) with (1 / (sqrt 2 * sqrt 2)) by (field; assumption). rewrite H. reflexivity. }
  replace ((s * h + c * h) ^ 2) with ((h * h) * (s + c) ^ 2) by ring. replace ((c * h - s * h) ^ 2) with ((h * h) * (c - s) ^ 2) by ring. rewrite W. clearbody s c.
  replace ((s ^ 2) ^ 2 + (1 / 2 * (s + c) ^ 2) ^ 2 + (c ^ 2) ^ 2 + (1 / 2 * (c - s) ^ 2) ^ 2) with (3 / 2 * (s * s + c * c) ^ 2) by field. rewrite E. field.
Qed.
