(* Proofs about taps that are given a tone. *)
From Coq Require Import Reals Lra Lia.
From Verif Require Import TapToneSpec DelayProperties.
Local Open Scope R_scope.

(* ---- Taylor's theorem for the cosine ---- *)
Lemma dominated (f f' g g' : R -> R) h : 0 <= h -> (forall t, derivable_pt_lim f t (f' t)) -> (forall t, derivable_pt_lim g t (g' t)) -> f 0 = 0 -> g 0 = 0 -> (forall t, 0 <= t -> Rabs (f' t) <= g' t) -> Rabs (f h) <= g h.
Proof.
  intros H Df Dg F0 G0 B. destruct (Req_dec h 0) as [->|N]; [rewrite F0, G0, Rabs_R0; lra|].
  destruct (MVT_cor2 (fun t => g t - f t) (fun t => g' t - f' t) 0 h ltac:(lra)) as (c & E & C); [intros t _; apply (derivable_pt_lim_minus g f); auto|].
  destruct (MVT_cor2 (fun t => g t + f t) (fun t => g' t + f' t) 0 h ltac:(lra)) as (d & E' & D); [intros t _; apply (derivable_pt_lim_plus g f); auto|]. cbv beta in E, E'. rewrite F0, G0 in E, E'.
  pose proof (B c ltac:(lra)) as Bc. pose proof (B d ltac:(lra)) as Bd. unfold Rabs in Bc, Bd. apply Rabs_le. destruct (Rcase_abs _) in Bc; destruct (Rcase_abs _) in Bd; nra.
Qed.
Lemma shifted_sin a t : derivable_pt_lim (fun t => sin (a + t)) t (cos (a + t)).
Proof.
  replace (cos (a + t)) with (cos (a + t) * (0 + 1)) by ring. apply (derivable_pt_lim_comp (fun t => a + t) sin); [|apply derivable_pt_lim_sin]. apply (derivable_pt_lim_plus (fun _ => a) id); [apply derivable_pt_lim_const|apply derivable_pt_lim_id].
Qed.
Lemma shifted_cos a t : derivable_pt_lim (fun t => cos (a + t)) t (- sin (a + t)).
Proof.
  replace (- sin (a + t)) with (- sin (a + t) * (0 + 1)) by ring. apply (derivable_pt_lim_comp (fun t => a + t) cos); [|apply derivable_pt_lim_cos]. apply (derivable_pt_lim_plus (fun _ => a) id); [apply derivable_pt_lim_const|apply derivable_pt_lim_id].
Qed.
Lemma d_lin c t : derivable_pt_lim (fun t => c * t) t c.
Proof. pose proof (derivable_pt_lim_scal id c t 1 (derivable_pt_lim_id t)) as D. rewrite Rmult_1_r in D. exact D. Qed.
Lemma d_pow c n t : derivable_pt_lim (fun t => c * t ^ n) t (c * (INR n * t ^ pred n)).
Proof. apply (derivable_pt_lim_scal (fun t => t ^ n)). apply derivable_pt_lim_pow. Qed.
Lemma d_id t : derivable_pt_lim (fun t => t) t 1. Proof. apply derivable_pt_lim_id. Qed.
Lemma cos_0th a h : 0 <= h -> Rabs (cos (a + h) - cos a) <= h.
Proof.
  intros H. apply (dominated (fun t => cos (a + t) - cos a) (fun t => - sin (a + t) - 0) (fun t => t) (fun _ => 1)); auto.
  - intros t. apply (derivable_pt_lim_minus (fun t => cos (a + t)) (fun _ => cos a)); [apply shifted_cos|apply derivable_pt_lim_const].
  - apply d_id.
  - rewrite Rplus_0_r. ring.
  - intros t _. pose proof (SIN_bound (a + t)). apply Rabs_le. lra.
Qed.
Lemma sin_0th a h : 0 <= h -> Rabs (sin (a + h) - sin a) <= h.
Proof. intros H. rewrite <- !cos_shift. replace (PI / 2 - (a + h)) with (- (a - PI / 2 + h)) by ring. replace (PI / 2 - a) with (- (a - PI / 2)) by ring. rewrite !cos_neg. now apply cos_0th. Qed.
Lemma sin_1st a h : 0 <= h -> Rabs (sin (a + h) - sin a - cos a * h) <= 1 / 2 * h ^ 2.
Proof.
  intros H. apply (dominated (fun t => sin (a + t) - sin a - cos a * t) (fun t => cos (a + t) - 0 - cos a) (fun t => 1 / 2 * t ^ 2) (fun t => 1 / 2 * (INR 2 * t ^ pred 2))); auto.
  - intros t. apply (derivable_pt_lim_minus (fun t => sin (a + t) - sin a) (fun t => cos a * t)); [|apply d_lin]. apply (derivable_pt_lim_minus (fun t => sin (a + t)) (fun _ => sin a)); [apply shifted_sin|apply derivable_pt_lim_const].
  - intros t. apply d_pow.
  - rewrite Rplus_0_r. ring.
  - ring.
  - intros t T. pose proof (cos_0th a t T). rewrite Rminus_0_r. cbn [INR pred pow]. lra.
Qed.
Lemma cos_1st_up a h : 0 <= h -> Rabs (cos (a + h) - cos a + sin a * h) <= 1 / 2 * h ^ 2.
Proof.
  intros H. apply (dominated (fun t => cos (a + t) - cos a + sin a * t) (fun t => - sin (a + t) - 0 + sin a) (fun t => 1 / 2 * t ^ 2) (fun t => 1 / 2 * (INR 2 * t ^ pred 2))); auto.
  - intros t. apply (derivable_pt_lim_plus (fun t => cos (a + t) - cos a) (fun t => sin a * t)); [|apply d_lin]. apply (derivable_pt_lim_minus (fun t => cos (a + t)) (fun _ => cos a)); [apply shifted_cos|apply derivable_pt_lim_const].
  - intros t. apply d_pow.
  - rewrite Rplus_0_r. ring.
  - ring.
  - intros t T. pose proof (sin_0th a t T) as S. replace (- sin (a + t) - 0 + sin a) with (- (sin (a + t) - sin a)) by ring. rewrite Rabs_Ropp. cbn [INR pred pow]. lra.
Qed.
Lemma cos_2nd_up a h : 0 <= h -> Rabs (cos (a + h) - cos a + sin a * h + cos a / 2 * h ^ 2) <= 1 / 6 * h ^ 3.
Proof.
  intros H. apply (dominated (fun t => cos (a + t) - cos a + sin a * t + cos a / 2 * t ^ 2) (fun t => - sin (a + t) - 0 + sin a + cos a / 2 * (INR 2 * t ^ pred 2)) (fun t => 1 / 6 * t ^ 3) (fun t => 1 / 6 * (INR 3 * t ^ pred 3))); auto.
  - intros t. apply (derivable_pt_lim_plus (fun t => cos (a + t) - cos a + sin a * t) (fun t => cos a / 2 * t ^ 2)); [|apply d_pow]. apply (derivable_pt_lim_plus (fun t => cos (a + t) - cos a) (fun t => sin a * t)); [|apply d_lin]. apply (derivable_pt_lim_minus (fun t => cos (a + t)) (fun _ => cos a)); [apply shifted_cos|apply derivable_pt_lim_const].
  - intros t. apply d_pow.
  - rewrite Rplus_0_r. ring.
  - ring.
  - intros t T. pose proof (sin_1st a t T) as S. cbn [INR pred pow] in *. replace (- sin (a + t) - 0 + sin a + cos a / 2 * ((1 + 1) * (t * 1))) with (- (sin (a + t) - sin a - cos a * t)) by field. rewrite Rabs_Ropp. lra.
Qed.
Lemma cos_1st a h : Rabs (cos (a + h) - cos a + sin a * h) <= 1 / 2 * Rabs h ^ 2.
Proof.
  destruct (Rle_dec 0 h) as [H|H]; [rewrite (Rabs_right h) by lra; now apply cos_1st_up|]. pose proof (cos_1st_up (- a) (- h) ltac:(lra)) as C. rewrite (Rabs_left h) by lra.
  rewrite sin_neg, cos_neg in C. replace (- a + - h) with (- (a + h)) in C by ring. rewrite cos_neg in C. replace (cos (a + h) - cos a + sin a * h) with (cos (a + h) - cos a + - sin a * - h) by ring. exact C.
Qed.
Lemma cos_2nd a h : Rabs (cos (a + h) - cos a + sin a * h + cos a / 2 * h ^ 2) <= 1 / 6 * Rabs h ^ 3.
Proof.
  destruct (Rle_dec 0 h) as [H|H]; [rewrite (Rabs_right h) by lra; now apply cos_2nd_up|]. pose proof (cos_2nd_up (- a) (- h) ltac:(lra)) as C. rewrite (Rabs_left h) by lra.
  rewrite sin_neg, cos_neg in C. replace (- a + - h) with (- (a + h)) in C by ring. rewrite cos_neg in C. replace (cos (a + h) - cos a + sin a * h + cos a / 2 * h ^ 2) with (cos (a + h) - cos a + - sin a * - h + cos a / 2 * (- h) ^ 2) by ring. exact C.
Qed.

(* ---- interpolation ---- *)
Lemma sized_sum c r b : 0 <= c -> Rabs r <= b -> - (c * b) <= c * r <= c * b.
Proof. intros C B. unfold Rabs in B. destruct (Rcase_abs r); nra. Qed.
Lemma spline_tone a w x : 0 <= x <= 1 -> Rabs (spline Rnum_ops (cos (a + w * (x + 1))) (cos (a + w * x)) (cos (a + w * (x - 1))) (cos (a + w * (x - 2))) x - cos a) <= 3 / 32 * Rabs w ^ 3.
Proof.
  intros X. set (q := fun h => cos a - sin a * (w * h) - cos a / 2 * (w * h) ^ 2). set (r := fun h => cos (a + w * h) - q h).
  assert (Rr : forall h, Rabs (r h) <= Rabs w ^ 3 * (1 / 6 * Rabs h ^ 3)).
  { intros h. pose proof (cos_2nd a (w * h)) as C. unfold r, q. match type of C with Rabs ?t <= _ => match goal with |- Rabs ?u <= _ => replace u with t by ring end end. rewrite Rabs_mult, (Rpow_mult_distr (Rabs w)) in C. lra. }
  assert (E : spline Rnum_ops (cos (a + w * (x + 1))) (cos (a + w * x)) (cos (a + w * (x - 1))) (cos (a + w * (x - 2))) x - cos a =
    - (x * (1 - x) * (1 - x) / 2 * r (x + 1)) + (1 - x) * (2 + 2 * x - 3 * x * x) / 2 * r x + x * (1 + 4 * x - 3 * x * x) / 2 * r (x - 1) - x * x * (1 - x) / 2 * r (x - 2)).
  { unfold r, q. set (c0 := cos (a + w * (x + 1))). set (c1 := cos (a + w * x)). set (c2 := cos (a + w * (x - 1))). set (c3 := cos (a + w * (x - 2))). clearbody c0 c1 c2 c3. unfold spline. cbn [nadd nsub nmul ndiv nofZ Rnum_ops]. change (n1 Rnum_ops) with 1. field. }
  rewrite E. clear E. pose proof (Rr (x + 1)) as R0. pose proof (Rr x) as R1. pose proof (Rr (x - 1)) as R2. pose proof (Rr (x - 2)) as R3. clear Rr. set (W := Rabs w ^ 3) in *. assert (HW : 0 <= W) by (apply pow_le, Rabs_pos). clearbody W.
  rewrite (Rabs_right (x + 1)) in R0 by lra. rewrite (Rabs_right x) in R1 by lra. rewrite (Rabs_left1 (x - 1)) in R2 by lra. rewrite (Rabs_left1 (x - 2)) in R3 by lra.
  assert (X1 : 0 <= 1 - x) by lra. assert (XX : 0 <= x * (1 - x)) by (apply Rmult_le_pos; lra). assert (X2 : 0 <= 2 + 2 * x - 3 * x * x) by nra. assert (X3 : 0 <= 1 + 4 * x - 3 * x * x) by nra.
  assert (C0 : 0 <= x * (1 - x) * (1 - x) / 2) by (pose proof (Rmult_le_pos _ _ XX X1); lra). assert (C1 : 0 <= (1 - x) * (2 + 2 * x - 3 * x * x) / 2) by (pose proof (Rmult_le_pos _ _ X1 X2); lra).
  assert (C2 : 0 <= x * (1 + 4 * x - 3 * x * x) / 2) by (pose proof (Rmult_le_pos x _ ltac:(lra) X3); lra). assert (C3 : 0 <= x * x * (1 - x) / 2) by (pose proof (Rmult_le_pos x _ ltac:(lra) XX); lra).
  apply (sized_sum _ _ _ C0) in R0. apply (sized_sum _ _ _ C1) in R1. apply (sized_sum _ _ _ C2) in R2. apply (sized_sum _ _ _ C3) in R3.
  pose (p := x * (1 - x)). assert (P : 0 <= p <= 1 / 4) by (pose proof (Rle_0_sqr (2 * x - 1)) as Q; unfold Rsqr in Q; unfold p; split; [exact XX|lra]).
  assert (T : x * (1 - x) * (1 - x) / 2 * (W * (1 / 6 * (x + 1) ^ 3)) + (1 - x) * (2 + 2 * x - 3 * x * x) / 2 * (W * (1 / 6 * x ^ 3)) + x * (1 + 4 * x - 3 * x * x) / 2 * (W * (1 / 6 * (- (x - 1)) ^ 3)) + x * x * (1 - x) / 2 * (W * (1 / 6 * (- (x - 2)) ^ 3))
    = W * (p * (1 + 6 * p - 4 * p * p) / 6)) by (unfold p; field).
  assert (B : p * (1 + 6 * p - 4 * p * p) / 6 <= 3 / 32). { assert (1 + 6 * p - 4 * p * p <= 9 / 4) by nra. assert (0 <= 1 + 6 * p - 4 * p * p) by nra. nra. }
  apply Rmult_le_compat_l with (r := W) in B; auto. apply Rabs_le. split; lra.
Qed.
Lemma lerp_tone a w x : 0 <= x <= 1 -> Rabs (lerp Rnum_ops (cos (a + w * x)) (cos (a + w * (x - 1))) x - cos a) <= 1 / 8 * Rabs w ^ 2.
Proof.
  intros X. set (r := fun h => cos (a + w * h) - cos a + sin a * (w * h)).
  assert (Rr : forall h, Rabs (r h) <= Rabs w ^ 2 * (1 / 2 * Rabs h ^ 2)). { intros h. pose proof (cos_1st a (w * h)) as C. unfold r. rewrite Rabs_mult, (Rpow_mult_distr (Rabs w)) in C. lra. }
  assert (E : lerp Rnum_ops (cos (a + w * x)) (cos (a + w * (x - 1))) x - cos a = (1 - x) * r x + x * r (x - 1)) by (unfold r, lerp; cbn [nadd nsub nmul ndiv nofZ Rnum_ops]; change (n1 Rnum_ops) with 1; ring).
  rewrite E. clear E. pose proof (Rr x) as R1. pose proof (Rr (x - 1)) as R2. clear Rr. set (W := Rabs w ^ 2) in *. assert (HW : 0 <= W) by (apply pow_le, Rabs_pos). clearbody W. rewrite (Rabs_right x) in R1 by lra. rewrite (Rabs_left1 (x - 1)) in R2 by lra.
  apply (sized_sum (1 - x) _ _ ltac:(lra)) in R1. apply (sized_sum x _ _ ltac:(lra)) in R2.
  assert (T : (1 - x) * (W * (1 / 2 * x ^ 2)) + x * (W * (1 / 2 * (- (x - 1)) ^ 2)) = W * (x * (1 - x) / 2)) by field. assert (B : x * (1 - x) / 2 <= 1 / 8) by (pose proof (Rle_0_sqr (2 * x - 1)) as Q; unfold Rsqr in Q; lra). apply Rmult_le_compat_l with (r := W) in B; auto. apply Rabs_le. split; lra.
Qed.

(* ---- taps ---- *)
Lemma frames_nth A w p dls k : (k < length dls)%nat -> nth k (tone_frames A w p dls) [] = [tone A w p (INR k); nth k dls 0].
Proof. intros H. unfold tone_frames. set (g := fun n => [tone A w p (INR n); nth n dls 0]). rewrite (nth_indep _ [] (g 0%nat)) by (now rewrite map_length, seq_length). rewrite (map_nth g), seq_nth by exact H. reflexivity. Qed.
Lemma frames_ago A w p dls k j : (k < length dls)%nat -> (j <= k)%nat -> ago 0 (map (fun i => nth 0 i 0) (tone_frames A w p dls)) k j = tone A w p (INR k - INR j).
Proof.
  intros H J. unfold ago. destruct (Nat.leb_spec j k) as [_|]; [|lia]. rewrite <- minus_INR by lia. assert (L : (k - j < length (tone_frames A w p dls))%nat) by (unfold tone_frames; rewrite map_length, seq_length; lia).
  set (g := fun i : list R => nth 0 i 0). rewrite (nth_indep _ 0 (g [])) by (now rewrite map_length). rewrite (map_nth g), frames_nth by lia. reflexivity.
Qed.
Lemma clamp_in lo hi x : lo <= x <= hi -> clamp Rnum_ops lo hi x = x.
Proof. intros H. unfold clamp. cbn. unfold Rmin, Rmax. repeat destruct (Rle_dec _ _); lra. Qed.
Lemma whole t : 0 <= t -> exists f, Int_part t = Z.of_nat f /\ INR f <= t < INR f + 1.
Proof.
  intros H. destruct (base_Int_part t) as [A B]. assert (P : (0 <= Int_part t)%Z) by (enough (-1 < Int_part t)%Z by lia; apply lt_IZR; lra). exists (Z.to_nat (Int_part t)). rewrite INR_IZR_INZ, Z2Nat.id by lia. split; [reflexivity|lra].
Qed.
Lemma tap_tone sr lo hi A w p dls k : 0 < sr -> 0 <= hi -> (k < length dls)%nat -> let d := nth k dls 0 in lo <= d <= hi -> 1.00001 <= d * sr -> d * sr + 2 <= INR k ->
  exists y, nth k (tap_outputs sr lo hi (tone_frames A w p dls)) [] = [y] /\ Rabs (y - tone A w p (INR k - d * sr)) <= 3 / 32 * (Rabs A * Rabs w ^ 3).
Proof.
  intros Hs Hh Hk d Hd H1 Hf. assert (Lk : (k < length (tone_frames A w p dls))%nat) by (unfold tone_frames; now rewrite map_length, seq_length).
  unfold tap_outputs. rewrite (C23_tap_ticks sr lo hi Hs Hh _ k Lk). unfold taps_out. rewrite frames_nth by exact Hk. cbn [tl fold_left]. fold d. eexists. split; [reflexivity|]. cbn [nadd Rnum_ops]. change (n0 Rnum_ops) with 0.
  assert (D1 : 1.00001 / sr <= d) by (apply Rmult_le_reg_r with sr; auto; unfold Rdiv; rewrite Rmult_assoc, Rinv_l, Rmult_1_r by lra; exact H1).
  unfold cubic_spec. rewrite clamp_in by (split; [apply Rmax_lub; lra|eapply Rle_trans; [apply Hd|apply Rmax_l]]). cbn [nmul nsub nofZ nfloor Rnum_ops]. set (t := d * sr) in *. destruct (whole t ltac:(lra)) as (f & E & F1 & F2). rewrite E, Nat2Z.id, <- INR_IZR_INZ.
  assert (Fk : (f + 2 <= k)%nat) by (apply INR_le; rewrite plus_INR; cbn [INR]; lra). assert (F0 : (1 <= f)%nat) by (destruct f; [cbn in F2; lra|lia]).
  rewrite !frames_ago by lia. rewrite !plus_INR, minus_INR by lia. change (INR 1) with 1. change (INR 2) with 2. unfold tone. set (x := t - INR f). set (a := w * (INR k - t) + p).
  replace (w * (INR k - (INR f - 1)) + p) with (a + w * (x + 1)) by (unfold a, x; ring). replace (w * (INR k - INR f) + p) with (a + w * x) by (unfold a, x; ring). replace (w * (INR k - (INR f + 1)) + p) with (a + w * (x - 1)) by (unfold a, x; ring). replace (w * (INR k - (INR f + 2)) + p) with (a + w * (x - 2)) by (unfold a, x; ring).
  pose proof (spline_tone a w x ltac:(unfold x; lra)) as S. apply Rmult_le_compat_l with (r := Rabs A) in S; [|apply Rabs_pos]. rewrite <- Rabs_mult in S.
  match type of S with Rabs ?u <= _ => match goal with |- Rabs ?v <= _ => replace v with u end end; [lra|]. unfold spline. cbn [nadd nsub nmul ndiv nofZ Rnum_ops]. ring.
Qed.
Lemma linear_tone sr lo hi A w p dls k : 0 < sr -> 0 <= lo <= hi -> (k < length dls)%nat -> let d := nth k dls 0 in lo <= d <= hi -> d * sr + 1 <= INR k ->
  exists y, nth k (linear_outputs sr lo hi (tone_frames A w p dls)) [] = [y] /\ Rabs (y - tone A w p (INR k - d * sr)) <= 1 / 8 * (Rabs A * Rabs w ^ 2).
Proof.
  intros Hs Hh Hk d Hd Hf. assert (Lk : (k < length (tone_frames A w p dls))%nat) by (unfold tone_frames; now rewrite map_length, seq_length).
  unfold linear_outputs. rewrite (C23_linear_ticks sr lo hi Hs Hh _ k Lk). unfold taps_out. rewrite frames_nth by exact Hk. cbn [tl fold_left]. fold d. eexists. split; [reflexivity|]. cbn [nadd Rnum_ops]. change (n0 Rnum_ops) with 0.
  unfold linear_spec. rewrite clamp_in by lra. cbn [nmul nsub nofZ nfloor Rnum_ops]. assert (T0 : 0 <= d * sr) by (apply Rmult_le_pos; lra). set (t := d * sr) in *. destruct (whole t T0) as (f & E & F1 & F2). rewrite E, Nat2Z.id, <- INR_IZR_INZ.
  assert (Fk : (f + 1 <= k)%nat) by (apply INR_le; rewrite plus_INR; cbn [INR]; lra). rewrite !frames_ago by lia. rewrite !plus_INR. change (INR 1) with 1. unfold tone. set (x := t - INR f). set (a := w * (INR k - t) + p).
  replace (w * (INR k - INR f) + p) with (a + w * x) by (unfold a, x; ring). replace (w * (INR k - (INR f + 1)) + p) with (a + w * (x - 1)) by (unfold a, x; ring).
  pose proof (lerp_tone a w x ltac:(unfold x; lra)) as S. apply Rmult_le_compat_l with (r := Rabs A) in S; [|apply Rabs_pos]. rewrite <- Rabs_mult in S.
  match type of S with Rabs ?u <= _ => match goal with |- Rabs ?v <= _ => replace v with u end end; [lra|]. unfold lerp. cbn [nadd nsub nmul ndiv nofZ Rnum_ops]. ring.
Qed.
