(* Proofs about how fast noise, envelopes and the delays of reverb2_stereo move. *)
From Coq Require Import Reals Lra Lia.
From Verif Require Import Base MathModel MathSpec MathReals MathNoise EnvSpec EnvProofs MotionSpec.
From Verif Require HallProofs.
Local Open Scope R_scope.

(* ---- splines ---- *)
Lemma spline_eq y0 y1 y2 y3 x : spline Rnum_ops y0 y1 y2 y3 x = y1 + x * (1 / 2) * (y2 - y0 + x * (2 * y0 - 5 * y1 + 4 * y2 - y3 + x * (3 * (y1 - y2) + y3 - y0))).
Proof. reflexivity. Qed.
Definition spline_d (y0 y1 y2 y3 x : R) : R := 1 / 2 * (y2 - y0 + 2 * x * (2 * y0 - 5 * y1 + 4 * y2 - y3) + 3 * (x * x) * (3 * (y1 - y2) + y3 - y0)).
Lemma spline_derive y0 y1 y2 y3 x : derivable_pt_lim (spline Rnum_ops y0 y1 y2 y3) x (spline_d y0 y1 y2 y3 x).
Proof.
  set (A := y2 - y0). set (B := 2 * y0 - 5 * y1 + 4 * y2 - y3). set (C := 3 * (y1 - y2) + y3 - y0).
  apply (derivable_pt_lim_ext (fun x => y1 + 1 / 2 * (A * x + B * x ^ 2 + C * x ^ 3))).
  - intros z. rewrite spline_eq. fold A B C. ring.
  - unfold spline_d. fold A B C. replace (1 / 2 * (A + 2 * x * B + 3 * (x * x) * C)) with (0 + 1 / 2 * (A * 1 + B * (INR 2 * x ^ pred 2) + C * (INR 3 * x ^ pred 3))) by (cbn [INR pred pow]; ring).
    apply (derivable_pt_lim_plus (fun _ => y1) (fun x => 1 / 2 * (A * x + B * x ^ 2 + C * x ^ 3))); [apply derivable_pt_lim_const|].
    apply (derivable_pt_lim_scal (fun x => A * x + B * x ^ 2 + C * x ^ 3)).
    apply (derivable_pt_lim_plus (fun x => A * x + B * x ^ 2) (fun x => C * x ^ 3)); [apply (derivable_pt_lim_plus (fun x => A * x) (fun x => B * x ^ 2))|].
    + apply (derivable_pt_lim_scal id). apply derivable_pt_lim_id.
    + apply (derivable_pt_lim_scal (fun x => x ^ 2)). apply derivable_pt_lim_pow.
    + apply (derivable_pt_lim_scal (fun x => x ^ 3)). apply derivable_pt_lim_pow.
Qed.
Lemma times_range c y : -1 <= y <= 1 -> - Rabs c <= c * y <= Rabs c.
Proof. intros H. unfold Rabs. destruct (Rcase_abs c); nra. Qed.
Lemma spline_d_range y0 y1 y2 y3 x : -1 <= y0 <= 1 -> -1 <= y1 <= 1 -> -1 <= y2 <= 1 -> -1 <= y3 <= 1 -> 0 <= x <= 1 -> -3 <= spline_d y0 y1 y2 y3 x <= 3.
Proof.
  intros H0 H1 H2 H3 Hx. set (c0 := - ((1 - x) * (1 - 3 * x)) / 2). set (c1 := - (x * (10 - 9 * x)) / 2). set (c2 := (1 - x) * (1 + 9 * x) / 2). set (c3 := - (x * (2 - 3 * x)) / 2).
  replace (spline_d y0 y1 y2 y3 x) with (c0 * y0 + c1 * y1 + c2 * y2 + c3 * y3) by (unfold spline_d, c0, c1, c2, c3; field).
  pose proof (times_range c0 y0 H0) as T0. pose proof (times_range c1 y1 H1) as T1. pose proof (times_range c2 y2 H2) as T2. pose proof (times_range c3 y3 H3) as T3.
  assert (S : Rabs c0 + Rabs c1 + Rabs c2 + Rabs c3 <= 3); [|lra].
  assert (N1 : c1 <= 0) by (unfold c1; nra). assert (N2 : 0 <= c2) by (unfold c2; nra). rewrite (Rabs_left1 c1), (Rabs_right c2) by lra.
  destruct (Rle_lt_dec x (1 / 3)) as [A|A]; [|destruct (Rle_lt_dec x (2 / 3)) as [B|B]].
  - assert (N0 : c0 <= 0) by (unfold c0; nra). assert (N3 : c3 <= 0) by (unfold c3; nra). rewrite (Rabs_left1 c0), (Rabs_left1 c3) by lra. unfold c0, c1, c2, c3. nra.
  - assert (N0 : 0 <= c0) by (unfold c0; nra). assert (N3 : c3 <= 0) by (unfold c3; nra). rewrite (Rabs_right c0), (Rabs_left1 c3) by lra. unfold c0, c1, c2, c3. pose proof (Rle_0_sqr (2 * x - 1)) as Q. unfold Rsqr in Q. lra.
  - assert (N0 : 0 <= c0) by (unfold c0; nra). assert (N3 : 0 <= c3) by (unfold c3; nra). rewrite (Rabs_right c0), (Rabs_right c3) by lra. unfold c0, c1, c2, c3. nra.
Qed.
Lemma spline_slope y0 y1 y2 y3 a b : -1 <= y0 <= 1 -> -1 <= y1 <= 1 -> -1 <= y2 <= 1 -> -1 <= y3 <= 1 -> 0 <= a <= b -> b <= 1 ->
  Rabs (spline Rnum_ops y0 y1 y2 y3 b - spline Rnum_ops y0 y1 y2 y3 a) <= 3 * (b - a).
Proof.
  intros H0 H1 H2 H3 Ha Hb. destruct (Req_dec a b) as [->|N]; [rewrite !Rminus_diag_eq by reflexivity; rewrite Rabs_R0; lra|].
  destruct (MVT_cor2 (spline Rnum_ops y0 y1 y2 y3) (spline_d y0 y1 y2 y3) a b ltac:(lra)) as (c & E & C); [intros; apply spline_derive|]. rewrite E.
  pose proof (spline_d_range y0 y1 y2 y3 c H0 H1 H2 H3 ltac:(lra)) as D. rewrite Rabs_mult, (Rabs_right (b - a)) by lra. apply Rmult_le_compat_r; [lra|]. apply Rabs_le. lra.
Qed.

(* ---- noise ---- *)
Section Noise.
  Variables hash64a hash64g : N -> N.
  Hypothesis W : forall s, word 64 (hash64a s).
  Notation pt := (get_point Rnum_ops hash64a).
  Definition cell (seed : N) (i : Z) (d : R) : R := spline Rnum_ops (pt seed (i - 1)) (pt seed i) (pt seed (i + 1)) (pt seed (i + 2)) d.
  Lemma cell_slope seed i a b : 0 <= a <= b -> b <= 1 -> Rabs (cell seed i b - cell seed i a) <= 3 * (b - a).
  Proof. intros Ha Hb. apply spline_slope; auto; apply (point_range hash64a hash64g W). Qed.
  Lemma cell_0 seed i : cell seed i 0 = pt seed i. Proof. unfold cell. rewrite spline_eq. ring. Qed.
  Lemma cell_1 seed i : cell seed i 1 = pt seed (i + 1). Proof. unfold cell. rewrite spline_eq. field. Qed.
  Lemma points_slope seed i n : Rabs (pt seed (i + Z.of_nat n) - pt seed i) <= 3 * INR n.
  Proof.
    induction n as [|n IH]; [rewrite Z.add_0_r, Rminus_diag_eq by reflexivity; rewrite Rabs_R0; cbn; lra|]. rewrite S_INR.
    pose proof (cell_slope seed (i + Z.of_nat n) 0 1 ltac:(lra) ltac:(lra)) as C. rewrite cell_0, cell_1 in C. replace (i + Z.of_nat n + 1)%Z with (i + Z.of_nat (S n))%Z in C by lia.
    replace (pt seed (i + Z.of_nat (S n)) - pt seed i) with ((pt seed (i + Z.of_nat (S n)) - pt seed (i + Z.of_nat n)) + (pt seed (i + Z.of_nat n) - pt seed i)) by ring. eapply Rle_trans; [apply Rabs_triang|]. lra.
  Qed.
  Lemma cells_slope seed x y : x <= y -> let f z := cell seed (Int_part z) (z - IZR (Int_part z)) in Rabs (f y - f x) <= 3 * (y - x).
  Proof.
    intros H f. unfold f. clear f. destruct (base_Int_part x) as [X1 X2]. destruct (base_Int_part y) as [Y1 Y2]. set (i := Int_part x) in *. set (j := Int_part y) in *.
    assert (IJ : (i <= j)%Z) by (enough (i < j + 1)%Z by lia; apply lt_IZR; rewrite plus_IZR; lra). destruct (Z.eq_dec i j) as [E|E].
    - rewrite <- E in *. replace (y - x) with ((y - IZR i) - (x - IZR i)) by ring. apply cell_slope; lra.
    - assert (IJ' : (i + 1 <= j)%Z) by lia. pose proof (cell_slope seed i (x - IZR i) 1 ltac:(lra) ltac:(lra)) as A. pose proof (cell_slope seed j 0 (y - IZR j) ltac:(lra) ltac:(lra)) as B. rewrite cell_1 in A. rewrite cell_0 in B.
      pose proof (points_slope seed (i + 1) (Z.to_nat (j - (i + 1)))) as C. rewrite INR_IZR_INZ, Z2Nat.id in C by lia. replace (i + 1 + (j - (i + 1)))%Z with j in C by lia. rewrite !minus_IZR, !plus_IZR in C.
      apply Rabs_le. unfold Rabs in A, B, C. destruct (Rcase_abs _) in A; destruct (Rcase_abs _) in B; destruct (Rcase_abs _) in C; lra.
  Qed.
  Lemma noise_cell seed z : let o := rnd2 Rnum_ops hash64g seed in spline_noise Rnum_ops hash64a hash64g seed z = 4 / 5 * cell seed (Int_part (z + o)) (z + o - IZR (Int_part (z + o))).
  Proof. intros o. unfold spline_noise, cell. cbn [nfloor nadd nsub nmul ndiv nofZ Rnum_ops]. fold o. change (n1 Rnum_ops) with 1. replace (1 / (5 / 4)) with (4 / 5) by field. rewrite Rmult_comm. reflexivity. Qed.
  Lemma noise_at_integer seed k : rnd2 Rnum_ops hash64g seed = 0 -> spline_noise Rnum_ops hash64a hash64g seed (IZR k) = 4 / 5 * pt seed k.
  Proof. intros Z. rewrite noise_cell, Z, Rplus_0_r. rewrite (int_part_spec (IZR k) k) by lra. rewrite Rminus_diag_eq by reflexivity. now rewrite cell_0. Qed.
  Lemma noise_slope seed x y : Rabs (spline_noise Rnum_ops hash64a hash64g seed x - spline_noise Rnum_ops hash64a hash64g seed y) <= 12 / 5 * Rabs (x - y).
  Proof.
    assert (Q : forall x y, x <= y -> Rabs (spline_noise Rnum_ops hash64a hash64g seed y - spline_noise Rnum_ops hash64a hash64g seed x) <= 12 / 5 * (y - x)).
    { clear x y. intros x y H. set (o := rnd2 Rnum_ops hash64g seed). pose proof (cells_slope seed (x + o) (y + o) ltac:(lra)) as C. cbv zeta in C.
      rewrite !noise_cell. fold o.
      rewrite <- Rmult_minus_distr_l, Rabs_mult, (Rabs_right (4 / 5)) by lra. lra. }
    destruct (Rle_dec x y) as [H|H].
    - rewrite Rabs_minus_sym, (Rabs_left1 (x - y)) by lra. specialize (Q x y H). lra.
    - rewrite (Rabs_right (x - y)) by lra. apply Q. lra.
  Qed.
End Noise.

(* ---- envelopes ---- *)
Lemma line_slope t0 y0 t1 y1 t u L : t0 < t1 -> Rabs (y1 - y0) <= L * (t1 - t0) -> t <= u -> Rabs (on_line t0 y0 t1 y1 u - on_line t0 y0 t1 y1 t) <= L * (u - t).
Proof.
  intros H HL Ht. unfold on_line. replace (y0 + (y1 - y0) * ((u - t0) / (t1 - t0)) - (y0 + (y1 - y0) * ((t - t0) / (t1 - t0)))) with ((y1 - y0) * ((u - t) / (t1 - t0))) by (field; lra).
  assert (P : 0 <= (u - t) / (t1 - t0)) by (apply Rmult_le_pos; [lra|left; apply Rinv_0_lt_compat; lra]). rewrite Rabs_mult, (Rabs_right ((u - t) / (t1 - t0))) by lra.
  apply Rle_trans with (L * (t1 - t0) * ((u - t) / (t1 - t0))); [now apply Rmult_le_compat_r|]. right. field. lra.
Qed.
Lemma line_0 t0 y0 t1 y1 : on_line t0 y0 t1 y1 t0 = y0. Proof. unfold on_line, Rdiv. ring. Qed.
Lemma line_1 t0 y0 t1 y1 : t0 < t1 -> on_line t0 y0 t1 y1 t1 = y1. Proof. intros H. unfold on_line. field. lra. Qed.
Lemma envelope_slope E ch s n j L : (forall t, length (E t) = ch) -> fits s -> (j < ch)%nat -> (forall t u, 0 <= t -> 0 <= u -> Rabs (nth j (E t) 0 - nth j (E u) 0) <= L * Rabs (t - u)) ->
  let y n := nth j (env_at (pure E) (env_reset Rnum_ops idR (pure E) s) n) 0 in Rabs (y (S n) - y n) <= L * e_sd s.
Proof.
  intros HE Hf Hj HL. cbv zeta. destruct (envelope_line E ch s n HE Hf) as (_ & k & [K1 K2] & Hk). destruct (envelope_line E ch s (S n) HE Hf) as (_ & m & [M1 M2] & Hm). rewrite Hk, Hm by auto. clear Hk Hm.
  destruct Hf as (F1 & F2 & F3). assert (P : forall k, 0 <= point (e_int s) (e_hash s) k). { intros i. destruct i; [cbn; lra|]. left. apply (points_rise _ _ 0%nat (S i)); auto; [lra|lia]. }
  assert (Up : forall i j, (i < j)%nat -> point (e_int s) (e_hash s) i < point (e_int s) (e_hash s) j) by (intros; apply points_rise; auto; lra).
  rewrite S_INR in *. set (b := point (e_int s) (e_hash s)) in *. set (t := INR n * e_sd s) in *. replace ((INR n + 1) * e_sd s) with (t + e_sd s) in * by (unfold t; ring). set (d := e_sd s) in *. clearbody t d b.
  set (v := fun k => nth j (E (b k)) 0). change (Rabs (on_line (b m) (v m) (b (S m)) (v (S m)) (t + d) - on_line (b k) (v k) (b (S k)) (v (S k)) t) <= L * d).
  assert (V : forall i q, (i < q)%nat -> Rabs (v q - v i) <= L * (b q - b i)). { intros i q Q. specialize (HL (b q) (b i) (P q) (P i)). rewrite (Rabs_right (b q - b i)) in HL by (specialize (Up i q Q); lra). exact HL. }
  clearbody v. assert (KM : (k <= m)%nat). { destruct (Nat.le_gt_cases k m) as [|C]; auto. exfalso. destruct (Nat.eq_dec (S m) k) as [<-|N]; [lra|]. pose proof (Up (S m) k ltac:(lia)). lra. }
  destruct (Nat.eq_dec k m) as [->|N].
  - replace (L * d) with (L * (t + d - t)) by ring. apply line_slope; [apply Up; lia|apply V; lia|lra].
  - pose proof (line_slope (b k) (v k) (b (S k)) (v (S k)) t (b (S k)) L (Up k (S k) ltac:(lia)) (V k (S k) ltac:(lia)) ltac:(lra)) as A. rewrite line_1 in A by (apply Up; lia).
    pose proof (line_slope (b m) (v m) (b (S m)) (v (S m)) (b m) (t + d) L (Up m (S m) ltac:(lia)) (V m (S m) ltac:(lia)) ltac:(lra)) as B. rewrite line_0 in B.
    assert (C : Rabs (v m - v (S k)) <= L * (b m - b (S k))). { destruct (Nat.eq_dec (S k) m) as [<-|N']; [rewrite !Rminus_diag_eq by reflexivity; rewrite Rabs_R0; lra|]. apply V. lia. }
    apply Rabs_le. unfold Rabs in A, B, C. destruct (Rcase_abs _) in A; destruct (Rcase_abs _) in B; destruct (Rcase_abs _) in C; lra.
Qed.

(* ---- the delays of reverb2_stereo ---- *)
Section Wobble.
  Variables hash64a hash64g : N -> N.
  Hypothesis W : forall s, word 64 (hash64a s).
  Lemma wobble_eq speed i lo hi t : wobble Rnum_ops hash64a hash64g speed i lo hi t = lo + (hi - lo) * (spline_noise Rnum_ops hash64a hash64g (N.of_nat i) (t * speed * (1 / 2)) * (1 / 2) + 1 / 2).
  Proof. unfold wobble, lerp11, lerp, half. cbn [nadd nsub nmul ndiv nofZ Rnum_ops]. change (n1 Rnum_ops) with 1. set (v := spline_noise _ _ _ _ _). clearbody v. field. Qed.
  Lemma wobble_slope speed i lo hi t u : lo <= hi -> Rabs (wobble Rnum_ops hash64a hash64g speed i lo hi t - wobble Rnum_ops hash64a hash64g speed i lo hi u) <= 3 / 5 * (hi - lo) * Rabs speed * Rabs (t - u).
  Proof.
    intros H. rewrite !wobble_eq. pose proof (noise_slope hash64a hash64g W (N.of_nat i) (t * speed * (1 / 2)) (u * speed * (1 / 2))) as S. set (a := spline_noise _ _ _ _ (t * _ * _)) in *. set (b := spline_noise _ _ _ _ (u * _ * _)) in *. clearbody a b.
    replace (lo + (hi - lo) * (a * (1 / 2) + 1 / 2) - (lo + (hi - lo) * (b * (1 / 2) + 1 / 2))) with ((hi - lo) * (1 / 2) * (a - b)) by ring.
    replace (t * speed * (1 / 2) - u * speed * (1 / 2)) with (1 / 2 * speed * (t - u)) in S by ring. rewrite !Rabs_mult in S. rewrite !Rabs_mult, (Rabs_right (hi - lo)) by lra. rewrite (Rabs_right (1 / 2)) in * by lra.
    replace (3 / 5 * (hi - lo) * Rabs speed * Rabs (t - u)) with ((hi - lo) * (1 / 2) * (12 / 5 * (1 / 2 * Rabs speed * Rabs (t - u)))) by field. apply Rmult_le_compat_l; lra.
  Qed.
  Lemma wobbleR_slope speed sr h i lo hi n : 134 <= sr <= 1000000000 -> (h i < 2 ^ 64)%N -> lo <= hi ->
    Rabs (wobbleR hash64a hash64g speed sr h i lo hi (S n) - wobbleR hash64a hash64g speed sr h i lo hi n) * sr <= 3 / 5 * (hi - lo) * Rabs speed.
  Proof.
    intros Hs Hh H. unfold wobbleR, wobble_env. set (f := fun t => [wobble Rnum_ops hash64a hash64g speed i lo hi t]). change (fun (_ : unit) t => (tt, [wobble Rnum_ops hash64a hash64g speed i lo hi t])) with (pure f).
    set (s := set_hash _ _). assert (P : 0 < / sr) by (apply Rinv_0_lt_compat; lra). assert (D : e_sd s = / sr) by (unfold s; cbn; unfold Rdiv; ring). assert (I : e_int s = 1 / 100) by reflexivity. assert (J : e_hash s = h i) by reflexivity.
    assert (Q : / sr * sr = 1) by (apply Rinv_l; lra).
    assert (Fi : fits s). { unfold fits. rewrite D, I, J. assert (B : 1000000000 <= IZR (2 ^ 62)) by (apply IZR_le; discriminate). set (z := IZR (2 ^ 62)) in *. clearbody z. clear - Hs P Q B Hh. repeat split; auto; nra. }
    pose proof (envelope_slope f 1 s n 0 (3 / 5 * (hi - lo) * Rabs speed) ltac:(reflexivity) Fi ltac:(lia)) as E. cbv zeta in E. specialize (E ltac:(intros t u _ _; apply wobble_slope; auto)). rewrite D in E.
    apply Rmult_le_compat_r with (r := sr) in E; [|lra]. rewrite (Rmult_assoc _ (/ sr)), Q, Rmult_1_r in E. exact E.
  Qed.
  Lemma wobbleR_range speed sr h i lo hi n : 134 <= sr <= 1000000000 -> (h i < 2 ^ 64)%N -> lo <= hi -> lo <= wobbleR hash64a hash64g speed sr h i lo hi n <= hi.
  Proof.
    intros Hs Hh H. unfold wobbleR, wobble_env. set (f := fun t => [wobble Rnum_ops hash64a hash64g speed i lo hi t]). change (fun (_ : unit) t => (tt, [wobble Rnum_ops hash64a hash64g speed i lo hi t])) with (pure f).
    set (s := set_hash _ _). assert (P : 0 < / sr) by (apply Rinv_0_lt_compat; lra). assert (D : e_sd s = / sr) by (unfold s; cbn; unfold Rdiv; ring). assert (I : e_int s = 1 / 100) by reflexivity. assert (J : e_hash s = h i) by reflexivity.
    assert (Q : / sr * sr = 1) by (apply Rinv_l; lra).
    assert (Fi : fits s). { unfold fits. rewrite D, I, J. assert (B : 1000000000 <= IZR (2 ^ 62)) by (apply IZR_le; discriminate). set (z := IZR (2 ^ 62)) in *. clearbody z. clear - Hs P Q B Hh. repeat split; auto; nra. }
    apply (envelope_range f 1 s n 0); auto. intros t _. unfold f. cbn [nth]. rewrite wobble_eq. pose proof (spline_noise_range hash64a hash64g W (N.of_nat i) (t * speed * (1 / 2))) as R. unfold is11 in R. set (v := spline_noise _ _ _ _ _) in *. clearbody v. assert (0 <= (hi - lo) * (v * (1 / 2) + 1 / 2) <= (hi - lo) * 1) by (split; [apply Rmult_le_pos|apply Rmult_le_compat_l]; lra). lra.
  Qed.
End Wobble.

(* the loop gain when |speed| * time is below 100 *)
Lemma ln10_2 : 2 <= ln 10.
Proof.
  rewrite <- (ln_exp 2). replace (exp 2) with (exp 1 * exp 1) by (rewrite <- exp_plus; f_equal; ring). pose proof exp_le_3. pose proof (exp_pos 1). left. apply ln_increasing; [apply Rmult_lt_0_compat; lra|nra].
Qed.
Lemma moving_gain room time e : 0 < time -> 0 <= e -> e * time < 12 / 100 -> HallSpec.hall_gainR room time * sqrt (1 + 2 * e) < 1.
Proof.
  intros Ht He H. destruct (HallProofs.gain_range room time Ht) as [E _]. rewrite E. set (q := HallModel.hall_min Rnum_ops room).
  assert (Q : 4 / 100 <= q). { unfold q, HallModel.hall_min, RevModel.dec, clamp. cbn. unfold Rmin, Rmax. repeat destruct (Rle_dec _ _); lra. }
  assert (S : sqrt (1 + 2 * e) <= exp e). { rewrite <- (sqrt_square (exp e)) by (left; apply exp_pos). apply sqrt_le_1_alt. rewrite <- exp_plus. replace (e + e) with (2 * e) by ring. apply exp_ineq1_le. }
  unfold Rpower. set (z := exp _). assert (Z : 0 < z) by apply exp_pos. apply Rle_lt_trans with (z * exp e); [apply Rmult_le_compat_l; lra|]. unfold z. rewrite <- exp_plus, <- exp_0. apply exp_increasing.
  pose proof ln10_2 as L. apply Rmult_lt_reg_r with time; auto. rewrite Rmult_0_l. replace ((- (3 / 2) * q / time * ln 10 + e) * time) with (e * time - 3 / 2 * q * ln 10) by (field; lra). nra.
Qed.
