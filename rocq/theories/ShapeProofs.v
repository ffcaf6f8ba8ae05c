(* Waveshapers: proofs. *)
From Coq Require Import Reals Lra Lia Psatz Ratan.
From Verif Require Import MathReals OverProofs OscProofs TableProofs.
From Verif Require Export ShapeSpec.
Local Open Scope R_scope.

(* ---- saturation ---- *)
Lemma saturates_scale f h : 0 < h -> saturates f -> saturates (fun x => f (x * h)).
Proof.
  intros H (A & B & C & D). refine (conj _ (conj _ (conj _ _))).
  - intros x. apply A.
  - intros x. rewrite <- B. f_equal. ring.
  - intros x y L. apply C. nra.
  - intros e E. destruct (D e E) as [x X]. exists (x / h). replace (x / h * h) with x by (field; lra). exact X.
Qed.
Lemma tanh_exp x : tanh x = 1 - 2 / (exp (2 * x) + 1).
Proof.
  unfold tanh, sinh, cosh. replace (2 * x) with (x + x) by ring. rewrite exp_plus. pose proof (exp_pos x) as P. rewrite exp_Ropp. field. split; nra.
Qed.
Lemma tanh_saturates : saturates tanh.
Proof.
  refine (conj _ (conj _ (conj _ _))).
  - intros x. rewrite tanh_exp. pose proof (exp_pos (2 * x)) as P. assert (0 < 2 / (exp (2 * x) + 1)) by (apply Rdiv_lt_0_compat; lra). assert (2 / (exp (2 * x) + 1) < 2); [|lra].
    apply (Rmult_lt_reg_r (exp (2 * x) + 1)); [lra|]. unfold Rdiv. rewrite Rmult_assoc, Rinv_l by lra. lra.
  - intros x. unfold tanh, sinh, cosh. rewrite Ropp_involutive. pose proof (exp_pos x). pose proof (exp_pos (- x)). field. lra.
  - intros x y L. rewrite !tanh_exp. pose proof (exp_pos (2 * x)). assert (exp (2 * x) < exp (2 * y)) by (apply exp_increasing; lra). assert (2 / (exp (2 * y) + 1) < 2 / (exp (2 * x) + 1)); [|lra].
    apply Rmult_lt_compat_l; [lra|]. apply Rinv_lt_contravar; nra.
  - intros e E. exists (ln (2 / e) / 2). rewrite tanh_exp. replace (2 * (ln (2 / e) / 2)) with (ln (2 / e)) by field. assert (0 < 2 / e) by (apply Rdiv_lt_0_compat; lra). rewrite exp_ln by assumption.
    assert (2 / (2 / e + 1) < e); [|lra]. replace (2 / (2 / e + 1)) with (2 * e / (2 + e)) by (field; lra). apply (Rmult_lt_reg_r (2 + e)); [lra|]. unfold Rdiv. rewrite Rmult_assoc, Rinv_l by lra. nra.
Qed.
Lemma atan_saturates : saturates (fun x => atan (x * (PI * (1 / 2))) * (2 / PI)).
Proof.
  pose proof PI_RGT_0 as P. assert (K : 0 < PI * (1 / 2)) by lra. assert (Q : 0 < 2 / PI) by (apply Rdiv_lt_0_compat; lra). assert (E1 : PI / 2 * (2 / PI) = 1) by (field; lra).
  apply (saturates_scale (fun x => atan x * (2 / PI)) (PI * (1 / 2)) K). refine (conj _ (conj _ (conj _ _))).
  - intros x. pose proof (atan_bound x) as [A B]. nra.
  - intros x. rewrite atan_opp. ring.
  - intros x y L. apply Rmult_lt_compat_r; [exact Q|]. now apply atan_increasing.
  - intros e E. set (d := Rmin e 1). assert (0 < d <= 1) by (unfold d, Rmin; destruct (Rle_dec e 1); lra). assert (d <= e) by apply Rmin_l. exists (tan (PI / 2 * (1 - d / 2))). rewrite atan_tan by (split; nra).
    replace (PI / 2 * (1 - d / 2) * (2 / PI)) with (1 - d / 2) by (field; lra). lra.
Qed.
Lemma softsign_saturates : saturates (softsign Rnum_ops).
Proof.
  assert (E : forall x, softsign Rnum_ops x = x / (1 + Rabs x)) by reflexivity.
  assert (P : forall x, 0 <= x -> softsign Rnum_ops x = 1 - / (1 + x)) by (intros x H; rewrite E, Rabs_pos_eq by exact H; field; lra).
  assert (N : forall x, x <= 0 -> softsign Rnum_ops x = / (1 - x) - 1) by (intros x H; rewrite E, Rabs_left1 by exact H; field; lra).
  assert (I : forall x, 0 <= x -> 0 < / (1 + x) <= 1). { intros x H. split; [apply Rinv_0_lt_compat; lra|]. rewrite <- Rinv_1. apply Rinv_le_contravar; lra. }
  refine (conj _ (conj _ (conj _ _))).
  - intros x. destruct (Rle_dec 0 x) as [H|H]; [rewrite P by exact H; specialize (I x H); lra|]. rewrite N by lra. specialize (I (- x) ltac:(lra)). replace (1 + - x) with (1 - x) in I by ring. lra.
  - intros x. rewrite !E, Rabs_Ropp. unfold Rdiv. ring.
  - intros x y L. destruct (Rle_dec 0 x) as [A|A].
    + rewrite !P by lra. assert (/ (1 + y) < / (1 + x)) by (apply Rinv_lt_contravar; nra). lra.
    + rewrite (N x) by lra. destruct (Rle_dec 0 y) as [B|B].
      * rewrite P by exact B. specialize (I y B). assert (/ (1 - x) < 1) by (rewrite <- Rinv_1; apply Rinv_lt_contravar; lra). lra.
      * rewrite (N y) by lra. assert (/ (1 - x) < / (1 - y)) by (apply Rinv_lt_contravar; nra). lra.
  - intros e H. exists (2 / e). assert (0 < 2 / e) by (apply Rdiv_lt_0_compat; lra). rewrite P by lra. replace (/ (1 + 2 / e)) with (e / (e + 2)) by (field; lra). assert (e / (e + 2) < e); [|lra]. apply (Rmult_lt_reg_r (e + 2)); [lra|]. unfold Rdiv. rewrite Rmult_assoc, Rinv_l by lra. nra.
Qed.
Lemma tanh_shape h : 0 < h -> exists f, saturates f /\ forall x, shape_oneR (Tanh h) x = Some (Tanh h, f x).
Proof. intros H. exists (fun x => tanh (x * h)). split; [apply saturates_scale; [exact H|apply tanh_saturates]|reflexivity]. Qed.
Lemma softsign_shape h : 0 < h -> exists f, saturates f /\ forall x, shape_oneR (Softsign h) x = Some (Softsign h, f x).
Proof. intros H. exists (fun x => softsign Rnum_ops (x * h)). split; [apply saturates_scale; [exact H|apply softsign_saturates]|reflexivity]. Qed.
Lemma atan_slope h : derivable_pt_lim (fun x => atan (x * (h * PI * (1 / 2))) * (2 / PI)) 0 h.
Proof.
  pose proof PI_RGT_0. set (c := h * PI * (1 / 2)). assert (D1 : derivable_pt_lim (fun x => x * c) 0 c). { intros e E. exists (mkposreal 1 Rlt_0_1). intros d D _. replace ((((0 + d) * c - 0 * c) / d - c)) with 0 by (field; exact D). rewrite Rabs_R0. exact E. }
  pose proof (derivable_pt_lim_comp (fun x => x * c) atan 0 c _ D1 (derivable_pt_lim_atan (0 * c))) as D2. pose proof (derivable_pt_lim_scal _ (2 / PI) 0 _ D2) as D3. unfold mult_real_fct, comp in D3.
  replace (2 / PI * (/ (1 + (0 * c) ^ 2) * c)) with h in D3 by (replace (1 + (0 * c) ^ 2) with 1 by ring; unfold c; field; lra).
  intros e E. destruct (D3 e E) as [d Hd]. exists d. intros k K1 K2. specialize (Hd k K1 K2). rewrite (Rmult_comm (atan ((0 + k) * c))), (Rmult_comm (atan (0 * c))). exact Hd.
Qed.
Lemma atan_shape h : 0 < h -> exists f, saturates f /\ derivable_pt_lim f 0 h /\ forall x, shape_oneR (Atan h) x = Some (Atan h, f x).
Proof.
  intros H. exists (fun x => atan (x * (h * PI * (1 / 2))) * (2 / PI)). split; [|split; [apply atan_slope|reflexivity]].
  pose proof (saturates_scale _ h H atan_saturates) as (A & B & C & D). assert (E : forall x, x * h * (PI * (1 / 2)) = x * (h * PI * (1 / 2))) by (intros; ring).
  refine (conj _ (conj _ (conj _ _))); [intros x; rewrite <- E; apply A|intros x; rewrite <- !E; apply B|intros x y L; rewrite <- !E; now apply C|]. intros e Q. destruct (D e Q) as [x X]. exists x. now rewrite <- E.
Qed.
(* ---- clipping ---- *)
Lemma clamp_coreR lo hi x : lo <= hi -> clamp_core Rnum_ops lo hi x = Rmin (Rmax x lo) hi.
Proof. intros H. unfold clamp_core. cbn [nltb Rnum_ops]. destruct (Rlt_dec x lo), (Rlt_dec hi x); unfold Rmin, Rmax; repeat destruct (Rle_dec _ _); lra. Qed.
Lemma clip_range lo hi x : lo <= hi -> let y := clamp_core Rnum_ops lo hi x in lo <= y <= hi /\ (lo <= x <= hi -> y = x) /\ (x < lo -> y = lo) /\ (hi < x -> y = hi).
Proof. intros H. unfold clamp_core. cbn [nltb Rnum_ops]. cbn zeta. destruct (Rlt_dec x lo), (Rlt_dec hi x); repeat split; intros; lra. Qed.
(* ---- staircases ---- *)
Lemma round_even_near x : Rabs (x - IZR (round_even Rnum_ops x)) <= 1 / 2.
Proof.
  unfold round_even. cbn [nsub nltb ndiv n1 nofZ nfloor Rnum_ops]. pose proof (frac_range x) as H. unfold frac in H. set (k := Int_part x) in *. destruct (Rlt_dec (x - IZR k) (1 / 2)); [|destruct (Rlt_dec (1 / 2) (x - IZR k)); [|destruct (Z.even k)]]; rewrite ?plus_IZR; apply Rabs_le; lra.
Qed.
Lemma round_away_near x : exists k, round_away Rnum_ops x = IZR k /\ Rabs (x - IZR k) <= 1 / 2.
Proof.
  unfold round_away. cbn [nabs nsub nltb ndiv n1 nofZ nfloor nneg Rnum_ops]. pose proof (frac_range (Rabs x)) as H. unfold frac in H. set (k := Int_part (Rabs x)) in *.
  assert (G : forall r, Rabs (Rabs x - IZR r) <= 1 / 2 -> exists j, (if Rlt_dec x 0 then - IZR r else IZR r) = IZR j /\ Rabs (x - IZR j) <= 1 / 2).
  { intros r B. destruct (Rlt_dec x 0) as [N|N].
    - exists (- r)%Z. rewrite opp_IZR. split; [reflexivity|]. rewrite (Rabs_left x) in B by exact N. rewrite <- Rabs_Ropp. replace (- (x - - IZR r)) with (- x - IZR r) by ring. exact B.
    - exists r. rewrite (Rabs_pos_eq x) in B by lra. auto. }
  destruct (Rlt_dec (Rabs x - IZR k) (1 / 2)).
  - destruct (G k) as (j & E & B); [apply Rabs_le; lra|]. exists j. split; [|exact B]. rewrite <- E. destruct (Rlt_dec x 0); reflexivity.
  - destruct (G (k + 1)%Z) as (j & E & B); [rewrite plus_IZR; apply Rabs_le; lra|]. exists j. split; [|exact B]. rewrite <- E. destruct (Rlt_dec x 0); reflexivity.
Qed.
Lemma round_same x : (forall k, x <> IZR k + 1 / 2) -> round_away Rnum_ops x = IZR (round_even Rnum_ops x).
Proof.
  intros H. destruct (round_away_near x) as (k & -> & K). pose proof (round_even_near x) as J. set (j := round_even Rnum_ops x) in *. f_equal. apply Rcomplements.Rabs_le_between in K. apply Rcomplements.Rabs_le_between in J. pose proof (H k). pose proof (H j).
  assert (A : IZR k < IZR (j + 1)) by (rewrite plus_IZR; destruct (Rlt_dec (IZR k) (IZR j + 1)); [assumption|]; exfalso; lra). assert (B : IZR j < IZR (k + 1)) by (rewrite plus_IZR; destruct (Rlt_dec (IZR j) (IZR k + 1)); [assumption|]; exfalso; lra). apply lt_IZR in A, B. lia.
Qed.
Lemma crush_shape h x : 0 < h -> exists k, shape_oneR (Crush h) x = Some (Crush h, IZR k / h) /\ Rabs (x - IZR k / h) <= 1 / (2 * h).
Proof.
  intros H. destruct (round_away_near (x * h)) as (k & E & B). exists k. cbn [shape_one]. cbn [nmul ndiv Rnum_ops]. rewrite E. split; [reflexivity|]. replace (x - IZR k / h) with ((x * h - IZR k) * / h) by (field; lra). rewrite Rabs_mult, (Rabs_pos_eq (/ h)) by (left; now apply Rinv_0_lt_compat).
  replace (1 / (2 * h)) with (1 / 2 * / h) by (field; lra). apply Rmult_le_compat_r; [left; now apply Rinv_0_lt_compat|exact B].
Qed.
Definition stairs (x : R) : R := IZR (Int_part x) + smooth9 Rnum_ops (frac x).
Lemma smooth9_range x : 0 <= x <= 1 -> 0 <= smooth9 Rnum_ops x <= 1.
Proof. exact (e_range _ smooth9_eases x). Qed.
Lemma stairs_range x : IZR (Int_part x) <= stairs x <= IZR (Int_part x) + 1.
Proof. unfold stairs. pose proof (frac_range x). pose proof (smooth9_range (frac x) ltac:(lra)). lra. Qed.
Lemma int_mono x y : x <= y -> (Int_part x <= Int_part y)%Z.
Proof. intros H. pose proof (frac_range x) as A. pose proof (frac_range y) as B. unfold frac in A, B. assert (Int_part x < Int_part y + 1)%Z; [|lia]. apply lt_IZR. rewrite plus_IZR. lra. Qed.
Lemma stairs_rise x y : x < y -> stairs x < stairs y.
Proof.
  intros H. pose proof (int_mono x y ltac:(lra)) as L. pose proof (frac_range x) as A. pose proof (frac_range y) as B. destruct (Z.eq_dec (Int_part x) (Int_part y)) as [E|N].
  - unfold stairs. rewrite E. apply Rplus_lt_compat_l. apply (e_rises _ smooth9_eases); try lra. unfold frac. rewrite E. lra.
  - assert (IZR (Int_part x) + 1 <= IZR (Int_part y)) by (rewrite <- plus_IZR; apply IZR_le; lia). pose proof (stairs_range y). assert (stairs x < IZR (Int_part x) + 1); [|lra].
    unfold stairs. apply Rplus_lt_compat_l. replace 1 with (smooth9 Rnum_ops 1) by (unfold smooth9; nums; ring). apply (e_rises _ smooth9_eases); lra.
Qed.
Lemma stairs_step k : stairs (IZR k) = IZR k.
Proof. unfold stairs, frac. rewrite (int_unique (IZR k) k) by lra. rewrite Rminus_diag_eq by reflexivity. unfold smooth9; nums; ring. Qed.
Lemma soft_crush_shape h : 0 < h -> exists f, (forall x, shape_oneR (SoftCrush h) x = Some (SoftCrush h, f x)) /\ (forall k, f (IZR k / h) = IZR k / h) /\ (forall x y, x < y -> f x < f y) /\ (forall x k, IZR k / h <= x <= IZR (k + 1) / h -> IZR k / h <= f x <= IZR (k + 1) / h).
Proof.
  intros H. assert (I : 0 < / h) by now apply Rinv_0_lt_compat. assert (St : forall k, stairs (IZR k / h * h) / h = IZR k / h) by (intros k; replace (IZR k / h * h) with (IZR k) by (field; lra); now rewrite stairs_step).
  assert (Mo : forall x y, x < y -> stairs (x * h) / h < stairs (y * h) / h) by (intros x y L; apply Rmult_lt_compat_r; [exact I|]; apply stairs_rise; nra).
  exists (fun x => stairs (x * h) / h). refine (conj _ (conj St (conj Mo _))); [reflexivity|]. intros x k [A B].
  assert (M' : forall x y, x <= y -> stairs (x * h) / h <= stairs (y * h) / h) by (intros u v [L| ->]; [left; now apply Mo|lra]).
  pose proof (M' _ _ A) as A'. pose proof (M' _ _ B) as B'. rewrite St in A', B'. auto.
Qed.
(* ---- blocks ---- *)
Lemma run_map s f : forall l, (forall x, In x l -> shape_oneR s x = Some (s, f x)) -> shape_runR s l = Some (s, map f l).
Proof. induction l as [|x l IH]; intros H; [reflexivity|]. cbn [shape_run map]. rewrite H by now left. rewrite IH; [reflexivity|]. intros y Y. apply H. now right. Qed.
Lemma word_run s l : Forall (regular s) l -> shape_word Rnum_ops tanh atan sqrt PI (2 / PI) s l = shape_runR s l.
Proof.
  intros H. rewrite Forall_forall in H. destruct s; cbn [shape_word]; try reflexivity; symmetry; apply run_map; intros x X; specialize (H x X); cbn [regular] in H; cbn [shape_one].
  - rewrite clamp_coreR; [reflexivity|]. cbn. lra.
  - change (nleb Rnum_ops lo hi) with (if Rle_dec lo hi then true else false). destruct (Rle_dec lo hi); [|contradiction]. rewrite clamp_coreR by exact H. reflexivity.
  - reflexivity.
  - unfold softsign. cbn [nmul nabs nadd ndiv n1 nofZ Rnum_ops]. rewrite Rabs_mult, (Rabs_pos_eq h) by exact H. reflexivity.
  - cbn [nmul Rnum_ops ndiv]. now rewrite round_same.
  - cbn zeta. cbn [nmul Rnum_ops ndiv nofZ nfloor]. rewrite floor_simd_ok by exact H. reflexivity.
Qed.
Lemma regular_kept : forall s l s' o, shape_runR s l = Some (s', o) -> forall x, regular s x -> regular s' x.
Proof.
  intros s l. revert s. induction l as [|y l IH]; intros s s' o E x H; cbn [shape_run] in E. { injection E as <- <-. exact H. }
  destruct (shape_oneR s y) as [[s1 z]|] eqn:E1; [|discriminate]. destruct (shape_runR s1 l) as [[s2 o2]|] eqn:E2; [|discriminate]. injection E as <- <-. apply (IH _ _ _ E2). clear IH E2.
  destruct s; cbn [shape_one] in E1; try (injection E1 as <- <-; exact H).
  - destruct (nleb Rnum_ops lo hi); [|discriminate]. injection E1 as <- <-. exact H.
  - cbn zeta in E1. destruct (shape_oneR s _) as [[s3 w]|]; [|discriminate]. injection E1 as <- <-. exact I.
Qed.
Lemma shape_run_app a b s : shape_runR s (a ++ b) = match shape_runR s a with Some (s1, o1) => match shape_runR s1 b with Some (s2, o2) => Some (s2, o1 ++ o2) | None => None end | None => None end.
Proof.
  revert s. induction a as [|x a IH]; intros s; cbn [app shape_run]. { destruct (shape_runR s b) as [[]|]; reflexivity. }
  destruct (shape_oneR s x) as [[s1 y]|]; [|reflexivity]. rewrite IH. destruct (shape_runR s1 a) as [[s2 o2]|]; [|reflexivity]. destruct (shape_runR s2 b) as [[]|]; reflexivity.
Qed.
Lemma words_run : forall n s l, Forall (regular s) l -> shape_words Rnum_ops tanh atan sqrt PI (2 / PI) n s l = shape_runR s (firstn (8 * n) l).
Proof.
  induction n as [|n IH]; intros s l H; [reflexivity|]. cbn [shape_words]. rewrite <- (firstn_skipn 8 l) in H. apply Forall_app in H. destruct H as [H1 H2]. rewrite word_run by exact H1.
  replace (firstn (8 * S n) l) with (firstn 8 l ++ firstn (8 * n) (skipn 8 l)).
  - rewrite shape_run_app. destruct (shape_runR s (firstn 8 l)) as [[s1 o1]|] eqn:E; [|reflexivity]. rewrite IH; [reflexivity|]. eapply Forall_impl; [|exact H2]. exact (regular_kept _ _ _ _ E).
  - clear. replace (8 * S n)%nat with (8 + 8 * n)%nat by lia. generalize (8 * n)%nat as m. revert l. generalize 8%nat as k. induction k as [|k IH]; intros l m; [reflexivity|]. destruct l as [|x l]; [cbn; now rewrite firstn_nil|]. cbn [firstn skipn app Nat.add]. now rewrite IH.
Qed.
Lemma process_run s l : Forall (regular s) l -> shape_processR s l = shape_runR s l.
Proof.
  intros H. unfold shape_process. cbn zeta. rewrite words_run by exact H. rewrite <- (firstn_skipn (8 * (length l / 8)) l) at 3. now rewrite shape_run_app.
Qed.
(* ---- Adaptive ---- *)
Notation "'sq' x" := (1 / 1000000 + x * x) (at level 9).
Lemma ms_nil m v : mean_square m v [] = v. Proof. unfold mean_square. cbn. ring. Qed.
Lemma ms_cons m v x l : mean_square m v (x :: l) = mean_square m (m * v + (1 - m) * sq x) l.
Proof.
  unfold mean_square. cbn [length]. rewrite total_first. cbn [nth]. replace (S (length l) - 1 - 0)%nat with (length l) by lia. rewrite (total_ext (length l) (fun i => (1 - m) * m ^ (S (length l) - 1 - S i) * sq (nth i l 0)) (fun k => (1 - m) * m ^ (length l - 1 - k) * sq (nth k l 0))).
  - cbn [pow]. ring.
  - intros i Hi. replace (S (length l) - 1 - S i)%nat with (length l - 1 - i)%nat by lia. reflexivity.
Qed.
Lemma leveled_cons m v x l : leveled m v (x :: l) = x / sqrt (m * v + (1 - m) * sq x) :: leveled m (m * v + (1 - m) * sq x) l.
Proof.
  unfold leveled. cbn [length seq map]. f_equal. { cbn [nth firstn]. now rewrite ms_cons, ms_nil. } rewrite <- seq_shift, map_map. apply map_ext. intros n. cbn [nth]. rewrite firstn_cons, ms_cons. reflexivity.
Qed.
Lemma adaptive_run inner t m : forall l v, shape_runR (Adaptive inner t m v) l = match shape_runR inner (leveled m v l) with Some (inner', o) => Some (Adaptive inner' t m (mean_square m v l), o) | None => None end.
Proof.
  intros l. revert inner. induction l as [|x l IH]; intros inner v. { cbn [shape_run leveled length seq map]. now rewrite ms_nil. }
  rewrite leveled_cons, ms_cons. cbn [shape_run shape_one]. cbn zeta. change (nadd Rnum_ops (nmul Rnum_ops m v) (nmul Rnum_ops (nsub Rnum_ops (n1 Rnum_ops) m) (nadd Rnum_ops (micro Rnum_ops) (nmul Rnum_ops x x)))) with (m * v + (1 - m) * sq x). cbn [ndiv Rnum_ops].
  destruct (shape_oneR inner (x / sqrt (m * v + (1 - m) * sq x))) as [[i1 y]|]; [|reflexivity]. rewrite IH. destruct (shape_runR i1 _) as [[i2 o]|]; reflexivity.
Qed.
Lemma ms_floor m : 0 <= m <= 1 -> forall l v, 1 / 1000000 <= v -> 1 / 1000000 <= mean_square m v l.
Proof. intros M. induction l as [|x l IH]; intros v V; [now rewrite ms_nil|]. rewrite ms_cons. apply IH. assert (0 <= x * x) by nra. nra. Qed.
Lemma ms_last m : forall l v x, mean_square m v (l ++ [x]) = m * mean_square m v l + (1 - m) * sq x.
Proof. induction l as [|y l IH]; intros v x; cbn [app]; [now rewrite ms_cons, !ms_nil|]. rewrite !ms_cons. apply IH. Qed.
Lemma ms_pos m : 0 <= m < 1 -> forall l v, 0 <= v -> 0 <= mean_square m v l.
Proof. intros M. induction l as [|x l IH]; intros v V; [now rewrite ms_nil|]. rewrite ms_cons. apply IH. nra. Qed.
Lemma leveled_bound m v l y : 0 <= m < 1 -> 0 <= v -> In y (leveled m v l) -> Rabs y < / sqrt (1 - m).
Proof.
  intros M V I. apply in_map_iff in I. destruct I as (n & <- & I). apply in_seq in I. assert (E : firstn (S n) l = firstn n l ++ [nth n l 0]).
  { assert (Hn : (n < length l)%nat) by lia. clear -Hn. revert l Hn. induction n as [|n IH]; intros [|x l] Hn; cbn [length] in Hn; try lia; [reflexivity|]. cbn [firstn nth app]. f_equal. apply IH. lia. }
  rewrite E, ms_last. set (x := nth n l 0). pose proof (ms_pos m M (firstn n l) v V) as P. set (w := m * mean_square m v (firstn n l) + (1 - m) * sq x). assert (W : (1 - m) * (x * x) < w) by (unfold w; nra). assert (W0 : 0 < w) by (assert (0 <= (1 - m) * (x * x)) by nra; lra).
  pose proof (sqrt_lt_R0 w W0) as S1. assert (S2 : 0 < sqrt (1 - m)) by (apply sqrt_lt_R0; lra). unfold Rdiv. rewrite Rabs_mult, (Rabs_pos_eq (/ sqrt w)) by (left; now apply Rinv_0_lt_compat).
  apply (Rmult_lt_reg_r (sqrt w * sqrt (1 - m))); [nra|]. replace (Rabs x * / sqrt w * (sqrt w * sqrt (1 - m))) with (Rabs x * sqrt (1 - m)) by (field; lra). replace (/ sqrt (1 - m) * (sqrt w * sqrt (1 - m))) with (sqrt w) by (field; lra).
  rewrite <- sqrt_Rsqr_abs. rewrite <- sqrt_mult by (try apply Rle_0_sqr; lra). apply sqrt_lt_1; try lra; unfold Rsqr; nra.
Qed.
Lemma ms_constant m a : forall n v, mean_square m v (repeat a n) = sq a + m ^ n * (v - sq a).
Proof. induction n as [|n IH]; intros v; [cbn [repeat]; rewrite ms_nil; cbn [pow]; ring|]. cbn [repeat]. rewrite ms_cons, IH. cbn [pow]. ring. Qed.
Definition smoothing (t sr : R) : R := Rpower (1 / 2) (1 / (t * sr)).
Lemma smoothing_range t sr : 0 < t -> 0 < sr -> 0 < smoothing t sr < 1.
Proof.
  intros T S. unfold smoothing. split; [apply exp_pos|]. unfold Rpower. apply Rlt_le_trans with (exp 0); [apply exp_increasing|rewrite exp_0; lra]. assert (ln (1 / 2) < 0) by (apply Rlt_le_trans with (ln 1); [apply ln_increasing; lra|rewrite ln_1; lra]). assert (0 < 1 / (t * sr)) by (apply Rdiv_lt_0_compat; nra). nra.
Qed.
Lemma halfway inner t sr m0 v a n : 0 < t -> 0 < sr -> INR n = t * sr -> exists m, set_srR (Adaptive inner t m0 v) sr = Adaptive (set_srR inner sr) t m v /\ 0 < m < 1 /\ mean_square m v (repeat a n) = (v + (1 / 1000000 + a * a)) / 2.
Proof.
  intros T S N. exists (smoothing t sr). split; [reflexivity|]. split; [now apply smoothing_range|]. rewrite ms_constant. assert (E : smoothing t sr ^ n = 1 / 2).
  { rewrite <- Rpower_pow by (apply smoothing_range; assumption). unfold smoothing. rewrite Rpower_mult, N. replace (1 / (t * sr) * (t * sr)) with 1 by (unfold Rdiv; rewrite Rmult_1_l, Rinv_l; [reflexivity|nra]). apply Rpower_1. lra. } rewrite E. field.
Qed.
Lemma reset_level inner t sr m0 v l : 0 < t -> 0 < sr -> exists m, resetR (set_srR (Adaptive inner t m0 v) sr) = Adaptive (resetR (set_srR inner sr)) t m (1 / 1000) /\ 0 < m < 1 /\ 1 / 1000 <= sqrt (mean_square m (1 / 1000) l).
Proof.
  intros T S. exists (smoothing t sr). pose proof (smoothing_range t sr T S). split; [reflexivity|]. split; [assumption|]. assert (E : sqrt (1 / 1000000) = 1 / 1000) by (replace (1 / 1000000) with (1 / 1000 * (1 / 1000)) by field; apply sqrt_square; lra). rewrite <- E at 1.
  apply sqrt_le_1; try lra; [pose proof (ms_floor (smoothing t sr) ltac:(lra) l (1 / 1000) ltac:(lra)); lra|]. apply ms_floor; lra.
Qed.
Lemma new_level t : 0 < t -> exists x0, 0 < x0 /\ forall x, 0 < x < x0 -> exists s y, shape_oneR (adaptive_newR t (ShapeFn (fun x => x))) x = Some (s, y) /\ x / (1 / 1000) < y.
Proof.
  intros T. set (m := smoothing t 44100). pose proof (smoothing_range t 44100 T ltac:(lra)) as M. fold m in M. exists (sqrt (m / 1000000)). split; [apply sqrt_lt_R0; lra|]. intros x [X0 X1]. eexists. eexists. split; [reflexivity|].
  match goal with |- _ < ndiv Rnum_ops x (sqrt ?e) => change e with (m * 0 + (1 - m) * sq x) end. cbn [ndiv Rnum_ops].
  assert (Q : x * x < m / 1000000). { replace (m / 1000000) with (sqrt (m / 1000000) * sqrt (m / 1000000)) by (apply sqrt_sqrt; lra). nra. }
  assert (W : 0 < m * 0 + (1 - m) * sq x) by nra. assert (L : m * 0 + (1 - m) * sq x < 1 / 1000000) by nra. set (w := m * 0 + (1 - m) * sq x) in *.
  assert (E : sqrt (1 / 1000000) = 1 / 1000) by (replace (1 / 1000000) with (1 / 1000 * (1 / 1000)) by field; apply sqrt_square; lra).
  assert (SL : sqrt w < 1 / 1000) by (rewrite <- E; apply sqrt_lt_1; lra).
  pose proof (sqrt_lt_R0 w W). apply Rmult_lt_compat_l; [exact X0|]. apply Rinv_lt_contravar; [nra|exact SL].
Qed.
