(* Resonators and Butterworth filters whose frequency alternates between two values blow up. *)
From Coq Require Import Reals Lra Lia Psatz.
From Verif Require Import ShapeProofs TuneProofs TuneReal TuneBounds.
From Verif Require Export ModPoles.
Local Open Scope R_scope.

Lemma signs_differ u v x y : 0 <= u -> 0 <= v -> x * y <= 0 -> u * Rabs x <= Rabs (u * x - v * y) /\ 0 <= (u * x - v * y) * x.
Proof.
  intros U V H. split; [|nra]. destruct (Rle_dec 0 x) as [X|X].
  - destruct (Req_dec x 0) as [-> |N]; [rewrite Rabs_R0, Rmult_0_r; apply Rabs_pos|]. assert (y <= 0) by nra. assert (0 <= v * - y) by (apply Rmult_le_pos; lra). assert (0 <= u * x) by (apply Rmult_le_pos; lra). rewrite !Rabs_pos_eq by lra. lra.
  - assert (0 <= y) by nra. assert (0 <= v * y) by (apply Rmult_le_pos; lra). assert (0 <= u * - x) by (apply Rmult_le_pos; lra). rewrite (Rabs_left x), Rabs_left1 by lra. lra.
Qed.
Lemma signs_agree u v x y : 0 <= u -> 0 <= v -> 0 <= x * y -> u * Rabs x + v * Rabs y <= Rabs (- u * x - v * y) /\ (- u * x - v * y) * x <= 0.
Proof.
  intros U V H. split.
  - assert (E : u * Rabs x + v * Rabs y = Rabs (u * x + v * y)).
    { rewrite <- (Rabs_pos_eq u) at 1 by lra. rewrite <- (Rabs_pos_eq v) at 1 by lra. rewrite <- !Rabs_mult. assert (0 <= (u * x) * (v * y)) by (replace (u * x * (v * y)) with (u * v * (x * y)) by ring; apply Rmult_le_pos; [apply Rmult_le_pos|]; lra).
      set (a := u * x) in *. set (b := v * y) in *. unfold Rabs. destruct (Rcase_abs a), (Rcase_abs b), (Rcase_abs (a + b)); nra. }
    rewrite E. replace (- u * x - v * y) with (- (u * x + v * y)) by ring. rewrite Rabs_Ropp. apply Rle_refl.
  - assert (0 <= u * (x * x)) by (apply Rmult_le_pos; [lra|apply Rle_0_sqr]). assert (0 <= v * (x * y)) by (apply Rmult_le_pos; lra). nra.
Qed.

Section Alternate.
  Context {G S X : Type}.
  Variable tl : tools R G S X.
  Notation nm := Rnum_ops.
  Variables NA NB : biquad R -> tnode R G S X.
  Variables iA iB : list R.
  Variables cA cB : bicoefs R.
  Hypothesis HA : forall b, t_tick nm tl (NB b) iA = let (b', y) := bi_step nm (with_coefs b cA) 0 in (NA b', [y]).
  Hypothesis HB : forall b, t_tick nm tl (NA b) iB = let (b', y) := bi_step nm (with_coefs b cB) 0 in (NB b', [y]).
  Hypothesis A1 : bi_a1 cA <= 0. Hypothesis A2 : 0 <= bi_a2 cA. Hypothesis B1 : 0 <= bi_a1 cB. Hypothesis B2 : 0 <= bi_a2 cB.
  Variable g : R.
  Hypothesis Hg : 0 <= g <= bi_a1 cB * - bi_a1 cA + bi_a2 cB.
  Fixpoint swings (j : nat) : list (act R) := match j with O => [] | Datatypes.S j => ATick iA :: ATick iB :: swings j end.
  Lemma one_swing b : bq_x1 b = 0 -> bq_x2 b = 0 -> bq_y1 b * bq_y2 b <= 0 -> exists n1 y1 b2 y2, t_tick nm tl (NB b) iA = (n1, [y1]) /\ t_tick nm tl n1 iB = (NB b2, [y2]) /\ bq_x1 b2 = 0 /\ bq_x2 b2 = 0 /\ bq_y1 b2 = y2 /\ bq_y1 b2 * bq_y2 b2 <= 0 /\ g * Rabs (bq_y1 b) <= Rabs y2.
  Proof.
    intros X1 X2 H. rewrite HA. unfold bi_step. cbn [with_coefs bq_c bq_x1 bq_x2 bq_y1 bq_y2]. eexists _, _, _, _. split; [reflexivity|]. rewrite HB. unfold bi_step. cbn [with_coefs bq_c bq_x1 bq_x2 bq_y1 bq_y2]. split; [reflexivity|]. cbn [bq_x1 bq_x2 bq_y1 bq_y2]. split; [reflexivity|]. split; [reflexivity|]. split; [reflexivity|].
    rewrite X1, X2. cbn [nadd nsub nmul Rnum_ops].
    set (p := bq_y1 b) in *. set (q := bq_y2 b) in *. set (u := - bi_a1 cA) in *. set (v := bi_a2 cA) in *.
    assert (EA : bi_b0 cA * 0 + bi_b1 cA * 0 + bi_b2 cA * 0 - bi_a1 cA * p - v * q = u * p - v * q) by (unfold u; ring). rewrite EA. clear EA. set (m := u * p - v * q) in *.
    assert (EB : bi_b0 cB * 0 + bi_b1 cB * 0 + bi_b2 cB * 0 - bi_a1 cB * m - bi_a2 cB * p = - bi_a1 cB * m - bi_a2 cB * p) by ring. rewrite EB. clear EB.
    destruct (signs_differ u v p q ltac:(unfold u; lra) A2 H) as [D1 D2]. fold m in D1, D2. destruct (signs_agree (bi_a1 cB) (bi_a2 cB) m p B1 B2 D2) as [E1 E2]. split; [exact E2|]. eapply Rle_trans; [|exact E1].
    assert (bi_a1 cB * (u * Rabs p) <= bi_a1 cB * Rabs m) by (apply Rmult_le_compat_l; assumption). assert (g * Rabs p <= (bi_a1 cB * u + bi_a2 cB) * Rabs p) by (apply Rmult_le_compat_r; [apply Rabs_pos|lra]). lra.
  Qed.
  Lemma many_swings j : forall b, bq_x1 b = 0 -> bq_x2 b = 0 -> bq_y1 b * bq_y2 b <= 0 -> exists n os, t_run nm tl (NB b) (swings (Datatypes.S j)) = Some (n, os) /\ exists y, In [y] os /\ g ^ Datatypes.S j * Rabs (bq_y1 b) <= Rabs y.
  Proof.
    induction j as [|j IH]; intros b X1 X2 H; destruct (one_swing b X1 X2 H) as (n1 & y1 & b2 & y2 & T1 & T2 & Z1 & Z2 & Y & P & L).
    - exists (NB b2), [[y1]; [y2]]. cbn [swings t_run]. rewrite T1, T2. split; [reflexivity|]. exists y2. split; [right; left; reflexivity|]. cbn [pow]. lra.
    - destruct (IH b2 Z1 Z2 P) as (n & os & E & y & I & Q). exists n, ([y1] :: [y2] :: os). change (swings (Datatypes.S (Datatypes.S j))) with (ATick iA :: ATick iB :: swings (Datatypes.S j)). cbn [t_run]. rewrite T1, T2, E. split; [reflexivity|]. exists y. split; [right; right; exact I|].
      eapply Rle_trans; [|exact Q]. rewrite Y. change (g ^ Datatypes.S (Datatypes.S j)) with (g * g ^ Datatypes.S j). replace (g * g ^ Datatypes.S j * Rabs (bq_y1 b)) with (g ^ Datatypes.S j * (g * Rabs (bq_y1 b))) by ring. apply Rmult_le_compat_l; [apply pow_le; lra|exact L].
  Qed.
  Lemma swings_grow b C : 1 < g -> bq_x1 b = 0 -> bq_x2 b = 0 -> bq_y1 b * bq_y2 b <= 0 -> bq_y1 b <> 0 -> exists j n os, t_run nm tl (NB b) (swings j) = Some (n, os) /\ ~ bounded C os.
  Proof.
    intros G1 X1 X2 H N. assert (P : 0 < Rabs (bq_y1 b)) by (apply Rabs_pos_lt; exact N). destruct (Pow_x_infinity g ltac:(rewrite Rabs_pos_eq; lra) ((Rabs C + 1) / Rabs (bq_y1 b))) as [j Hj]. specialize (Hj (Datatypes.S j) ltac:(lia)).
    destruct (many_swings j b X1 X2 H) as (n & os & E & y & I & Q). exists (Datatypes.S j), n, os. split; [exact E|]. intros Bd. unfold bounded in Bd. rewrite Forall_forall in Bd. specialize (Bd _ I). inversion Bd as [|? ? Hy _]; subst.
    rewrite Rabs_pos_eq in Hj by (apply pow_le; lra). apply Rge_le in Hj. apply (Rmult_le_compat_r (Rabs (bq_y1 b))) in Hj; [|lra]. unfold Rdiv in Hj. rewrite Rmult_assoc, Rinv_l in Hj by lra. pose proof (Rle_abs C). lra.
  Qed.
  Lemma swings_in (P : act R -> Prop) j : P (ATick iA) -> P (ATick iB) -> Forall P (swings j). Proof. intros. induction j; cbn [swings]; [apply Forall_nil|]. repeat (apply Forall_cons; [assumption|]). exact IHj. Qed.
End Alternate.
Lemma t_run_join {F G S X} (nm : num F) (tl : tools F G S X) l1 : forall n m l2 o1 n' o2, t_run nm tl n l1 = Some (m, o1) -> t_run nm tl m l2 = Some (n', o2) -> t_run nm tl n (l1 ++ l2) = Some (n', o1 ++ o2).
Proof.
  induction l1 as [|a l1 IH]; intros n m l2 o1 n' o2 E1 E2.
  - injection E1 as <- <-. exact E2.
  - destruct a; cbn [app t_run] in *.
    + destruct (t_tick nm tl n i) as [n1 o]. destruct (t_run nm tl n1 l1) as [[q p]|] eqn:E; [|discriminate]. injection E1 as <- <-. rewrite (IH _ _ _ _ _ _ E E2). reflexivity.
    + destruct (t_set nm tl n s) as [n1|]; [|discriminate]. exact (IH _ _ _ _ _ _ E1 E2).
    + exact (IH _ _ _ _ _ _ E1 E2).
    + exact (IH _ _ _ _ _ _ E1 E2).
Qed.
Lemma Rneqb_true a b : a <> b -> neqb Rnum_ops a b = true.
Proof. intros H. unfold neqb. cbn [nleb Rnum_ops]. destruct (Rle_dec a b), (Rle_dec b a); try reflexivity. exfalso. apply H. lra. Qed.

(* ---- resonator ---- *)
Lemma reson_ticks {G S X} (tl : tools R G S X) b f f0 q q0 x : tl_elem tl = R_elem -> f <> f0 -> t_tick Rnum_ops tl (TReson true b 48000 f0 q0) [x; f; q] = let (b', y) := bi_step Rnum_ops (with_coefs b (resonator Rnum_ops R_elem 48000 f q)) x in (TReson true b' 48000 f q, [y]).
Proof. intros Hel N. cbn [t_tick nth]. rewrite (Rneqb_true f f0 N). cbn [andb orb]. rewrite Hel. reflexivity. Qed.
Lemma reson_A : resonator Rnum_ops R_elem 48000 8000 10 = mkBi (- exp (- (PI / 60))) (exp (- (PI / 60)) * exp (- (PI / 60))) (sqrt (1 - exp (- (PI / 60)) * exp (- (PI / 60))) * / 2) 0 (- (sqrt (1 - exp (- (PI / 60)) * exp (- (PI / 60))) * / 2)).
Proof.
  unfold resonator, tau, dec. cbn [e_exp e_pi e_cos e_sqrt R_elem nneg nmul ndiv nsub n1 n0 nofZ Rnum_ops].
  replace (- PI * 8000 / (10 * 48000)) with (- (PI / 60)) by field. replace (2 * PI * 8000 / 48000) with (PI / 3) by field. rewrite cos_PI3. f_equal; try field.
Qed.
Lemma reson_B : resonator Rnum_ops R_elem 48000 16000 10 = mkBi (exp (- (PI / 30))) (exp (- (PI / 30)) * exp (- (PI / 30))) (sqrt (1 - exp (- (PI / 30)) * exp (- (PI / 30))) * / 2) 0 (- (sqrt (1 - exp (- (PI / 30)) * exp (- (PI / 30))) * / 2)).
Proof.
  unfold resonator, tau, dec. cbn [e_exp e_pi e_cos e_sqrt R_elem nneg nmul ndiv nsub n1 n0 nofZ Rnum_ops].
  replace (- PI * 16000 / (10 * 48000)) with (- (PI / 30)) by field. replace (2 * PI * 16000 / 48000) with (2 * (PI / 3)) by field. rewrite cos_2PI3. f_equal; try field.
Qed.
Lemma four_ticks {G S X} (tl : tools R G S X) (NA NB : biquad R -> tnode R G S X) cA cB iA iB kA b :
  (forall b, t_tick Rnum_ops tl (NB b) iA = let (b', y) := bi_step Rnum_ops (with_coefs b cA) 0 in (NA b', [y])) -> (forall b, t_tick Rnum_ops tl (NA b) iB = let (b', y) := bi_step Rnum_ops (with_coefs b cB) 0 in (NB b', [y])) ->
  (forall b, t_tick Rnum_ops tl (NB b) kA = let (b', y) := bi_step Rnum_ops (with_coefs b cA) 1 in (NA b', [y])) -> bq_x1 b = 0 -> bq_x2 b = 0 -> bq_y1 b = 0 -> bq_y2 b = 0 ->
  let y0 := bi_b0 cA in let y1 := bi_b1 cB - bi_a1 cB * y0 in let y2 := bi_b2 cA - bi_a1 cA * y1 - bi_a2 cA * y0 in let y3 := - bi_a1 cB * y2 - bi_a2 cB * y1 in
  exists os, t_run Rnum_ops tl (NB b) [ATick kA; ATick iB; ATick iA; ATick iB] = Some (NB (mkBiquad cB 0 0 y3 y2), os).
Proof.
  intros HA HB HK X1 X2 Y1 Y2 y0 y1 y2 y3. cbn [t_run]. rewrite HK. unfold bi_step at 1. cbn [with_coefs bq_c bq_x1 bq_x2 bq_y1 bq_y2]. rewrite HB. unfold bi_step at 1. cbn [with_coefs bq_c bq_x1 bq_x2 bq_y1 bq_y2]. rewrite HA. unfold bi_step at 1. cbn [with_coefs bq_c bq_x1 bq_x2 bq_y1 bq_y2]. rewrite HB. unfold bi_step at 1. cbn [with_coefs bq_c bq_x1 bq_x2 bq_y1 bq_y2].
  rewrite X1, X2, Y1, Y2. cbn [nadd nsub nmul Rnum_ops]. eexists. apply f_equal. apply f_equal2; [|reflexivity]. f_equal. unfold y3, y2, y1, y0. f_equal; ring.
Qed.
Lemma reson_blows : forall (G S X : Type) (tl : tools R G S X), tl_elem tl = R_elem -> forall C, exists n acts os, build Rnum_ops tl true (OReson 16000 10) = Some n /\
  Forall (fun a => exists x f, a = ATick [x; f; 10] /\ 0 <= x <= 1 /\ (f = 8000 \/ f = 16000)) acts /\ t_outs Rnum_ops tl (t_rate Rnum_ops tl n 48000) acts = Some os /\ ~ bounded C os.
Proof.
  intros G S X tl Hel C. set (NA := fun b : biquad R => @TReson R G S X true b 48000 8000 10). set (NB := fun b : biquad R => @TReson R G S X true b 48000 16000 10).
  set (cA := resonator Rnum_ops R_elem 48000 8000 10). set (cB := resonator Rnum_ops R_elem 48000 16000 10).
  assert (HA : forall x b, t_tick Rnum_ops tl (NB b) [x; 8000; 10] = let (b', y) := bi_step Rnum_ops (with_coefs b cA) x in (NA b', [y])) by (intros; apply reson_ticks; [exact Hel|lra]).
  assert (HB : forall x b, t_tick Rnum_ops tl (NA b) [x; 16000; 10] = let (b', y) := bi_step Rnum_ops (with_coefs b cB) x in (NB b', [y])) by (intros; apply reson_ticks; [exact Hel|lra]).
  set (r := exp (- (PI / 60))). set (s := exp (- (PI / 30))). assert (Rs : s = r * r). { unfold s, r. rewrite <- exp_plus. f_equal. field. }
  assert (R1 : 14 / 15 <= r < 1). { unfold r. pose proof PI_4. pose proof PI_RGT_0. split; [|rewrite <- exp_0; apply exp_increasing; lra]. pose proof (exp_ineq1_le (- (PI / 60))). lra. }
  set (d := sqrt (1 - r * r) * / 2). assert (D : 0 < d). { unfold d. apply Rmult_lt_0_compat; [|lra]. apply sqrt_lt_R0. nra. }
  assert (EA : cA = mkBi (- r) (r * r) d 0 (- d)) by (unfold cA; rewrite reson_A; reflexivity).
  assert (EB : cB = mkBi s (s * s) (sqrt (1 - s * s) * / 2) 0 (- (sqrt (1 - s * s) * / 2))) by (unfold cB; rewrite reson_B; reflexivity).
  clearbody cA cB. assert (S1 : 0 < s < 1) by (rewrite Rs; nra).
  assert (Bd : exists n b, build Rnum_ops tl true (OReson 16000 10) = Some n /\ t_rate Rnum_ops tl n 48000 = NB b /\ bq_x1 b = 0 /\ bq_x2 b = 0 /\ bq_y1 b = 0 /\ bq_y2 b = 0).
  { eexists _, _. split; [reflexivity|]. cbn [t_rate reson_tune]. unfold reson_tune. split; [reflexivity|]. repeat split; reflexivity. }
  destruct Bd as (n & b & Bn & Rn & X1 & X2 & Y1 & Y2). destruct (four_ticks tl NA NB cA cB [0; 8000; 10] [0; 16000; 10] [1; 8000; 10] b (HA 0) (HB 0) (HA 1) X1 X2 Y1 Y2) as [os1 E1].
  rewrite EA, EB in E1. cbn [bi_a1 bi_a2 bi_b0 bi_b1 bi_b2] in E1. rewrite <- EB in E1.
  set (y1 := 0 - s * d) in *. set (y2 := - d - - r * y1 - r * r * d) in *. set (y3 := - s * y2 - s * s * y1) in *.
  assert (N1 : y1 < 0). { unfold y1. assert (0 < s * d) by (apply Rmult_lt_0_compat; lra). lra. } assert (N2 : y2 < 0). { unfold y2. assert (0 < r * - y1) by (apply Rmult_lt_0_compat; lra). assert (0 < r * r * d) by (apply Rmult_lt_0_compat; [apply Rmult_lt_0_compat|]; lra). lra. }
  assert (N3 : 0 < y3). { unfold y3. assert (0 < s * - y2) by (apply Rmult_lt_0_compat; lra). assert (0 < s * s * - y1) by (apply Rmult_lt_0_compat; [apply Rmult_lt_0_compat|]; lra). lra. }
  assert (GR : exists j n' os2, t_run Rnum_ops tl (NB (mkBiquad cB 0 0 y3 y2)) (swings [0; 8000; 10] [0; 16000; 10] j) = Some (n', os2) /\ ~ bounded C os2).
  { refine (swings_grow tl NA NB [0; 8000; 10] [0; 16000; 10] cA cB (HA 0) (HB 0) _ _ _ _ (6 / 5) _ (mkBiquad cB 0 0 y3 y2) C _ eq_refl eq_refl _ _); rewrite ?EA, ?EB; cbn [bi_a1 bi_a2 bq_x1 bq_x2 bq_y1 bq_y2]; try lra; try apply Rle_0_sqr; [rewrite Rs, Ropp_involutive; assert (196 / 225 <= r * r) by nra; assert (4 / 5 <= r * r * r) by nra; assert (3 / 4 <= r * r * (r * r)) by nra; lra|].
    rewrite <- (Rmult_0_r y3). apply Rmult_le_compat_l; lra. }
  destruct GR as (j & n' & os2 & E2 & U).
  exists n, ([ATick [1; 8000; 10]; ATick [0; 16000; 10]; ATick [0; 8000; 10]; ATick [0; 16000; 10]] ++ swings [0; 8000; 10] [0; 16000; 10] j), (os1 ++ os2). split; [exact Bn|]. split; [|split].
  - apply Forall_app. split; [repeat (apply Forall_cons; [eexists _, _; split; [reflexivity|]; split; [lra|auto]|]); apply Forall_nil|]. apply swings_in; eexists _, _; (split; [reflexivity|]; split; [lra|auto]).
  - unfold t_outs. rewrite Rn, (t_run_join _ _ _ _ _ _ _ _ _ E1 E2). reflexivity.
  - intros Q. apply U. unfold bounded in *. apply Forall_app in Q. apply Q.
Qed.

(* ---- butterpass ---- *)
Lemma butter_ticks {G S X} (tl : tools R G S X) b f f0 x : tl_elem tl = R_elem -> f <> f0 -> t_tick Rnum_ops tl (TButter true b 48000 f0) [x; f] = let (b', y) := bi_step Rnum_ops (with_coefs b (butter_lowpass Rnum_ops R_elem 48000 f)) x in (TButter true b' 48000 f, [y]).
Proof. intros Hel N. cbn [t_tick nth]. rewrite (Rneqb_true f f0 N). cbn [andb orb]. rewrite Hel. reflexivity. Qed.
Lemma tan_8 : tan (PI / 8) = sqrt 2 - 1.
Proof.
  pose proof PI_RGT_0 as P. assert (T : 0 < tan (PI / 8)) by (apply tan_gt_0; lra). assert (C : 0 < cos (PI / 8)) by (apply cos_gt_0; lra). assert (S2 : sqrt 2 * sqrt 2 = 2) by (apply sqrt_sqrt; lra). pose proof (sqrt_pos 2).
  assert (E : tan (PI / 4) = 1) by apply tan_PI4. replace (PI / 4) with (2 * (PI / 8)) in E by field. unfold tan in *. rewrite sin_2a, cos_2a in E. set (a := sin (PI / 8)) in *. set (c := cos (PI / 8)) in *.
  assert (N : c * c - a * a <> 0) by (intros Z; rewrite Z in E; unfold Rdiv in E; rewrite Rinv_0, Rmult_0_r in E; lra).
  assert (Q : 2 * a * c = c * c - a * a) by (apply Rmult_eq_reg_r with (/ (c * c - a * a)); [|now apply Rinv_neq_0_compat]; rewrite Rinv_r by exact N; exact E).
  assert (t2 : (a / c + 1) * (a / c + 1) = 2). { replace ((a / c + 1) * (a / c + 1)) with ((a * a + 2 * a * c + c * c) / (c * c)) by (field; lra). rewrite Q. field. lra. }
  set (t := a / c) in *. assert ((t + 1 - sqrt 2) * (t + 1 + sqrt 2) = 0) by nra. assert (t + 1 + sqrt 2 <> 0) by lra. apply Rmult_integral in H0. destruct H0; lra.
Qed.
Lemma tan_3_8 : tan (3 * (PI / 8)) = sqrt 2 + 1.
Proof.
  replace (3 * (PI / 8)) with (PI / 2 - PI / 8) by field. pose proof PI_RGT_0. assert (C : 0 < cos (PI / 8)) by (apply cos_gt_0; lra). assert (T : 0 < sin (PI / 8)) by (apply sin_gt_0; lra). pose proof tan_8 as E. unfold tan in *. rewrite sin_shift, cos_shift.
  assert (S2 : sqrt 2 * sqrt 2 = 2) by (apply sqrt_sqrt; lra). set (a := sin (PI / 8)) in *. set (c := cos (PI / 8)) in *. assert (a = (sqrt 2 - 1) * c) by (rewrite <- E; field; lra). assert (1 < sqrt 2) by (rewrite <- sqrt_1 at 1; apply sqrt_lt_1_alt; lra).
  apply Rmult_eq_reg_r with a; [|lra]. unfold Rdiv. rewrite Rmult_assoc, Rinv_l, Rmult_1_r by lra. rewrite H0. nra.
Qed.
Lemma butter_A : exists b, 0 < b <= 1 / 10 /\ butter_lowpass Rnum_ops R_elem 48000 6000 = mkBi (- (2 * sqrt 2 / 3)) (1 / 3) b (2 * b) b.
Proof.
  unfold butter_lowpass. cbn [e_tan e_pi e_sqrt R_elem nneg nadd nmul ndiv nsub n1 n0 nofZ Rnum_ops]. replace (6000 * PI / 48000) with (PI / 8) by field. rewrite tan_8. set (q := sqrt 2). assert (S2 : q * q = 2) by (apply sqrt_sqrt; lra).
  assert (Q : 141 / 100 < q < 1415 / 1000). { pose proof (sqrt_pos 2). fold q in H. split; apply Rnot_le_lt; intros W; nra. }
  assert (D : 1 + q * (q - 1) + (q - 1) * (q - 1) = 6 - 3 * q) by nra. rewrite D. exists ((q - 1) * (q - 1) * (1 / (6 - 3 * q))). assert (P : 0 < 6 - 3 * q) by lra. split.
  - split; [apply Rmult_lt_0_compat; [nra|apply Rdiv_lt_0_compat; lra]|]. apply Rmult_le_reg_r with (6 - 3 * q); [lra|]. unfold Rdiv. rewrite !Rmult_assoc, Rmult_1_l, Rinv_l by lra. nra.
  - f_equal; apply Rmult_eq_reg_r with (6 - 3 * q); try lra; unfold Rdiv; rewrite ?Rmult_1_l, Rmult_assoc, Rinv_l by lra; nra.
Qed.
Lemma butter_B : exists b, 1 / 2 < b /\ butter_lowpass Rnum_ops R_elem 48000 18000 = mkBi (2 * sqrt 2 / 3) (1 / 3) b (2 * b) b.
Proof.
  unfold butter_lowpass. cbn [e_tan e_pi e_sqrt R_elem nneg nadd nmul ndiv nsub n1 n0 nofZ Rnum_ops]. replace (18000 * PI / 48000) with (3 * (PI / 8)) by field. rewrite tan_3_8. set (q := sqrt 2). assert (S2 : q * q = 2) by (apply sqrt_sqrt; lra).
  assert (Q : 141 / 100 < q < 1415 / 1000). { pose proof (sqrt_pos 2). fold q in H. split; apply Rnot_le_lt; intros W; nra. }
  assert (D : 1 + q * (q + 1) + (q + 1) * (q + 1) = 6 + 3 * q) by nra. rewrite D. exists ((q + 1) * (q + 1) * (1 / (6 + 3 * q))). assert (P : 0 < 6 + 3 * q) by lra. split.
  - apply Rmult_lt_reg_r with (6 + 3 * q); [lra|]. unfold Rdiv. rewrite !Rmult_assoc, !Rmult_1_l, Rinv_l by lra. nra.
  - f_equal; apply Rmult_eq_reg_r with (6 + 3 * q); try lra; unfold Rdiv; rewrite ?Rmult_1_l, Rmult_assoc, Rinv_l by lra; nra.
Qed.
Lemma butter_blows : forall (G S X : Type) (tl : tools R G S X), tl_elem tl = R_elem -> forall C, exists n acts os, build Rnum_ops tl true (OButter 18000) = Some n /\
  Forall (fun a => exists x f, a = ATick [x; f] /\ 0 <= x <= 1 /\ (f = 6000 \/ f = 18000)) acts /\ t_outs Rnum_ops tl (t_rate Rnum_ops tl n 48000) acts = Some os /\ ~ bounded C os.
Proof.
  intros G S X tl Hel C. set (NA := fun b : biquad R => @TButter R G S X true b 48000 6000). set (NB := fun b : biquad R => @TButter R G S X true b 48000 18000).
  set (cA := butter_lowpass Rnum_ops R_elem 48000 6000). set (cB := butter_lowpass Rnum_ops R_elem 48000 18000).
  assert (HA : forall x b, t_tick Rnum_ops tl (NB b) [x; 6000] = let (b', y) := bi_step Rnum_ops (with_coefs b cA) x in (NA b', [y])) by (intros; apply butter_ticks; [exact Hel|lra]).
  assert (HB : forall x b, t_tick Rnum_ops tl (NA b) [x; 18000] = let (b', y) := bi_step Rnum_ops (with_coefs b cB) x in (NB b', [y])) by (intros; apply butter_ticks; [exact Hel|lra]).
  destruct butter_A as (d & D & EA). destruct butter_B as (e & E & EB). fold cA in EA. fold cB in EB. clearbody cA cB. set (q := sqrt 2) in *. assert (S2 : q * q = 2) by (apply sqrt_sqrt; lra).
  assert (Q : 141 / 100 < q < 1415 / 1000). { pose proof (sqrt_pos 2). fold q in H. split; apply Rnot_le_lt; intros W; nra. }
  assert (Bd : exists n b, build Rnum_ops tl true (OButter 18000) = Some n /\ t_rate Rnum_ops tl n 48000 = NB b /\ bq_x1 b = 0 /\ bq_x2 b = 0 /\ bq_y1 b = 0 /\ bq_y2 b = 0).
  { eexists _, _. split; [reflexivity|]. cbn [t_rate butter_tune]. unfold butter_tune. split; [reflexivity|]. repeat split; reflexivity. }
  destruct Bd as (n & b & Bn & Rn & X1 & X2 & Y1 & Y2). destruct (four_ticks tl NA NB cA cB [0; 6000] [0; 18000] [1; 6000] b (HA 0) (HB 0) (HA 1) X1 X2 Y1 Y2) as [os1 E1].
  rewrite EA, EB in E1. cbn [bi_a1 bi_a2 bi_b0 bi_b1 bi_b2] in E1. rewrite <- EB in E1.
  set (al := 2 * q / 3) in *. assert (AL : 9 / 10 < al < 1) by (unfold al; lra). assert (A2 : al * al = 8 / 9) by (unfold al; nra).
  set (y1 := 2 * e - al * d) in *. set (y2 := d - - al * y1 - 1 / 3 * d) in *. set (y3 := - al * y2 - 1 / 3 * y1) in *.
  assert (AD : al * d <= 1 * d) by (apply Rmult_le_compat_r; lra).
  assert (N1 : 0 < y1) by (unfold y1; lra). assert (N2 : 0 < y2). { unfold y2. assert (0 < al * y1) by (apply Rmult_lt_0_compat; lra). lra. }
  assert (N3 : y3 < 0). { unfold y3. assert (0 < al * y2) by (apply Rmult_lt_0_compat; lra). lra. }
  assert (GR : exists j n' os2, t_run Rnum_ops tl (NB (mkBiquad cB 0 0 y3 y2)) (swings [0; 6000] [0; 18000] j) = Some (n', os2) /\ ~ bounded C os2).
  { refine (swings_grow tl NA NB [0; 6000] [0; 18000] cA cB (HA 0) (HB 0) _ _ _ _ (11 / 9) _ (mkBiquad cB 0 0 y3 y2) C _ eq_refl eq_refl _ _); rewrite ?EA, ?EB; cbn [bi_a1 bi_a2 bq_x1 bq_x2 bq_y1 bq_y2]; try lra.
    rewrite <- (Rmult_0_l y2). apply Rmult_le_compat_r; lra. }
  destruct GR as (j & n' & os2 & E2 & U).
  exists n, ([ATick [1; 6000]; ATick [0; 18000]; ATick [0; 6000]; ATick [0; 18000]] ++ swings [0; 6000] [0; 18000] j), (os1 ++ os2). split; [exact Bn|]. split; [|split].
  - apply Forall_app. split; [repeat (apply Forall_cons; [eexists _, _; split; [reflexivity|]; split; [lra|auto]|]); apply Forall_nil|]. apply swings_in; eexists _, _; (split; [reflexivity|]; split; [lra|auto]).
  - unfold t_outs. rewrite Rn, (t_run_join _ _ _ _ _ _ _ _ _ E1 E2). reflexivity.
  - intros Z. apply U. unfold bounded in *. apply Forall_app in Z. apply Z.
Qed.
