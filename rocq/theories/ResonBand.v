(* The power of tones through resonators with any center frequency, and their half power bands. *)
From Coq Require Import Reals Lra Lia Ratan.
From Coquelicot Require Import Complex.
From Verif Require Import ResonSpec ResonModel DesignProofs CharProofs ResonProofs.
Local Open Scope R_scope.

(* ---- hyperbolic functions ---- *)
Lemma cosh_pos x : 0 < cosh x.
Proof. unfold cosh. pose proof (exp_pos x). pose proof (exp_pos (- x)). lra. Qed.
Lemma sinh_pos x : 0 < x -> 0 < sinh x.
Proof. intros H. rewrite <- sinh_0. now apply sinh_lt. Qed.
Lemma cosh_sinh x : cosh x * cosh x - sinh x * sinh x = 1.
Proof. unfold cosh, sinh. assert (E : exp x * exp (- x) = 1) by (rewrite <- exp_plus, Rplus_opp_r; apply exp_0). replace (_ - _) with (exp x * exp (- x)) by field. exact E. Qed.
Lemma cosh_double x : cosh (2 * x) = cosh x * cosh x + sinh x * sinh x.
Proof. unfold cosh, sinh. replace (- (2 * x)) with (- x + - x) by ring. replace (2 * x) with (x + x) by ring. rewrite !exp_plus. field. Qed.
Lemma cosh_ge_1 x : 1 <= cosh x.
Proof. pose proof (cosh_sinh x) as E. pose proof (cosh_pos x). pose proof (Rle_0_sqr (sinh x)) as Q. unfold Rsqr in Q. nra. Qed.
Lemma cosh_mono x y : 0 <= x <= y -> cosh x <= cosh y.
Proof.
  intros [A B]. assert (S0 : 0 <= sinh x) by (destruct A as [A| <-]; [apply Rlt_le, sinh_pos, A|rewrite sinh_0; lra]). assert (S1 : sinh x <= sinh y) by (destruct B as [B| ->]; [apply Rlt_le, sinh_lt, B|lra]).
  pose proof (cosh_sinh x). pose proof (cosh_sinh y). pose proof (cosh_pos x). pose proof (cosh_pos y). destruct (Rle_or_lt (cosh x) (cosh y)) as [|L]; [assumption|]. assert (sinh x * sinh x <= sinh y * sinh y) by nra. nra.
Qed.
(* half of the angle whose cosine is 1 / cosh (2 x) *)
Definition gd (x : R) : R := atan (tanh x).
Lemma gd_deriv x : derivable_pt_lim gd x (1 / cosh (2 * x)).
Proof.
  pose proof (cosh_pos x) as C. assert (N : cosh x <> 0) by lra.
  pose proof (derivable_pt_lim_div sinh cosh x _ _ (derivable_pt_lim_sinh x) (derivable_pt_lim_cosh x) N) as D.
  pose proof (derivable_pt_lim_comp _ atan x _ _ D (derivable_pt_lim_atan _)) as L. unfold gd.
  replace (1 / cosh (2 * x)) with (/ (1 + ((sinh / cosh)%F x) ^ 2) * ((cosh x * cosh x - sinh x * sinh x) / Rsqr (cosh x))); [exact L|].
  unfold div_fct, Rsqr. rewrite cosh_double, cosh_sinh. field. pose proof (Rle_0_sqr (sinh x)) as Q. unfold Rsqr in Q. repeat (apply conj); try exact N; nra.
Qed.
Lemma gd_range x : 0 < x -> x / cosh (2 * x) <= gd x <= x.
Proof.
  intros H. destruct (MVT_cor2 gd (fun c => 1 / cosh (2 * c)) 0 x H) as (c & E & Hc); [intros; apply gd_deriv|].
  assert (Z : gd 0 = 0) by (unfold gd, tanh; rewrite sinh_0; unfold Rdiv; rewrite Rmult_0_l; apply atan_0). rewrite Z, !Rminus_0_r in E. rewrite E.
  pose proof (cosh_ge_1 (2 * c)) as A. pose proof (cosh_mono (2 * c) (2 * x) ltac:(lra)) as B.
  assert (I1 : / cosh (2 * c) <= 1) by (rewrite <- Rinv_1; apply Rinv_le_contravar; lra). assert (I2 : / cosh (2 * x) <= / cosh (2 * c)) by (apply Rinv_le_contravar; lra).
  unfold Rdiv. rewrite Rmult_1_l. split; [rewrite Rmult_comm|]; nra.
Qed.
Lemma gd_pos x : 0 < x -> 0 < gd x.
Proof. intros H. unfold gd. rewrite <- atan_0. apply atan_increasing. unfold tanh. apply Rdiv_lt_0_compat; [now apply sinh_pos|apply cosh_pos]. Qed.
(* the scale of the triangle with sides cosh x and sinh x *)
Definition hyp (x : R) : R := cosh x * sqrt (1 + Rsqr (tanh x)).
Lemma hyp_parts x : 0 < hyp x /\ hyp x * cos (gd x) = cosh x /\ hyp x * sin (gd x) = sinh x.
Proof.
  pose proof (cosh_pos x) as C. pose proof (Rle_0_sqr (tanh x)) as Q. assert (P : 0 < sqrt (1 + Rsqr (tanh x))) by (apply sqrt_lt_R0; lra). unfold hyp, gd. rewrite cos_atan, sin_atan.
  split; [now apply Rmult_lt_0_compat|]. split; [field; lra|]. unfold tanh at 2. field. split; lra.
Qed.
Lemma hyp_sq x : hyp x * hyp x = cosh (2 * x).
Proof. destruct (hyp_parts x) as (_ & A & B). rewrite cosh_double. pose proof (sin2_cos2 (gd x)) as E. unfold Rsqr in E. rewrite <- A, <- B. transitivity (hyp x * hyp x * (sin (gd x) * sin (gd x) + cos (gd x) * cos (gd x))); [rewrite E; ring|ring]. Qed.
Lemma gd_cos x : cos (2 * gd x) * cosh (2 * x) = 1.
Proof. destruct (hyp_parts x) as (_ & A & B). rewrite <- hyp_sq, cos_2a. transitivity ((hyp x * cos (gd x)) * (hyp x * cos (gd x)) - (hyp x * sin (gd x)) * (hyp x * sin (gd x))); [ring|]. rewrite A, B. apply cosh_sinh. Qed.

(* ---- the band in terms of angles ---- *)
Section Band.
  Variables a c0 : R.
  Hypothesis Ha : 0 < a.
  Hypothesis Hc : -1 < c0 < 1.
  Let K := hyp a.
  Let A := gd a.
  Lemma K_big : 1 < K.
  Proof. unfold K. destruct (hyp_parts a) as (P & _). pose proof (hyp_sq a) as E. pose proof (sinh_pos a Ha) as S. pose proof (cosh_double a). pose proof (cosh_sinh a). assert (1 < hyp a * hyp a) by nra. nra. Qed.
  Let psi := acos (c0 / K).
  Lemma psi_cos : K * cos psi = c0.
  Proof. pose proof K_big as B. unfold psi. rewrite cos_acos; [field; lra|]. assert (0 < / K < 1) by (split; [apply Rinv_0_lt_compat; lra|rewrite <- Rinv_1; apply Rinv_lt_contravar; lra]). unfold Rdiv. split; nra. Qed.
  Lemma psi_bounds : A < psi /\ psi < PI - A.
  Proof.
    pose proof K_big as B. pose proof psi_cos as E. destruct (hyp_parts a) as (_ & Ec & _). fold K A in Ec. pose proof (cosh_ge_1 a) as C1. pose proof (gd_pos a Ha) as A0. fold A in A0. pose proof (atan_bound (tanh a)) as AB. change (atan (tanh a)) with A in AB. pose proof PI_RGT_0.
    destruct (acos_bound (c0 / K)) as [P0 P1]. fold psi in P0, P1. split.
    - apply (cos_decreasing_0 psi A); try lra. apply Rmult_lt_reg_l with K; lra.
    - apply (cos_decreasing_0 (PI - A) psi); try lra. replace (PI - A) with (- A + PI) by ring. rewrite neg_cos, cos_neg. apply Rmult_lt_reg_l with K; lra.
  Qed.
  Lemma band t : 0 < t < PI -> (Rabs (cosh a * cos t - c0) <= sinh a * sin t <-> psi - A <= t <= psi + A).
  Proof.
    intros Ht. pose proof K_big as B. pose proof psi_cos as E. destruct (hyp_parts a) as (_ & Ec & Es). fold K A in Ec, Es. pose proof psi_bounds as [P1 P2]. pose proof (gd_pos a Ha) as A0. fold A in A0. pose proof (atan_bound (tanh a)) as AB. change (atan (tanh a)) with A in AB. pose proof PI_RGT_0.
    assert (U : cosh a * cos t - sinh a * sin t = K * cos (t + A)) by (rewrite cos_plus, <- Ec, <- Es; ring). assert (V : cosh a * cos t + sinh a * sin t = K * cos (t - A)) by (rewrite cos_minus, <- Ec, <- Es; ring).
    assert (Eq1 : K * cos (t + A) <= K * cos psi <-> psi - A <= t).
    { split; intros L.
      - apply Rmult_le_reg_l in L; [|lra]. destruct (Rle_or_lt (t + A) PI) as [W|W]; [|lra]. apply cos_decr_0 in L; lra.
      - apply Rmult_le_compat_l; [lra|]. destruct (Rle_or_lt (t + A) PI) as [W|W]; [apply cos_decr_1; lra|].
        replace (cos (t + A)) with (cos (2 * PI - (t + A))); [apply cos_decr_1; lra|]. replace (2 * PI - (t + A)) with (- (t + A) + 2 * PI) by ring. rewrite cos_plus, cos_2PI, sin_2PI, cos_neg. ring. }
    assert (Eq2 : K * cos psi <= K * cos (t - A) <-> t <= psi + A).
    { split; intros L.
      - apply Rmult_le_reg_l in L; [|lra]. destruct (Rle_or_lt 0 (t - A)) as [W|W]; [|lra]. apply cos_decr_0 in L; lra.
      - apply Rmult_le_compat_l; [lra|]. destruct (Rle_or_lt 0 (t - A)) as [W|W]; [apply cos_decr_1; lra|].
        replace (cos (t - A)) with (cos (A - t)); [apply cos_decr_1; lra|]. rewrite <- cos_neg. f_equal. ring. }
    rewrite <- Eq1, <- Eq2, E, <- U, <- V. split.
    - intros L. unfold Rabs in L. destruct (Rcase_abs _) in L; lra.
    - intros [L1 L2]. apply Rabs_le. lra.
  Qed.
  (* the peak *)
  Lemma peak_angle : exists t, psi - A < t < psi + A /\ cosh a * cos t = c0.
  Proof.
    pose proof (cosh_ge_1 a) as C1. pose proof psi_bounds as [P1 P2]. pose proof (gd_pos a Ha) as A0. fold A in A0. pose proof PI_RGT_0.
    set (t := acos (c0 / cosh a)). assert (I : 0 < / cosh a <= 1) by (split; [apply Rinv_0_lt_compat; lra|rewrite <- Rinv_1; apply Rinv_le_contravar; lra]).
    assert (W : -1 < c0 / cosh a < 1) by (unfold Rdiv; split; nra). pose proof (acos_bound_lt _ W) as T. fold t in T.
    assert (E : cosh a * cos t = c0) by (unfold t; rewrite cos_acos by lra; field; lra). exists t. split; [|exact E].
    assert (S : 0 < sinh a * sin t) by (apply Rmult_lt_0_compat; [now apply sinh_pos|apply sin_gt_0; lra]).
    destruct (hyp_parts a) as (_ & Ec & Es). fold K A in Ec, Es. pose proof psi_cos as Ep. pose proof K_big. pose proof (atan_bound (tanh a)) as AB. change (atan (tanh a)) with A in AB.
    assert (U : cosh a * cos t - sinh a * sin t = K * cos (t + A)) by (rewrite cos_plus, <- Ec, <- Es; ring). assert (V : cosh a * cos t + sinh a * sin t = K * cos (t - A)) by (rewrite cos_minus, <- Ec, <- Es; ring).
    split.
    - destruct (Rle_or_lt (t + A) PI) as [Y|Y]; [|lra]. assert (cos (t + A) < cos psi) by (apply Rmult_lt_reg_l with K; lra). apply cos_decreasing_0 in H1; lra.
    - destruct (Rle_or_lt 0 (t - A)) as [Y|Y]; [|lra]. assert (cos psi < cos (t - A)) by (apply Rmult_lt_reg_l with K; lra). apply cos_decreasing_0 in H1; lra.
  Qed.
End Band.

(* ---- the power of a tone ---- *)
Section Power.
  Variables sr fc q : R.
  Hypothesis Hf : 0 < fc < sr / 2.
  Hypothesis Hq : 0 < q.
  Let r := exp (- (PI * fc / q) * (1 / sr)).
  Let a := PI * fc / (q * sr).
  Let c0 := cos (2 * PI * fc / sr).
  Notation ang f := (2 * PI * f / sr).
  Lemma a_pos : 0 < a. Proof. unfold a. pose proof PI_RGT_0. apply Rdiv_lt_0_compat; apply Rmult_lt_0_compat; lra. Qed.
  Lemma r_a : r = exp (- a). Proof. unfold r, a. f_equal. field. lra. Qed.
  Lemma c0_range : -1 < c0 < 1.
  Proof.
    pose proof PI_RGT_0. assert (W : 0 < 2 * PI * fc / sr < PI).
    { split; [apply Rdiv_lt_0_compat; [apply Rmult_lt_0_compat|]; lra|]. apply Rmult_lt_reg_r with sr; [lra|]. unfold Rdiv. rewrite Rmult_assoc, Rinv_l by lra. nra. }
    unfold c0. split; [rewrite <- cos_PI|rewrite <- cos_0]; apply cos_decreasing_1; lra.
  Qed.
  Notation lev s f := (level (of_coefs (resonator Rnum_ops R_elem sr fc q) s) sr f).
  Lemma any_level s f : let t := ang f in let X := (1 + r * r) * cos t - 2 * r * c0 in let Y := (1 - r * r) * sin t in
    0 < X * X + Y * Y /\ lev s f * lev s f = (1 - r * r) * (sin t * sin t) / (X * X + Y * Y).
  Proof.
    intros t X Y. rewrite level_eq. assert (Hs : 0 < sr) by lra. pose proof (r_range sr fc q Hf Hq) as Hr. fold r in Hr.
    pose proof (c_a1 sr fc q Hf Hq) as A1. pose proof (c_a2 sr fc q Hf Hq) as A2. pose proof (b0_sq sr fc q Hf Hq) as B0. pose proof (c_b1 sr fc q) as B1. pose proof (c_b2 sr fc q) as B2.
    fold r in A1, A2. fold c0 in A1. rewrite A2 in B0.
    unfold factor. destruct s as [[[x1 x2] y1] y2]. cbn [of_coefs filt_response bq_c]. unfold bi_response. cplx. rewrite A1, A2, B1, B2. set (b := bi_b0 _) in *. clearbody b. clear A1 A2 B1 B2.
    rewrite <- cis_add. replace (nmul nmR (nneg nmR (tau nmR elR)) (ndiv nmR f sr)) with (- t) by (unfold t, tau; cbn; field; lra).
    assert (Z : cis (- t) = (cos t, - sin t)) by (unfold cis; rewrite cos_neg, sin_neg; reflexivity). assert (Z2 : cis (- t + - t) = (cos t * cos t - sin t * sin t, - (2 * (sin t * cos t)))).
    { unfold cis. replace (- t + - t) with (- (2 * t)) by ring. rewrite cos_neg, sin_neg, cos_2a, sin_2a. apply injective_projections; cbn; ring. }
    rewrite Z, Z2. clear Z Z2. pose proof (sin2_cos2 t) as SC. unfold Rsqr in SC. pose proof c0_range as HC.
    assert (P2 : 0 < X * X + Y * Y).
    { pose proof (Rle_0_sqr X) as QX. pose proof (Rle_0_sqr Y) as QY. unfold Rsqr in *. destruct (Req_dec (sin t) 0) as [E|E].
      - assert (XN : X <> 0). { intros X0. unfold X in X0. rewrite E in SC. assert (CC : cos t * cos t = 1) by lra. assert (c2 : c0 * c0 < 1) by nra. assert (M : ((1 + r * r) * cos t) * ((1 + r * r) * cos t) = (2 * r * c0) * (2 * r * c0)) by (replace ((1 + r * r) * cos t) with (2 * r * c0) by lra; ring).
          replace ((1 + r * r) * cos t * ((1 + r * r) * cos t)) with ((1 + r * r) * (1 + r * r) * (cos t * cos t)) in M by ring. rewrite CC in M. assert (0 < (1 - r * r) * (1 - r * r)) by (apply Rmult_lt_0_compat; nra). assert (4 * (r * r) * (c0 * c0) < 4 * (r * r) * 1) by (apply Rmult_lt_compat_l; nra). nra. }
        assert (0 < X * X) by (destruct (Rdichotomy _ _ XN); nra). lra.
      - assert (0 < Y * Y); [|lra]. assert (YN : Y <> 0) by (unfold Y; apply Rmult_integral_contrapositive_currified; [nra|exact E]). destruct (Rdichotomy _ _ YN); nra. }
    split; [exact P2|]. set (C := cos t) in *. set (S := sin t) in *.
    match goal with |- Cmod (?x / ?y)%C * _ = _ => replace x with ((b * (2 * (S * S)), b * (2 * (S * C))) : Complex.C);
      [replace y with ((X * C + Y * S, Y * C - X * S) : Complex.C)|] end.
    2:{ apply injective_projections; cbn; unfold X, Y; [replace 1 with (S * S + C * C) at 3 by lra|]; ring_simplify; try ring. }
    2:{ apply injective_projections; cbn; [replace (C * C) with (1 - S * S) by lra|]; ring. }
    assert (Q2 : (X * C + Y * S) * (X * C + Y * S) + (Y * C - X * S) * (Y * C - X * S) = X * X + Y * Y) by (transitivity ((X * X + Y * Y) * (S * S + C * C)); [ring|rewrite SC; ring]).
    assert (Q1 : b * (2 * (S * S)) * (b * (2 * (S * S))) + b * (2 * (S * C)) * (b * (2 * (S * C))) = b * b * (4 * (S * S))) by (transitivity (b * b * (4 * (S * S)) * (S * S + C * C)); [ring|rewrite SC; ring]).
    rewrite Cmod_div. 2:{ intros HH. injection HH. intros H1 H2. rewrite H1, H2 in Q2. lra. }
    rewrite !Cmod_pair, Q1, Q2, B0. set (d := X * X + Y * Y) in *.
    assert (N0 : 0 <= (1 - r * r) / 4 * (4 * (S * S))) by (apply Rmult_le_pos; [nra|pose proof (Rle_0_sqr S) as W; unfold Rsqr in W; lra]).
    pose proof (sqrt_sqrt _ N0) as S1. pose proof (sqrt_sqrt d ltac:(lra)) as S2. assert (sqrt d <> 0) by (apply Rgt_not_eq, sqrt_lt_R0; lra).
    transitivity ((sqrt ((1 - r * r) / 4 * (4 * (S * S))) * sqrt ((1 - r * r) / 4 * (4 * (S * S)))) / (sqrt d * sqrt d)); [field; auto|]. rewrite S1, S2. field. lra.
  Qed.
  Context {G S X : Type} (tl_ : tools R G S X).
  Hypothesis Htl : tl_elem tl_ = R_elem.
  Notation peak := (1 / (1 - exp (- (2 * a)))).
  Lemma any_power f : let x := cosh a * cos (ang f) - c0 in let y := sinh a * sin (ang f) in 0 < x * x + y * y /\
    tone_power tl_ (OReson fc q) sr f = Some (peak * (y * y) / (x * x + y * y)).
  Proof.
    intros x y. pose proof (r_range sr fc q Hf Hq) as Hr. fold r in Hr. pose proof r_a as Ra.
    assert (R2 : exp (- (2 * a)) = r * r) by (rewrite Ra, <- exp_plus; f_equal; ring). assert (Ri : exp a = / r) by (rewrite Ra, <- exp_Ropp; f_equal; ring).
    assert (Ech : cosh a = (1 + r * r) / (2 * r)) by (unfold cosh; rewrite Ri, <- Ra; field; lra). assert (Esh : sinh a = (1 - r * r) / (2 * r)) by (unfold sinh; rewrite Ri, <- Ra; field; lra).
    assert (P : forall s, 0 < x * x + y * y /\ lev s f * lev s f = peak * (y * y) / (x * x + y * y)).
    { intros s. destruct (any_level s f) as [D E]. rewrite E, R2. set (C := cos (ang f)) in *. set (T := sin (ang f)) in *.
      assert (Ex : x = ((1 + r * r) * C - 2 * r * c0) / (2 * r)) by (unfold x; rewrite Ech; field; lra). assert (Ey : y = ((1 - r * r) * T) / (2 * r)) by (unfold y; rewrite Esh; field; lra).
      set (u := (1 + r * r) * C - 2 * r * c0) in *. set (v := (1 - r * r) * T) in *.
      assert (Es : x * x + y * y = (u * u + v * v) / (4 * (r * r))) by (rewrite Ex, Ey; field; lra). split; [rewrite Es; apply Rdiv_lt_0_compat; [exact D|nra]|].
      rewrite Es. rewrite Ey. unfold v in *. field. repeat (apply conj); try nra. }
    split; [exact (proj1 (P (0, 0, 0, 0)))|]. unfold tone_power. cbn [build t_rate]. unfold reson_tune. cbn [t_rate]. unfold reson_tune. rewrite Htl. f_equal.
    match goal with |- level (FBiquad (with_coefs ?b _)) _ _ * _ = _ => destruct b as [c1 y1 y2 y3 y4] eqn:E end. clear E. unfold with_coefs.
    change (FBiquad _) with (of_coefs (resonator Rnum_ops R_elem sr fc q) (y1, y2, y3, y4)). exact (proj2 (P (y1, y2, y3, y4))).
  Qed.
  Lemma peak_pos : 0 < peak.
  Proof. pose proof a_pos. assert (exp (- (2 * a)) < 1) by (rewrite <- exp_0; apply exp_increasing; lra). apply Rdiv_lt_0_compat; lra. Qed.
  Lemma any_below f p : tone_power tl_ (OReson fc q) sr f = Some p -> p <= peak.
  Proof.
    destruct (any_power f) as [D E]. rewrite E. intros [= <-]. pose proof peak_pos as P. set (x := cosh a * _ - c0) in *. set (y := sinh a * _) in *. pose proof (Rle_0_sqr x) as Q. unfold Rsqr in Q.
    apply Rmult_le_reg_r with (x * x + y * y); [exact D|]. unfold Rdiv at 1. rewrite Rmult_assoc, Rinv_l, Rmult_1_r by lra. apply Rmult_le_compat_l; lra.
  Qed.
  Lemma any_half f p : 0 < f < sr / 2 -> tone_power tl_ (OReson fc q) sr f = Some p -> (peak / 2 <= p <-> Rabs (cosh a * cos (ang f) - c0) <= sinh a * sin (ang f)).
  Proof.
    intros F. destruct (any_power f) as [D E]. rewrite E. intros [= <-]. pose proof peak_pos as P.
    assert (T : 0 < sin (ang f)). { pose proof PI_RGT_0. apply sin_gt_0; [apply Rdiv_lt_0_compat; [apply Rmult_lt_0_compat|]; lra|]. apply Rmult_lt_reg_r with sr; [lra|]. unfold Rdiv. rewrite Rmult_assoc, Rinv_l by lra. nra. }
    pose proof (sinh_pos a a_pos) as Sh. assert (Y : 0 < sinh a * sin (ang f)) by (apply Rmult_lt_0_compat; assumption).
    set (x := cosh a * _ - c0) in *. set (y := sinh a * _) in *. set (k := peak) in *. clearbody x y k.
    assert (I : peak = peak) by reflexivity. clear I.
    assert (L1 : k / 2 <= k * (y * y) / (x * x + y * y) <-> x * x <= y * y).
    { split; intros L.
      - apply (Rmult_le_compat_r (x * x + y * y)) in L; [|lra]. unfold Rdiv in L. rewrite (Rmult_assoc (k * (y * y))), Rinv_l, Rmult_1_r in L by lra. nra.
      - apply Rmult_le_reg_r with (x * x + y * y); [exact D|]. unfold Rdiv. rewrite (Rmult_assoc (k * (y * y))), Rinv_l, Rmult_1_r by lra. nra. }
    rewrite L1. split; intros L.
    - apply Rsqr_le_abs_0 in L. rewrite (Rabs_pos_eq y) in L by lra. exact L.
    - pose proof (Rabs_pos x). assert (Rabs x * Rabs x <= y * y) by nra. replace (Rabs x * Rabs x) with (x * x) in H0; [exact H0|]. rewrite <- Rabs_mult. symmetry. apply Rabs_pos_eq. pose proof (Rle_0_sqr x) as Q. exact Q.
  Qed.
  Lemma half_band : exists f1 f2 fp, 0 < f1 < fp /\ fp < f2 < sr / 2 /\ fc / q / cosh (ang (fc / q)) <= f2 - f1 <= fc / q /\ cos (ang (f2 - f1)) * cosh (ang (fc / q)) = 1 /\
    tone_power tl_ (OReson fc q) sr fp = Some peak /\ forall f p, tone_power tl_ (OReson fc q) sr f = Some p -> p <= peak /\ (0 < f < sr / 2 -> (peak / 2 <= p <-> f1 <= f <= f2)).
  Proof.
    pose proof a_pos as Ha. pose proof c0_range as Hc. pose proof PI_RGT_0 as HP. destruct (psi_bounds a c0 Ha Hc) as [B1 B2]. destruct (peak_angle a c0 Ha Hc) as (t & T & Et). set (psi := acos _) in *. set (A := gd a) in *. pose proof (gd_pos a Ha) as A0. fold A in A0.
    set (u := sr / (2 * PI)). assert (U : 0 < u) by (unfold u; apply Rdiv_lt_0_compat; lra). assert (An : forall v, ang (v * u) = v) by (intros v; unfold u; field; lra). assert (Su : PI * u = sr / 2) by (unfold u; field; lra).
    assert (Ea : ang (fc / q) = 2 * a) by (unfold a; field; lra). assert (Au : 2 * a * u = fc / q) by (unfold a, u; field; lra).
    exists ((psi - A) * u), ((psi + A) * u), (t * u). replace ((psi + A) * u - (psi - A) * u) with (2 * A * u) by ring. rewrite An, Ea.
    split; [split; [apply Rmult_lt_0_compat; lra|apply Rmult_lt_compat_r; lra]|]. split; [split; [apply Rmult_lt_compat_r; lra|rewrite <- Su; apply Rmult_lt_compat_r; lra]|].
    split.
    { destruct (gd_range a Ha) as [G1 G2]. fold A in G1, G2. split; [|rewrite <- Au; apply Rmult_le_compat_r; lra]. rewrite <- Au. replace (2 * a * u / cosh (2 * a)) with (2 * (a / cosh (2 * a)) * u) by (unfold Rdiv; ring). apply Rmult_le_compat_r; lra. }
    split; [exact (gd_cos a)|]. split.
    - destruct (any_power (t * u)) as [D E]. rewrite E. f_equal. rewrite An in *. replace (cosh a * cos t - c0) with 0 in * by lra. set (y := sinh a * sin t) in *. clearbody y. pose proof peak_pos as Pp. set (k := peak) in *. clearbody k. field. intros Y. rewrite Y in D. lra.
    - intros f p E. split; [exact (any_below f p E)|]. intros F. rewrite (any_half f p F E). rewrite (band a c0 Ha Hc (ang f)).
      + fold psi A. assert (Ef : f = ang f * u) by (unfold u; field; lra). set (v := ang f) in *. clearbody v. rewrite Ef. split; intros [L1 L2]; split; try (apply Rmult_le_compat_r; lra); apply Rmult_le_reg_r with u; lra.
      + split; [apply Rdiv_lt_0_compat; [apply Rmult_lt_0_compat|]; lra|]. apply Rmult_lt_reg_r with sr; [lra|]. unfold Rdiv. rewrite Rmult_assoc, Rinv_l by lra. nra.
  Qed.
End Power.
