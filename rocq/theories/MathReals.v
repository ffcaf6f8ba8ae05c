(* Facts about the functions of MathModel.v over the reals. *)
From Coq Require Import Reals Lra Psatz List.
From Coquelicot Require Import Coquelicot.
From Verif Require Export MathModel MathSpec.
From Verif Require Import FadeExamples.
Local Open Scope R_scope.
Notation Rn := Rnum_ops.

Ltac nums := cbn [nofZ nadd nsub nmul ndiv nneg nmax nmin nabs nltb nleb nfloor n0 n1 Rnum_ops] in *.

(* a function that is 0 at 0 and 1 at 1, with a positive derivative between *)
Lemma eases_of f f' : f 0 = 0 -> f 1 = 1 -> (forall x, is_derive f x (f' x)) -> (forall x, 0 < x < 1 -> 0 < f' x) -> eases f.
Proof.
  intros H0 H1 D P.
  assert (M : forall x y, 0 <= x -> x < y -> y <= 1 -> f x < f y).
  { intros x y Hx Hxy Hy. destruct (MVT_cor2 f f' x y Hxy) as (c & E & Hc). { intros c _. now apply is_derive_Reals. }
    assert (0 < f' c * (y - x)) by (apply Rmult_lt_0_compat; [apply P|]; lra). lra. }
  assert (Rg : forall x, in01 x -> in01 (f x)).
  { intros x [A B]. split.
    - destruct (Req_dec x 0) as [->|]; [lra|]. specialize (M 0 x). lra.
    - destruct (Req_dec x 1) as [->|]; [lra|]. specialize (M x 1). lra. }
  split; auto. intros y [A B]. assert (C : continuity f). { intros x. apply derivable_continuous_pt. exists (f' x). apply is_derive_Reals, D. }
  destruct (Req_dec y 0) as [->|]. { exists 0. unfold in01. lra. }
  destruct (Req_dec y 1) as [->|]. { exists 1. unfold in01. lra. }
  destruct (IVT (fun x => f x - y) 0 1) as (z & Hz & E).
  - apply (continuity_minus f (fct_cte y)); auto. apply continuity_const. intros ? ?. reflexivity.
  - lra. - lra. - lra.
  - exists z. split; [exact Hz|]. lra.
Qed.

Lemma smooth3_eases : eases (smooth3 Rn).
Proof.
  apply eases_of with (f' := fun x => 6 * x * (1 - x)).
  - unfold smooth3; nums; ring. - unfold smooth3; nums; ring.
  - intros x. unfold smooth3; nums. auto_derive; auto; ring.
  - intros x H. apply Rmult_lt_0_compat; lra.
Qed.
Lemma smooth5_eases : eases (smooth5 Rn).
Proof.
  apply eases_of with (f' := fun x => 30 * (x * (1 - x)) * (x * (1 - x))).
  - unfold smooth5; nums; ring. - unfold smooth5; nums; ring.
  - intros x. unfold smooth5; nums. auto_derive; auto; ring.
  - intros x H. assert (0 < x * (1 - x)) by (apply Rmult_lt_0_compat; lra). apply Rmult_lt_0_compat; lra.
Qed.
Lemma smooth7_eases : eases (smooth7 Rn).
Proof.
  apply eases_of with (f' := fun x => 140 * (x * (1 - x)) * (x * (1 - x)) * (x * (1 - x))).
  - unfold smooth7; nums; ring. - unfold smooth7; nums; ring.
  - intros x. unfold smooth7; nums. auto_derive; auto; ring.
  - intros x H. assert (0 < x * (1 - x)) by (apply Rmult_lt_0_compat; lra). repeat apply Rmult_lt_0_compat; lra.
Qed.
Lemma smooth9_eases : eases (smooth9 Rn).
Proof.
  apply eases_of with (f' := fun x => 630 * (x * (1 - x)) * (x * (1 - x)) * (x * (1 - x)) * (x * (1 - x))).
  - unfold smooth9; nums; ring. - unfold smooth9; nums; ring.
  - intros x. unfold smooth9; nums. auto_derive; auto; ring.
  - intros x H. assert (0 < x * (1 - x)) by (apply Rmult_lt_0_compat; lra). repeat apply Rmult_lt_0_compat; lra.
Qed.
Lemma smooth_symmetric : symmetric (smooth3 Rn) /\ symmetric (smooth5 Rn) /\ symmetric (smooth7 Rn) /\ symmetric (smooth9 Rn).
Proof. unfold symmetric, smooth3, smooth5, smooth7, smooth9; nums. repeat split; intros; ring. Qed.

Lemma lerp_delerp a b t : a <> b -> delerp Rn a b (lerp Rn a b t) = t.
Proof. intros H. unfold delerp, lerp; nums. field. lra. Qed.
Lemma delerp_lerp a b x : a <> b -> lerp Rn a b (delerp Rn a b x) = x.
Proof. intros H. unfold delerp, lerp; nums. field. lra. Qed.
Lemma lerp11_delerp11 a b t : a <> b -> delerp11 Rn a b (lerp11 Rn a b t) = t.
Proof. intros H. unfold delerp11, lerp11, lerp, half; nums. field. lra. Qed.
Lemma delerp11_lerp11 a b x : a <> b -> lerp11 Rn a b (delerp11 Rn a b x) = x.
Proof. intros H. unfold delerp11, lerp11, lerp, half; nums. field. lra. Qed.
Lemma lerp_within a b t : in01 t -> within a b (lerp Rn a b t).
Proof.
  intros [H0 H1]. unfold within, lerp; nums. unfold Rmin, Rmax. destruct (Rle_dec a b); split; nra.
Qed.
Lemma clamp_range a b x : a <= b -> a <= clamp Rn a b x <= b.
Proof. intros H. unfold clamp; nums. unfold Rmin, Rmax. repeat destruct (Rle_dec _ _); lra. Qed.
Lemma clamp_id a b x : a <= x <= b -> clamp Rn a b x = x.
Proof. intros H. unfold clamp; nums. unfold Rmin, Rmax. repeat destruct (Rle_dec _ _); lra. Qed.
Lemma clamp_nearest a b x y : a <= y <= b -> Rabs (x - clamp Rn a b x) <= Rabs (x - y).
Proof. intros H. unfold clamp; nums. unfold Rmin, Rmax, Rabs. repeat destruct (Rle_dec _ _); repeat destruct (Rcase_abs _); lra. Qed.
Lemma clamp01_is x : clamp01 Rn x = clamp Rn 0 1 x.
Proof. reflexivity. Qed.
Lemma clamp11_is x : clamp11 Rn x = clamp Rn (-1) 1 x.
Proof. reflexivity. Qed.

(* splines *)
Lemma spline_ends y0 y1 y2 y3 : spline Rn y0 y1 y2 y3 0 = y1 /\ spline Rn y0 y1 y2 y3 1 = y2.
Proof. unfold spline; nums. split; field. Qed.
Lemma spline_quadratic a b c x : let p t := a * t * t + b * t + c in spline Rn (p (-1)) (p 0) (p 1) (p 2) x = p x.
Proof. cbn zeta. unfold spline; nums. field. Qed.
Lemma spline_weights y0 y1 y2 y3 x : spline Rn y0 y1 y2 y3 x
  = - (x * (1 - x) * (1 - x) / 2) * y0 + (1 - x) * (2 + 2 * x - 3 * x * x) / 2 * y1 + x * (1 + 4 * x - 3 * x * x) / 2 * y2 - x * x * (1 - x) / 2 * y3.
Proof. unfold spline; nums. field. Qed.
Lemma spline_over lo hi y0 y1 y2 y3 x : lo <= y0 <= hi -> lo <= y1 <= hi -> lo <= y2 <= hi -> lo <= y3 <= hi -> in01 x ->
  lo - (hi - lo) / 8 <= spline Rn y0 y1 y2 y3 x <= hi + (hi - lo) / 8.
Proof.
  intros H0 H1 H2 H3 [A B]. rewrite spline_weights.
  set (w0 := x * (1 - x) * (1 - x) / 2). set (w1 := (1 - x) * (2 + 2 * x - 3 * x * x) / 2). set (w2 := x * (1 + 4 * x - 3 * x * x) / 2). set (w3 := x * x * (1 - x) / 2).
  assert (S1 : w1 + w2 = 1 + w0 + w3) by (unfold w0, w1, w2, w3; field).
  assert (P0 : 0 <= w0). { unfold w0. assert (0 <= x * (1 - x)) by nra. nra. }
  assert (P3 : 0 <= w3). { unfold w3. assert (0 <= x * (1 - x)) by nra. nra. }
  assert (P1 : 0 <= w1). { unfold w1. assert (0 <= 2 + 2 * x - 3 * x * x) by nra. nra. }
  assert (P2 : 0 <= w2). { unfold w2. assert (0 <= 1 + 4 * x - 3 * x * x) by nra. nra. }
  assert (S03 : w0 + w3 <= 1 / 8). { replace (w0 + w3) with (x * (1 - x) / 2) by (unfold w0, w3; field). pose proof (Rle_0_sqr (x - 1 / 2)) as Q. unfold Rsqr in Q. lra. }
  assert (HR : 0 <= hi - lo) by lra. clearbody w0 w1 w2 w3.
  assert (T : (hi - lo) * (w0 + w3) <= (hi - lo) * (1 / 8)) by (apply Rmult_le_compat_l; lra).
  assert (forall w a b, 0 <= w -> a <= b -> w * a <= w * b) as ML by (intros; apply Rmult_le_compat_l; lra).
  pose proof (ML w0 lo y0 P0 ltac:(lra)). pose proof (ML w0 y0 hi P0 ltac:(lra)). pose proof (ML w1 lo y1 P1 ltac:(lra)). pose proof (ML w1 y1 hi P1 ltac:(lra)).
  pose proof (ML w2 lo y2 P2 ltac:(lra)). pose proof (ML w2 y2 hi P2 ltac:(lra)). pose proof (ML w3 lo y3 P3 ltac:(lra)). pose proof (ML w3 y3 hi P3 ltac:(lra)).
  assert (E1 : (w1 + w2) * hi = (1 + w0 + w3) * hi) by (rewrite S1; reflexivity). assert (E2 : (w1 + w2) * lo = (1 + w0 + w3) * lo) by (rewrite S1; reflexivity).
  split; lra.
Qed.

(* the slope is that of the smaller difference, doubled, unless both differences are negative *)
Lemma mono_slope_ok d0 d1 : ~ (d0 < 0 /\ d1 < 0) -> exists k, 0 <= k <= 1 /\ mono_slope Rn d0 d1 = 2 * k * Rmax 0 d1 /\ (d1 < 0 -> k = 0).
Proof.
  intros H. unfold mono_slope, signum; nums. destruct (Rlt_dec d0 0), (Rlt_dec d1 0); try tauto.
  - exists 0. split; [lra|]. split; [|auto]. ring.
  - exists 0. split; [lra|]. split; [|auto]. ring.
  - assert (E : Rmin (d0 + d1) (Rmin (Rabs d0) (Rabs d1)) = Rmin d0 d1). { rewrite !Rabs_pos_eq by lra. unfold Rmin. repeat destruct (Rle_dec _ _); lra. }
    rewrite E. replace (Rmax 0 d1) with d1 by (rewrite Rmax_right; lra). destruct (Req_dec d1 0) as [->|Z].
    + exists 0. split; [lra|]. split; [|lra]. rewrite Rmin_right by lra. lra.
    + exists (Rmin d0 d1 / d1). assert (0 < d1) by lra. split; [|split; [|lra]].
      * split. { apply Rmult_le_pos; [apply Rmin_glb; lra|]. left. now apply Rinv_0_lt_compat. }
        apply Rmult_le_reg_r with (r := d1); [lra|]. unfold Rdiv. rewrite Rmult_assoc, Rinv_l by lra. pose proof (Rmin_r d0 d1). lra.
      * field. lra.
Qed.
(* Hermite interpolation from 0 to 1 with slopes 2a and 2b *)
Lemma hermite01 a b x : in01 a -> in01 b -> in01 x -> in01 (x * x * x * (-2 + 2 * a + 2 * b) + x * x * (3 - 4 * a - 2 * b) + x * (2 * a)).
Proof.
  intros [A0 A1] [B0 B1] [X0 X1].
  assert (E : x * x * x * (-2 + 2 * a + 2 * b) + x * x * (3 - 4 * a - 2 * b) + x * (2 * a) = x * x * (3 - 2 * x) + 2 * a * (x * (1 - x) * (1 - x)) - 2 * b * (x * x * (1 - x))) by ring.
  rewrite E. assert (P : 0 <= x * (1 - x) * (1 - x)) by (repeat apply Rmult_le_pos; lra). assert (Q : 0 <= x * x * (1 - x)) by (repeat apply Rmult_le_pos; lra).
  assert (0 <= a * (x * (1 - x) * (1 - x)) <= x * (1 - x) * (1 - x)). { split; [apply Rmult_le_pos; lra|]. rewrite <- (Rmult_1_l (x * (1 - x) * (1 - x))) at 2. apply Rmult_le_compat_r; lra. }
  assert (0 <= b * (x * x * (1 - x)) <= x * x * (1 - x)). { split; [apply Rmult_le_pos; lra|]. rewrite <- (Rmult_1_l (x * x * (1 - x))) at 2. apply Rmult_le_compat_r; lra. }
  assert (X : x * x * (3 - 2 * x) - 2 * (x * x * (1 - x)) = x * x) by ring. assert (Y : x * x * (3 - 2 * x) + 2 * (x * (1 - x) * (1 - x)) = 1 - (1 - x) * (1 - x)) by ring.
  assert (0 <= x * x) by nra. assert (0 <= (1 - x) * (1 - x)) by nra. unfold in01. split; lra.
Qed.
(* and it rises *)
Lemma hermite_rises a b x y : in01 a -> in01 b -> 0 <= x -> x <= y -> y <= 1 ->
  x * x * x * (-2 + 2 * a + 2 * b) + x * x * (3 - 4 * a - 2 * b) + x * (2 * a) <= y * y * y * (-2 + 2 * a + 2 * b) + y * y * (3 - 4 * a - 2 * b) + y * (2 * a).
Proof.
  intros [A0 A1] [B0 B1] X0 XY Y1. destruct (Req_dec x y) as [->|N]; [lra|].
  set (f := fun x => x * x * x * (-2 + 2 * a + 2 * b) + x * x * (3 - 4 * a - 2 * b) + x * (2 * a)).
  destruct (MVT_cor2 f (fun x => 3 * x * x * (-2 + 2 * a + 2 * b) + 2 * x * (3 - 4 * a - 2 * b) + 2 * a) x y) as (c & E & Hc); [lra| |].
  { intros c _. apply is_derive_Reals. unfold f. auto_derive; auto. ring. }
  assert (0 <= 3 * c * c * (-2 + 2 * a + 2 * b) + 2 * c * (3 - 4 * a - 2 * b) + 2 * a).
  { replace (3 * c * c * (-2 + 2 * a + 2 * b) + 2 * c * (3 - 4 * a - 2 * b) + 2 * a)
      with ((1 - a) * (1 - b) * (6 * (c * (1 - c))) + a * (1 - b) * (2 * (1 - c)) + (1 - a) * b * (2 * c) + a * b * (2 * (1 - 3 * c + 3 * c * c))) by ring.
    assert (0 <= c * (1 - c)) by (apply Rmult_le_pos; lra). assert (0 <= 1 - 3 * c + 3 * c * c). { pose proof (Rle_0_sqr (c - 1 / 2)) as Q. unfold Rsqr in Q. lra. }
    assert (0 <= (1 - a) * (1 - b)) by (apply Rmult_le_pos; lra). assert (0 <= a * (1 - b)) by (apply Rmult_le_pos; lra). assert (0 <= (1 - a) * b) by (apply Rmult_le_pos; lra). assert (0 <= a * b) by (apply Rmult_le_pos; lra).
    repeat apply Rplus_le_le_0_compat; apply Rmult_le_pos; lra. }
  assert (0 <= f y - f x) by (rewrite E; apply Rmult_le_pos; lra). unfold f in *. lra.
Qed.

Lemma mono_slope_sym d0 d1 : mono_slope Rn d0 d1 = mono_slope Rn d1 d0.
Proof. unfold mono_slope; nums. rewrite (Rplus_comm d0 d1), (Rmin_comm (Rabs d0)). f_equal. apply Rplus_comm. Qed.
Lemma spline_mono_hermite y0 y1 y2 y3 : ~ (y1 < y0 /\ y2 < y1) -> ~ (y2 < y1 /\ y3 < y2) -> exists a b, in01 a /\ in01 b /\
  forall x, spline_mono Rn y0 y1 y2 y3 x = y1 + (y2 - y1) * (x * x * x * (-2 + 2 * a + 2 * b) + x * x * (3 - 4 * a - 2 * b) + x * (2 * a)).
Proof.
  intros H0 H1. destruct (mono_slope_ok (y1 - y0) (y2 - y1)) as (a & Ha & Ea & Za); [lra|]. destruct (mono_slope_ok (y3 - y2) (y2 - y1)) as (b & Hb & Eb & Zb); [lra|].
  exists a, b. split; [exact Ha|]. split; [exact Hb|]. intros x. unfold spline_mono; nums. rewrite (mono_slope_sym (y2 - y1)), Ea, Eb.
  destruct (Rlt_dec (y2 - y1) 0) as [N|N].
  - rewrite Za, Zb by auto. ring.
  - rewrite Rmax_right by lra. ring.
Qed.
Lemma spline_mono_within y0 y1 y2 y3 x : ~ (y1 < y0 /\ y2 < y1) -> ~ (y2 < y1 /\ y3 < y2) -> in01 x -> within y1 y2 (spline_mono Rn y0 y1 y2 y3 x).
Proof.
  intros H0 H1 X. destruct (spline_mono_hermite y0 y1 y2 y3 H0 H1) as (a & b & Ha & Hb & E). rewrite E. destruct (hermite01 a b x Ha Hb X) as [L U].
  set (h := x * x * x * (-2 + 2 * a + 2 * b) + x * x * (3 - 4 * a - 2 * b) + x * (2 * a)) in *. clearbody h. unfold within, Rmin, Rmax. destruct (Rle_dec y1 y2); split; nra.
Qed.
Lemma spline_mono_rises y0 y1 y2 y3 x x' : y0 <= y1 -> y1 <= y2 -> y2 <= y3 -> 0 <= x -> x <= x' -> x' <= 1 ->
  spline_mono Rn y0 y1 y2 y3 x <= spline_mono Rn y0 y1 y2 y3 x'.
Proof.
  intros A B C X0 X1 X2. destruct (spline_mono_hermite y0 y1 y2 y3) as (a & b & Ha & Hb & E); [lra|lra|]. rewrite !E.
  pose proof (hermite_rises a b x x' Ha Hb X0 X1 X2). apply Rplus_le_compat_l, Rmult_le_compat_l; lra.
Qed.
Lemma spline_mono_ends y0 y1 y2 y3 : spline_mono Rn y0 y1 y2 y3 0 = y1 /\ spline_mono Rn y0 y1 y2 y3 1 = y2.
Proof. unfold spline_mono; nums. split; ring. Qed.
(* on falling data it starts by rising *)
Lemma spline_mono_over y0 y1 y2 y3 : y1 < y0 -> y2 < y1 -> exists x, 0 < x < 1 /\ y1 < spline_mono Rn y0 y1 y2 y3 x.
Proof.
  intros A B. unfold spline_mono; nums. set (s := mono_slope Rn (y1 - y0) (y2 - y1)). set (t := mono_slope Rn (y2 - y1) (y3 - y2)).
  assert (S0 : 0 < s). { unfold s, mono_slope, signum; nums. destruct (Rlt_dec (y1 - y0) 0); [|lra]. destruct (Rlt_dec (y2 - y1) 0); [|lra].
    assert (Rmin (y1 - y0 + (y2 - y1)) (Rmin (Rabs (y1 - y0)) (Rabs (y2 - y1))) < 0) by (eapply Rle_lt_trans; [apply Rmin_l|lra]). lra. }
  clearbody s t. set (p := 2 * y1 - 2 * y2 + s + t). set (q := -3 * y1 + 3 * y2 - 2 * s - t).
  set (d := s + Rabs p + Rabs q + 1). pose proof (Rabs_pos p). pose proof (Rabs_pos q). assert (D : 0 < d) by (unfold d; lra). set (x := s / d).
  assert (X : 0 < x < 1). { unfold x. split; [apply Rdiv_lt_0_compat; lra|]. apply Rmult_lt_reg_r with (r := d); [lra|]. unfold Rdiv. rewrite Rmult_assoc, Rinv_l by lra. unfold d. lra. }
  exists x. split; auto. assert (XD : x * d = s) by (unfold x; field; lra).
  assert (P : - Rabs p <= p) by (pose proof (Rle_abs (- p)) as T; rewrite Rabs_Ropp in T; lra). assert (Q : - Rabs q <= q) by (pose proof (Rle_abs (- q)) as T; rewrite Rabs_Ropp in T; lra).
  assert (XX : x * x <= x) by nra. assert (0 <= x * x) by nra.
  assert (x * x * p >= - (x * Rabs p)) by nra. assert (x * q >= - (x * Rabs q)) by nra.
  assert (XS : x * s + x * Rabs p + x * Rabs q + x = s) by (rewrite <- XD at 2; unfold d; ring). assert (0 < x * s) by nra.
  assert (0 < x * x * p + x * q + s) by lra. replace (x * x * x * p + x * x * q + x * s + y1) with (x * (x * x * p + x * q + s) + y1) by ring. nra.
Qed.

(* ranges and inverses *)
Lemma softsign_range x : -1 < softsign Rn x < 1.
Proof.
  unfold softsign; nums. pose proof (Rabs_pos x). set (d := 1 + Rabs x). assert (D : 0 < d) by (unfold d; lra).
  assert (x / d * d = x) by (field; lra). pose proof (Rle_abs x). pose proof (Rle_abs (- x)) as T. rewrite Rabs_Ropp in T. split; apply Rmult_lt_reg_r with (r := d); auto; rewrite ?H0; unfold d; lra.
Qed.
Lemma softsign_rises x y : x < y -> softsign Rn x < softsign Rn y.
Proof.
  intros H. unfold softsign; nums. assert (K : forall u v a b, 0 < a -> 0 < b -> u * b < v * a -> u / a < v / b).
  { intros u v a b A B L. apply Rmult_lt_reg_r with (r := a * b); [nra|]. replace (u / a * (a * b)) with (u * b) by (field; lra). replace (v / b * (a * b)) with (v * a) by (field; lra). auto. }
  pose proof (Rabs_pos x). pose proof (Rabs_pos y). apply K; [lra|lra|]. unfold Rabs. destruct (Rcase_abs x), (Rcase_abs y); nra.
Qed.
Lemma softsign_odd x : softsign Rn (- x) = - softsign Rn x.
Proof. unfold softsign; nums. rewrite Rabs_Ropp. pose proof (Rabs_pos x). field. lra. Qed.
Lemma softexp_branch x : softexp Rn x = if Rlt_dec 0 x then x * x + x + 1 else 1 / (1 - x).
Proof.
  unfold softexp; nums. destruct (Rlt_dec 0 x).
  - rewrite Rmax_left by lra. field. lra.
  - rewrite Rmax_right by lra. field. lra.
Qed.
Lemma softexp_pos x : 0 < softexp Rn x.
Proof. rewrite softexp_branch. destruct (Rlt_dec 0 x); [nra|]. apply Rdiv_lt_0_compat; lra. Qed.
Lemma softexp_rises x y : x < y -> softexp Rn x < softexp Rn y.
Proof.
  intros H. rewrite !softexp_branch. destruct (Rlt_dec 0 x), (Rlt_dec 0 y); try lra.
  - nra.
  - apply Rle_lt_trans with 1; [|nra]. apply Rmult_le_reg_r with (r := 1 - x); [lra|]. replace (1 / (1 - x) * (1 - x)) with 1 by (field; lra). lra.
  - apply Rmult_lt_reg_r with (r := (1 - x) * (1 - y)); [nra|]. replace (1 / (1 - x) * ((1 - x) * (1 - y))) with (1 - y) by (field; lra). replace (1 / (1 - y) * ((1 - x) * (1 - y))) with (1 - x) by (field; lra). lra.
Qed.
Lemma softexp_tangent : softexp Rn 0 = 1 /\ derivable_pt_lim (softexp Rn) 0 1.
Proof.
  assert (Z : softexp Rn 0 = 1). { rewrite softexp_branch. destruct (Rlt_dec 0 0); lra. }
  split; auto. intros eps He. exists (mkposreal eps He). intros h Hh Hd. cbn in Hd. rewrite Z, Rplus_0_l, softexp_branch. destruct (Rlt_dec 0 h).
  - replace ((h * h + h + 1 - 1) / h - 1) with h by (field; lra). auto.
  - replace ((1 / (1 - h) - 1) / h - 1) with (h / (1 - h)) by (field; lra). eapply Rle_lt_trans; [|exact Hd]. unfold Rdiv. rewrite Rabs_mult, (Rabs_pos_eq (/ (1 - h))) by (left; apply Rinv_0_lt_compat; lra).
    rewrite <- (Rmult_1_r (Rabs h)) at 2. apply Rmult_le_compat_l; [apply Rabs_pos|]. rewrite <- Rinv_1. apply Rinv_le_contravar; lra.
Qed.
Definition mean (x y xw yw : R) : R := (x * xw + y * yw) / (xw + yw).
Lemma mean_within x y a b : 0 < a -> 0 < b -> within x y (mean x y a b).
Proof.
  intros A B. unfold mean. assert (E : (x * a + y * b) / (a + b) * (a + b) = x * a + y * b) by (field; lra).
  unfold within, Rmin, Rmax. destruct (Rle_dec x y); split; apply Rmult_le_reg_r with (r := a + b); try lra; rewrite E; nra.
Qed.
Lemma mean_average x y a b : 0 < a -> 0 < b -> mean x y a b - (x + y) / 2 = (x - y) * (a - b) / (2 * (a + b)).
Proof. intros A B. unfold mean. field. lra. Qed.
Lemma softmix_is x y bias : let a := softexp Rn (x * bias) in let b := softexp Rn (y * bias) in
  softmix Rn x y bias = mean x y a b * ((a + b) / (a + b + 1 / 10000000000)) /\ within x y (mean x y a b)
  /\ (0 <= bias -> (x + y) / 2 <= mean x y a b) /\ (bias <= 0 -> mean x y a b <= (x + y) / 2).
Proof.
  intros a b. pose proof (softexp_pos (x * bias) : 0 < a). pose proof (softexp_pos (y * bias) : 0 < b). split; [|split; [now apply mean_within|]].
  - unfold softmix, mean; nums. fold a b. field. lra.
  - pose proof (mean_average x y a b) as M. assert (D : 0 < 2 * (a + b)) by lra.
    assert (S1 : 0 <= bias -> 0 <= (x - y) * (a - b)).
    { intros HB. destruct (Req_dec bias 0) as [->|]. { unfold a, b. rewrite !Rmult_0_r. lra. }
      destruct (Rtotal_order x y) as [L|[->|L]].
      - assert (a < b) by (apply softexp_rises; nra). nra. - lra. - assert (b < a) by (apply softexp_rises; nra). nra. }
    assert (S2 : bias <= 0 -> (x - y) * (a - b) <= 0).
    { intros HB. destruct (Req_dec bias 0) as [->|]. { unfold a, b. rewrite !Rmult_0_r. lra. }
      destruct (Rtotal_order x y) as [L|[->|L]].
      - assert (b < a) by (apply softexp_rises; nra). nra. - lra. - assert (a < b) by (apply softexp_rises; nra). nra. }
    split; intros HB; assert (T : (x - y) * (a - b) / (2 * (a + b)) * (2 * (a + b)) = (x - y) * (a - b)) by (field; lra).
    + assert (0 <= (x - y) * (a - b) / (2 * (a + b))). { apply Rmult_le_reg_r with (r := 2 * (a + b)); auto. rewrite T. specialize (S1 HB). lra. } rewrite <- M in H1 by auto. lra.
    + assert ((x - y) * (a - b) / (2 * (a + b)) <= 0). { apply Rmult_le_reg_r with (r := 2 * (a + b)); auto. rewrite T. specialize (S2 HB). lra. } rewrite <- M in H1 by auto. lra.
Qed.
Lemma sine_ease_eases : eases (sine_ease Rn (PI * (1 / 2)) PI (5 * PI * PI)).
Proof.
  assert (E : forall p, sine_ease Rn (PI * (1 / 2)) PI (5 * PI * PI) p = 4 * (p * (2 - p)) / (5 - p * (2 - p))) by exact power_eq.
  assert (P : forall p, 0 < 5 - p * (2 - p)). { intros p. pose proof (Rle_0_sqr (1 - p)) as Q. unfold Rsqr in Q. lra. }
  assert (X : eases (fun p => 4 * (p * (2 - p)) / (5 - p * (2 - p)))).
  { apply eases_of with (f' := fun p => 40 * (1 - p) / ((5 - p * (2 - p)) * (5 - p * (2 - p)))).
    - field. - field.
    - intros x. pose proof (P x). auto_derive; [lra|]. field. lra.
    - intros x H. pose proof (P x). apply Rdiv_lt_0_compat; [lra|]. now apply Rmult_lt_0_compat. }
  destruct X as [X1 X2 X3]. split.
  - intros x H. rewrite E. now apply X1. - intros x y A B C. rewrite !E. now apply X2. - intros y H. destruct (X3 y H) as (x & H1 & H2). exists x. rewrite E. auto.
Qed.
Lemma arcs x : in01 x -> uparc Rn R_sqrt.sqrt (downarc Rn R_sqrt.sqrt x) = x /\ downarc Rn R_sqrt.sqrt (uparc Rn R_sqrt.sqrt x) = x /\ in01 (uparc Rn R_sqrt.sqrt x) /\ in01 (downarc Rn R_sqrt.sqrt x).
Proof.
  intros [A B]. unfold uparc, downarc; nums. rewrite (Rmax_right 0 ((2 - x) * x)) by nra. rewrite (Rmax_right 0 (1 - x * x)) by nra.
  assert (S1 : R_sqrt.sqrt ((2 - x) * x) * R_sqrt.sqrt ((2 - x) * x) = (2 - x) * x) by (apply R_sqrt.sqrt_sqrt; nra).
  assert (S2 : R_sqrt.sqrt (1 - x * x) * R_sqrt.sqrt (1 - x * x) = 1 - x * x) by (apply R_sqrt.sqrt_sqrt; nra).
  pose proof (R_sqrt.sqrt_pos ((2 - x) * x)). pose proof (R_sqrt.sqrt_pos (1 - x * x)). split; [|split; [|split]].
  - rewrite S1, Rmax_right by nra. replace (1 - (2 - x) * x) with ((1 - x) * (1 - x)) by ring. rewrite R_sqrt.sqrt_square by lra. lra.
  - replace ((2 - (1 - R_sqrt.sqrt (1 - x * x))) * (1 - R_sqrt.sqrt (1 - x * x))) with (1 - R_sqrt.sqrt (1 - x * x) * R_sqrt.sqrt (1 - x * x)) by ring. rewrite S2. replace (1 - (1 - x * x)) with (x * x) by ring. rewrite Rmax_right by nra. apply R_sqrt.sqrt_square. lra.
  - split; nra.
  - split; nra.
Qed.
Lemma uparc_rises x y : 0 <= x -> x < y -> y <= 1 -> uparc Rn R_sqrt.sqrt x < uparc Rn R_sqrt.sqrt y.
Proof. intros A B C. unfold uparc; nums. rewrite !Rmax_right by nra. assert (R_sqrt.sqrt (1 - y * y) < R_sqrt.sqrt (1 - x * x)) by (apply R_sqrt.sqrt_lt_1; nra). lra. Qed.
Lemma downarc_rises x y : 0 <= x -> x < y -> y <= 1 -> downarc Rn R_sqrt.sqrt x < downarc Rn R_sqrt.sqrt y.
Proof. intros A B C. unfold downarc; nums. rewrite !Rmax_right by nra. apply R_sqrt.sqrt_lt_1; nra. Qed.
Lemma uparc_eases : eases (uparc Rn R_sqrt.sqrt).
Proof.
  split; [intros x H; now apply arcs|exact uparc_rises|]. intros y H. exists (downarc Rn R_sqrt.sqrt y). destruct (arcs y H) as (A & B & C & D). auto.
Qed.
Lemma downarc_eases : eases (downarc Rn R_sqrt.sqrt).
Proof.
  split; [intros x H; now apply arcs|exact downarc_rises|]. intros y H. exists (uparc Rn R_sqrt.sqrt y). destruct (arcs y H) as (A & B & C & D). auto.
Qed.
Notation Rexp := Rtrigo_def.exp.
Lemma ln_neq a b : 0 < a -> 0 < b -> a <> b -> ln a <> ln b.
Proof. intros A B N H. apply N. now apply ln_inv. Qed.
Lemma xerp_dexerp a b t : 0 < a -> 0 < b -> a <> b -> dexerp Rn ln a b (xerp Rn Rexp ln a b t) = t /\ dexerp11 Rn ln a b (xerp11 Rn Rexp ln a b t) = t.
Proof.
  intros A B N. unfold dexerp, xerp, dexerp11, xerp11; nums. pose proof (ln_neq a b A B N). rewrite !(ln_div _ a), !ln_exp by (auto; apply exp_pos). unfold lerp, half; nums. split; field; lra.
Qed.
Lemma dexerp_xerp a b x : 0 < a -> 0 < b -> a <> b -> 0 < x -> xerp Rn Rexp ln a b (dexerp Rn ln a b x) = x /\ xerp11 Rn Rexp ln a b (dexerp11 Rn ln a b x) = x.
Proof.
  intros A B N X. unfold dexerp, xerp, dexerp11, xerp11; nums. pose proof (ln_neq a b A B N). rewrite !(ln_div _ a) by auto. unfold lerp, half; nums.
  split; (transitivity (Rexp (ln x)); [f_equal; field; lra|now apply exp_ln]).
Qed.
Lemma xerp_within a b t : 0 < a -> 0 < b -> in01 t -> within a b (xerp Rn Rexp ln a b t).
Proof.
  intros A B T. pose proof (lerp_within (ln a) (ln b) t T) as [L U]. unfold xerp. set (l := lerp Rn (ln a) (ln b) t) in *. clearbody l.
  assert (K : forall u v, u <= v -> Rexp u <= Rexp v). { intros u v [H| ->]; [left; now apply exp_increasing|lra]. }
  assert (M : forall u v, 0 < u -> u <= v -> ln u <= ln v). { intros u v Hu [H| ->]; [left; now apply ln_increasing|lra]. }
  unfold within, Rmin, Rmax in *. destruct (Rle_dec a b) as [C|C].
  - pose proof (M a b A C). destruct (Rle_dec (ln a) (ln b)); [|lra]. rewrite <- (exp_ln a A), <- (exp_ln b B). split; now apply K.
  - assert (ln b < ln a) by (apply ln_increasing; lra). destruct (Rle_dec (ln a) (ln b)); [lra|]. rewrite <- (exp_ln a A), <- (exp_ln b B). split; now apply K.
Qed.
Lemma decibels : (forall g, 0 < g -> db_amp Rn Rexp ln (amp_db Rn ln g) = g) /\ (forall d, amp_db Rn ln (db_amp Rn Rexp ln d) = d)
  /\ db_amp Rn Rexp ln 0 = 1 /\ (forall c d, db_amp Rn Rexp ln (c + d) = db_amp Rn Rexp ln c * db_amp Rn Rexp ln d) /\ db_amp Rn Rexp ln 20 = 10.
Proof.
  assert (L : ln 10 <> 0). { assert (0 < ln 10); [|lra]. rewrite <- ln_1. apply ln_increasing; lra. }
  unfold db_amp, amp_db, exp10, log10; nums. repeat split.
  - intros g G. rewrite <- (exp_ln g G) at 2. f_equal. field. auto.
  - intros d. rewrite ln_exp. field. auto.
  - replace (0 / 20 * ln 10) with 0 by lra. apply exp_0.
  - intros c d. rewrite <- exp_plus. f_equal. field.
  - replace (20 / 20 * ln 10) with (ln 10) by field. apply exp_ln. lra.
Qed.
Lemma tuning : midi_hz Rn Rexp ln 69 = 440 /\ (forall x, midi_hz Rn Rexp ln (x + 12) = 2 * midi_hz Rn Rexp ln x)
  /\ semitone_ratio Rn Rexp ln 0 = 1 /\ semitone_ratio Rn Rexp ln 12 = 2 /\ (forall x y, semitone_ratio Rn Rexp ln (x + y) = semitone_ratio Rn Rexp ln x * semitone_ratio Rn Rexp ln y)
  /\ (forall x y, midi_hz Rn Rexp ln (x + y) = midi_hz Rn Rexp ln x * semitone_ratio Rn Rexp ln y).
Proof.
  assert (E2 : Rexp (ln 2) = 2) by (apply exp_ln; lra).
  unfold midi_hz, semitone_ratio, exp2; nums. repeat split.
  - replace ((69 - 69) / 12 * ln 2) with 0 by lra. rewrite exp_0. ring.
  - intros x. replace ((x + 12 - 69) / 12 * ln 2) with ((x - 69) / 12 * ln 2 + ln 2) by field. rewrite exp_plus, E2. ring.
  - replace (0 * (1 / 12) * ln 2) with 0 by lra. apply exp_0.
  - replace (12 * (1 / 12) * ln 2) with (ln 2) by field. auto.
  - intros x y. rewrite <- exp_plus. f_equal. field.
  - intros x y. rewrite Rmult_assoc, <- exp_plus. do 2 f_equal. field.
Qed.
