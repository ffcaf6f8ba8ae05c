(* Periodic functions, dissonance and noise of MathModel.v over the reals. *)
From Coq Require Import Reals Lra Psatz List.
From Verif Require Export MathReals SeqSamples HashProofs.
Local Open Scope R_scope.
Import ListNotations.

Definition frac (x : R) : R := x - IZR (Int_part x).
Lemma frac_range x : 0 <= frac x < 1.
Proof. unfold frac. pose proof (base_Int_part x). lra. Qed.
Lemma frac_is x z : IZR z <= x -> x < IZR z + 1 -> frac x = x - IZR z.
Proof. intros A B. unfold frac. now rewrite (int_part_spec x z A B). Qed.
Lemma frac_shift x z : frac (x + IZR z) = frac x.
Proof.
  rewrite (frac_is (x + IZR z) (Int_part x + z)); [unfold frac; rewrite plus_IZR; ring| |]; rewrite plus_IZR; pose proof (base_Int_part x); lra.
Qed.
Lemma sqr_frac hz t : sqr_hz Rn hz t = if Rlt_dec (frac (t * hz)) (1 / 2) then 1 else -1.
Proof. unfold sqr_hz, half; nums. fold (frac (t * hz)). destruct (Rlt_dec _ _); reflexivity. Qed.
Lemma sqr_period hz t z : hz <> 0 -> sqr_hz Rn hz (t + IZR z / hz) = sqr_hz Rn hz t.
Proof. intros H. rewrite !sqr_frac. replace ((t + IZR z / hz) * hz) with (t * hz + IZR z) by (field; auto). now rewrite frac_shift. Qed.
Lemma sqr_shape hz t : (0 <= t * hz < 1 / 2 -> sqr_hz Rn hz t = 1) /\ (1 / 2 <= t * hz < 1 -> sqr_hz Rn hz t = -1).
Proof. rewrite sqr_frac. split; intros H; rewrite (frac_is _ 0) by lra; destruct (Rlt_dec _ _); lra. Qed.
Lemma tri_frac hz t : tri_hz Rn hz t = Rabs (frac (t * hz - 1 / 4) - 1 / 2) * 4 - 1.
Proof. reflexivity. Qed.
Lemma tri_period hz t z : hz <> 0 -> tri_hz Rn hz (t + IZR z / hz) = tri_hz Rn hz t.
Proof. intros H. rewrite !tri_frac. replace ((t + IZR z / hz) * hz - 1 / 4) with (t * hz - 1 / 4 + IZR z) by (field; auto). now rewrite frac_shift. Qed.
Lemma tri_shape hz t : (-1 / 4 <= t * hz <= 1 / 4 -> tri_hz Rn hz t = 4 * (t * hz)) /\ (1 / 4 <= t * hz <= 3 / 4 -> tri_hz Rn hz t = 2 - 4 * (t * hz)).
Proof.
  rewrite tri_frac. split; intros H.
  - destruct (Req_dec (t * hz) (1 / 4)) as [E|E].
    + rewrite E, (frac_is _ 0) by lra. unfold Rabs. destruct (Rcase_abs _); lra.
    + rewrite (frac_is _ (-1)) by lra. unfold Rabs. destruct (Rcase_abs _); lra.
  - rewrite (frac_is _ 0) by lra. unfold Rabs. destruct (Rcase_abs _); lra.
Qed.
Lemma tri_range hz t : -1 <= tri_hz Rn hz t <= 1.
Proof. rewrite tri_frac. pose proof (frac_range (t * hz - 1 / 4)). unfold Rabs. destruct (Rcase_abs _); lra. Qed.
Lemma sqr_range hz t : sqr_hz Rn hz t = 1 \/ sqr_hz Rn hz t = -1.
Proof. rewrite sqr_frac. destruct (Rlt_dec _ _); auto. Qed.

(* y^14 - y^23 is at most 1 / 5.531753 *)
Lemma ln_le_sub x : 0 < x -> ln x <= x - 1.
Proof. intros H. pose proof (exp_ineq1_le (ln x)) as E. rewrite exp_ln in E by auto. lra. Qed.
Lemma amgm t : 0 < t < 1 -> t ^ 14 * (1 - t) ^ 9 <= (14 / 23) ^ 14 * (9 / 23) ^ 9.
Proof.
  intros H. set (s := t / (14 / 23)). set (r := (1 - t) / (9 / 23)).
  assert (P : 0 < s) by (unfold s; apply Rdiv_lt_0_compat; lra). assert (Q : 0 < r) by (unfold r; apply Rdiv_lt_0_compat; lra).
  assert (L : s ^ 14 * r ^ 9 <= 1).
  { assert (X : 0 < s ^ 14) by now apply pow_lt. assert (Y : 0 < r ^ 9) by now apply pow_lt.
    assert (ln (s ^ 14 * r ^ 9) <= 0). { rewrite ln_mult, !ln_pow by auto. pose proof (ln_le_sub s P). pose proof (ln_le_sub r Q). assert (14 * s + 9 * r = 23) by (unfold s, r; field). cbn [INR]. lra. }
    destruct (Rle_dec (s ^ 14 * r ^ 9) 1) as [|N]; auto. exfalso. assert (0 < ln (s ^ 14 * r ^ 9)); [|lra]. rewrite <- ln_1. apply ln_increasing; lra. }
  replace t with (s * (14 / 23)) at 1 by (unfold s; field). replace (1 - t) with (r * (9 / 23)) by (unfold r; field). rewrite !Rpow_mult_distr.
  set (a := (14 / 23) ^ 14). set (b := (9 / 23) ^ 9). assert (0 < a * b) by (unfold a, b; apply Rmult_lt_0_compat; apply pow_lt; lra).
  replace (s ^ 14 * a * (r ^ 9 * b)) with (s ^ 14 * r ^ 9 * (a * b)) by ring. nra.
Qed.
Lemma peak y : 0 < y <= 1 -> 5531753 / 1000000 * (y ^ 14 - y ^ 23) <= 1.
Proof.
  intros H. destruct (Req_dec y 1) as [->|N]. { rewrite !pow1. lra. }
  assert (T : 0 < y ^ 9 < 1). { split; [apply pow_lt; lra|]. assert (H2 : y ^ 9 < 1 ^ 9); [|rewrite pow1 in H2; exact H2]. assert (forall k, (0 < k)%nat -> y ^ k < 1). { intros k Hk. rewrite <- (pow1 k). destruct k; [lia|]. clear Hk. induction k; [cbn; lra|]. change (y * y ^ S k < 1 * 1 ^ S k). rewrite pow1 in *. assert (0 < y ^ S k) by (apply pow_lt; lra). nra. } rewrite pow1. apply H0. lia. }
  set (v := y ^ 14 - y ^ 23). assert (E : v = y ^ 14 * (1 - y ^ 9)) by (unfold v; ring). assert (V : 0 < v) by (rewrite E; apply Rmult_lt_0_compat; [apply pow_lt|]; lra).
  assert (P : v ^ 9 <= (14 / 23) ^ 14 * (9 / 23) ^ 9). { rewrite E, Rpow_mult_distr. replace ((y ^ 14) ^ 9) with ((y ^ 9) ^ 14) by (rewrite <- !pow_mult; reflexivity). now apply amgm. }
  destruct (Rle_dec (5531753 / 1000000 * v) 1) as [|Bad]; auto. exfalso.
  assert (1 ^ 9 <= (5531753 / 1000000 * v) ^ 9) by (apply pow_incr; lra). rewrite pow1, Rpow_mult_distr in H0.
  assert ((5531753 / 1000000) ^ 9 * v ^ 9 <= (5531753 / 1000000) ^ 9 * ((14 / 23) ^ 14 * (9 / 23) ^ 9)). { apply Rmult_le_compat_l; auto. left. apply pow_lt. lra. }
  assert ((5531753 / 1000000) ^ 9 * ((14 / 23) ^ 14 * (9 / 23) ^ 9) < 1); [|lra]. clear. lra.
Qed.
Lemma exp_pow x k : Rexp (x * INR k) = Rexp x ^ k.
Proof. induction k; cbn [pow]; [rewrite Rmult_0_r; apply exp_0|]. rewrite S_INR, Rmult_plus_distr_l, Rmult_1_r, exp_plus, IHk. ring. Qed.
Lemma dissonance_range f0 f1 : 0 <= f0 -> 0 <= f1 -> in01 (dissonance Rn Rexp f0 f1) /\ (dissonance Rn Rexp f0 f1 = 0 <-> f0 = f1).
Proof.
  intros H0 H1. unfold dissonance; nums. set (q := Rabs (f0 - f1) / (21 / 1000 * Rmin f0 f1 + 19)).
  assert (M : 0 <= Rmin f0 f1) by (now apply Rmin_glb). pose proof (Rabs_pos (f0 - f1)).
  assert (Q : 0 <= q) by (unfold q; apply Rmult_le_pos; [lra|left; apply Rinv_0_lt_compat; lra]).
  assert (Z : q = 0 <-> f0 = f1). { unfold q. split; [|intros ->; rewrite Rminus_diag_eq, Rabs_R0 by auto; unfold Rdiv; ring]. intros E. assert (Rabs (f0 - f1) = 0). { apply Rmult_integral in E as [E|E]; auto. exfalso. revert E. apply Rinv_neq_0_compat. lra. } destruct (Req_dec f0 f1); auto. exfalso. assert (f0 - f1 <> 0) by lra. apply (Rabs_no_R0 _ H4 H2). }
  set (y := Rexp (-6 / 100 * q)). assert (Y : 0 < y <= 1). { unfold y. split; [apply exp_pos|]. rewrite <- exp_0. destruct (Req_dec q 0) as [->|]; [right; f_equal; lra|]. left. apply exp_increasing. lra. }
  assert (E14 : Rexp (-84 / 100 * q) = y ^ 14). { unfold y. rewrite <- exp_pow. f_equal. cbn [INR]. lra. }
  assert (E23 : Rexp (-138 / 100 * q) = y ^ 23). { unfold y. rewrite <- exp_pow. f_equal. cbn [INR]. lra. }
  rewrite E14, E23. assert (S0 : y ^ 14 - y ^ 23 = y ^ 14 * (1 - y ^ 9)) by ring. assert (P14 : 0 < y ^ 14) by (apply pow_lt; lra).
  assert (P9 : y ^ 9 <= 1). { rewrite <- (pow1 9). apply pow_incr. lra. }
  split; [split; [rewrite S0; assert (0 <= y ^ 14 * (1 - y ^ 9)) by (apply Rmult_le_pos; lra); lra|now apply peak]|].
  rewrite <- Z. split.
  - intros E. rewrite S0 in E. assert (Y9 : y ^ 9 = 1). { assert (y ^ 14 * (1 - y ^ 9) = 0) by lra. apply Rmult_integral in H2 as [|]; lra. }
    destruct (Req_dec q 0); auto. exfalso. assert (y ^ 9 < 1); [|lra]. unfold y. rewrite <- exp_pow, <- exp_0. apply exp_increasing. cbn [INR]. lra.
  - intros ->. unfold y. rewrite Rmult_0_r, exp_0, !pow1. lra.
Qed.

(* noise *)
Definition is11 (x : R) : Prop := -1 <= x <= 1.
Lemma shiftr_bound x k w : (x < 2 ^ w)%N -> (k <= w)%N -> (N.shiftr x k < 2 ^ (w - k))%N.
Proof.
  intros H K. rewrite N.shiftr_div_pow2. apply N.div_lt_upper_bound. { now apply N.pow_nonzero. } rewrite <- N.pow_add_r. now replace (k + (w - k))%N with w by lia.
Qed.
Lemma IZR_pow2 k : (0 <= k)%Z -> 0 < IZR (2 ^ k).
Proof. intros H. apply IZR_lt. now apply Z.pow_pos_nonneg. Qed.
Section Noise.
  Variables hash64a hash64g : N -> N.
  Hypothesis word_a : forall x, word 64 (hash64a x).
  Notation point := (get_point Rn hash64a).
  Lemma hash01_range s : 0 <= hash01 Rn hash64a s < 1.
  Proof.
    unfold hash01; nums. pose proof (IZR_pow2 53 ltac:(lia)). pose proof (shiftr_bound (hash64a s) 11 64 (word_a s) ltac:(lia)) as B. change (2 ^ (64 - 11))%N with (Z.to_N (2 ^ 53)) in B.
    set (v := N.shiftr (hash64a s) 11) in *. assert (0 <= IZR (Z.of_N v)) by (apply IZR_le; lia). assert (IZR (Z.of_N v) < IZR (2 ^ 53)) by (apply IZR_lt; lia).
    set (d := IZR (2 ^ 53)) in *. clearbody d. split; [apply Rmult_le_pos; [lra|left; now apply Rinv_0_lt_compat]|]. apply Rmult_lt_reg_r with (r := d); auto. unfold Rdiv. rewrite Rmult_assoc, Rinv_l by lra. lra.
  Qed.
  Lemma hash11_range s : -1 <= hash11 Rn hash64a s < 1.
  Proof.
    unfold hash11; nums. pose proof (IZR_pow2 53 ltac:(lia)). pose proof (shiftr_bound (hash64a s) 10 64 (word_a s) ltac:(lia)) as B. change (2 ^ (64 - 10))%N with (Z.to_N (2 * 2 ^ 53)) in B.
    set (v := N.shiftr (hash64a s) 10) in *. assert (0 <= IZR (Z.of_N v)) by (apply IZR_le; lia). assert (IZR (Z.of_N v) < IZR (2 * 2 ^ 53)) by (apply IZR_lt; lia). rewrite mult_IZR in *.
    set (d := IZR (2 ^ 53)) in *. clearbody d. assert (0 <= IZR (Z.of_N v) / d < 2); [|lra]. split; [apply Rmult_le_pos; [lra|left; now apply Rinv_0_lt_compat]|]. apply Rmult_lt_reg_r with (r := d); auto. unfold Rdiv. rewrite Rmult_assoc, Rinv_l by lra. lra.
  Qed.
  Lemma point_range seed i : is11 (point seed i).
  Proof. pose proof (hash11_range (atto_hash seed (word_of i))). unfold is11, get_point. lra. Qed.
  (* every easing function in the tree maps [0,1] to [0,1] *)
  Fixpoint keeps01 (e : easing R) : Prop := match e with Ease f => forall x, in01 x -> in01 (f x) | Pair r f => keeps01 r /\ keeps01 f end.
  Fixpoint starts0 (e : easing R) : Prop := match e with Ease f => f 0 = 0 | Pair r f => starts0 r /\ starts0 f end.
  Lemma interpolate_within e y1 y2 t : keeps01 e -> in01 t -> within y1 y2 (interpolate Rn e y1 y2 t).
  Proof. induction e as [f|r IHr f IHf]; intros K T; cbn in *. - now apply lerp_within, K. - destruct K. destruct (Rle_dec y1 y2); auto. Qed.
  Lemma interpolate_start e y1 y2 : starts0 e -> interpolate Rn e y1 y2 0 = y1.
  Proof. induction e as [f|r IHr f IHf]; intros K; cbn in *. - rewrite K. unfold lerp; nums. ring. - destruct K. destruct (Rle_dec y1 y2); auto. Qed.
  Lemma within11 a b x : is11 a -> is11 b -> within a b x -> is11 x.
  Proof. intros A B [L U]. unfold is11, Rmin, Rmax in *. destruct (Rle_dec a b); lra. Qed.
  Lemma ease_noise_within e seed x : keeps01 e -> let i := Int_part x in within (point seed i) (point seed (i + 1)) (ease_noise Rn hash64a e seed x).
  Proof.
    intros K. cbn zeta. unfold ease_noise; nums. apply interpolate_within; auto. pose proof (frac_range x). unfold frac in *. split; lra.
  Qed.
  Lemma ease_noise_range e seed x : keeps01 e -> is11 (ease_noise Rn hash64a e seed x).
  Proof. intros K. exact (within11 _ _ _ (point_range _ _) (point_range _ _) (ease_noise_within e seed x K)). Qed.
  Lemma ease_noise_at e seed i : starts0 e -> ease_noise Rn hash64a e seed (IZR i) = point seed i.
  Proof.
    intros K. unfold ease_noise; nums. rewrite (int_part_spec (IZR i) i) by lra. replace (IZR i - IZR i) with 0 by ring. now apply interpolate_start.
  Qed.
  Lemma spline_noise_range seed x : is11 (spline_noise Rn hash64a hash64g seed x).
  Proof.
    unfold spline_noise; nums. set (x' := x + rnd2 Rn hash64g seed). pose proof (frac_range x') as F. unfold frac in F.
    pose proof (spline_over (-1) 1 (point seed (Int_part x' - 1)) (point seed (Int_part x')) (point seed (Int_part x' + 1)) (point seed (Int_part x' + 2)) (x' - IZR (Int_part x'))
      (point_range _ _) (point_range _ _) (point_range _ _) (point_range _ _) ltac:(unfold in01; lra)) as B.
    set (v := spline Rn _ _ _ _ _) in *. clearbody v. unfold is11. lra.
  Qed.
  Lemma octaves_range noise draws roughness x : (forall s x, is11 (noise s x)) -> 0 <= roughness -> forall weight total freq result,
    0 <= weight -> 0 <= total -> (draws = [] -> 0 < total) -> (draws <> [] -> 0 < total + weight) -> Rabs result <= total -> is11 (octaves Rn noise draws roughness x weight total freq result).
  Proof.
    intros HN HR. induction draws as [|[r s] draws IH]; intros weight total freq result Hw Ht H0 H1 Hr; cbn [octaves]; nums.
    - specialize (H0 eq_refl). assert (E : result / total * total = result) by (field; lra). unfold is11. pose proof (Rle_abs result). pose proof (Rle_abs (- result)) as T. rewrite Rabs_Ropp in T. split; apply Rmult_le_reg_r with (r := total); auto; rewrite E; lra.
    - specialize (H1 ltac:(discriminate)). apply IH; auto; try lra.
      + nra.
      + intros _. assert (0 <= weight * roughness) by nra. lra.
      + eapply Rle_trans; [apply Rabs_triang|]. apply Rplus_le_compat; auto. rewrite Rabs_mult, (Rabs_pos_eq weight) by auto. rewrite <- (Rmult_1_r weight) at 2. apply Rmult_le_compat_l; auto. destruct (HN s (x * freq + r)). now apply Rabs_le.
  Qed.
  Lemma fractal_range noise draws roughness x y : (forall s x, is11 (noise s x)) -> 0 <= roughness -> fractal Rn noise draws roughness x = Some y -> is11 y.
  Proof.
    intros HN HR H. unfold fractal in H. destruct draws as [|d draws]; [discriminate|]. assert (E : y = octaves Rn noise (d :: draws) roughness x (n1 Rn) (n0 Rn) (n1 Rn) (n0 Rn)) by congruence. rewrite E. apply octaves_range; auto; cbn; try lra; try discriminate.
    rewrite Rabs_R0. lra.
  Qed.
End Noise.
