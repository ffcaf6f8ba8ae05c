(* Proofs about the slopes of ease_noise and of fractal noise. *)
From Coq Require Import Reals Lra Lia.
From Verif Require Import MathNoise MotionProofs SlopeSpec.
Local Open Scope R_scope.

(* a curve in pieces that fit together *)
Lemma pieces_slope (c : Z -> R -> R) K : (forall i, c i 1 = c (i + 1)%Z 0) -> (forall i a b, 0 <= a <= b -> b <= 1 -> Rabs (c i b - c i a) <= K * (b - a)) ->
  forall x y, x <= y -> let f z := c (Int_part z) (z - IZR (Int_part z)) in Rabs (f y - f x) <= K * (y - x).
Proof.
  intros J S x y H f. unfold f. clear f.
  assert (P : forall i n, Rabs (c (i + Z.of_nat n)%Z 0 - c i 0) <= K * INR n).
  { intros i n. induction n as [|n IH]; [rewrite Z.add_0_r, Rminus_diag_eq by reflexivity; rewrite Rabs_R0; cbn; lra|]. rewrite S_INR. pose proof (S (i + Z.of_nat n)%Z 0 1 ltac:(lra) ltac:(lra)) as C. rewrite J in C. replace (i + Z.of_nat n + 1)%Z with (i + Z.of_nat (Datatypes.S n))%Z in C by lia.
    replace (c (i + Z.of_nat (Datatypes.S n))%Z 0 - c i 0) with ((c (i + Z.of_nat (Datatypes.S n))%Z 0 - c (i + Z.of_nat n)%Z 0) + (c (i + Z.of_nat n)%Z 0 - c i 0)) by ring. eapply Rle_trans; [apply Rabs_triang|]. lra. }
  destruct (base_Int_part x) as [X1 X2]. destruct (base_Int_part y) as [Y1 Y2]. set (i := Int_part x) in *. set (j := Int_part y) in *.
  assert (IJ : (i <= j)%Z) by (enough (i < j + 1)%Z by lia; apply lt_IZR; rewrite plus_IZR; lra). destruct (Z.eq_dec i j) as [E|E].
  - rewrite <- E in *. replace (y - x) with ((y - IZR i) - (x - IZR i)) by ring. apply S; lra.
  - pose proof (S i (x - IZR i) 1 ltac:(lra) ltac:(lra)) as A. pose proof (S j 0 (y - IZR j) ltac:(assert (IZR j <= y) by lra; lra) ltac:(lra)) as B. rewrite J in A.
    pose proof (P (i + 1)%Z (Z.to_nat (j - (i + 1)))) as C. rewrite INR_IZR_INZ, Z2Nat.id in C by lia. replace (i + 1 + (j - (i + 1)))%Z with j in C by lia. rewrite !minus_IZR, !plus_IZR in C.
    apply Rabs_le. unfold Rabs in A, B, C. destruct (Rcase_abs _) in A; destruct (Rcase_abs _) in B; destruct (Rcase_abs _) in C; lra.
Qed.
Lemma either_way (g : R -> R) K : (forall x y, x <= y -> Rabs (g y - g x) <= K * (y - x)) -> forall x y, Rabs (g x - g y) <= K * Rabs (x - y).
Proof.
  intros Q x y. destruct (Rle_dec x y) as [H|H].
  - rewrite Rabs_minus_sym, (Rabs_left1 (x - y)) by lra. specialize (Q x y H). lra.
  - rewrite (Rabs_right (x - y)) by lra. apply Q. lra.
Qed.
Lemma interpolate_ends L e y1 y2 : climbs L e -> interpolate Rnum_ops e y1 y2 0 = y1 /\ interpolate Rnum_ops e y1 y2 1 = y2.
Proof.
  induction e as [f|r IHr f IHf]; cbn [climbs interpolate]; [intros (F0 & F1 & _)|intros [A B]; destruct (nleb _ _ _); auto]. rewrite F0, F1. unfold lerp. cbn [nadd nsub nmul Rnum_ops]. change (n1 Rnum_ops) with 1. split; ring.
Qed.
Lemma interpolate_slope L e y1 y2 a b : climbs L e -> -1 <= y1 <= 1 -> -1 <= y2 <= 1 -> 0 <= a <= b -> b <= 1 -> Rabs (interpolate Rnum_ops e y1 y2 b - interpolate Rnum_ops e y1 y2 a) <= 2 * L * (b - a).
Proof.
  intros C H1 H2 Ha Hb. induction e as [f|r IHr f IHf]; cbn [climbs interpolate] in *; [|destruct C; destruct (nleb _ _ _); auto]. destruct C as (_ & _ & S). specialize (S a b Ha Hb). unfold lerp. cbn [nadd nsub nmul Rnum_ops]. change (n1 Rnum_ops) with 1.
  match goal with |- Rabs ?t <= _ => replace t with ((y2 - y1) * (f b - f a)) by ring end. rewrite Rabs_mult. assert (D : Rabs (y2 - y1) <= 2) by (apply Rabs_le; lra). pose proof (Rabs_pos (f b - f a)). pose proof (Rabs_pos (y2 - y1)). 
  rewrite Rmult_assoc. apply Rmult_le_compat; lra.
Qed.
Lemma ease_slope hash64a e L seed x y : (forall s, word 64 (hash64a s)) -> climbs L e -> Rabs (ease_noise Rnum_ops hash64a e seed x - ease_noise Rnum_ops hash64a e seed y) <= 2 * L * Rabs (x - y).
Proof.
  intros W C. revert x y. apply either_way. intros x y H.
  apply (pieces_slope (fun i d => interpolate Rnum_ops e (get_point Rnum_ops hash64a seed i) (get_point Rnum_ops hash64a seed (i + 1)) d) (2 * L)); auto.
  - intros i. now rewrite (proj2 (interpolate_ends L e _ _ C)), (proj1 (interpolate_ends L e _ _ C)).
  - intros i a b Ha Hb. apply interpolate_slope; auto; apply (point_range hash64a hash64a W).
Qed.
Lemma octaves_slope noise draws roughness K M x y : 0 <= K -> (forall s x y, Rabs (noise s x - noise s y) <= K * Rabs (x - y)) -> 0 <= roughness -> forall weight total freq ra rb,
  0 <= weight -> 0 <= total -> 0 <= freq -> (draws = [] -> 0 < total) -> (draws <> [] -> 0 < total + weight) -> freq * 2 ^ length draws <= 2 * M -> Rabs (ra - rb) <= K * M * total * Rabs (x - y) ->
  Rabs (octaves Rnum_ops noise draws roughness x weight total freq ra - octaves Rnum_ops noise draws roughness y weight total freq rb) <= K * M * Rabs (x - y).
Proof.
  intros HK HN HR. induction draws as [|[r s] draws IH]; intros weight total freq ra rb Hw Ht Hq H0 H1 Hf Hr; cbn [octaves]; cbn [nadd nsub nmul ndiv nofZ Rnum_ops].
  - specialize (H0 eq_refl). replace (ra / total - rb / total) with ((ra - rb) * / total) by (unfold Rdiv; ring). assert (P : 0 < / total) by now apply Rinv_0_lt_compat. rewrite Rabs_mult, (Rabs_right (/ total)) by lra.
    apply Rmult_le_reg_r with total; auto. rewrite Rmult_assoc, Rinv_l, Rmult_1_r by lra. lra.
  - specialize (H1 ltac:(discriminate)). cbn [length pow] in Hf. assert (P2 : 1 <= 2 ^ length draws) by (apply pow_R1_Rle; lra). assert (FM : freq <= M) by nra.
    assert (WR : 0 <= weight * roughness) by now apply Rmult_le_pos. apply IH; auto; try lra.
    specialize (HN s (x * freq + r) (y * freq + r)). replace (x * freq + r - (y * freq + r)) with (freq * (x - y)) in HN by ring. rewrite Rabs_mult, (Rabs_right freq) in HN by lra.
    set (u := noise s (x * freq + r)) in *. set (v := noise s (y * freq + r)) in *. replace (ra + weight * u - (rb + weight * v)) with ((ra - rb) + weight * (u - v)) by ring. eapply Rle_trans; [apply Rabs_triang|]. rewrite Rabs_mult, (Rabs_right weight) by lra.
    pose proof (Rabs_pos (x - y)) as D. assert (HN' : Rabs (u - v) <= K * (M * Rabs (x - y))). { eapply Rle_trans; [exact HN|]. apply Rmult_le_compat_l; auto. now apply Rmult_le_compat_r. }
    apply Rmult_le_compat_l with (r := weight) in HN'; auto. replace (K * M * (total + weight) * Rabs (x - y)) with (K * M * total * Rabs (x - y) + weight * (K * (M * Rabs (x - y)))) by ring. lra.
Qed.
Lemma fractal_slope noise draws roughness K x y a b : 0 <= K -> (forall s x y, Rabs (noise s x - noise s y) <= K * Rabs (x - y)) -> 0 <= roughness ->
  fractal Rnum_ops noise draws roughness x = Some a -> fractal Rnum_ops noise draws roughness y = Some b -> Rabs (a - b) <= K * 2 ^ (length draws - 1) * Rabs (x - y).
Proof.
  intros HK HN HR A B. unfold fractal in *. destruct draws as [|d draws]; [discriminate|]. assert (EA : a = octaves Rnum_ops noise (d :: draws) roughness x (n1 Rnum_ops) (n0 Rnum_ops) (n1 Rnum_ops) (n0 Rnum_ops)) by congruence.
  assert (EB : b = octaves Rnum_ops noise (d :: draws) roughness y (n1 Rnum_ops) (n0 Rnum_ops) (n1 Rnum_ops) (n0 Rnum_ops)) by congruence. rewrite EA, EB. clear A B EA EB. apply octaves_slope; auto; change (n1 Rnum_ops) with 1; change (n0 Rnum_ops) with 0; try lra; try discriminate.
  - cbn [length]. replace (S (length draws) - 1)%nat with (length draws) by lia. cbn [pow]. lra.
  - rewrite Rminus_diag_eq by reflexivity. rewrite Rabs_R0. lra.
Qed.
