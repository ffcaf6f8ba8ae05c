(* Proofs about the motion of the delays of the chorus. *)
From Coq Require Import Reals Lra Lia.
From Verif Require Import MathNoise FxProofs2 ChorusSpec.
From Verif Require MotionProofs SlopeProofs.
Local Open Scope R_scope.

Lemma geometric_nonneg r n : 0 <= r -> 0 <= geometric r n.
Proof. intros H. induction n as [|n IH]; cbn [geometric]; [lra|]. assert (0 <= r * geometric r n) by now apply Rmult_le_pos. lra. Qed.
Lemma octaves_sharp noise draws roughness K x y : 0 <= K -> (forall s x y, Rabs (noise s x - noise s y) <= K * Rabs (x - y)) -> 0 <= roughness -> forall weight total freq ra rb A,
  0 <= weight -> 0 <= total -> 0 <= freq -> (draws = [] -> 0 < total) -> (draws <> [] -> 0 < total + weight) -> Rabs (ra - rb) <= K * A * Rabs (x - y) ->
  Rabs (octaves Rnum_ops noise draws roughness x weight total freq ra - octaves Rnum_ops noise draws roughness y weight total freq rb) * (total + weight * geometric roughness (length draws)) <=
  K * (A + weight * freq * geometric (2 * roughness) (length draws)) * Rabs (x - y).
Proof.
  intros HK HN HR. induction draws as [|[r s] draws IH]; intros weight total freq ra rb A Hw Ht Hq H0 H1 Hr; cbn [octaves length geometric]; cbn [nadd nsub nmul ndiv nofZ Rnum_ops].
  - specialize (H0 eq_refl). replace (ra / total - rb / total) with ((ra - rb) * / total) by (unfold Rdiv; ring). assert (P : 0 < / total) by now apply Rinv_0_lt_compat. rewrite Rabs_mult, (Rabs_right (/ total)) by lra.
    replace (Rabs (ra - rb) * / total * (total + weight * 0)) with (Rabs (ra - rb)) by (field; lra). replace (A + weight * freq * 0) with A by ring. exact Hr.
  - specialize (H1 ltac:(discriminate)). assert (WR : 0 <= weight * roughness) by now apply Rmult_le_pos.
    set (u := noise s (x * freq + r)). set (v := noise s (y * freq + r)).
    assert (B : Rabs (ra + weight * u - (rb + weight * v)) <= K * (A + weight * freq) * Rabs (x - y)).
    { specialize (HN s (x * freq + r) (y * freq + r)). fold u v in HN. replace (x * freq + r - (y * freq + r)) with (freq * (x - y)) in HN by ring. rewrite Rabs_mult, (Rabs_right freq) in HN by lra.
      replace (ra + weight * u - (rb + weight * v)) with ((ra - rb) + weight * (u - v)) by ring. eapply Rle_trans; [apply Rabs_triang|]. rewrite Rabs_mult, (Rabs_right weight) by lra.
      apply Rmult_le_compat_l with (r := weight) in HN; auto. replace (K * (A + weight * freq) * Rabs (x - y)) with (K * A * Rabs (x - y) + weight * (K * (freq * Rabs (x - y)))) by ring. lra. }
    specialize (IH (weight * roughness) (total + weight) (freq * 2) _ _ (A + weight * freq) WR ltac:(lra) ltac:(lra) ltac:(intros _; lra) ltac:(intros _; lra) B).
    replace (total + weight * (1 + roughness * geometric roughness (length draws))) with (total + weight + weight * roughness * geometric roughness (length draws)) by ring.
    replace (A + weight * freq * (1 + 2 * roughness * geometric (2 * roughness) (length draws))) with (A + weight * freq + weight * roughness * (freq * 2) * geometric (2 * roughness) (length draws)) by ring. exact IH.
Qed.
Lemma fractal_sharp noise draws roughness K x y a b : 0 <= K -> (forall s x y, Rabs (noise s x - noise s y) <= K * Rabs (x - y)) -> 0 <= roughness ->
  fractal Rnum_ops noise draws roughness x = Some a -> fractal Rnum_ops noise draws roughness y = Some b ->
  Rabs (a - b) <= K * (geometric (2 * roughness) (length draws) / geometric roughness (length draws)) * Rabs (x - y).
Proof.
  intros HK HN HR A B. unfold fractal in *. destruct draws as [|d draws]; [discriminate|]. assert (EA : a = octaves Rnum_ops noise (d :: draws) roughness x (n1 Rnum_ops) (n0 Rnum_ops) (n1 Rnum_ops) (n0 Rnum_ops)) by congruence.
  assert (EB : b = octaves Rnum_ops noise (d :: draws) roughness y (n1 Rnum_ops) (n0 Rnum_ops) (n1 Rnum_ops) (n0 Rnum_ops)) by congruence. rewrite <- EA in A. rewrite <- EB in B.
  change (n1 Rnum_ops) with 1 in EA, EB. change (n0 Rnum_ops) with 0 in EA, EB.
  assert (Z : Rabs (0 - 0) <= K * 0 * Rabs (x - y)) by (rewrite Rminus_diag_eq by reflexivity; rewrite Rabs_R0; lra).
  pose proof (octaves_sharp noise (d :: draws) roughness K x y HK HN HR 1 0 1 0 0 0 ltac:(lra) ltac:(lra) ltac:(lra) ltac:(discriminate) ltac:(intros _; lra) Z) as S. rewrite <- EA, <- EB in S.
  rewrite Rplus_0_l, Rmult_1_l, Rplus_0_l, Rmult_1_l, Rmult_1_l in S. set (g := geometric roughness (length (d :: draws))) in *. set (g2 := geometric (2 * roughness) (length (d :: draws))) in *.
  assert (G : 0 < g). { unfold g. cbn [length geometric]. pose proof (Rmult_le_pos _ _ HR (geometric_nonneg roughness (length draws) HR)). lra. }
  apply Rmult_le_reg_r with g; auto. replace (K * (g2 / g) * Rabs (x - y) * g) with (K * g2 * Rabs (x - y)) by (field; lra). exact S.
Qed.
Lemma chorus_noise hash64a hash64g draws s x y : (forall s, word 64 (hash64a s)) -> length (draws s) = 8%nat ->
  Rabs (fractal_of hash64a hash64g draws s x - fractal_of hash64a hash64g draws s y) <= 754 / 100 * Rabs (x - y).
Proof.
  intros W L. unfold fractal_of. assert (Q : forall z, exists a, fractal Rnum_ops (spline_noise Rnum_ops hash64a hash64g) (draws s) (9 / 20) z = Some a) by (intros z; unfold fractal; destruct (draws s); [discriminate|eexists; reflexivity]).
  destruct (Q x) as [a A]. destruct (Q y) as [b B]. rewrite A, B. pose proof (fractal_sharp _ (draws s) (9 / 20) (12 / 5) x y a b ltac:(lra) (fun s => MotionProofs.noise_slope hash64a hash64g W s) ltac:(lra) A B) as F. rewrite L in F.
  eapply Rle_trans; [exact F|]. apply Rmult_le_compat_r; [apply Rabs_pos|]. cbn [geometric]. lra.
Qed.
Lemma lerp11_slope a v x y K d : 0 <= v -> Rabs (x - y) <= K * d -> Rabs (lerp11 Rnum_ops a (a + v) x - lerp11 Rnum_ops a (a + v) y) <= K / 2 * v * d.
Proof.
  intros V H. unfold lerp11, lerp, half. cbn [nadd nsub nmul ndiv nofZ Rnum_ops]. change (n1 Rnum_ops) with 1. match goal with |- Rabs ?t <= _ => replace t with (v * (1 / 2) * (x - y)) by field end.
  rewrite Rabs_mult, (Rabs_right (v * (1 / 2))) by lra. replace (K / 2 * v * d) with (v * (1 / 2) * (K * d)) by field. apply Rmult_le_compat_l; lra.
Qed.
Lemma chorus_delays_slope noise seeds sep var mf K t u j : 0 <= var -> (forall s x y, Rabs (noise s x - noise s y) <= K * Rabs (x - y)) -> (j < 4)%nat ->
  Rabs (nth j (chorus_delays Rnum_ops noise seeds sep var mf t) 0 - nth j (chorus_delays Rnum_ops noise seeds sep var mf u) 0) <= K / 2 * var * Rabs (mf + INR j * (2 / 100)) * Rabs (t - u).
Proof.
  intros V N J. unfold chorus_delays. rewrite (Rmult_assoc (K / 2 * var)), <- Rabs_mult.
  destruct j as [|[|[|[|j]]]]; [| | | |lia]; cbn [seq map Nat.eqb nth]; apply lerp11_slope; auto; (eapply Rle_trans; [apply N|]); right; f_equal; f_equal; cbn; field.
Qed.
Lemma chorus_motion sr noise hash64g h seed sep var mf K : usual sr -> (h < 2 ^ 64)%N -> 0 <= sep -> 0 <= var -> (forall s x, -1 <= noise s x <= 1) -> (forall s x y, Rabs (noise s x - noise s y) <= K * Rabs (x - y)) ->
  exists x, chorus Rnum_ops sr noise hash64g h seed sep var mf = Some x /\ exists d : nat -> nat -> R,
  (forall j k, (j < 4)%nat -> (INR j + 1) * sep <= d j k <= (INR j + 1) * sep + var /\ Rabs (d j (S k) - d j k) * sr <= K / 2 * var * Rabs (mf + INR j * (2 / 100))) /\
  forall l k, stream 1 l -> (k < length l)%nat -> let v := fun j => delayed_by sr sep (4 * sep + var) (sample_of l) k (d j k) in
    nth k (fx_outputs x l) [] = [1 / 5 * (sample_of l k + v 0%nat + v 1%nat + v 2%nat + v 3%nat)].
Proof.
  intros Hsr Hh HS V Nz NK. set (E := chorus_delays Rnum_ops noise (chorus_seeds hash64g seed) sep var mf).
  assert (P : 0 < sr) by (destruct Hsr; lra). pose proof (usual_interval sr (1 / 100) Hsr ltac:(lra)) as I.
  exists (chorus_node Rnum_ops (XLfo 4 E (start sr h 4 (1 / 100) E)) (XTap 4 sep (4 * sep + var) sr (line_new 0 (tap_length Rnum_ops sr (4 * sep + var))))).
  split.
  { unfold chorus. replace (nadd Rnum_ops (nmul Rnum_ops sep (nofZ Rnum_ops 4)) var) with (4 * sep + var) by (cbn; ring). rewrite (tap_new_ok sr 4 sep (4 * sep + var)) by lra. reflexivity. }
  set (d := fun j k => nth j (envelope_of sr h 4 (1 / 100) E k) 0). exists d. assert (HE : forall t, length (E t) = 4%nat) by reflexivity.
  split.
  - intros j k J. rewrite (Rmult_comm (INR j + 1)). split; [exact (range_of sr h 4 (1 / 100) E j _ _ k P I Hh HE J (fun t _ => chorus_delays_range noise _ sep var mf t j V Nz J))|].
    unfold d, envelope_of. set (s := mkEnv _ _ _ _ _ _ _ _ _ _ _ _). assert (Q : / sr * sr = 1) by (apply Rinv_l; lra). assert (Pi : 0 < / sr) by now apply Rinv_0_lt_compat.
    assert (Fi : fits s). { unfold fits, s. cbn [e_sd e_int e_hash]. set (z := IZR (2 ^ 62)) in *. clearbody z. clear - P I Q Pi Hh. unfold Rdiv in *. rewrite Rmult_1_l. repeat split; auto; nra. }
    pose proof (MotionProofs.envelope_slope E 4 s k j (K / 2 * var * Rabs (mf + INR j * (2 / 100))) HE Fi J (fun t u _ _ => chorus_delays_slope noise (chorus_seeds hash64g seed) sep var mf K t u j V NK J)) as M. cbv zeta in M.
    apply Rmult_le_compat_r with (r := sr) in M; [|lra]. replace (e_sd s) with (/ sr) in M by (unfold s; cbn [e_sd]; unfold Rdiv; ring). rewrite (Rmult_assoc _ (/ sr)), Q, Rmult_1_r in M. exact M.
  - intros l k Hl Hk v. rewrite (chorus_out sr sep (4 * sep + var) E h (1 / 100) P ltac:(lra) l k Hl Hk).
    pose proof (length_of sr h 4 (1 / 100) E k P I Hh HE) as Ln. unfold v, d. destruct (envelope_of sr h 4 (1 / 100) E k) as [|a [|b [|c [|e [|]]]]]; cbn in Ln; try discriminate.
    cbn [fold_left nth]. f_equal. ring.
Qed.
