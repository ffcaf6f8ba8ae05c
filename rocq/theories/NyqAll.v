(* Exactly which cutoff frequencies of the state variable filters are stable. *)
From Coq Require Import Reals Lra Lia Psatz List.
From Verif Require Import ShapeProofs TuneProofs TuneReal TuneBounds.
From Verif Require Export NyqSpec NyqProofs.
Import ListNotations.
Local Open Scope R_scope.

(* a second order recurrence with a product of roots outside the unit circle is unbounded unless it runs along a single root *)
Section Recurrence.
  Variables (y : nat -> R) (T D : R).
  Hypothesis rec : forall n, y (S (S n)) = T * y (S n) - D * y n.
  Hypothesis HD : 1 < Rabs D.
  Let E n := y (S n) * y (S n) - T * (y n * y (S n)) + D * (y n * y n).
  Lemma any_energy n : E n = D ^ n * E 0.
  Proof. induction n as [|n IH]; [cbn [pow]; ring|]. cbn [pow]. rewrite Rmult_assoc, <- IH. unfold E. rewrite rec. ring. Qed.
  Lemma any_unbounded C : y 1%nat * y 1%nat - T * (y 0%nat * y 1%nat) + D * (y 0%nat * y 0%nat) <> 0 -> exists n, C < Rabs (y n).
  Proof.
    intros N. change (E 0 <> 0) in N. pose proof (Rabs_pos_lt _ N) as P. set (B := Rabs C + 1). set (W := (1 + Rabs T + Rabs D) * (B * B)).
    destruct (Pow_x_infinity D HD ((W + 1) / Rabs (E 0))) as [j Hj]. specialize (Hj j (Nat.le_refl j)).
    apply Rge_le in Hj. apply (Rmult_le_compat_r (Rabs (E 0))) in Hj; [|lra]. unfold Rdiv in Hj. rewrite Rmult_assoc, Rinv_l, Rmult_1_r, <- Rabs_mult, <- any_energy in Hj by lra.
    pose proof (Rle_abs C) as AC. destruct (Rlt_dec C (Rabs (y j))) as [L|L]; [exists j; exact L|]. exists (S j). apply Rnot_le_lt. intros L2. apply Rnot_lt_le in L.
    assert (A : Rabs (y j) <= B) by (unfold B; lra). assert (A2 : Rabs (y (S j)) <= B) by (unfold B; lra).
    assert (M : forall u v, Rabs u <= B -> Rabs v <= B -> Rabs (u * v) <= B * B). { intros u v U V. rewrite Rabs_mult. apply Rmult_le_compat; auto using Rabs_pos. }
    assert (Rabs (E j) <= W).
    { unfold E, W. pose proof (M _ _ A2 A2) as X1. pose proof (M _ _ A A) as X2. pose proof (M _ _ A A2) as X3.
      assert (X4 : Rabs (T * (y j * y (S j))) <= Rabs T * (B * B)) by (rewrite Rabs_mult; apply Rmult_le_compat_l; [apply Rabs_pos|exact X3]).
      assert (X5 : Rabs (D * (y j * y j)) <= Rabs D * (B * B)) by (rewrite Rabs_mult; apply Rmult_le_compat_l; [apply Rabs_pos|exact X2]).
      pose proof (Rabs_triang (y (S j) * y (S j) - T * (y j * y (S j))) (D * (y j * y j))) as Y1. pose proof (Rabs_triang (y (S j) * y (S j)) (- (T * (y j * y (S j))))) as Y2. rewrite Rabs_Ropp in Y2. unfold Rminus in *. lra. }
    lra.
  Qed.
End Recurrence.

Section Above.
  Variables g k m0 m1 m2 x : R.
  Hypothesis Hg : g < 0.
  Hypothesis Hk : 0 < k.
  Hypothesis HD : 1 + g * (g + k) <> 0.
  Hypothesis Hm : m1 * m1 - k * (m1 * m2) + m2 * m2 <> 0.
  Hypothesis Hx : x <> 0.
  Let c := sv_with Rnum_ops g k m0 m1 m2.
  Let D := 1 + g * (g + k).
  Let Tr := (2 - 2 * (g * g)) / D.
  Let De := (1 - g * k + g * g) / D.
  Lemma product_big : 1 < Rabs De.
  Proof.
    assert (P : 0 < Rabs D) by (apply Rabs_pos_lt; exact HD). unfold De, Rdiv. rewrite Rabs_mult, Rabs_inv. apply Rmult_lt_reg_r with (Rabs D); [exact P|]. rewrite Rmult_assoc, Rinv_l, Rmult_1_l, Rmult_1_r by lra.
    assert (g * k < 0) by nra. pose proof (Rle_0_sqr g) as Q. unfold Rsqr in Q. rewrite (Rabs_pos_eq (1 - g * k + g * g)) by lra. apply Rabs_def1; unfold D; lra.
  Qed.
  Lemma any_rec p : sv_heard c (sv_next c (sv_next c p)) = Tr * sv_heard c (sv_next c p) - De * sv_heard c p.
  Proof.
    destruct p as [a b]. unfold c, sv_with, sv_heard, sv_next. cbn [sv_a1 sv_a2 sv_a3 sv_m0 sv_m1 sv_m2 nadd nmul ndiv n1 nofZ Rnum_ops]. fold D. unfold Tr, De. assert (N : D <> 0) by exact HD.
    field_simplify_eq; [|exact N]. unfold D. ring.
  Qed.
  (* after the sample x and silence *)
  Let p := (2 * (g * x / D), 2 * (g * (g * x) / D)).
  Lemma energy_of_impulse : sv_heard c (sv_next c p) * sv_heard c (sv_next c p) - Tr * (sv_heard c p * sv_heard c (sv_next c p)) + De * (sv_heard c p * sv_heard c p) =
    16 * (g * g * g * g) * (x * x) * (m1 * m1 - k * (m1 * m2) + m2 * m2) / (D * D * D * D).
  Proof.
    unfold p, c, sv_with, sv_heard, sv_next. cbn [sv_a1 sv_a2 sv_a3 sv_m0 sv_m1 sv_m2 nadd nmul ndiv n1 nofZ Rnum_ops]. fold D. unfold Tr, De. assert (N : D <> 0) by exact HD.
    field_simplify_eq; [|exact N]. unfold D. ring.
  Qed.
  Lemma impulse_unbounded C : exists n, C < Rabs (sv_heard c (sv_iter c p n)).
  Proof.
    apply (any_unbounded (fun n => sv_heard c (sv_iter c p n)) Tr De).
    - intros n. rewrite !sv_iter_S. apply any_rec.
    - exact product_big.
    - cbn [sv_iter]. rewrite energy_of_impulse. assert (N : D <> 0) by exact HD. assert (g <> 0) by lra. unfold Rdiv.
      repeat apply Rmult_integral_contrapositive_currified; try assumption; try lra. apply Rinv_neq_0_compat. repeat apply Rmult_integral_contrapositive_currified; assumption.
  Qed.
End Above.

(* the tangent at all frequencies *)
Lemma tan_turns t N : tan (t + INR N * PI) = tan t.
Proof.
  induction N as [|N IH]; [f_equal; cbn; ring|]. rewrite <- IH. replace (t + INR (S N) * PI) with (t + INR N * PI + PI) by (rewrite S_INR; ring). unfold tan. rewrite neg_sin, neg_cos. unfold Rdiv. rewrite Rinv_opp. ring.
Qed.
Lemma tan_alias sr f N : 0 < sr -> tan (PI * (f + INR N * sr) / sr) = tan (PI * f / sr).
Proof. intros H. rewrite <- (tan_turns (PI * f / sr) N). f_equal. field. lra. Qed.
Lemma halves sr f : 0 < sr -> 0 < f -> (forall N : nat, f <> INR N * (sr / 2)) -> (exists N : nat, INR N * sr < f < (INR N + 1 / 2) * sr) \/ (exists N : nat, (INR N + 1 / 2) * sr < f < (INR N + 1) * sr).
Proof.
  intros H F Z. assert (Q : 0 < f / sr) by (apply Rdiv_lt_0_compat; assumption). pose proof (base_Int_part (f / sr)) as [B1 B2].
  assert (I : (0 <= Int_part (f / sr))%Z) by (assert (-1 < Int_part (f / sr))%Z by (apply lt_IZR; lra); lia). set (N := Z.to_nat (Int_part (f / sr))). assert (E : IZR (Int_part (f / sr)) = INR N) by (unfold N; rewrite INR_IZR_INZ, Z2Nat.id by exact I; reflexivity). rewrite E in *.
  assert (Ef : f = f / sr * sr) by (field; lra). set (t := f / sr) in *. clearbody t N. pose proof (Z (2 * N)%nat) as Z0. pose proof (Z (2 * N + 1)%nat) as Z1. rewrite plus_INR, mult_INR in Z1. rewrite mult_INR in Z0. change (INR 2) with 2 in *. change (INR 1) with 1 in *. rewrite Ef in *.
  assert (N0 : t <> INR N) by (intros X; apply Z0; rewrite X; field). assert (N1 : t <> INR N + 1 / 2) by (intros X; apply Z1; rewrite X; field).
  destruct (Rlt_dec t (INR N + 1 / 2)) as [L|L]; [left|right]; exists N; split; apply Rmult_lt_compat_r; lra.
Qed.
Lemma sin_double sr f : cos (PI * f / sr) <> 0 -> sin (2 * PI * f / sr) = 2 * (tan (PI * f / sr) / (1 + tan (PI * f / sr) * tan (PI * f / sr))).
Proof.
  intros C. replace (2 * PI * f / sr) with (2 * (PI * f / sr)) by (unfold Rdiv; ring). rewrite sin_2a. unfold tan. pose proof (sin2_cos2 (PI * f / sr)) as S. unfold Rsqr in S. set (s := sin _) in *. set (co := cos _) in *.
  replace (1 + s / co * (s / co)) with ((s * s + co * co) / (co * co)) by (field; exact C). rewrite S. field. exact C.
Qed.
Lemma cos_apart sr f N : 0 < sr -> (INR N + 1 / 2) * sr < f < (INR N + 1) * sr -> cos (PI * f / sr) <> 0.
Proof.
  intros H [A B] C. apply cos_eq_0_0 in C. destruct C as [z C]. pose proof PI_RGT_0 as P. assert (E : f = (IZR z + 1 / 2) * sr). { apply (Rmult_eq_reg_l (PI / sr)); [|assert (0 < PI / sr) by (apply Rdiv_lt_0_compat; lra); lra]. replace (PI / sr * f) with (PI * f / sr) by (field; lra). rewrite C. field. lra. }
  rewrite E in A, B. apply Rmult_lt_reg_r in A; [|exact H]. apply Rmult_lt_reg_r in B; [|exact H]. rewrite INR_IZR_INZ in *. assert (Z.of_nat N < z)%Z by (apply lt_IZR; lra). assert (z < Z.of_nat N + 1)%Z by (apply lt_IZR; rewrite plus_IZR; lra). lia.
Qed.

(* the coefficients that the modes have in common *)
Definition sv_g (m : svmode) (t gain : R) : R := match m with MLowshelf => t / sqrt (sqrt gain) | MHighshelf => t * sqrt (sqrt gain) | _ => t end.
Definition sv_k (m : svmode) (q gain : R) : R := match m with MBell => 1 / (q * sqrt gain) | _ => 1 / q end.
Lemma k_pos m q gain : 0 < q -> 0 < gain -> 0 < sv_k m q gain.
Proof. intros Q H. pose proof (sqrt_lt_R0 gain H) as S. destruct m; cbn [sv_k]; apply Rdiv_lt_0_compat; try lra. apply Rmult_lt_0_compat; assumption. Qed.
Lemma coefs_like m sr f q gain : 0 < q -> 0 < gain -> let t := tan (PI * f / sr) in
  match m with MPeak => q <> 1 / 2 | MBell => gain <> 1 | MLowshelf | MHighshelf => q * (1 + sqrt gain) <> sqrt (sqrt gain) /\ gain <> 1 | _ => True end ->
  exists m0 m1 m2, sv_coefs Rnum_ops R_elem m (mkSvp sr f q gain) = sv_with Rnum_ops (sv_g m t gain) (sv_k m q gain) m0 m1 m2 /\ m1 * m1 - sv_k m q gain * (m1 * m2) + m2 * m2 <> 0.
Proof.
  intros Q H t G. pose proof (k_pos m q gain Q H) as K. pose proof (sqrt_lt_R0 gain H) as S. pose proof (sqrt_sqrt gain (Rlt_le _ _ H)) as SS.
  assert (SH : q * (1 + sqrt gain) <> sqrt (sqrt gain) -> gain <> 1 -> (1 - sqrt gain) * (1 - sqrt gain) * ((1 + sqrt gain) * (1 + sqrt gain) - 1 / q * (1 / q) * sqrt gain) <> 0).
  { intros Q2 G1. assert (S1 : sqrt gain <> 1) by (intros X; rewrite X in SS; lra). pose proof (sqrt_lt_R0 _ S) as R0. pose proof (sqrt_sqrt _ (Rlt_le _ _ S)) as RR. set (r := sqrt (sqrt gain)) in *. set (a := sqrt gain) in *. clearbody r a.
    replace ((1 + a) * (1 + a) - 1 / q * (1 / q) * a) with ((q * (1 + a) - r) * (q * (1 + a) + r) * / (q * q)).
    - assert (0 < q * (1 + a) + r) by (assert (0 < q * (1 + a)) by (apply Rmult_lt_0_compat; lra); lra). assert (0 < q * q) by (apply Rmult_lt_0_compat; lra).
      repeat apply Rmult_integral_contrapositive_currified; try lra. apply Rinv_neq_0_compat. lra.
    - rewrite <- RR. field. lra. }
  assert (k0 : 1 / q <> 0) by (assert (0 < 1 / q) by (apply Rdiv_lt_0_compat; lra); lra).
  destruct m; eexists _, _, _; (split; [reflexivity|]); cbn [sv_k sp_q sp_gain sp_sr sp_cutoff nneg nadd nsub nmul ndiv n0 n1 nofZ Rnum_ops e_sqrt R_elem] in *.
  - lra.
  - match goal with |- ?e <> 0 => replace e with 1 by ring end. lra.
  - lra.
  - match goal with |- ?e <> 0 => replace e with (1 / q * (1 / q)) by ring end. now apply Rmult_integral_contrapositive_currified.
  - match goal with |- ?e <> 0 => replace e with ((2 - 1 / q) * (2 + 1 / q)) by ring end. apply Rmult_integral_contrapositive_currified; [|lra]. intros X. apply G. apply (Rmult_eq_reg_l (1 / q)); [|exact k0]. replace (1 / q * q) with 1 by (field; lra). lra.
  - match goal with |- ?e <> 0 => replace e with (4 * (1 / q * (1 / q))) by ring end. apply Rmult_integral_contrapositive_currified; [lra|]. now apply Rmult_integral_contrapositive_currified.
  - match goal with |- ?e <> 0 => replace e with ((1 / (q * sqrt gain) * (sqrt gain * sqrt gain - 1)) * (1 / (q * sqrt gain) * (sqrt gain * sqrt gain - 1))) by ring end.
    assert (1 / (q * sqrt gain) * (sqrt gain * sqrt gain - 1) <> 0); [|now apply Rmult_integral_contrapositive_currified]. rewrite SS. apply Rmult_integral_contrapositive_currified; lra.
  - match goal with |- ?e <> 0 => replace e with ((1 - sqrt gain) * (1 - sqrt gain) * ((1 + sqrt gain) * (1 + sqrt gain) - 1 / q * (1 / q) * sqrt gain)) by ring end. now apply SH.
  - match goal with |- ?e <> 0 => replace e with ((1 - sqrt gain) * (1 - sqrt gain) * ((1 + sqrt gain) * (1 + sqrt gain) - 1 / q * (1 / q) * sqrt gain)) by ring end. now apply SH.
Qed.
Lemma tan_neg sr f N : 0 < sr -> (INR N + 1 / 2) * sr < f < (INR N + 1) * sr -> tan (PI * f / sr) < 0.
Proof. intros H F. replace f with (f - INR N * sr + INR N * sr) by ring. rewrite tan_alias by exact H. apply tan_above; [exact H|lra]. Qed.
Lemma divides m sr f q gain N : 0 < sr -> 0 < q -> 0 < gain -> generic m sr f q gain -> (INR N + 1 / 2) * sr < f < (INR N + 1) * sr ->
  let g := sv_g m (tan (PI * f / sr)) gain in let k := sv_k m q gain in g < 0 /\ 1 + g * (g + k) <> 0.
Proof.
  intros H Q Ga [_ Ge] F g k. pose proof (tan_neg sr f N H F) as T. pose proof (cos_apart sr f N H F) as C. pose proof (sin_double sr f C) as SD. pose proof (sqrt_lt_R0 gain Ga) as S. pose proof (sqrt_lt_R0 _ S) as S2. pose proof (k_pos m q gain Q Ga) as K. fold k in K.
  set (t := tan (PI * f / sr)) in *. assert (T1 : 0 < 1 + t * t) by nra.
  assert (U : forall q', 0 < q' -> sin (2 * PI * f / sr) <> - 2 * q' -> 1 + t * (t + 1 / q') <> 0).
  { intros q' Q' X Y. apply X. rewrite SD. assert (t = - q' * (1 + t * t)). { apply (Rmult_eq_reg_l (1 / q')); [|assert (0 < 1 / q') by (apply Rdiv_lt_0_compat; lra); lra]. replace (1 / q' * (- q' * (1 + t * t))) with (- (1 + t * t)) by (field; lra). lra. }
    rewrite H0 at 1. field. lra. }
  assert (Tq : t = sin (PI * f / sr) / cos (PI * f / sr)) by reflexivity. pose proof (sqrt_sqrt _ (Rlt_le _ _ S)) as RR.
  split.
  - unfold g. destruct m; cbn [sv_g]; try exact T; [|nra]. apply Ropp_lt_cancel. rewrite Ropp_0. replace (- (t / sqrt (sqrt gain))) with (- t / sqrt (sqrt gain)) by (unfold Rdiv; ring). apply Rdiv_lt_0_compat; lra.
  - unfold g, k. destruct m; cbn [sv_g sv_k]; try (apply U; [first [exact Q|apply Rmult_lt_0_compat; assumption]|tauto]).
    + destruct Ge as [Ge _]. cbv zeta in Ge. intros Y. apply Ge. rewrite Tq in Y. set (w := PI * f / sr) in *. set (r := sqrt (sqrt gain)) in *. set (s := sin w) in *. set (c := cos w) in *. rewrite <- RR. clearbody s c r. clear - Y Q S2 C.
      assert (X : (1 + s / c / r * (s / c / r + 1 / q)) * (q * (r * r) * (c * c)) = 0) by (rewrite Y; ring).
      replace ((1 + s / c / r * (s / c / r + 1 / q)) * (q * (r * r) * (c * c))) with (q * (r * r * (c * c) + s * s) + r * (s * c)) in X by (field; lra). lra.
    + destruct Ge as [Ge _]. cbv zeta in Ge. intros Y. apply Ge. rewrite Tq in Y. set (w := PI * f / sr) in *. set (r := sqrt (sqrt gain)) in *. set (s := sin w) in *. set (c := cos w) in *. rewrite <- RR. clearbody s c r. clear - Y Q S2 C.
      assert (X : (1 + s / c * r * (s / c * r + 1 / q)) * (q * (c * c)) = 0) by (rewrite Y; ring).
      replace ((1 + s / c * r * (s / c * r + 1 / q)) * (q * (c * c))) with (q * (c * c + r * r * (s * s)) + r * (s * c)) in X by (field; lra). lra.
Qed.
Lemma svf_unstable : forall (G S X : Type) (tl : tools R G S X), tl_elem tl = R_elem -> forall m sr f q gain n, 0 < sr -> 0 < f -> 0 < q -> 0 < gain -> generic m sr f q gain -> ~ aliased_low sr f -> build Rnum_ops tl false (OSvf m f q gain) = Some n ->
  forall x C, x <> 0 -> exists j os, t_outs Rnum_ops tl (t_rate Rnum_ops tl n sr) (ATick [x] :: repeat (ATick [0]) j) = Some os /\ ~ bounded C os.
Proof.
  intros G S X tl Htl m sr f q gain n SR F Q Ga Ge Al B x C N. destruct (halves sr f SR F (proj1 Ge)) as [L|[M L]]; [contradiction|]. destruct (divides m sr f q gain M SR Q Ga Ge L) as [Hg HD].
  cbn [build] in B. injection B as <-. cbn [t_rate svf_do svf_new]. rewrite Htl.
  set (s := svf_update Rnum_ops R_elem _ _). assert (Ec : vf_c s = sv_coefs Rnum_ops R_elem m (mkSvp sr f q gain)) by reflexivity.
  assert (E1 : vf_ic1 s = 0) by reflexivity. assert (E2 : vf_ic2 s = 0) by reflexivity. clearbody s.
  destruct (coefs_like m sr f q gain Q Ga) as (m0 & m1 & m2 & Es & Hm); [destruct Ge as [_ Ge]; destruct m; cbv zeta in Ge; tauto|]. rewrite Es in Ec. clear Es. pose proof (k_pos m q gain Q Ga) as Hk.
  set (g := sv_g m _ gain) in *. set (k := sv_k m q gain) in *. clearbody g k. unfold t_outs. cbn [t_run t_tick nth]. unfold svf_step at 1. cbn [nadd nsub nmul nofZ Rnum_ops]. rewrite E1, E2.
  set (s' := mkSvf _ _ _ _ _). assert (Ec' : vf_c s' = sv_with Rnum_ops g k m0 m1 m2) by exact Ec. set (D := 1 + g * (g + k)) in *.
  assert (Ep : (vf_ic1 s', vf_ic2 s') = (2 * (g * x / D), 2 * (g * (g * x) / D))).
  { unfold s'. cbn [vf_ic1 vf_ic2]. rewrite Ec. unfold sv_with. cbn [sv_a1 sv_a2 sv_a3 nadd nmul ndiv n1 nofZ Rnum_ops]. fold D. f_equal; field; exact HD. }
  destruct (impulse_unbounded g k m0 m1 m2 x Hg Hk HD Hm N C) as [i Hi]. fold D in Hi. rewrite <- Ep, <- Ec' in Hi. destruct (silent_run tl (Datatypes.S i) s') as (n & os & E & H). exists (Datatypes.S i). rewrite E. eexists. split; [reflexivity|].
  intros Bd. unfold bounded in Bd. inversion Bd as [|? ? _ Bd']; subst. rewrite Forall_forall in Bd'. specialize (Bd' _ (nth_error_In _ _ (H i (Nat.lt_succ_diag_r i)))). apply Forall_inv in Bd'. exact (Rlt_not_le _ _ Hi Bd').
Qed.

(* the outputs of a filter without inputs for its parameters depend on its coefficients and state *)
Lemma fix_same {G S X} (tl : tools R G S X) acts : Forall (fun a : act R => exists x, a = ATick [x]) acts -> forall s1 s2, vf_c s1 = vf_c s2 -> vf_ic1 s1 = vf_ic1 s2 -> vf_ic2 s1 = vf_ic2 s2 ->
  t_outs Rnum_ops tl (TFix s1) acts = t_outs Rnum_ops tl (TFix s2) acts.
Proof.
  unfold t_outs. intros A. induction A as [|a acts (x & ->) _ IH]; intros s1 s2 H1 H2 H3; [reflexivity|]. cbn [t_run t_tick nth]. unfold svf_step. rewrite H1, H2, H3. cbn [nadd nsub nmul nofZ Rnum_ops].
  match goal with |- context [t_run _ _ (TFix ?u) acts] => match goal with |- context [t_run _ _ (TFix ?v) acts] => first [constr_eq u v; fail 1|specialize (IH u v)] end end.
  cbn [vf_c vf_ic1 vf_ic2] in IH. specialize (IH eq_refl eq_refl eq_refl). repeat match goal with |- context [t_run ?a ?b ?c acts] => destruct (t_run a b c acts) as [[? ?]|] end; congruence.
Qed.
Lemma svf_stable_exactly : forall (G S X : Type) (tl : tools R G S X), tl_elem tl = R_elem -> forall m sr f q gain n, 0 < sr -> 0 < f -> 0 < q -> 0 < gain -> generic m sr f q gain -> build Rnum_ops tl false (OSvf m f q gain) = Some n ->
  (stable_filter tl (t_rate Rnum_ops tl n sr) <-> aliased_low sr f).
Proof.
  intros G S X tl Htl m sr f q gain n SR F Q Ga Ge B. split.
  - intros [C H]. destruct (halves sr f SR F (proj1 Ge)) as [L|[M L]]; [exact L|]. exfalso.
    assert (Al : ~ aliased_low sr f). { intros (N & N1 & N2). assert (X1 : INR N < INR M + 1) by (apply Rmult_lt_reg_r with sr; lra). assert (X2 : INR M + 1 / 2 < INR N + 1 / 2) by (apply Rmult_lt_reg_r with sr; lra). rewrite <- S_INR in X1. apply INR_lt in X1. assert (Y : INR M < INR N) by lra. apply INR_lt in Y. lia. }
    destruct (svf_unstable G S X tl Htl m sr f q gain n SR F Q Ga Ge Al B 1 C ltac:(lra)) as (j & os & E & N). apply N. apply (H (ATick [1] :: repeat (ATick [0]) j)); [|exact E].
    apply Forall_cons; [exists 1; split; [reflexivity|rewrite Rabs_pos_eq; lra]|]. rewrite Forall_forall. intros a I. apply repeat_spec in I. exists 0. split; [exact I|rewrite Rabs_R0; lra].
  - intros (N & L). set (f' := f - INR N * sr). assert (L' : 0 < f' < sr / 2) by (unfold f'; lra). set (r := mkRanges sr sr f' f' q q gain gain 1). assert (Pr : proper r) by (unfold r, proper; cbn [r_sr0 r_sr1 r_f0 r_f1 r_q0 r_q1 r_g0 r_g1 r_x]; lra).
    destruct (svf_bounded G S X tl Htl r Pr) as [C H]. exists C. intros acts os A E.
    refine (H false m f' q gain sr _ acts os _ _ _ _ eq_refl _ _); try (unfold in_sr, in_f, in_q, in_g, r; cbn [r_sr0 r_sr1 r_f0 r_f1 r_q0 r_q1 r_g0 r_g1]; lra).
    + eapply Forall_impl; [|exact A]. intros a (x & -> & Hx). cbn [steered nth r_x r]. split; [exact Hx|discriminate].
    + rewrite <- E. cbn [build] in B. injection B as <-. cbn [t_rate svf_do svf_new]. apply fix_same; [eapply Forall_impl; [|exact A]; intros a (x & -> & _); now exists x| |reflexivity|reflexivity].
      rewrite Htl. change (sv_coefs Rnum_ops R_elem m (mkSvp sr f' q gain) = sv_coefs Rnum_ops R_elem m (mkSvp sr f q gain)).
      assert (T : tan (PI * f' / sr) = tan (PI * f / sr)) by (rewrite <- (tan_alias sr f' N SR); f_equal; unfold f'; f_equal; f_equal; ring).
      unfold sv_coefs. cbn [sp_sr sp_cutoff sp_q sp_gain nmul ndiv Rnum_ops e_pi e_tan R_elem]. rewrite T. reflexivity.
Qed.

(* shelves of Q above 1/2 are generic *)
Lemma shelf_generic m sr f q gain : m = MLowshelf \/ m = MHighshelf -> 0 < gain -> 1 / 2 < q -> gain <> 1 -> (forall N : nat, f <> INR N * (sr / 2)) -> generic m sr f q gain.
Proof.
  intros M Ga Q G1 F. split; [exact F|]. pose proof (sqrt_lt_R0 gain Ga) as S. pose proof (sqrt_lt_R0 _ S) as S2. pose proof (sqrt_sqrt _ (Rlt_le _ _ S)) as RR. pose proof (sin2_cos2 (PI * f / sr)) as SC. unfold Rsqr in SC.
  assert (U : q * (1 + sqrt gain) <> sqrt (sqrt gain)). { pose proof (Rle_0_sqr (1 - sqrt (sqrt gain))) as P. unfold Rsqr in P. assert (1 / 2 * (1 + sqrt gain) < q * (1 + sqrt gain)) by (apply Rmult_lt_compat_r; lra). lra. }
  assert (W : forall a b : R, a <> 0 \/ b <> 0 -> 0 < q * (a * a + b * b) + a * b).
  { intros a b N. pose proof (Rle_0_sqr (a + b)) as P. pose proof (Rle_0_sqr a) as A. pose proof (Rle_0_sqr b) as B. unfold Rsqr in *. assert (0 < a * a + b * b) by (destruct N as [N|N]; [assert (0 < a * a) by nra|assert (0 < b * b) by nra]; lra).
    assert (1 / 2 * (a * a + b * b) < q * (a * a + b * b)) by (apply Rmult_lt_compat_r; assumption). lra. }
  set (s := sin (PI * f / sr)) in *. set (c := cos (PI * f / sr)) in *. assert (N : s <> 0 \/ c <> 0) by (destruct (Req_dec s 0) as [->|]; [right|left; assumption]; intros ->; lra).
  destruct M as [-> | ->]; cbv zeta; fold s c; (split; [|split; [exact U|exact G1]]); set (r := sqrt (sqrt gain)) in *; rewrite <- RR.
  - assert (H : 0 < q * ((r * c) * (r * c) + s * s) + (r * c) * s) by (apply W; destruct N; [right; assumption|left; apply Rmult_integral_contrapositive_currified; lra]). intros E. assert (q * ((r * c) * (r * c) + s * s) + (r * c) * s = q * (r * r * (c * c) + s * s) + r * (s * c)) by ring. lra.
  - assert (H : 0 < q * (c * c + (r * s) * (r * s)) + c * (r * s)) by (apply W; destruct N; [right; apply Rmult_integral_contrapositive_currified; lra|left; assumption]). intros E. assert (q * (c * c + (r * s) * (r * s)) + c * (r * s) = q * (c * c + r * r * (s * s)) + r * (s * c)) by ring. lra.
Qed.
