(* How loud tables are when they are read between their samples, and how loud their partials are. *)
From Coq Require Import Reals Lra Lia Psatz Machin.
From Verif Require Import SeqSamples TableProofs TableBuild TableCases TableFloat OscProofs TableSpec.
Import ListNotations.
Local Open Scope R_scope.

(* the weights of the four samples *)
Definition outer (x : R) : R := 154653308430284559 / 800000000000000000 * (x ^ 0 * (1 - x) ^ 4) + 51026032455464311 / 200000000000000000 * (x ^ 1 * (1 - x) ^ 3) + 30512013104744249 / 400000000000000000 * (x ^ 2 * (1 - x) ^ 2) + 4886982896536947 / 200000000000000000 * (x ^ 3 * (1 - x) ^ 1) + 60006631219927 / 800000000000000000 * (x ^ 4 * (1 - x) ^ 0).
Definition inner (x : R) : R := 245361183962264899 / 400000000000000000 * (x ^ 0 * (1 - x) ^ 4) + 502980243283705791 / 200000000000000000 * (x ^ 1 * (1 - x) ^ 3) + 292370756417066701 / 100000000000000000 * (x ^ 2 * (1 - x) ^ 2) + 9644354012575601 / 8000000000000000 * (x ^ 3 * (1 - x) ^ 1) + 15456386180619877 / 80000000000000000 * (x ^ 4 * (1 - x) ^ 0).
Lemma bern_pos x j k : 0 <= x <= 1 -> 0 <= x ^ j * (1 - x) ^ k.
Proof. intros X. apply Rmult_le_pos; apply pow_le; lra. Qed.
Lemma outer_pos x : 0 <= x <= 1 -> 0 <= outer x.
Proof. intros X. unfold outer. pose proof (bern_pos x 0 4 X). pose proof (bern_pos x 1 3 X). pose proof (bern_pos x 2 2 X). pose proof (bern_pos x 3 1 X). pose proof (bern_pos x 4 0 X). lra. Qed.
Lemma inner_pos x : 0 <= x <= 1 -> 0 <= inner x.
Proof. intros X. unfold inner. pose proof (bern_pos x 0 4 X). pose proof (bern_pos x 1 3 X). pose proof (bern_pos x 2 2 X). pose proof (bern_pos x 3 1 X). pose proof (bern_pos x 4 0 X). lra. Qed.
Definition slack (x : R) : R := 4227603883473 / 400000000000000000 * (x ^ 0 * (1 - x) ^ 4) + 2945524951463 / 100000000000000000 * (x ^ 1 * (1 - x) ^ 3) + 16961226988947 / 200000000000000000 * (x ^ 2 * (1 - x) ^ 2) + 2945524951463 / 100000000000000000 * (x ^ 3 * (1 - x) ^ 1) + 4227603883473 / 400000000000000000 * (x ^ 4 * (1 - x) ^ 0).
Lemma slack_pos x : 0 <= x <= 1 -> 0 <= slack x.
Proof. intros X. unfold slack. pose proof (bern_pos x 0 4 X). pose proof (bern_pos x 1 3 X). pose proof (bern_pos x 2 2 X). pose proof (bern_pos x 3 1 X). pose proof (bern_pos x 4 0 X). lra. Qed.
Lemma weights a b c d x : optimal4x44 Rnum_ops a b c d x = outer x * a + inner x * b + inner (1 - x) * c + outer (1 - x) * d.
Proof. unfold optimal4x44, dec, outer, inner, n1. cbn [nsub nadd nmul ndiv nofZ Rnum_ops]. field. Qed.
Lemma weights_sum x : outer x + inner x + inner (1 - x) + outer (1 - x) = 100001 / 100000 - slack x.
Proof. unfold outer, inner, slack. field. Qed.
Lemma opt_level a b c d x B : 0 <= x <= 1 -> Rabs a <= B -> Rabs b <= B -> Rabs c <= B -> Rabs d <= B -> Rabs (optimal4x44 Rnum_ops a b c d x) <= 100001 / 100000 * B.
Proof.
  intros X A1 A2 A3 A4. rewrite weights. pose proof (outer_pos x X) as P0. pose proof (inner_pos x X) as P1. pose proof (inner_pos (1 - x) ltac:(lra)) as P2. pose proof (outer_pos (1 - x) ltac:(lra)) as P3. pose proof (weights_sum x) as W. pose proof (slack_pos x X) as Sl.
  set (p0 := outer x) in *. set (p1 := inner x) in *. set (p2 := inner (1 - x)) in *. set (p3 := outer (1 - x)) in *. assert (B0 : 0 <= B) by (eapply Rle_trans; [apply Rabs_pos|exact A1]).
  assert (T : forall p v, 0 <= p -> Rabs v <= B -> - (p * B) <= p * v <= p * B) by (intros p v Hp Hv; assert (- B <= v <= B) by (unfold Rabs in Hv; destruct (Rcase_abs v); lra); nra).
  pose proof (T p0 a P0 A1). pose proof (T p1 b P1 A2). pose proof (T p2 c P2 A3). pose proof (T p3 d P3 A4). assert ((p0 + p1 + p2 + p3) * B <= 100001 / 100000 * B) by (apply Rmult_le_compat_r; lra). apply Rabs_le. lra.
Qed.
Lemma cyclic_level t B i : 0 <= B -> (forall v, In v t -> Rabs v <= B) -> Rabs (cyclic t i) <= B.
Proof.
  intros B0 H. unfold cyclic. destruct (nth_in_or_default (Z.to_nat (i mod Z.of_nat (length t))) t 0) as [I|E]; [now apply H|]. rewrite E, Rabs_R0. exact B0.
Qed.
Lemma sample_level t B phase : 0 <= B -> (forall v, In v t -> Rabs v <= B) -> Rabs (sample t phase) <= 100001 / 100000 * B.
Proof. intros B0 H. unfold sample. cbv zeta. destruct (base_Int_part (INR (length t) * phase)) as [L U]. apply opt_level; try (apply cyclic_level; assumption). lra. Qed.
Lemma limit01_range x : 0 <= limit01 x <= 1.
Proof. unfold limit01. destruct (Rle_dec x 0); [lra|]. destruct (Rle_dec 1 x); lra. Qed.
Lemma level_level B f phase : 0 <= B -> forall tb, (forall t v, In t tb -> In v (snd t) -> Rabs v <= B) -> Rabs (level tb f phase) <= 100001 / 100000 * B.
Proof.
  intros B0. induction tb as [|[p0 t0] tb IH]; intros H; [cbn [level]; rewrite Rabs_R0; lra|]. destruct tb as [|[p1 t1] [|[p2 t2] more]]; try (cbn [level]; rewrite Rabs_R0; lra).
  assert (IH' := IH ltac:(intros t v I; apply H; now right)). cbn [level] in *.
  destruct (if Rle_dec f p1 then true else _); [|exact IH'].
  pose proof (sample_level t1 B phase B0 (fun v I => H (p1, t1) v ltac:(right; now left) I)) as S1. pose proof (sample_level t2 B phase B0 (fun v I => H (p2, t2) v ltac:(right; right; now left) I)) as S2.
  cbv zeta. pose proof (limit01_range ((f - p0) / (p1 - p0))) as W. set (w := limit01 _) in *. clearbody w. set (K := 100001 / 100000 * B) in *. assert (forall v, Rabs v <= K -> - K <= v <= K) by (intros v V; unfold Rabs in V; destruct (Rcase_abs v); lra).
  apply H0 in S1. apply H0 in S2. apply Rabs_le. nra.
Qed.
(* ---- a partial that is read at the samples of its table ---- *)
Section Partial.
  Variables (t : list R) (k : nat) (A phi : R).
  Let N := length t.
  Hypothesis HN : (0 < N)%nat.
  Hypothesis HT : forall n, (n < N)%nat -> nth n t 0 = A * sin (2 * PI * (INR k * INR n / INR N + phi)).
  Lemma cyclic_partial i : cyclic t i = A * sin (2 * PI * (INR k * IZR i / INR N + phi)).
  Proof.
    unfold cyclic. fold N. assert (P : (0 < Z.of_nat N)%Z) by lia. pose proof (Z.mod_pos_bound i (Z.of_nat N) P) as M. rewrite HT by lia. f_equal.
    pose proof (Z.div_mod i (Z.of_nat N) ltac:(lia)) as D. set (q := (i / Z.of_nat N)%Z) in *. set (m := (i mod Z.of_nat N)%Z) in *.
    rewrite <- (sin_turn (INR k * INR (Z.to_nat m) / INR N + phi) (Z.of_nat k * q)). f_equal. f_equal. rewrite (INR_IZR_INZ (Z.to_nat m)), Z2Nat.id by lia. rewrite D, plus_IZR, !mult_IZR, <- !INR_IZR_INZ. field. apply not_0_INR. lia.
  Qed.
  Lemma sample_partial n : (n < N)%nat -> let w := 2 * PI * (INR k / INR N) in Rabs (sample t (INR n / INR N) - (0.6134 + 0.3865 * cos w) * nth n t 0) <= Rabs A / 2000.
  Proof.
    intros Hn w. assert (NP : 0 < INR N) by (apply lt_0_INR; exact HN). unfold sample. cbv zeta. fold N. replace (INR N * (INR n / INR N)) with (INR n) by (field; lra).
    rewrite (int_part_spec (INR n) (Z.of_nat n)) by (rewrite <- INR_IZR_INZ; lra). rewrite !cyclic_partial, HT by exact Hn. rewrite <- !INR_IZR_INZ. replace (INR n - INR n) with 0 by ring. rewrite weights.
    set (th := 2 * PI * (INR k * INR n / INR N + phi)).
    assert (E : forall z, 2 * PI * (INR k * IZR (Z.of_nat n + z) / INR N + phi) = th + IZR z * w) by (intros z; unfold th, w; rewrite plus_IZR, <- INR_IZR_INZ; field; lra).
    replace (Z.of_nat n - 1)%Z with (Z.of_nat n + (-1))%Z by lia. rewrite !E. fold th. replace (th + -1 * w) with (th - w) by ring. replace (th + 1 * w) with (th + w) by ring.
    rewrite sin_minus, sin_plus. pose proof (SIN_bound th) as B1. pose proof (COS_bound w) as B2. pose proof (COS_bound th) as B3. pose proof (SIN_bound w) as B4. pose proof (SIN_bound (th + 2 * w)) as B5.
    set (s := sin th) in *. set (cw := cos w) in *. set (c := cos th) in *. set (sw := sin w) in *. set (e := sin (th + 2 * w)) in *. clearbody s cw c sw e. clear E.
    assert (X1 : -1 <= s * cw <= 1) by nra. assert (X2 : -1 <= c * sw <= 1) by nra.
    match goal with |- Rabs ?v <= _ => assert (exists g, v = A * g /\ Rabs g <= 1 / 2000) as (g & -> & G) end.
    { exists ((inner 0 - 0.6134) * s + (outer 0 + inner (1 - 0) - 0.3865) * (s * cw) + (inner (1 - 0) - outer 0) * (c * sw) + outer (1 - 0) * e). split; [ring|]. set (u := s * cw) in *. set (v := c * sw) in *. clearbody u v. unfold inner, outer. apply Rabs_le. lra. }
    rewrite Rabs_mult. pose proof (Rabs_pos A). nra.
  Qed.
End Partial.
Lemma PI_small : PI < 3.1416.
Proof. pose proof (PI_2_3_7_ineq 5) as [A B]. unfold tg_alt, PI_2_3_7_tg, Ratan_seq in A, B. cbn [sum_f_R0 Nat.mul Nat.add pow INR] in A, B. lra. Qed.
Lemma quarter_cos u : 15 / 64 <= u <= 1 / 4 -> 0 <= cos (2 * PI * u) <= 0.0982.
Proof.
  intros U. pose proof PI_RGT_0 as P0. pose proof PI_small as P4. rewrite <- sin_shift. set (x := PI / 2 - 2 * PI * u). assert (X : 0 <= x <= PI / 32) by (unfold x; nra).
  split; [apply sin_ge_0; lra|]. destruct (Req_dec x 0) as [->|N]; [rewrite sin_0; lra|]. pose proof (sin_lt_x x ltac:(lra)). lra.
Qed.
Lemma dull_partial ifft pitch i w : is_inverse_dft ifft -> 0 < pitch -> let N := wave_length (top pitch) in (0 < i)%nat -> (15 * N <= 64 * i)%nat -> (4 * i <= N)%nat -> pitch * INR i <= 20000 ->
  make_waveR ifft pitch (fun _ => 0) (only i) = Val w -> length w = N /\
  forall n, (n < N)%nat -> nth n w 0 = sin (2 * PI * (INR i * INR n / INR N)) /\ Rabs (sample w (INR n / INR N)) <= 0.652 * Rabs (nth n w 0) + 1 / 2000.
Proof.
  intros D P N I0 I1 I2 F E. assert (I1' : (1 <= i)%nat) by exact I0. destruct (only_wave _ _ _ _ _ D P I1' F E) as [L W]. fold N in L. split; [exact L|]. intros n Hn. assert (NP : (0 < N)%nat) by lia. assert (NR : 0 < INR N) by (apply lt_0_INR; exact NP).
  assert (W' : forall n, (n < N)%nat -> nth n w 0 = sin (2 * PI * (INR i * INR n / INR N))).
  { intros m Hm. rewrite W by lia. rewrite L. do 2 f_equal. rewrite Rplus_0_r. unfold Rdiv. ring. }
  split; [now apply W'|].
  pose proof (sample_partial w i 1 0 ltac:(lia) ltac:(intros m Hm; rewrite L in *; rewrite W' by lia; rewrite Rplus_0_r, Rmult_1_l; reflexivity) n ltac:(lia)) as Q. cbv zeta in Q. rewrite L in Q.
  assert (U : 15 / 64 <= INR i / INR N <= 1 / 4).
  { assert (15 * INR N <= 64 * INR i). { replace 15 with (INR 15) by (cbn; lra). replace 64 with (INR 64) by (cbn; lra). rewrite <- !mult_INR. now apply le_INR. }
    assert (4 * INR i <= INR N). { replace 4 with (INR 4) by (cbn; lra). rewrite <- mult_INR. now apply le_INR. }
    assert (Q' : INR i / INR N * INR N = INR i) by (field; lra). split; apply (Rmult_le_reg_r (INR N)); lra. }
  pose proof (quarter_cos _ U) as C. rewrite Rabs_R1 in Q. set (c := cos _) in *. set (y := sample w _) in *. set (v := nth n w 0) in *. clearbody c y v.
  assert (Y : Rabs y <= Rabs ((0.6134 + 0.3865 * c) * v) + 1 / 2000). { replace y with ((0.6134 + 0.3865 * c) * v + (y - (0.6134 + 0.3865 * c) * v)) at 1 by ring. eapply Rle_trans; [apply Rabs_triang|]. lra. }
  rewrite Rabs_mult, (Rabs_pos_eq (0.6134 + _)) in Y by lra. pose proof (Rabs_pos v). nra.
Qed.
Lemma dull_case : top 1300 = 16%nat /\ wave_length 16 = 64%nat /\ 1300 * INR 15 <= 20000.
Proof. split; [|split; [reflexivity|cbn; lra]]. unfold top. rewrite (int_part_spec (22000 / 1300) 16) by lra. reflexivity. Qed.
