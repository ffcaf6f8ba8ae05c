(* Proofs about PreModel.v. *)
From Coq Require Import Reals Lra Lia Psatz SpecFloat.
From Flocq Require Import Core.Core IEEE754.BinarySingleNaN.
From Verif Require Import NodeProofs FirProofs.
From Verif Require Export PreSpec.
Import ListNotations.
Local Open Scope nat_scope.

(* ---- generated nodes ---- *)
Lemma zipw_map_r {X Y Z} (g : X -> Y -> Z) (f : X -> Y) l : zipw g l (map f l) = map (fun k => g k (f k)) l.
Proof. induction l; cbn; [reflexivity|now rewrite IHl]. Qed.

Section Generated.
  Context {A P U : Type} (ar : arith A) (ops : unit_ops A P U) (Hu : unit_laws (a_zero ar) ops).
  Notation node := (NodeModel.node A U).
  Lemma generate_S {X} n (f : nat -> X) : generate (S n) f = f 0 :: map f (seq 1 n).
  Proof. reflexivity. Qed.
  Lemma busi_outputs n (f : nat -> node) : 1 <= n -> exists x, busi n f = Some x /\ forall l t, t < length l ->
    nth t (outputs ar ops x l) [] = fold_left (zipw (a_add ar)) (map (fun k => nth t (outputs ar ops (f k) l) []) (seq 0 n)) (repeat (a_zero ar) (outs ops (f 0))).
  Proof.
    intros H. destruct n; [lia|]. exists (MultiBus (generate (S n) f)). split; [reflexivity|]. intros l t Ht. rewrite generate_S.
    rewrite (outputs_MultiBus ar ops Hu (f 0 :: map f (seq 1 n)) l t Ht). cbn [map seq]. now rewrite map_map.
  Qed.
  Lemma stacki_outputs n (f : nat -> node) : 1 <= n -> exists x, stacki n f = Some x /\ forall l t, t < length l ->
    nth t (outputs ar ops x l) [] = concat (map (fun k => nth t (outputs ar ops (f k) (channels (k * ins ops (f 0)) (ins ops (f 0)) l)) []) (seq 0 n)).
  Proof.
    intros H. destruct n; [lia|]. exists (MultiStack (generate (S n) f)). split; [reflexivity|]. intros l t Ht. rewrite generate_S.
    rewrite (outputs_MultiStack ar ops Hu (f 0 :: map f (seq 1 n)) l t Ht). f_equal. cbn [hd_ins length]. rewrite map_length, seq_length.
    change (f 0 :: map f (seq 1 n)) with (map f (seq 0 (S n))). apply zipw_map_r.
  Qed.
  Lemma branchi_outputs n (f : nat -> node) : forall l t, t < length l ->
    nth t (outputs ar ops (branchi n f) l) [] = concat (map (fun k => nth t (outputs ar ops (f k) l) []) (seq 0 n)).
  Proof. intros l t Ht. unfold branchi, generate. rewrite (outputs_MultiBranch ar ops Hu _ l t Ht). now rewrite map_map. Qed.
  Lemma sumi_outputs n (f : nat -> node) : 1 <= n -> forall l t, t < length l ->
    nth t (outputs ar ops (sumi ar n f) l) [] =
    fold_left (zipw (a_add ar)) (map (fun k => nth t (outputs ar ops (f k) (channels (k * ins ops (f 0)) (ins ops (f 0)) l)) []) (seq 1 (n - 1))) (nth t (outputs ar ops (f 0) (channels 0 (ins ops (f 0)) l)) []).
  Proof.
    intros H l t Ht. destruct n; [lia|]. unfold sumi. rewrite generate_S. rewrite (outputs_Reduce ar ops Hu (a_add ar) (f 0 :: map f (seq 1 n)) l t Ht). cbn [hd_ins length map seq tl].
    replace (S n - 1) with n by lia. rewrite ?map_length, ?seq_length. cbn [zipw reduce_out]. f_equal. apply zipw_map_r.
  Qed.
  Lemma pipei_outputs n (f : nat -> node) : 1 <= n -> ins ops (f 0) = outs ops (f 0) -> exists x, pipei ops n f = Some x /\ forall l,
    outputs ar ops x l = fold_left (fun s k => outputs ar ops (f k) s) (seq 0 n) l.
  Proof.
    intros H E. destruct n; [lia|]. unfold pipei. rewrite generate_S. cbn [chain_new]. rewrite (proj2 (Nat.eqb_eq _ _) E). eexists; split; [reflexivity|]. intros l.
    rewrite outputs_Chain. change (f 0 :: map f (seq 1 n)) with (map f (seq 0 (S n))). generalize (seq 0 (S n)). intros ks. revert l. induction ks; intros l; cbn; [reflexivity|apply IHks].
  Qed.
  Lemma generated_panics (f : nat -> node) : busi 0 f = None /\ stacki 0 f = None /\ pipei ops 0 f = None /\ (forall n, ins ops (f 0) <> outs ops (f 0) -> pipei ops n f = None).
  Proof.
    split; [reflexivity|]. split; [reflexivity|]. split; [reflexivity|]. intros n H. destruct n; [reflexivity|]. unfold pipei. rewrite generate_S. cbn [chain_new].
    destruct (Nat.eqb_spec (ins ops (f 0)) (outs ops (f 0))); [contradiction|reflexivity].
  Qed.
End Generated.

Lemma fraction_real n i : 1 <= n -> fraction Rnum_ops (fun x => x) n i = spaced n i.
Proof.
  intros H. unfold fraction, spaced. destruct (Nat.ltb_spec 1 n), (Nat.eqb_spec n 1); try lia; cbn [ndiv nofZ Rnum_ops n1].
  - now rewrite <- !INR_IZR_INZ.
  - unfold n1; cbn. lra.
Qed.
Lemma fractional {A P U} (ar : arith A) (ops : unit_ops A P U) n (f : R -> NodeModel.node A U) : 1 <= n ->
  busf Rnum_ops (fun x => x) n f = busi n (fun k => f (spaced n k)) /\
  stackf Rnum_ops (fun x => x) n f = stacki n (fun k => f (spaced n k)) /\
  branchf Rnum_ops (fun x => x) n f = branchi n (fun k => f (spaced n k)) /\
  sumf ar Rnum_ops (fun x => x) n f = sumi ar n (fun k => f (spaced n k)) /\
  pipef ops Rnum_ops (fun x => x) n f = pipei ops n (fun k => f (spaced n k)).
Proof.
  intros H. assert (E : forall X (g : R -> X), generate n (fun i => g (fraction Rnum_ops (fun x => x) n i)) = generate n (fun k => g (spaced n k))).
  { intros X g. unfold generate. apply map_ext. intros k. now rewrite fraction_real. }
  unfold busf, busi, stackf, stacki, branchf, branchi, sumf, sumi, pipef, pipei. rewrite !E. auto 6.
Qed.
Lemma spaced_facts n k : k < n -> (0 <= spaced n k <= 1)%R /\ (2 <= n -> spaced n 0 = 0%R /\ spaced n (n - 1) = 1%R /\ (forall j, (j < k)%nat -> spaced n j < spaced n k)%R /\
  (forall j, (j < n - 1)%nat -> spaced n (S j) - spaced n j = 1 / INR (n - 1))%R).
Proof.
  intros H. unfold spaced. destruct (Nat.eqb_spec n 1) as [->|N].
  - split; [lra|lia].
  - assert (P : (0 < INR (n - 1))%R) by (apply lt_0_INR; lia). assert (D : forall a b, (a <= b)%nat -> (INR a / INR (n - 1) <= INR b / INR (n - 1))%R).
    { intros a b L. apply Rmult_le_compat_r; [left; now apply Rinv_0_lt_compat|now apply le_INR]. }
    assert (Z0 : (INR 0 / INR (n - 1) = 0)%R) by (cbn; lra). assert (Z1 : (INR (n - 1) / INR (n - 1) = 1)%R) by (field; lra).
    split; [split; [rewrite <- Z0; apply D; lia|rewrite <- Z1; apply D; lia]|]. intros _. split; [exact Z0|]. split; [exact Z1|]. split.
    + intros j L. apply Rmult_lt_compat_r; [now apply Rinv_0_lt_compat|now apply lt_INR].
    + intros j L. rewrite S_INR. field. lra.
Qed.

(* ---- fractions in binary64 and binary32 ---- *)
Notation fin64 := (fin 53 1024).
Notation rnd64 := (rnd 53 1024).
Lemma exact64 z : (Z.abs z < 2 ^ 53)%Z -> fin64 (nofZ f64_ops z) /\ real (nofZ f64_ops z) = IZR z.
Proof.
  intros H. assert (G : generic_format radix2 (SpecFloat.fexp 53 1024) (IZR z)).
  { apply (generic_format_F2R' _ _ _ (Float radix2 z 0)); [unfold F2R; cbn; ring|]. intros N. unfold cexp. cbn [Fexp]. assert (M : (mag radix2 (IZR z) <= 53)%Z).
    { apply mag_le_bpow; auto. rewrite <- abs_IZR. change (bpow radix2 53) with (IZR (2 ^ 53)). now apply IZR_lt. }
    unfold SpecFloat.fexp, SpecFloat.emin. lia. }
  assert (E : rnd64 (IZR z) = IZR z) by (apply round_generic; [apply valid_rnd_N|exact G]).
  assert (B : (Rabs (IZR z) < bpow radix2 1024)%R).
  { rewrite <- abs_IZR. apply IZR_lt in H. change (IZR (2 ^ 53)) with (bpow radix2 53) in H. eapply Rlt_trans; [exact H|]. apply bpow_lt. lia. }
  destruct (ofZ_real 53 1024 prec53 emax1024 z) as [F R]; [now rewrite E|]. split; [exact F|]. change (nofZ f64_ops z) with (sf_ofZ 53 1024 z). now rewrite R, E.
Qed.
Lemma rnd64_unit x : (0 <= x <= 1)%R -> (0 <= rnd64 x <= 1)%R.
Proof.
  intros [A B]. assert (Z : rnd64 0 = 0%R) by (apply round_0, valid_rnd_N). assert (O : rnd64 1 = 1%R).
  { destruct (exact64 1) as [F E]; [lia|]. change 1%R with (IZR 1). rewrite <- E. apply (rnd_id 53 1024). exact F. }
  split; [rewrite <- Z|rewrite <- O]; now apply (rnd_mono 53 1024 prec53).
Qed.
Lemma fraction64 n k : k < n -> (Z.of_nat n <= 2 ^ 20)%Z -> let v := fraction f64_ops (fun x => x) n k in fin64 v /\ real v = rnd64 (spaced n k).
Proof.
  intros H S. cbv zeta. unfold fraction, spaced. destruct (Nat.ltb_spec 1 n), (Nat.eqb_spec n 1); try lia.
  - destruct (exact64 (Z.of_nat k)) as [F1 E1]; [lia|]. destruct (exact64 (Z.of_nat (n - 1))) as [F2 E2]; [lia|].
    assert (P : (0 < INR (n - 1))%R) by (apply lt_0_INR; lia).
    assert (Q : (0 <= INR k / INR (n - 1) <= 1)%R).
    { pose proof (proj1 (spaced_facts n k H)) as S'. unfold spaced in S'. destruct (Nat.eqb_spec n 1); [lia|exact S']. }
    rewrite <- INR_IZR_INZ in E1, E2. assert (NZ : real (nofZ f64_ops (Z.of_nat (n - 1))) <> 0%R) by (rewrite E2; lra).
    assert (O : (Rabs (rnd64 (real (nofZ f64_ops (Z.of_nat k)) / real (nofZ f64_ops (Z.of_nat (n - 1))))) < bpow radix2 1024)%R).
    { rewrite E1, E2. pose proof (rnd64_unit _ Q). rewrite Rabs_pos_eq by lra. apply Rle_lt_trans with 1%R; [lra|]. change 1%R with (bpow radix2 0). apply bpow_lt. lia. }
    destruct (div_real 53 1024 prec53 emax1024 _ _ F1 F2 NZ O) as [A B]. split; [exact A|]. change (ndiv f64_ops) with (SFdiv 53 1024). rewrite B, E1, E2. reflexivity.
  - assert (FH : fin64 (ndiv f64_ops (n1 f64_ops) (nofZ f64_ops 2)) /\ real (ndiv f64_ops (n1 f64_ops) (nofZ f64_ops 2)) = (1 / 2)%R).
    { replace (ndiv f64_ops (n1 f64_ops) (nofZ f64_ops 2)) with (S754_finite false 4503599627370496 (-53)) by (vm_compute; reflexivity). split; [split; reflexivity|]. unfold real, SF2R, F2R. cbn. lra. }
    destruct FH as [A B]. split; [exact A|]. rewrite <- B. symmetry. now apply (rnd_id 53 1024).
Qed.
Lemma to_f32_real x : fin64 x -> (0 <= real x <= 1)%R -> fin32 (to_f32 x) /\ real (to_f32 x) = rnd32 (real x).
Proof.
  intros F B. destruct x as [s|s| |s m e]; try (destruct F; discriminate).
  - split; [split; reflexivity|]. cbn. symmetry. apply round_0, valid_rnd_N.
  - cbn [to_f32]. rewrite (binary_normalize_equiv 24 128 prec24 emax128). pose proof (binary_normalize_correct 24 128 prec24 emax128 mode_NE (if s then Z.neg m else Z.pos m) e s) as C. cbv zeta in C.
    assert (E : F2R (Float radix2 (if s then Z.neg m else Z.pos m) e) = real (S754_finite s m e)) by (destruct s; reflexivity). rewrite E in C.
    assert (U : (Rabs (rnd32 (real (S754_finite s m e))) < bpow radix2 128)%R).
    { apply (is32_over _ 0 1); [apply is32_0|exists (S754_finite false 8388608 (-23)); split; [split; reflexivity|unfold real, SF2R, F2R; cbn; lra]|exact B]. }
    rewrite Rlt_bool_true in C by exact U. destruct C as (C1 & C2 & _). destruct (B_fin 24 128 _ C2) as [D1 D2]. rewrite D2. auto.
Qed.
Lemma is32_one : is32 1. Proof. exists (S754_finite false 8388608 (-23)). split; [split; reflexivity|]. unfold real, SF2R, F2R. cbn. lra. Qed.
Lemma fraction_floats n k : k < n -> (Z.of_nat n <= 2 ^ 20)%Z ->
  let v := fraction f64_ops (fun x => x) n k in let w := fraction f64_ops to_f32 n k in
  real v = rnd64 (spaced n k) /\ fin64 v /\ (0 <= real v <= 1)%R /\ real w = rnd32 (rnd64 (spaced n k)) /\ fin32 w /\ (0 <= real w <= 1)%R /\
  (2 <= n -> (k = 0 -> real v = 0%R /\ real w = 0%R) /\ (k = n - 1 -> real v = 1%R /\ real w = 1%R)) /\
  (forall j, j <= k -> (real (fraction f64_ops (fun x => x) n j) <= real v)%R /\ (real (fraction f64_ops to_f32 n j) <= real w)%R).
Proof.
  intros H S. cbv zeta. assert (C : forall j, j < n -> fraction f64_ops to_f32 n j = to_f32 (fraction f64_ops (fun x => x) n j)) by (intros j _; unfold fraction; now destruct (Nat.ltb 1 n)).
  assert (K : forall j, j < n -> let v := fraction f64_ops (fun x => x) n j in fin64 v /\ real v = rnd64 (spaced n j) /\ (0 <= real v <= 1)%R /\ fin32 (to_f32 v) /\ real (to_f32 v) = rnd32 (rnd64 (spaced n j))).
  { intros j L v. destruct (fraction64 n j L S) as [A B]. fold v in A, B. assert (U : (0 <= real v <= 1)%R) by (rewrite B; apply rnd64_unit; exact (proj1 (spaced_facts n j L))).
    destruct (to_f32_real v A U) as [D E]. rewrite B in E. auto. }
  assert (O64 : rnd64 1 = 1%R) by (destruct (exact64 1) as [F E]; [lia|]; change 1%R with (IZR 1); rewrite <- E; apply (rnd_id 53 1024); exact F).
  assert (O32 : rnd32 1 = 1%R) by (pose proof (rnd32_between 1 1 1 is32_one is32_one ltac:(lra)); lra).
  assert (Z64 : rnd64 0 = 0%R) by (apply round_0, valid_rnd_N). assert (Z32 : rnd32 0 = 0%R) by (apply round_0, valid_rnd_N).
  rewrite (C k H). destruct (K k H) as (A & B & D & E & F). split; [exact B|]. split; [exact A|]. split; [exact D|]. split; [exact F|]. split; [exact E|]. split.
  { rewrite F, <- B. apply (rnd32_between _ 0 1 is32_0 is32_one D). }
  split.
  - intros N. pose proof (proj2 (spaced_facts n k H) N) as (S0 & S1 & _). split; intros ->; rewrite F, B; [rewrite S0|rewrite S1]; rewrite ?O64, ?O32, ?Z64, ?Z32; auto.
  - intros j L. assert (J : j < n) by lia. rewrite (C j J). destruct (K j J) as (_ & B' & _ & _ & F'). rewrite B, B', F, F'.
    assert (M : (spaced n j <= spaced n k)%R).
    { destruct (Nat.eq_dec j k) as [->|]; [lra|]. destruct (Nat.eq_dec n 1); [lia|]. left. apply (proj2 (spaced_facts n k H)); lia. }
    split; [now apply (rnd_mono 53 1024 prec53)|]. apply (rnd_mono 24 128 prec24). now apply (rnd_mono 53 1024 prec53).
Qed.

(* ---- rotation ---- *)
Lemma rotate_norm a g x y : exists u v, snd (mixer_tick Rnum_ops (rotate Rnum_ops cos sin a g) [x; y]) = [u; v] /\
  u = (g * (cos a * x - sin a * y))%R /\ v = (g * (sin a * x + cos a * y))%R /\ (u * u + v * v = g * g * (x * x + y * y))%R.
Proof.
  eexists _, _. split; [reflexivity|]. cbn -[cos sin]. unfold n0. cbn -[cos sin]. split; [ring|]. split; [ring|].
  pose proof (sin2_cos2 a) as E. unfold Rsqr in E. transitivity (g * g * ((sin a * sin a + cos a * cos a) * (x * x + y * y)))%R; [ring|]. rewrite E. ring.
Qed.
Lemma rotate_compose a g b h v : length v = 2 -> snd (mixer_tick Rnum_ops (rotate Rnum_ops cos sin b h) (snd (mixer_tick Rnum_ops (rotate Rnum_ops cos sin a g) v))) =
  snd (mixer_tick Rnum_ops (rotate Rnum_ops cos sin (a + b)%R (g * h)%R) v).
Proof.
  intros H. destruct v as [|x [|y [|]]]; try discriminate. cbn -[cos sin]. unfold n0. cbn -[cos sin]. rewrite sin_plus, cos_plus. f_equal; [ring|]. f_equal. ring.
Qed.
Lemma rotate_still v : length v = 2 -> snd (mixer_tick Rnum_ops (rotate Rnum_ops cos sin 0%R 1%R) v) = v.
Proof.
  intros H. destruct v as [|x [|y [|]]]; try discriminate. cbn -[cos sin]. unfold n0. cbn -[cos sin]. rewrite sin_0, cos_0. f_equal; [ring|]. f_equal. ring.
Qed.
Lemma rotate_back a g v : g <> 0%R -> length v = 2 -> snd (mixer_tick Rnum_ops (rotate Rnum_ops cos sin (- a)%R (/ g)%R) (snd (mixer_tick Rnum_ops (rotate Rnum_ops cos sin a g) v))) = v.
Proof. intros G H. rewrite rotate_compose by exact H. replace (a + - a)%R with 0%R by ring. replace (g * / g)%R with 1%R by (field; exact G). now apply rotate_still. Qed.

(* ---- fir3 ---- *)
Lemma fir3_tone g w p n t : 2 <= t < n -> nth t (snd (ticks (fir_tick Rnum_ops) (fir_new Rnum_ops (fir3 Rnum_ops g)) (map (fun x => [x]) (tone w p n)))) [] =
  [raised g w * cos (w * (INR t - 1) + p)]%R.
Proof.
  intros [L H]. assert (T : t < length (tone w p n)) by (unfold tone; rewrite map_length, seq_length; exact H). rewrite fir_convolution by exact T. f_equal.
  assert (X : forall k, k < n -> nth k (tone w p n) 0%R = cos (w * INR k + p)).
  { intros k K. unfold tone. rewrite (nth_indep _ 0%R (cos (w * INR 0 + p)%R)) by (rewrite map_length, seq_length; exact K). rewrite (map_nth (fun t => cos (w * INR t + p)%R)). now rewrite seq_nth. }
  unfold convolution. change (rev (fir3 Rnum_ops g)) with (fir3 Rnum_ops g). cbn -[cos sin tone ago INR]. unfold ago.
  destruct (Nat.leb_spec 0 t), (Nat.leb_spec 1 t), (Nat.leb_spec 2 t); try lia. rewrite !X by lia. rewrite Nat.sub_0_r. rewrite !minus_INR by lia. change (INR 1) with 1%R. change (INR 2) with 2%R.
  set (q := (w * (INR t - 1) + p)%R). replace (w * INR t + p)%R with (q + w)%R by (unfold q; ring). replace (w * (INR t - 2) + p)%R with (q - w)%R by (unfold q; ring).
  rewrite cos_plus, cos_minus. unfold raised, n1. cbn. field.
Qed.
Lemma raised_facts g : raised g 0%R = 1%R /\ raised g PI = g /\ (g < 1 -> forall a b : R, 0 <= a -> a < b -> b <= PI -> raised g b < raised g a)%R /\ (forall w, 0 <= g <= 1 -> g <= raised g w <= 1)%R.
Proof.
  unfold raised. rewrite cos_0, cos_PI. split; [field|]. split; [field|]. split.
  - intros G a b A B C. pose proof (cos_decreasing_1 a b ltac:(lra) ltac:(lra) ltac:(lra) ltac:(lra) B). nra.
  - intros w G. pose proof (COS_bound w). nra.
Qed.

(* ---- one sample at a time ---- *)
Section Samples.
  Context {A P U : Type} (nm : num A) (ar : arith A) (ops : unit_ops A P U) (Hu : unit_laws (a_zero ar) ops).
  Notation node := (NodeModel.node A U).
  Notation zero := (a_zero ar).
  Lemma tick_frame (x : node) i : NodeModel.wf ops x -> length i = ins ops x -> NodeModel.wf ops (fst (tick ar ops x i)) /\ ins ops (fst (tick ar ops x i)) = ins ops x /\ outs ops (fst (tick ar ops x i)) = outs ops x /\ length (snd (tick ar ops x i)) = outs ops x.
  Proof.
    intros W L. destruct (tick_wf ar ops Hu x i W L) as [Q1 Q2]. split; [exact Q1|]. split; [exact (ins_tick ar ops Hu x i)|]. split; [exact (outs_tick ar ops Hu x i)|exact Q2].
  Qed.
  Lemma outputs_cons (x : node) i l : outputs ar ops x (i :: l) = snd (tick ar ops x i) :: outputs ar ops (fst (tick ar ops x i)) l.
  Proof. unfold outputs. cbn [ticks]. destruct (tick ar ops x i) as [x' o]. cbn [fst]. destruct (ticks (tick ar ops) x' l). reflexivity. Qed.
  Lemma get_mono_run n : forall x, NodeModel.wf ops x -> ins ops x = 0 -> 1 <= outs ops x <= 2 -> play (get_mono nm ar ops) n x = Some (map (average nm zero) (outputs ar ops x (repeat [] n))).
  Proof.
    induction n as [|n IH]; intros x W I O; [reflexivity|]. cbn [play repeat]. rewrite outputs_cons. unfold get_mono at 1. rewrite I. destruct (tick_frame x [] W (eq_sym I)) as (W' & I' & O' & L). destruct (tick ar ops x []) as [x' o]. cbn [fst snd] in *. cbn [Nat.eqb andb].
    replace (Nat.eqb (outs ops x) 1 || Nat.eqb (outs ops x) 2)%bool with true by (destruct (outs ops x) as [|[|[|]]]; try lia; reflexivity). rewrite (IH x' W' ltac:(lia) ltac:(lia)). cbn [option_map map]. f_equal. f_equal.
    destruct o as [|a [|b [|]]]; cbn [length] in L; rewrite <- L in *; try lia; reflexivity.
  Qed.
  Lemma get_stereo_run n : forall x, NodeModel.wf ops x -> ins ops x = 0 -> 1 <= outs ops x <= 2 -> play (get_stereo ar ops) n x = Some (map (pair_of zero) (outputs ar ops x (repeat [] n))).
  Proof.
    induction n as [|n IH]; intros x W I O; [reflexivity|]. cbn [play repeat]. rewrite outputs_cons. unfold get_stereo at 1. rewrite I. destruct (tick_frame x [] W (eq_sym I)) as (W' & I' & O' & L). destruct (tick ar ops x []) as [x' o]. cbn [fst snd] in *. cbn [Nat.eqb andb].
    replace (Nat.eqb (outs ops x) 1 || Nat.eqb (outs ops x) 2)%bool with true by (destruct (outs ops x) as [|[|[|]]]; try lia; reflexivity). rewrite (IH x' W' ltac:(lia) ltac:(lia)). cbn [option_map map]. f_equal. f_equal.
    destruct o as [|a [|b [|]]]; cbn [length] in L; rewrite <- L in *; try lia; reflexivity.
  Qed.
  Lemma filter_mono_run l : forall x, NodeModel.wf ops x -> ins ops x = 1 -> outs ops x = 1 -> feed (filter_mono ar ops) l x = Some (map (one_of zero) (outputs ar ops x (map (fun v => [v]) l))).
  Proof.
    induction l as [|v l IH]; intros x W I O; [reflexivity|]. cbn [feed map]. rewrite outputs_cons. unfold filter_mono at 1. rewrite I, O. destruct (tick_frame x [v] W (eq_sym I)) as (W' & I' & O' & L). destruct (tick ar ops x [v]) as [x' o]. cbn [fst snd] in *. cbn [Nat.eqb andb].
    rewrite (IH x' W' ltac:(lia) ltac:(lia)). cbn [option_map map]. f_equal. f_equal. destruct o as [|a [|]]; cbn [length] in L; try lia. reflexivity.
  Qed.
  Lemma filter_stereo_run l : forall x, NodeModel.wf ops x -> ins ops x = 2 -> outs ops x = 2 -> feed (fun x v => filter_stereo ar ops x (fst v) (snd v)) l x = Some (map (pair_of zero) (outputs ar ops x (map (fun v => [fst v; snd v]) l))).
  Proof.
    induction l as [|v l IH]; intros x W I O; [reflexivity|]. cbn [feed map]. rewrite outputs_cons. unfold filter_stereo at 1. rewrite I, O. destruct (tick_frame x [fst v; snd v] W (eq_sym I)) as (W' & I' & O' & L). destruct (tick ar ops x [fst v; snd v]) as [x' o]. cbn [fst snd] in *. cbn [Nat.eqb andb].
    rewrite (IH x' W' ltac:(lia) ltac:(lia)). cbn [option_map map]. f_equal. f_equal. destruct o as [|a [|b [|]]]; cbn [length] in L; try lia. reflexivity.
  Qed.
  Lemma methods_panic (x : node) : (ins ops x <> 0 \/ ~ 1 <= outs ops x <= 2 -> get_mono nm ar ops x = None /\ get_stereo ar ops x = None) /\
    (forall v, ins ops x <> 1 \/ outs ops x <> 1 -> filter_mono ar ops x v = None) /\ (forall v w, ins ops x <> 2 \/ outs ops x <> 2 -> filter_stereo ar ops x v w = None).
  Proof.
    unfold get_mono, get_stereo, filter_mono, filter_stereo. split; [|split].
    - intros H. replace (Nat.eqb (ins ops x) 0 && (Nat.eqb (outs ops x) 1 || Nat.eqb (outs ops x) 2))%bool with false; [split; reflexivity|].
      destruct (Nat.eqb_spec (ins ops x) 0), (Nat.eqb_spec (outs ops x) 1), (Nat.eqb_spec (outs ops x) 2); try reflexivity; exfalso; lia.
    - intros v H. destruct (Nat.eqb_spec (ins ops x) 1), (Nat.eqb_spec (outs ops x) 1); try reflexivity; exfalso; lia.
    - intros v w H. destruct (Nat.eqb_spec (ins ops x) 2), (Nat.eqb_spec (outs ops x) 2); try reflexivity; exfalso; lia.
  Qed.
  (* units *)
  Definition halves (o : list A) : A := match o with [a] => a | [a; b] => nmul nm (nadd nm a b) (ndiv nm (n1 nm) (nofZ nm 2)) | _ => zero end.
  Lemma unit_mono_run n : forall u, u_ins ops u = 0 -> 1 <= u_outs ops u <= 2 -> play (unit_get_mono nm ar ops) n u = Some (map halves (outputs ar ops (Leaf u) (repeat [] n))).
  Proof.
    induction n as [|n IH]; intros u I O; [reflexivity|]. cbn [play repeat]. rewrite outputs_cons. cbn [tick]. unfold unit_get_mono at 1. rewrite I. cbn [Nat.eqb].
    pose proof (ul_ins _ _ Hu u []) as I'. pose proof (ul_outs _ _ Hu u []) as O'. pose proof (ul_len _ _ Hu u [] (eq_sym I)) as L. destruct (u_tick ops u []) as [u' o]. cbn [fst snd] in *.
    destruct o as [|a [|b [|]]]; cbn [length] in L; rewrite <- L in *; try lia; rewrite (IH u' ltac:(lia) ltac:(lia)); reflexivity.
  Qed.
  Lemma unit_stereo_run n : forall u, u_ins ops u = 0 -> 1 <= u_outs ops u <= 2 -> play (unit_get_stereo ar ops) n u = Some (map (pair_of zero) (outputs ar ops (Leaf u) (repeat [] n))).
  Proof.
    induction n as [|n IH]; intros u I O; [reflexivity|]. cbn [play repeat]. rewrite outputs_cons. cbn [tick]. unfold unit_get_stereo at 1. rewrite I. cbn [Nat.eqb].
    pose proof (ul_ins _ _ Hu u []) as I'. pose proof (ul_outs _ _ Hu u []) as O'. pose proof (ul_len _ _ Hu u [] (eq_sym I)) as L. destruct (u_tick ops u []) as [u' o]. cbn [fst snd] in *.
    destruct o as [|a [|b [|]]]; cbn [length] in L; rewrite <- L in *; try lia; rewrite (IH u' ltac:(lia) ltac:(lia)); reflexivity.
  Qed.
  Lemma unit_filter_run l : forall u, u_ins ops u = 1 -> u_outs ops u = 1 -> feed (unit_filter_mono ar ops) l u = Some (map (one_of zero) (outputs ar ops (Leaf u) (map (fun v => [v]) l))).
  Proof.
    induction l as [|v l IH]; intros u I O; [reflexivity|]. cbn [feed map]. rewrite outputs_cons. cbn [tick]. unfold unit_filter_mono at 1. rewrite I, O. cbn [Nat.eqb andb].
    pose proof (ul_ins _ _ Hu u [v]) as I'. pose proof (ul_outs _ _ Hu u [v]) as O'. pose proof (ul_len _ _ Hu u [v] (eq_sym I)) as L. destruct (u_tick ops u [v]) as [u' o]. cbn [fst snd] in *.
    destruct o as [|a [|]]; cbn [length] in L; try lia; rewrite (IH u' ltac:(lia) ltac:(lia)); reflexivity.
  Qed.
  Lemma unit_filter2_run l : forall u, u_ins ops u = 2 -> u_outs ops u = 2 -> feed (fun u v => unit_filter_stereo ar ops u (fst v) (snd v)) l u = Some (map (pair_of zero) (outputs ar ops (Leaf u) (map (fun v => [fst v; snd v]) l))).
  Proof.
    induction l as [|v l IH]; intros u I O; [reflexivity|]. cbn [feed map]. rewrite outputs_cons. cbn [tick]. unfold unit_filter_stereo at 1. rewrite I, O. cbn [Nat.eqb andb].
    pose proof (ul_ins _ _ Hu u [fst v; snd v]) as I'. pose proof (ul_outs _ _ Hu u [fst v; snd v]) as O'. pose proof (ul_len _ _ Hu u [fst v; snd v] (eq_sym I)) as L. destruct (u_tick ops u [fst v; snd v]) as [u' o]. cbn [fst snd] in *.
    destruct o as [|a [|b [|]]]; cbn [length] in L; try lia; rewrite (IH u' ltac:(lia) ltac:(lia)); reflexivity.
  Qed.
  Lemma unit_halves u n : (forall x, nmul nm x (ndiv nm (n1 nm) (nofZ nm 2)) = ndiv nm x (nofZ nm 2)) -> u_ins ops u = 0 -> 1 <= u_outs ops u <= 2 ->
    play (unit_get_mono nm ar ops) n u = Some (map (average nm zero) (outputs ar ops (Leaf u) (repeat [] n))).
  Proof.
    intros Hh I O. rewrite unit_mono_run by assumption. f_equal. apply map_ext. intros o. destruct o as [|a [|b [|]]]; cbn [halves average]; try reflexivity. apply Hh.
  Qed.
End Samples.

(* halving by multiplication and by division *)
Lemma halving_R x : nmul Rnum_ops x (ndiv Rnum_ops (n1 Rnum_ops) (nofZ Rnum_ops 2)) = ndiv Rnum_ops x (nofZ Rnum_ops 2).
Proof. cbn. unfold n1. cbn. lra. Qed.
Lemma halving_32 x : valid_binary 24 128 x = true -> nmul f32_ops x (ndiv f32_ops (n1 f32_ops) (nofZ f32_ops 2)) = ndiv f32_ops x (nofZ f32_ops 2).
Proof.
  intros V. replace (ndiv f32_ops (n1 f32_ops) (nofZ f32_ops 2)) with (S754_finite false 8388608 (-24)) by (vm_compute; reflexivity). replace (nofZ f32_ops 2) with (S754_finite false 8388608 (-22)) by (vm_compute; reflexivity).
  destruct x as [s|s| |s m e]; try (destruct s; reflexivity); [reflexivity|].
  set (x := S754_finite s m e) in *. assert (Fx : fin32 x) by (split; [reflexivity|exact V]). destruct (fin_B 24 128 x Fx) as (a & Ea & Fa & Ra).
  assert (Vh : valid_binary 24 128 (S754_finite false 8388608 (-24)) = true) by reflexivity. assert (Vt : valid_binary 24 128 (S754_finite false 8388608 (-22)) = true) by reflexivity.
  set (h := SF2B _ Vh). set (tw := SF2B _ Vt). change (nmul f32_ops) with (SFmul 24 128). change (ndiv f32_ops) with (SFdiv 24 128). rewrite <- Ea.
  assert (Eh : B2SF h = S754_finite false 8388608 (-24)) by (unfold h; apply B2SF_SF2B). assert (Et : B2SF tw = S754_finite false 8388608 (-22)) by (unfold tw; apply B2SF_SF2B).
  rewrite <- Eh, <- Et. rewrite (mul_equiv 24 128 prec24 emax128), (div_equiv 24 128 prec24 emax128). f_equal.
  assert (Rh : B2R h = (1 / 2)%R) by (unfold h; rewrite B2R_SF2B; unfold SF2R, F2R; cbn; lra). assert (Rt : B2R tw = 2%R) by (unfold tw; rewrite B2R_SF2B; unfold SF2R, F2R; cbn; lra).
  pose proof (Bmult_correct 24 128 prec24 emax128 mode_NE a h) as M. pose proof (Bdiv_correct 24 128 prec24 emax128 mode_NE a tw ltac:(rewrite Rt; lra)) as D. rewrite Rh in M. rewrite Rt in D.
  replace (B2R a * (1 / 2))%R with (B2R a / 2)%R in M by lra. assert (O : (Rabs (round radix2 (SpecFloat.fexp 24 128) (round_mode mode_NE) (B2R a / 2)) < bpow radix2 128)%R).
  { change (Rabs (rnd32 (B2R a / 2)) < bpow radix2 128)%R. rewrite Ra. pose proof (fin32_bound x Fx) as B. destruct (Rle_dec 0 (real x)).
    - apply (is32_over _ 0 (real x)); [apply is32_0|now exists x|lra].
    - apply (is32_over _ (real x) 0); [now exists x|apply is32_0|lra]. }
  rewrite Rlt_bool_true in M by exact O. rewrite Rlt_bool_true in D by exact O. destruct M as (M1 & M2 & M3). destruct D as (D1 & D2 & D3). rewrite Fa in M2, D2.
  assert (Fh : is_finite h = true) by (unfold h; rewrite is_finite_SF2B; reflexivity). rewrite Fh in M2. cbn [andb] in M2.
  assert (Nm : is_nan (Bmult mode_NE a h) = false) by (destruct (Bmult mode_NE a h); try discriminate; reflexivity). assert (Nd : is_nan (Bdiv mode_NE a tw) = false) by (destruct (Bdiv mode_NE a tw); try discriminate; reflexivity).
  apply B2R_Bsign_inj; [exact M2|exact D2|congruence|]. rewrite M3, D3 by assumption. unfold h, tw. now rewrite !Bsign_SF2B.
Qed.

(* ---- names of sizes ---- *)
Lemma size_name k : k <= 128 -> k <> 90 -> channels_of k = k.
Proof.
  intros H N. assert (C : forallb (fun k => orb (Nat.eqb k 90) (Nat.eqb (channels_of k) k)) (seq 0 129) = true) by (vm_compute; reflexivity).
  rewrite forallb_forall in C. specialize (C k ltac:(apply in_seq; lia)). destruct (Nat.eqb_spec k 90); [contradiction|]. now apply Nat.eqb_eq.
Qed.
