(* The IEEE operations of Num.v, which are those of Coq.Floats.SpecFloat, are the rounded operations on the reals as long as no result overflows.
   Flocq proves this of its own operations; the equivalence of those with SpecFloat follows Flocq.IEEE754.PrimFloat, for all formats. *)
From Coq Require Import Reals Lra SpecFloat Psatz.
From Flocq Require Import Core.Core IEEE754.BinarySingleNaN.
From Verif Require Export Num.
Local Open Scope R_scope.

Section Link.
  Variables prec emax : Z.
  Context (Hprec : Prec_gt_0 prec) (Hmax : Prec_lt_emax prec emax).
  Notation fexp := (SpecFloat.fexp prec emax).
  Definition real (x : spec_float) : R := SF2R radix2 x.
  Definition fin (x : spec_float) : Prop := is_finite_SF x = true /\ valid_binary prec emax x = true.
  Definition rnd (x : R) : R := round radix2 fexp ZnearestE x.
  Lemma round_nearest_even_equiv s m l : round_nearest_even m l = choice_mode mode_NE s m l.
  Proof. case l; [reflexivity|intro c]. case c; [|reflexivity..]. simpl. unfold Round.cond_incr. now case Z.even. Qed.
  Lemma binary_round_aux_equiv sx mx ex lx : SpecFloat.binary_round_aux prec emax sx mx ex lx = binary_round_aux prec emax mode_NE sx mx ex lx.
  Proof. unfold SpecFloat.binary_round_aux, binary_round_aux. set (m := shr_fexp _ _ _ _ _). case m. intros m' e'. simpl. now rewrite (round_nearest_even_equiv sx). Qed.
  Lemma binary_round_equiv s m e : SpecFloat.binary_round prec emax s m e = binary_round prec emax mode_NE s m e.
  Proof. unfold SpecFloat.binary_round, binary_round, shl_align_fexp. set (z := shl_align _ _ _). case z as [mz ez]. apply binary_round_aux_equiv. Qed.
  Lemma binary_normalize_equiv m e sz : SpecFloat.binary_normalize prec emax m e sz = B2SF (binary_normalize prec emax Hprec Hmax mode_NE m e sz).
  Proof. case m as [|p|p]; [now simpl|simpl; rewrite B2SF_SF2B; apply binary_round_equiv..]. Qed.
  Lemma add_equiv x y : SFadd prec emax (B2SF x) (B2SF y) = B2SF (Bplus (prec := prec) (emax := emax) mode_NE x y).
  Proof. case x as [sx|sx| |sx mx ex Bx]; case y as [sy|sy| |sy my ey By]; [now (trivial || (simpl; case Bool.eqb))..|]. apply binary_normalize_equiv. Qed.
  Lemma sub_equiv x y : SFsub prec emax (B2SF x) (B2SF y) = B2SF (Bminus (prec := prec) (emax := emax) mode_NE x y).
  Proof.
    case x as [sx|sx| |sx mx ex Bx]; case y as [sy|sy| |sy my ey By]; [now (trivial || (simpl; case Bool.eqb))..|]. simpl. unfold Zminus. rewrite <- cond_Zopp_negb. apply binary_normalize_equiv.
  Qed.
  Lemma mul_equiv x y : SFmul prec emax (B2SF x) (B2SF y) = B2SF (Bmult (prec := prec) (emax := emax) mode_NE x y).
  Proof. case x as [sx|sx| |sx mx ex Bx]; case y as [sy|sy| |sy my ey By]; [now trivial..|]. simpl. rewrite B2SF_SF2B. apply binary_round_aux_equiv. Qed.
  Lemma div_equiv x y : SFdiv prec emax (B2SF x) (B2SF y) = B2SF (Bdiv (prec := prec) (emax := emax) mode_NE x y).
  Proof.
    case x as [sx|sx| |sx mx ex Bx]; case y as [sy|sy| |sy my ey By]; [now (trivial || (simpl; case Bool.eqb))..|]. simpl. rewrite B2SF_SF2B. set (z := SFdiv_core_binary _ _ _ _ _ _). case z as [[mz ez] lz].
    apply binary_round_aux_equiv.
  Qed.
  (* a finite value is a Flocq value *)
  Lemma fin_B x : fin x -> exists b : binary_float prec emax, B2SF b = x /\ is_finite b = true /\ B2R b = real x.
  Proof.
    intros [H1 H2]. exists (SF2B x H2). rewrite B2SF_SF2B. split; auto. split; [now rewrite is_finite_SF2B|]. unfold real. now rewrite B2R_SF2B.
  Qed.
  Lemma B_fin (b : binary_float prec emax) : is_finite b = true -> fin (B2SF b) /\ real (B2SF b) = B2R b.
  Proof.
    intros H. split; [split|].
    - now rewrite is_finite_SF_B2SF.
    - apply valid_binary_B2SF.
    - unfold real. apply SF2R_B2SF.
  Qed.
  Theorem add_real x y : fin x -> fin y -> Rabs (rnd (real x + real y)) < bpow radix2 emax ->
    fin (SFadd prec emax x y) /\ real (SFadd prec emax x y) = rnd (real x + real y).
  Proof.
    intros Hx Hy Ho. destruct (fin_B x Hx) as (a & <- & Fa & Ra). destruct (fin_B y Hy) as (b & <- & Fb & Rb). rewrite add_equiv.
    pose proof (Bplus_correct prec emax Hprec Hmax mode_NE a b Fa Fb) as C. rewrite Ra, Rb in C. rewrite Rlt_bool_true in C by exact Ho. destruct C as (C1 & C2 & _).
    destruct (B_fin _ C2) as [D1 D2]. rewrite D2. auto.
  Qed.
  Theorem sub_real x y : fin x -> fin y -> Rabs (rnd (real x - real y)) < bpow radix2 emax ->
    fin (SFsub prec emax x y) /\ real (SFsub prec emax x y) = rnd (real x - real y).
  Proof.
    intros Hx Hy Ho. destruct (fin_B x Hx) as (a & <- & Fa & Ra). destruct (fin_B y Hy) as (b & <- & Fb & Rb). rewrite sub_equiv.
    pose proof (Bminus_correct prec emax Hprec Hmax mode_NE a b Fa Fb) as C. rewrite Ra, Rb in C. rewrite Rlt_bool_true in C by exact Ho. destruct C as (C1 & C2 & _).
    destruct (B_fin _ C2) as [D1 D2]. rewrite D2. auto.
  Qed.
  Theorem mul_real x y : fin x -> fin y -> Rabs (rnd (real x * real y)) < bpow radix2 emax ->
    fin (SFmul prec emax x y) /\ real (SFmul prec emax x y) = rnd (real x * real y).
  Proof.
    intros Hx Hy Ho. destruct (fin_B x Hx) as (a & <- & Fa & Ra). destruct (fin_B y Hy) as (b & <- & Fb & Rb). rewrite mul_equiv.
    pose proof (Bmult_correct prec emax Hprec Hmax mode_NE a b) as C. rewrite Ra, Rb in C. rewrite Rlt_bool_true in C by exact Ho. destruct C as (C1 & C2 & _).
    rewrite Fa, Fb in C2. destruct (B_fin _ C2) as [D1 D2]. rewrite D2. auto.
  Qed.
  Theorem div_real x y : fin x -> fin y -> real y <> 0 -> Rabs (rnd (real x / real y)) < bpow radix2 emax ->
    fin (SFdiv prec emax x y) /\ real (SFdiv prec emax x y) = rnd (real x / real y).
  Proof.
    intros Hx Hy H0 Ho. destruct (fin_B x Hx) as (a & <- & Fa & Ra). destruct (fin_B y Hy) as (b & <- & Fb & Rb). rewrite div_equiv. rewrite <- Rb in H0.
    pose proof (Bdiv_correct prec emax Hprec Hmax mode_NE a b H0) as C. rewrite Ra, Rb in C. rewrite Rlt_bool_true in C by exact Ho. destruct C as (C1 & C2 & _).
    rewrite Fa in C2. destruct (B_fin _ C2) as [D1 D2]. rewrite D2. auto.
  Qed.
  (* comparisons *)
  Theorem ltb_real x y : fin x -> fin y -> SFltb x y = Rlt_bool (real x) (real y).
  Proof.
    intros Hx Hy. destruct (fin_B x Hx) as (a & <- & Fa & Ra). destruct (fin_B y Hy) as (b & <- & Fb & Rb). pose proof (Bltb_correct prec emax a b Fa Fb) as C. rewrite <- Ra, <- Rb, <- C. reflexivity.
  Qed.
  Theorem leb_real x y : fin x -> fin y -> SFleb x y = Rle_bool (real x) (real y).
  Proof.
    intros Hx Hy. destruct (fin_B x Hx) as (a & <- & Fa & Ra). destruct (fin_B y Hy) as (b & <- & Fb & Rb). pose proof (Bleb_correct prec emax a b Fa Fb) as C. rewrite <- Ra, <- Rb, <- C. reflexivity.
  Qed.
  (* values are determined by their real, except for the sign of zero *)
  Theorem real_inj x y : fin x -> fin y -> real x = real y -> real x <> 0 -> x = y.
  Proof.
    intros Hx Hy E H0. destruct (fin_B x Hx) as (a & <- & Fa & Ra). destruct (fin_B y Hy) as (b & <- & Fb & Rb). f_equal. apply B2R_inj; try congruence.
    - destruct a; cbn in *; try congruence; try reflexivity; rewrite Ra in *; exfalso; apply H0; reflexivity.
    - destruct b; cbn in *; try congruence; try reflexivity; exfalso; apply H0; congruence.
  Qed.
  Theorem real_format x : fin x -> generic_format radix2 fexp (real x).
  Proof. intros Hx. destruct (fin_B x Hx) as (a & <- & Fa & <-). apply generic_format_B2R. Qed.
  Theorem ofZ_real z : Rabs (rnd (IZR z)) < bpow radix2 emax -> fin (sf_ofZ prec emax z) /\ real (sf_ofZ prec emax z) = rnd (IZR z).
  Proof.
    intros Ho. unfold sf_ofZ. rewrite binary_normalize_equiv. pose proof (binary_normalize_correct prec emax Hprec Hmax mode_NE z 0 false) as C. cbv zeta in C.
    replace (F2R (Float radix2 z 0)) with (IZR z) in C by (unfold F2R; cbn; ring). rewrite Rlt_bool_true in C by exact Ho. destruct C as (C1 & C2 & _). destruct (B_fin _ C2) as [D1 D2]. rewrite D2. auto.
  Qed.
  #[local] Existing Instance Hprec.
  Lemma valid_exp_f : Valid_exp fexp. Proof. apply (fexp_correct prec emax Hprec). Qed.
  Lemma rnd_mono x y : x <= y -> rnd x <= rnd y.
  Proof. apply round_le; [apply valid_exp_f|apply valid_rnd_N]. Qed.
  Lemma rnd_id x : fin x -> rnd (real x) = real x.
  Proof. intros H. apply round_generic; [apply valid_rnd_N|]. now apply real_format. Qed.
End Link.
#[export] Instance prec24 : Prec_gt_0 24. Proof. reflexivity. Qed.
#[export] Instance emax128 : Prec_lt_emax 24 128. Proof. reflexivity. Qed.
#[export] Instance prec53 : Prec_gt_0 53. Proof. reflexivity. Qed.
#[export] Instance emax1024 : Prec_lt_emax 53 1024. Proof. reflexivity. Qed.

(* ---- binary32 ---- *)
Notation fin32 := (fin 24 128).
Notation rnd32 := (rnd 24 128).
(* x is a binary32 number *)
Definition is32 (x : R) : Prop := exists y, fin32 y /\ real y = x.
Lemma is32_finite s m e : bounded 24 128 m e = true -> is32 (real (S754_finite s m e)).
Proof. intros H. exists (S754_finite s m e). split; [split; auto|reflexivity]. Qed.
Lemma is32_0 : is32 0.
Proof. exists (S754_zero false). split; [split; reflexivity|reflexivity]. Qed.
Lemma rnd32_between x a b : is32 a -> is32 b -> a <= x <= b -> a <= rnd32 x <= b.
Proof.
  intros (y & Fy & <-) (z & Fz & <-) H. split.
  - rewrite <- (rnd_id 24 128 y Fy). apply rnd_mono; [exact prec24|tauto].
  - rewrite <- (rnd_id 24 128 z Fz). apply rnd_mono; [exact prec24|tauto].
Qed.
Lemma fin32_bound x : fin32 x -> Rabs (real x) < bpow radix2 128.
Proof. intros H. destruct (fin_B 24 128 x H) as (a & _ & _ & <-). apply abs_B2R_lt_emax. Qed.
Lemma is32_over x a b : is32 a -> is32 b -> a <= x <= b -> Rabs (rnd32 x) < bpow radix2 128.
Proof.
  intros Ha Hb H. pose proof (rnd32_between x a b Ha Hb H) as K. destruct Ha as (y & Fy & <-). destruct Hb as (z & Fz & <-).
  pose proof (fin32_bound y Fy) as A. pose proof (fin32_bound z Fz) as B. apply Rabs_def2 in A. apply Rabs_def2 in B. apply Rabs_def1; lra.
Qed.
Lemma add32 x y a b : fin32 x -> fin32 y -> is32 a -> is32 b -> a <= real x + real y <= b ->
  fin32 (nadd f32_ops x y) /\ real (nadd f32_ops x y) = rnd32 (real x + real y) /\ a <= real (nadd f32_ops x y) <= b.
Proof.
  intros Fx Fy Ha Hb H. destruct (add_real 24 128 prec24 emax128 x y Fx Fy (is32_over _ _ _ Ha Hb H)) as [R1 R2]. split; [exact R1|]. split; [exact R2|]. change (nadd f32_ops) with (SFadd 24 128). rewrite R2. now apply rnd32_between.
Qed.
Lemma sub32 x y a b : fin32 x -> fin32 y -> is32 a -> is32 b -> a <= real x - real y <= b ->
  fin32 (nsub f32_ops x y) /\ real (nsub f32_ops x y) = rnd32 (real x - real y) /\ a <= real (nsub f32_ops x y) <= b.
Proof.
  intros Fx Fy Ha Hb H. destruct (sub_real 24 128 prec24 emax128 x y Fx Fy (is32_over _ _ _ Ha Hb H)) as [R1 R2]. split; [exact R1|]. split; [exact R2|]. change (nsub f32_ops) with (SFsub 24 128). rewrite R2. now apply rnd32_between.
Qed.
Lemma mul32 x y a b : fin32 x -> fin32 y -> is32 a -> is32 b -> a <= real x * real y <= b ->
  fin32 (nmul f32_ops x y) /\ real (nmul f32_ops x y) = rnd32 (real x * real y) /\ a <= real (nmul f32_ops x y) <= b.
Proof.
  intros Fx Fy Ha Hb H. destruct (mul_real 24 128 prec24 emax128 x y Fx Fy (is32_over _ _ _ Ha Hb H)) as [R1 R2]. split; [exact R1|]. split; [exact R2|]. change (nmul f32_ops) with (SFmul 24 128). rewrite R2. now apply rnd32_between.
Qed.
Lemma ofZ32 z a b : is32 a -> is32 b -> a <= IZR z <= b -> fin32 (nofZ f32_ops z) /\ real (nofZ f32_ops z) = rnd32 (IZR z) /\ a <= real (nofZ f32_ops z) <= b.
Proof.
  intros Ha Hb H. destruct (ofZ_real 24 128 prec24 emax128 z (is32_over _ _ _ Ha Hb H)) as [R1 R2]. split; [exact R1|]. split; [exact R2|]. change (nofZ f32_ops) with (sf_ofZ 24 128). rewrite R2. now apply rnd32_between.
Qed.
Lemma leb32 x y : fin32 x -> fin32 y -> nleb f32_ops x y = Rle_bool (real x) (real y).
Proof. exact (leb_real 24 128 x y). Qed.
Lemma ltb32 x y : fin32 x -> fin32 y -> nltb f32_ops x y = Rlt_bool (real x) (real y).
Proof. exact (ltb_real 24 128 x y). Qed.
Lemma ulp32_le x e : (-125 <= e)%Z -> Rabs x < bpow radix2 e -> ulp radix2 (SpecFloat.fexp 24 128) x <= bpow radix2 (e - 24).
Proof.
  intros He H. destruct (Req_dec x 0) as [->|H0].
  - change (SpecFloat.fexp 24 128) with (FLT_exp (-149) 24). rewrite (@ulp_FLT_0 radix2 (-149) 24 prec24). apply bpow_le. lia.
  - rewrite ulp_neq_0 by auto. apply bpow_le. unfold cexp. pose proof (mag_le_bpow radix2 x e H0 H). unfold SpecFloat.fexp, SpecFloat.emin. lia.
Qed.
Lemma ulp32_ge x : bpow radix2 (-149) <= ulp radix2 (SpecFloat.fexp 24 128) x.
Proof.
  destruct (Req_dec x 0) as [->|H0].
  - change (SpecFloat.fexp 24 128) with (FLT_exp (-149) 24). rewrite (@ulp_FLT_0 radix2 (-149) 24 prec24). lra.
  - rewrite ulp_neq_0 by auto. apply bpow_le. unfold cexp, SpecFloat.fexp, SpecFloat.emin. lia.
Qed.
Lemma rnd32_err x e : (-125 <= e)%Z -> Rabs x < bpow radix2 e -> Rabs (rnd32 x - x) <= bpow radix2 (e - 25).
Proof.
  intros He H. pose proof (error_le_half_ulp radix2 (SpecFloat.fexp 24 128) (fun z => negb (Z.even z)) x) as E. pose proof (ulp32_le x e He H) as U.
  replace (bpow radix2 (e - 25)) with (/ 2 * bpow radix2 (e - 24)). { unfold rnd. lra. } replace (e - 24)%Z with (1 + (e - 25))%Z by ring. rewrite bpow_plus. change (bpow radix2 1) with 2. field.
Qed.
