(* Atomic wavetables in binary32: phases stay in 0...1 and every read is within the table. *)
From Coq Require Import Reals Lra Lia Psatz SpecFloat.
From Flocq Require Import Core.Core IEEE754.BinarySingleNaN.
From Verif Require Export SharedSpec.
From Verif Require Import SharedProofs TableProofs OscFloat.
Local Open Scope R_scope.
Notation nm32 := f32_ops.
Notation mask := SharedModel.mask.

Lemma is32_1 : is32 1. Proof. exists (S754_finite false 8388608 (-23)). split; [split; reflexivity|]. unfold real, SF2R, F2R. cbn. lra. Qed.
Lemma is32_half : is32 (1 / 2). Proof. exists (S754_finite false 8388608 (-24)). split; [split; reflexivity|]. unfold real, SF2R, F2R. cbn. lra. Qed.
Lemma is32_61 : is32 (IZR (2 ^ 61)). Proof. exists (S754_finite false 8388608 38). split; [split; reflexivity|]. unfold real, SF2R, F2R. cbn [Fnum Fexp cond_Zopp]. rewrite <- IZR_Zpower by lia. rewrite <- mult_IZR. reflexivity. Qed.
Lemma is32_127 : is32 (bpow radix2 127).
Proof. exists (S754_finite false 8388608 104). split; [split; reflexivity|]. unfold real, SF2R, F2R. cbn [Fnum Fexp cond_Zopp]. rewrite <- !IZR_Zpower by lia. rewrite <- mult_IZR. reflexivity. Qed.
Lemma is32_n127 : is32 (- bpow radix2 127).
Proof. exists (S754_finite true 8388608 104). split; [split; reflexivity|]. unfold real, SF2R, F2R. cbn [Fnum Fexp cond_Zopp]. rewrite <- !IZR_Zpower by lia. rewrite <- mult_IZR, <- opp_IZR. reflexivity. Qed.
Lemma is32_max : is32 (3 / 2 * bpow radix2 127).
Proof. exists (S754_finite false 12582912 104). split; [split; reflexivity|]. unfold real, SF2R, F2R. cbn [Fnum Fexp cond_Zopp]. change 127%Z with (23 + 104)%Z. rewrite bpow_plus. change (bpow radix2 23) with 8388608. lra. Qed.

Lemma floor_real x : fin32 x -> IZR (sf_floor x) <= real x < IZR (sf_floor x) + 1.
Proof.
  intros [F _]. destruct x as [s|s| |s m e]; try discriminate F; [cbn; lra|]. unfold real, SF2R, F2R. cbn [Fnum Fexp sf_floor].
  replace (cond_Zopp s (Z.pos m)) with (if s then Z.neg m else Z.pos m) by (destruct s; reflexivity). set (v := if s then Z.neg m else Z.pos m). destruct (Z.leb_spec 0 e).
  - rewrite mult_IZR. change (2 ^ e)%Z with (Zpower radix2 e). rewrite IZR_Zpower by auto. lra.
  - assert (P : bpow radix2 e = / IZR (2 ^ (- e))) by (change (2 ^ (- e))%Z with (Zpower radix2 (- e)); rewrite IZR_Zpower by lia; rewrite <- bpow_opp; f_equal; lia).
    assert (Q : (0 < 2 ^ (- e))%Z) by (apply Z.pow_pos_nonneg; lia). rewrite P. set (d := (2 ^ (- e))%Z) in *. pose proof (Z.div_mod v d ltac:(lia)) as D. pose proof (Z.mod_pos_bound v d Q) as B.
    assert (QR : 0 < IZR d) by (apply IZR_lt; auto). assert (E : IZR v * / IZR d = IZR (v / d) + IZR (v mod d) / IZR d) by (rewrite D at 1; rewrite plus_IZR, mult_IZR; field; lra).
    rewrite E. destruct B as [B1 B2]. apply IZR_le in B1. apply IZR_lt in B2. assert (0 <= IZR (v mod d) / IZR d < 1); [|lra].
    split; [apply Rmult_le_pos; [auto|left; now apply Rinv_0_lt_compat]|]. apply Rmult_lt_reg_r with (IZR d); auto. unfold Rdiv. rewrite Rmult_assoc, Rinv_l by lra. lra.
Qed.
Lemma small_format z : (Z.abs z < 2 ^ 24)%Z -> generic_format radix2 (SpecFloat.fexp 24 128) (IZR z).
Proof.
  intros H. apply (generic_format_F2R' _ _ _ (Float radix2 z 0)); [unfold F2R; cbn; ring|]. intros N. unfold cexp. cbn [Fexp]. assert (M : (mag radix2 (IZR z) <= 24)%Z).
  { apply mag_le_bpow; auto. rewrite <- abs_IZR. change (bpow radix2 24) with (IZR (2 ^ 24)). now apply IZR_lt. }
  unfold SpecFloat.fexp, SpecFloat.emin. lia.
Qed.
(* the floor of a float is a float *)
Lemma floor_exact x : fin32 x -> rnd32 (IZR (sf_floor x)) = IZR (sf_floor x) /\ Rabs (IZR (sf_floor x)) < bpow radix2 128.
Proof.
  intros Fx. pose proof (fin32_bound x Fx) as B. destruct x as [s|s| |s m e]; try (destruct Fx; discriminate).
  - cbn [sf_floor]. split; [apply round_0, valid_rnd_N|]. rewrite Rabs_R0. apply bpow_gt_0.
  - destruct (Z.leb_spec 0 e) as [E|E].
    + assert (Q : IZR (sf_floor (S754_finite s m e)) = real (S754_finite s m e)).
      { cbn [sf_floor]. destruct (Z.leb_spec 0 e); [|lia]. unfold real, SF2R, F2R. cbn [Fnum Fexp]. rewrite mult_IZR. change (2 ^ e)%Z with (Zpower radix2 e). rewrite IZR_Zpower by auto. destruct s; reflexivity. }
      rewrite Q. split; [now apply rnd_id|exact B].
    + assert (A : (Z.abs (sf_floor (S754_finite s m e)) < 2 ^ 24)%Z).
      { destruct Fx as [_ V]. cbn [valid_binary] in V. unfold bounded in V. apply andb_prop in V as [V _]. unfold canonical_mantissa in V. apply Zeq_bool_eq in V. unfold SpecFloat.fexp, SpecFloat.emin in V.
        assert (M : (Z.pos m < 2 ^ 24)%Z).
        { assert (D : (Z.pos (digits2_pos m) <= 24)%Z) by lia. rewrite Digits.Zpos_digits2_pos in D. pose proof (Digits.Zdigits_correct radix2 (Z.pos m)) as [_ G]. change (Z.abs (Z.pos m)) with (Z.pos m) in G.
          eapply Z.lt_le_trans; [exact G|]. change (2 ^ 24)%Z with (Zpower radix2 24). apply Zpower_le. exact D. }
        cbn [sf_floor]. destruct (Z.leb_spec 0 e); [lia|]. set (d := (2 ^ (- e))%Z). assert (2 <= d)%Z by (unfold d; change 2%Z with (2 ^ 1)%Z at 1; apply Z.pow_le_mono_r; lia).
        destruct s.
        - assert (- Z.pos m <= Z.neg m / d)%Z by (apply Z.div_le_lower_bound; nia). assert (Z.neg m / d <= 0)%Z by (apply Z.div_le_upper_bound; lia). lia.
        - assert (Z.pos m / d <= Z.pos m)%Z by (apply Z.div_le_upper_bound; nia). assert (0 <= Z.pos m / d)%Z by (apply Z.div_pos; lia). lia. }
      split; [apply round_generic; [apply valid_rnd_N|now apply small_format]|]. rewrite <- abs_IZR. apply IZR_lt in A. change (IZR (2 ^ 24)) with (bpow radix2 24) in A.
      eapply Rlt_trans; [exact A|]. apply bpow_lt. lia.
Qed.
Lemma floorf_real x : fin32 x -> fin32 (sf_floorf x) /\ real (sf_floorf x) = IZR (sf_floor x).
Proof.
  intros Fx. destruct (floor_exact x Fx) as [E B]. destruct x as [s|s| |s m e]; try (destruct Fx; discriminate).
  - split; [exact Fx|]. reflexivity.
  - cbn [sf_floorf]. destruct (ofZ_real 24 128 prec24 emax128 (sf_floor (S754_finite s m e))) as [A C]; [rewrite E; exact B|]. split; [exact A|]. change (nofZ f32_ops) with (sf_ofZ 24 128). now rewrite C, E.
Qed.
(* x - x.floor() is in 0...1 *)
Lemma wrap32 x : fin32 x -> unit32 (nsub nm32 x (sf_floorf x)).
Proof.
  intros Fx. destruct (floorf_real x Fx) as [A B]. pose proof (floor_real x Fx) as C. destruct (sub32 x (sf_floorf x) 0 1 Fx A is32_0 is32_1 ltac:(rewrite B; lra)) as (D & _ & E). split; [exact D|exact E].
Qed.

(* ---- reading ---- *)
Lemma of_n n : table_size n -> fin32 (nofZ nm32 n) /\ 0 <= real (nofZ nm32 n) <= IZR (2 ^ 61).
Proof.
  intros T. pose proof (table_pos n T) as [P1 P2]. apply IZR_le in P1, P2. destruct (ofZ32 n 0 (IZR (2 ^ 61)) is32_0 is32_61 ltac:(lra)) as (A & _ & B). auto.
Qed.
Lemma unchecked32 n phase : table_size n -> unit32 phase -> exists i, unchecked_usize nm32 (nmul nm32 (nofZ nm32 n) phase) = Val i /\ (0 <= i)%Z.
Proof.
  intros T [Fp Rp]. destruct (of_n n T) as [A B]. assert (Q : 0 <= IZR (2 ^ 61)) by (apply IZR_le; lia).
  destruct (mul32 (nofZ nm32 n) phase 0 (IZR (2 ^ 61)) A Fp is32_0 is32_61) as (C & _ & D). { destruct Rp. split; [nra|]. assert (real (nofZ nm32 n) * real phase <= real (nofZ nm32 n) * 1) by (apply Rmult_le_compat_l; lra). lra. }
  set (p := nmul nm32 (nofZ nm32 n) phase) in *. unfold unchecked_usize.
  assert (F1 : fin32 (nofZ nm32 (-1))) by (split; reflexivity). assert (F2 : fin32 (nofZ nm32 (2 ^ 64))) by (split; vm_compute; reflexivity).
  assert (R1 : real (nofZ nm32 (-1)) = -1). { change (nofZ nm32 (-1)) with (S754_finite true 8388608 (-23)). unfold real, SF2R, F2R. cbn. lra. }
  assert (R2 : real (nofZ nm32 (2 ^ 64)) = IZR (2 ^ 64)). { replace (nofZ nm32 (2 ^ 64)) with (S754_finite false 8388608 41) by (vm_compute; reflexivity). unfold real, SF2R, F2R. cbn [Fnum Fexp cond_Zopp]. rewrite <- IZR_Zpower by lia. rewrite <- mult_IZR. reflexivity. }
  rewrite (ltb32 (nofZ nm32 (-1)) p F1 C), (ltb32 p (nofZ nm32 (2 ^ 64)) C F2), R1, R2. assert (IZR (2 ^ 61) < IZR (2 ^ 64)) by (apply IZR_lt; reflexivity).
  rewrite !Rlt_bool_true by lra. cbn [andb]. eexists. split; [reflexivity|lia].
Qed.
Lemma load32 {A} n (t : list A) i : table_size n -> Z.of_nat (length t) = n -> exists a, load t (mask n i) = Val a.
Proof.
  intros T L. pose proof (table_pos n T). rewrite table_land by auto. unfold load, atomic_at, index. pose proof (Z.mod_pos_bound i n ltac:(lia)).
  destruct (nth_error t (Z.to_nat (i mod n))) as [a|] eqn:E; [now exists a|]. apply nth_error_None in E. lia.
Qed.
Ltac load_all := repeat match goal with T : table_size ?n, L : Z.of_nat (length ?t) = ?n |- context [load ?t (SharedModel.mask ?n ?i)] => let a := fresh "a" in let E := fresh "E" in destruct (load32 n t i T L) as [a E]; rewrite E; cbn [bind] end.
Lemma read_safe n t0 t1 t2 t3 phase : table_size n -> same_size n (t0, t1, t2, t3) -> unit32 phase ->
  is_val (read_nearest nm32 n t0 phase) /\ is_val (read_linear nm32 n t0 t1 phase) /\ is_val (read_cubic nm32 n t0 t1 t2 t3 phase).
Proof.
  intros T (L0 & L1 & L2 & L3) U. destruct (unchecked32 n phase T U) as (i & E & Hi). unfold read_nearest, read_linear, read_cubic. rewrite !E. cbn [bind].
  split; [|split]; load_all; eexists; reflexivity.
Qed.

(* ---- the synthesizer ---- *)
Definition tame (s : asynth spec_float) : Prop := unit32 (as_phase s) /\ unit32 (as_init s) /\ fin32 (as_sd s) /\ 0 <= real (as_sd s) <= 1 / 2.
Lemma duration32 sr : fin32 sr -> 2 <= real sr -> let d := ndiv nm32 (n1 nm32) sr in fin32 d /\ 0 <= real d <= 1 / 2.
Proof.
  intros F H. assert (F1 : fin32 (n1 nm32)) by (split; reflexivity). assert (R1 : real (n1 nm32) = 1). { change (n1 nm32) with (S754_finite false 8388608 (-23)). unfold real, SF2R, F2R. cbn. lra. }
  assert (Q : 0 <= 1 / real sr <= 1 / 2). { split; [apply Rmult_le_pos; [lra|left; apply Rinv_0_lt_compat; lra]|]. unfold Rdiv. rewrite !Rmult_1_l. apply Rinv_le_contravar; lra. }
  destruct (div_real 24 128 prec24 emax128 (n1 nm32) sr F1 F ltac:(lra)) as [A B]; [rewrite R1; now apply (is32_over _ 0 (1 / 2) is32_0 is32_half)|].
  cbn zeta. change (ndiv nm32) with (SFdiv 24 128). split; [exact A|]. rewrite B, R1. now apply rnd32_between; [apply is32_0|apply is32_half|].
Qed.
Lemma advance32 s f : tame s -> fin32 f -> tame (asynth_advance nm32 sf_floorf s f).
Proof.
  intros ((Fp & Rp) & I & Fd & Rd) Ff. pose proof (fin32_bound f Ff) as B. apply Rabs_def2 in B. change 128%Z with (1 + 127)%Z in B. rewrite bpow_plus in B. change (bpow radix2 1) with 2 in B. pose proof (bpow_gt_0 radix2 127) as P. pose proof (bpow_le radix2 1 127 ltac:(lia)) as G. change (bpow radix2 1) with 2 in G.
  destruct (mul32 f (as_sd s) (- bpow radix2 127) (bpow radix2 127) Ff Fd is32_n127 is32_127) as (A & _ & C). { set (b := bpow radix2 127) in *. split; nra. }
  destruct (add32 (as_phase s) (nmul nm32 f (as_sd s)) (- bpow radix2 127) (3 / 2 * bpow radix2 127) Fp A is32_n127 is32_max ltac:(lra)) as (D & _ & _).
  unfold asynth_advance, tame. cbn [as_phase as_init as_sd]. split; [now apply wrap32|]. auto.
Qed.
Lemma step_tame n s a : table_size n -> tame s -> sane n a -> tame (fst (synth_step nm32 sf_floorf n s a)) /\ Forall is_val (snd (synth_step nm32 sf_floorf n s a)).
Proof.
  intros T K S. destruct a as [f [[[t0 t1] t2] t3]| |sr|p|m]; cbn [synth_step sane] in *.
  - destruct S as [Ff L]. pose proof (advance32 s f K Ff) as G. unfold asynth_tick. cbn [fst snd]. split; [exact G|]. constructor; [|constructor].
    destruct (read_safe n t0 t1 t2 t3 (as_phase (asynth_advance nm32 sf_floorf s f)) T L (proj1 G)) as (A & B & C). destruct (as_mode _); auto.
  - destruct K as (A & B & C & D). cbn [fst snd]. split; [exact (conj B (conj B (conj C D)))|constructor].
  - destruct S as [Fs Hs]. destruct K as (A & B & C & D). destruct (duration32 sr Fs Hs) as [E G]. cbn [fst snd]. split; [exact (conj A (conj B (conj E G)))|constructor].
  - destruct K as (A & B & C & D). cbn [fst snd]. split; [exact (conj S (conj S (conj C D)))|constructor].
  - destruct K as (A & B & C & D). cbn [fst snd]. split; [exact (conj A (conj B (conj C D)))|constructor].
Qed.
Lemma run_tame n l : table_size n -> Forall (sane n) l -> forall s, tame s -> tame (fst (asynth_run nm32 sf_floorf n s l)) /\ Forall is_val (snd (asynth_run nm32 sf_floorf n s l)).
Proof.
  intros T F. induction F as [|a l S _ IH]; intros s K; [split; [exact K|constructor]|]. cbn [asynth_run]. destruct (step_tame n s a T K S) as [A B]. destruct (synth_step nm32 sf_floorf n s a) as [s' o]. cbn [fst snd] in *.
  destruct (IH s' A) as [C D]. destruct (asynth_run nm32 sf_floorf n s' l) as [s'' os]. cbn [fst snd] in *. split; [exact C|]. apply Forall_app. auto.
Qed.
Lemma new_tame : tame (asynth_new nm32 (nofZ nm32 44100)).
Proof.
  assert (F : fin32 (nofZ nm32 44100)) by (split; vm_compute; reflexivity). assert (R0 : real (nofZ nm32 44100) = 44100).
  { replace (nofZ nm32 44100) with (S754_finite false 11289600 (-8)) by (vm_compute; reflexivity). unfold real, SF2R, F2R. cbn. lra. }
  destruct (duration32 _ F ltac:(lra)) as [A B]. unfold tame, asynth_new. cbn [as_phase as_init as_sd]. assert (U : unit32 (nofZ nm32 0)) by (split; [split; reflexivity|cbn; lra]). auto.
Qed.

(* ---- infinities and NaN ---- *)
Lemma nan_undefined n t0 t1 t2 t3 : read_nearest nm32 n t0 S754_nan = Undefined /\ read_linear nm32 n t0 t1 S754_nan = Undefined /\ read_cubic nm32 n t0 t1 t2 t3 S754_nan = Undefined.
Proof.
  assert (E : unchecked_usize nm32 (nmul nm32 (nofZ nm32 n) S754_nan) = Undefined). { cbn [nmul f32_ops sf_ops]. generalize (nofZ nm32 n) as x. intros x. unfold SFmul. destruct x; reflexivity. }
  unfold read_nearest, read_linear, read_cubic. now rewrite !E.
Qed.
Lemma bad_undefined n ts s f : (f = S754_nan \/ exists b, f = S754_infinity b) -> fin32 (as_phase s) -> fin32 (as_sd s) -> real (as_sd s) <> 0 -> snd (asynth_tick nm32 sf_floorf n ts s f) = Undefined.
Proof.
  intros H [Fp _] [Fd _] N. assert (E : as_phase (asynth_advance nm32 sf_floorf s f) = S754_nan).
  { unfold asynth_advance. cbn [as_phase nadd nmul nsub f32_ops sf_ops]. destruct H as [->|[b ->]].
    - replace (SFmul 24 128 S754_nan (as_sd s)) with S754_nan by (destruct (as_sd s); reflexivity). replace (SFadd 24 128 (as_phase s) S754_nan) with S754_nan by (destruct (as_phase s); reflexivity). reflexivity.
    - destruct (as_sd s) as [z|z| |z m e]; try discriminate Fd; [exfalso; apply N; reflexivity|]. cbn [SFmul]. destruct (as_phase s) as [z'|z'| |z' m' e']; try discriminate Fp; cbn [SFadd sf_floorf SFsub]; destruct b, z; reflexivity. }
  destruct ts as [[[t0 t1] t2] t3]. unfold asynth_tick. cbn [snd]. rewrite E. destruct (nan_undefined n t0 t1 t2 t3) as (A & B & C). destruct (as_mode _); auto.
Qed.
