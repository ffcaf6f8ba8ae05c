(* Sample-and-hold with times in binary64: a frequency of zero is for ever. *)
From Coq Require Import Reals Lra Lia SpecFloat.
From Flocq Require Import Core.Core IEEE754.BinarySingleNaN.
From Verif Require Import HoldSpec.
From Verif Require Export FloatLink PreProofs HoldProofs.
Local Open Scope R_scope.

Notation nm64 := f64_ops.
Definition sd44 : spec_float := ndiv nm64 (n1 nm64) (nofZ nm64 44100).
Definition far : spec_float := S754_finite false 4503599627370496 8. (* 2^60 *)
Lemma sd44_is : sd44 = S754_finite false 6692696262570359 (-68).
Proof. vm_compute. reflexivity. Qed.
Lemma far_still : nadd nm64 far sd44 = far.
Proof. vm_compute. reflexivity. Qed.
Lemma far_fin : fin64 far. Proof. split; reflexivity. Qed.
Lemma sd_fin : fin64 sd44. Proof. rewrite sd44_is. split; reflexivity. Qed.
Lemma sd_pos : 0 < real sd44.
Proof. rewrite sd44_is. unfold real, SF2R, F2R. cbn [Fnum Fexp cond_Zopp]. apply Rmult_lt_0_compat; [apply IZR_lt; lia|apply bpow_gt_0]. Qed.
Lemma far_real : real far = bpow radix2 60.
Proof. unfold real, far, SF2R, F2R. cbn [Fnum Fexp cond_Zopp]. change 4503599627370496%Z with (2 ^ 52)%Z. change (IZR (2 ^ 52)) with (bpow radix2 52). rewrite <- bpow_plus. reflexivity. Qed.
Definition ticking (t : spec_float) : Prop := fin64 t /\ 0 <= real t <= real far.
Lemma ticking_step t : ticking t -> ticking (nadd nm64 t sd44).
Proof.
  intros [F [A B]]. pose proof far_real as FR. pose proof sd_pos as SP.
  assert (Ff : rnd64 (real far + real sd44) = real far).
  { destruct (add_real 53 1024 prec53 emax1024 far sd44 far_fin sd_fin) as [_ E].
    - assert (Hb : real far + real sd44 <= bpow radix2 61).
      { rewrite FR. change (bpow radix2 61) with (2 * bpow radix2 60). assert (real sd44 <= bpow radix2 60); [|lra]. rewrite sd44_is. unfold real, SF2R, F2R. cbn [Fnum Fexp cond_Zopp].
        apply Rle_trans with (IZR (2 ^ 53) * bpow radix2 (-68)); [apply Rmult_le_compat_r; [apply bpow_ge_0|apply IZR_le; lia]|]. change (IZR (2 ^ 53)) with (bpow radix2 53). rewrite <- bpow_plus. apply bpow_le. lia. }
      rewrite Rabs_pos_eq.
      + apply Rle_lt_trans with (rnd64 (bpow radix2 61)); [now apply (rnd_mono 53 1024 prec53)|]. unfold rnd. rewrite round_generic; [apply bpow_lt; lia|apply valid_rnd_N|apply generic_format_bpow; cbv; discriminate].
      + replace 0 with (rnd64 0) by (apply round_0, valid_rnd_N). apply (rnd_mono 53 1024 prec53). rewrite FR. pose proof (bpow_gt_0 radix2 60). lra.
    - change (SFadd 53 1024 far sd44) with (nadd nm64 far sd44) in E. now rewrite far_still in E. }
  assert (R0 : 0 <= rnd64 (real t + real sd44) <= real far).
  { split; [replace 0 with (rnd64 0) by (apply round_0, valid_rnd_N); apply (rnd_mono 53 1024 prec53); lra|]. rewrite <- Ff. apply (rnd_mono 53 1024 prec53). lra. }
  destruct (add_real 53 1024 prec53 emax1024 t sd44 F sd_fin) as [F' E].
  - rewrite Rabs_pos_eq by lra. apply Rle_lt_trans with (real far); [lra|]. rewrite FR. apply bpow_lt. lia.
  - split; [exact F'|]. change (real (SFadd 53 1024 t sd44)) with (real (nadd nm64 t sd44)) in E. now rewrite E.
Qed.
Lemma never t : ticking t -> nleb nm64 (S754_infinity false) t = false.
Proof. intros [[F _] _]. destruct t; try discriminate; reflexivity. Qed.

Lemma is64_half : rnd64 (1 / 2) = 1 / 2.
Proof. unfold rnd. rewrite round_generic; [reflexivity|apply valid_rnd_N|]. replace (1 / 2) with (bpow radix2 (-1)) by (cbn; lra). apply generic_format_bpow. cbv. discriminate. Qed.
Lemma lerp_one r : fin64 r -> 0 <= real r < 1 -> let y := lerp nm64 (nsub nm64 (n1 nm64) (n0 nm64)) (nadd nm64 (n1 nm64) (n0 nm64)) r in fin64 y /\ 1 / 2 <= real y.
Proof.
  intros F [A B]. cbv zeta. unfold lerp. replace (nsub nm64 (n1 nm64) (n0 nm64)) with (n1 nm64) by (vm_compute; reflexivity). replace (nadd nm64 (n1 nm64) (n0 nm64)) with (n1 nm64) by (vm_compute; reflexivity).
  destruct (exact64 1 ltac:(lia)) as [F1 R1]. change (nofZ nm64 1) with (n1 nm64) in F1, R1.
  assert (O1 : Rabs (rnd64 (real (n1 nm64) - real r)) < bpow radix2 1024).
  { rewrite R1. destruct (rnd64_unit (1 - real r)) as [U1 U2]; [lra|]. rewrite Rabs_pos_eq by lra. apply Rle_lt_trans with (bpow radix2 0); [cbn; lra|apply bpow_lt; lia]. }
  destruct (sub_real 53 1024 prec53 emax1024 _ _ F1 F O1) as [F2 R2]. change (SFsub 53 1024 (n1 nm64) r) with (nsub nm64 (n1 nm64) r) in F2, R2. rewrite R1 in R2.
  set (a := nsub nm64 (n1 nm64) r) in *. destruct (rnd64_unit (1 - real r)) as [U1 U2]; [lra|].
  assert (one : forall y, fin64 y -> 0 <= real y <= 1 -> fin64 (nmul nm64 (n1 nm64) y) /\ real (nmul nm64 (n1 nm64) y) = real y).
  { intros y Fy [Y1 Y2]. assert (E : rnd64 (real (n1 nm64) * real y) = real y) by (rewrite R1, Rmult_1_l; now apply (rnd_id 53 1024)).
    destruct (mul_real 53 1024 prec53 emax1024 _ _ F1 Fy) as [G1 G2]; [rewrite E, Rabs_pos_eq by lra; apply Rle_lt_trans with (bpow radix2 0); [cbn; lra|apply bpow_lt; lia]|].
    split; [exact G1|]. change (nmul nm64) with (SFmul 53 1024). now rewrite G2, E. }
  destruct (one a F2 ltac:(lra)) as [F3 R3]. destruct (one r F ltac:(lra)) as [F4 R4].
  assert (S2 : 1 / 2 <= rnd64 (real a + real r) <= 2).
  { split.
    - rewrite <- is64_half. apply (rnd_mono 53 1024 prec53). destruct (Rle_dec (1 / 2) (real r)) as [H|H]; [lra|]. rewrite R2.
      assert (rnd64 (1 / 2) <= rnd64 (1 - real r)) by (apply (rnd_mono 53 1024 prec53); lra). rewrite is64_half in H0. lra.
    - replace 2 with (rnd64 2). { apply (rnd_mono 53 1024 prec53). lra. }
      unfold rnd. rewrite round_generic; [reflexivity|apply valid_rnd_N|]. change 2 with (bpow radix2 1). apply generic_format_bpow. cbv. discriminate. }
  destruct (add_real 53 1024 prec53 emax1024 _ _ F3 F4) as [F5 R5].
  { rewrite R3, R4, Rabs_pos_eq by lra. apply Rle_lt_trans with (bpow radix2 1); [change (bpow radix2 1) with 2; lra|apply bpow_lt; lia]. }
  split; [exact F5|]. change (nadd nm64) with (SFadd 53 1024). rewrite R5, R3, R4. lra.
Qed.
Lemma over_zero y : fin64 y -> 1 / 2 <= real y -> ndiv nm64 y (S754_zero false) = S754_infinity false.
Proof.
  intros [F _] H. destruct y as [s|s| |s m e]; try discriminate.
  - unfold real in H. cbn in H. lra.
  - destruct s; [|reflexivity]. exfalso. unfold real, SF2R, F2R in H. cbn [Fnum Fexp cond_Zopp] in H. pose proof (bpow_gt_0 radix2 e). assert (IZR (Z.opp (Z.pos m)) < 0) by (apply IZR_lt; lia). nra.
Qed.

Section Frozen.
  Context {G S X : Type}.
  Variable tl_ : tools spec_float G S X.
  Hypothesis Hr : random64 tl_.
  Lemma stuck ins : forall s, hd_sd s = sd44 -> hd_next s = S754_infinity false -> ticking (hd_t s) ->
    t_outs nm64 tl_ (THold s) (frames_of ins) = Some (repeat [hd_hold s] (length ins)).
  Proof.
    induction ins as [|[x f] r IH]; intros s Hs Hn Ht; [reflexivity|]. unfold t_outs, frames_of in *. cbn [map t_run t_tick nth fst snd length repeat]. unfold hold_step. rewrite Hn, (never _ Ht).
    cbv iota. set (s1 := mkHold _ _ _ _ _ _ _). specialize (IH s1 Hs Hn). assert (Ht1 : ticking (hd_t s1)) by (unfold s1; cbn [hd_t]; rewrite Hs; now apply ticking_step). specialize (IH Ht1). change (hd_hold s1) with (hd_hold s) in IH.
    destruct (t_run nm64 tl_ (THold s1) _) as [[m os]|]; [|discriminate]. congruence.
  Qed.
  Theorem frozen n x ins : build nm64 tl_ true (OHold (n0 nm64)) = Some n -> t_outs nm64 tl_ n (frames_of ((x, S754_zero false) :: ins)) = Some (repeat [x] (Datatypes.S (length ins))).
  Proof.
    intros [= <-]. unfold t_outs, frames_of. cbn [map t_run t_tick nth fst snd length repeat]. unfold hold_step. set (s := hold_new nm64 tl_ (S754_zero false)).
    replace (nleb nm64 (hd_next s) (hd_t s)) with true by reflexivity. pose proof (Hr (hd_rnd s)) as [R1 R2]. destruct (tl_next tl_ (hd_rnd s)) as [g q]. cbn [snd] in R1, R2.
    cbn [hd_rnd hd_hash hd_sd hd_var hd_t hd_next hd_hold]. change (hd_var s) with (n0 nm64). destruct (lerp_one q R1 R2) as [L1 L2]. rewrite (over_zero _ L1 L2).
    change (hd_t s) with (n0 nm64). replace (nadd nm64 (n0 nm64) (S754_infinity false)) with (S754_infinity false) by reflexivity.
    set (s1 := mkHold _ _ _ _ _ _ _). pose proof (stuck ins s1 eq_refl eq_refl) as St. assert (T0 : ticking (n0 nm64)).
    { split; [split; reflexivity|]. replace (real (n0 nm64)) with 0 by (unfold real; reflexivity). rewrite far_real. pose proof (bpow_gt_0 radix2 60). lra. }
    specialize (St (ticking_step _ T0)). unfold t_outs, frames_of in St. destruct (t_run nm64 tl_ (THold s1) _) as [[m os]|]; [|discriminate]. change (hd_hold s1) with x in St. congruence.
  Qed.
End Frozen.
