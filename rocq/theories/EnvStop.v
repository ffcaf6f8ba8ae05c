(* Envelopes whose times are binary32 numbers: their time comes to a stop. *)
From Coq Require Import Reals Lra Lia Psatz SpecFloat.
From Flocq Require Import Core.Core IEEE754.BinarySingleNaN.
From Verif Require Import HashProofs.
From Verif Require Export EnvProofs EnvFloatSpec.
Local Open Scope R_scope.

Notation nm := f32_ops.
Lemma fin_512 : fin32 C512. Proof. split; reflexivity. Qed.
Lemma real_512 : real C512 = 512. Proof. unfold real, SF2R, F2R. cbn. lra. Qed.
Ltac is32c s m e := match goal with |- is32 ?c => let H := fresh in assert (H : real (S754_finite s m e) = c) by (unfold real, SF2R, F2R; cbn; lra); rewrite <- H; apply is32_finite; reflexivity end.
Lemma is32_512 : is32 512. Proof. is32c false 8388608%positive (-14)%Z. Qed.
Lemma is32_515 : is32 515. Proof. is32c false 8437760%positive (-14)%Z. Qed.
Lemma is32_1 : is32 1. Proof. is32c false 8388608%positive (-23)%Z. Qed.
Lemma is32_2 : is32 2. Proof. is32c false 8388608%positive (-22)%Z. Qed.
Lemma is32_3_8 : is32 (3 / 8). Proof. is32c false 12582912%positive (-25)%Z. Qed.
Lemma is32_5_8 : is32 (5 / 8). Proof. is32c false 10485760%positive (-24)%Z. Qed.
Lemma is32_1_2 : is32 (1 / 2). Proof. is32c false 8388608%positive (-24)%Z. Qed.
Lemma is32_3_4 : is32 (3 / 4). Proof. is32c false 12582912%positive (-24)%Z. Qed.
Lemma is32_5_4 : is32 (5 / 4). Proof. is32c false 10485760%positive (-23)%Z. Qed.
Lemma is32_small : is32 (3 / 4096). Proof. is32c false 12582912%positive (-34)%Z. Qed.
Lemma is32_2_53 : is32 (IZR (2 ^ 53)). Proof. change (2 ^ 53)%Z with (9007199254740992)%Z. is32c false 8388608%positive (30)%Z. Qed.

(* one addition of the duration of a sample *)
Lemma time_step t sd : fin32 t -> fin32 sd -> 0 <= real t < 512 -> / 65536 < real sd < / 32768 ->
  let t' := nadd nm t sd in fin32 t' /\ real t + bpow radix2 (-149) <= real t' <= 512.
Proof.
  intros Ft Fs Ht Hs t'. set (fexp := SpecFloat.fexp 24 128). pose proof (real_format 24 128 t Ft) as Gt. fold fexp in Gt.
  assert (V : Valid_exp fexp) by (apply (valid_exp_f 24 128 prec24)).
  assert (L : real t <= 512 - / 32768).
  { pose proof (pred_ge_gt radix2 fexp (real t) (bpow radix2 9) Gt) as P. rewrite pred_bpow in P. change (fexp 9%Z) with (-15)%Z in P. change (bpow radix2 9) with 512 in P. change (bpow radix2 (-15)) with (/ 32768) in P. apply P; [|lra].
    rewrite <- real_512. apply (real_format 24 128). exact fin_512. }
  destruct (add32 t sd 0 512 Ft Fs is32_0 is32_512 ltac:(lra)) as (A1 & A2 & A3). fold t' in A1, A2, A3. split; auto. split; [|lra].
  rewrite A2. apply Rle_trans with (succ radix2 fexp (real t)).
  - rewrite succ_eq_pos by lra. pose proof (ulp32_ge (real t)). unfold fexp. lra.
  - unfold rnd. fold fexp. apply round_N_ge_midp; auto. { now apply generic_format_succ. } rewrite pred_succ by auto. rewrite succ_eq_pos by lra.
    assert (Rabs (real t) < bpow radix2 9) by (rewrite Rabs_pos_eq by lra; change (bpow radix2 9) with 512; lra).
    pose proof (ulp32_le (real t) 9 ltac:(lia) H) as U. change (bpow radix2 (9 - 24)) with (/ 32768) in U. fold fexp in U. lra.
Qed.
Lemma time_stop sd : fin32 sd -> / 65536 < real sd < / 32768 -> nadd nm C512 sd = C512.
Proof.
  intros Fs Hs. destruct (add32 C512 sd 512 515 fin_512 Fs is32_512 is32_515) as (A1 & A2 & A3). { rewrite real_512. lra. }
  apply (real_inj 24 128); auto; [exact fin_512| |lra]. rewrite real_512 in *. rewrite A2. apply Rle_antisym; [|rewrite <- A2; lra].
  pose proof (round_N_le_midp radix2 (SpecFloat.fexp 24 128) (fun z => negb (Z.even z)) 512 (512 + real sd)) as M. unfold rnd. apply M.
  - rewrite <- real_512. apply (real_format 24 128). exact fin_512.
  - rewrite succ_eq_pos by lra. change 512 with (bpow radix2 9). rewrite ulp_bpow. change (SpecFloat.fexp 24 128 (9 + 1)%Z) with (-14)%Z. change (bpow radix2 (-14)) with (/ 16384). change (bpow radix2 9) with 512. lra.
Qed.
(* the length of a segment *)
Definition seg_len (seed : N) (int : f32) : f32 := nmul nm (lerp nm (ndiv nm (nofZ nm 3) (nofZ nm 4)) (ndiv nm (nofZ nm 5) (nofZ nm 4)) (rnd1 nm seed)) int.
Lemma seg_len_range seed int : (seed < 2 ^ 64)%N -> fin32 int -> / 512 <= real int <= 1 -> fin32 (seg_len seed int) /\ 3 / 4096 <= real (seg_len seed int) <= 2.
Proof.
  intros Hs Fi Hi. set (z := Z.of_N (rnd1_num seed)). assert (Hz : 0 <= IZR z <= IZR (2 ^ 53)). { pose proof (rnd1_num_bound seed Hs). split; apply IZR_le; lia. }
  destruct (ofZ32 z 0 (IZR (2 ^ 53)) is32_0 is32_2_53 Hz) as (Z1 & _ & Z3).
  assert (I53 : fin32 (ndiv nm (n1 nm) (nofZ nm (2 ^ 53))) /\ real (ndiv nm (n1 nm) (nofZ nm (2 ^ 53))) = / IZR (2 ^ 53)).
  { replace (ndiv nm (n1 nm) (nofZ nm (2 ^ 53))) with (S754_finite false 8388608 (-76)) by (vm_compute; reflexivity). split; [split; reflexivity|]. unfold real, SF2R, F2R. cbn. lra. }
  destruct I53 as [J1 J2]. assert (P53 : 0 < IZR (2 ^ 53)) by (apply IZR_lt; reflexivity).
  destruct (mul32 (nofZ nm z) _ 0 1 Z1 J1 is32_0 is32_1) as (U1 & _ & U3).
  { rewrite J2. split; [apply Rmult_le_pos; [lra|left; now apply Rinv_0_lt_compat]|]. apply (Rmult_le_reg_r (IZR (2 ^ 53))); auto. rewrite Rmult_assoc, Rinv_l by lra. lra. }
  change (nmul nm (nofZ nm z) (ndiv nm (n1 nm) (nofZ nm (2 ^ 53)))) with (rnd1 nm seed) in U1, U3. set (u := rnd1 nm seed) in *.
  assert (K3 : fin32 (ndiv nm (nofZ nm 3) (nofZ nm 4)) /\ real (ndiv nm (nofZ nm 3) (nofZ nm 4)) = 3 / 4).
  { replace (ndiv nm (nofZ nm 3) (nofZ nm 4)) with (S754_finite false 12582912 (-24)) by (vm_compute; reflexivity). split; [split; reflexivity|]. unfold real, SF2R, F2R. cbn. lra. }
  assert (K5 : fin32 (ndiv nm (nofZ nm 5) (nofZ nm 4)) /\ real (ndiv nm (nofZ nm 5) (nofZ nm 4)) = 5 / 4).
  { replace (ndiv nm (nofZ nm 5) (nofZ nm 4)) with (S754_finite false 10485760 (-23)) by (vm_compute; reflexivity). split; [split; reflexivity|]. unfold real, SF2R, F2R. cbn. lra. }
  assert (K1 : fin32 (n1 nm) /\ real (n1 nm) = 1).
  { replace (n1 nm) with (S754_finite false 8388608 (-23)) by (vm_compute; reflexivity). split; [split; reflexivity|]. unfold real, SF2R, F2R. cbn. lra. }
  destruct K3 as [A1 A2]. destruct K5 as [B1 B2]. destruct K1 as [C1 C2]. unfold seg_len, lerp. fold u. set (a := ndiv nm (nofZ nm 3) (nofZ nm 4)) in *. set (b := ndiv nm (nofZ nm 5) (nofZ nm 4)) in *. set (one := n1 nm) in *.
  clearbody u a b one. destruct (sub32 one u 0 1 C1 U1 is32_0 is32_1 ltac:(lra)) as (D1 & D2 & D3). set (w := nsub nm one u) in *.
  destruct (mul32 a w 0 (3 / 4) A1 D1 is32_0 is32_3_4) as (E1 & E2 & E3). { rewrite A2. nra. }
  destruct (mul32 b u 0 (5 / 4) B1 U1 is32_0 is32_5_4) as (F1 & F2 & F3). { rewrite B2. nra. }
  assert (S : 3 / 8 <= real (nmul nm a w) + real (nmul nm b u) <= 2).
  { split; [|lra]. destruct (Rle_dec (1 / 2) (real u)) as [l|l].
    - destruct (rnd32_between (real b * real u) (5 / 8) (5 / 4) is32_5_8 is32_5_4) as [G _]. { rewrite B2. nra. } rewrite F2. lra.
    - destruct (rnd32_between (real one - real u) (1 / 2) 1 is32_1_2 is32_1) as [G _]. { rewrite C2. lra. } rewrite <- D2 in G.
      destruct (rnd32_between (real a * real w) (3 / 8) (3 / 4) is32_3_8 is32_3_4) as [G' _]. { rewrite A2. nra. } rewrite E2. lra. }
  destruct (add32 _ _ (3 / 8) 2 E1 F1 is32_3_8 is32_2 S) as (G1 & _ & G3).
  destruct (mul32 _ int (3 / 4096) 2 G1 Fi is32_small is32_2) as (H1 & _ & H3); [nra|]. split; auto.
Qed.
(* one addition of the length of a segment *)
Lemma point_next t1 d : fin32 t1 -> fin32 d -> 0 <= real t1 <= 512 -> 3 / 4096 <= real d <= 2 ->
  let t' := nadd nm t1 d in fin32 t' /\ real t1 + / 4096 <= real t' <= 515.
Proof.
  intros Ft Fd Ht Hd t'. destruct (add32 t1 d 0 515 Ft Fd is32_0 is32_515 ltac:(lra)) as (A1 & A2 & A3). fold t' in A1, A2, A3. split; auto. split; [|lra].
  assert (B : Rabs (real t1 + real d) < bpow radix2 10) by (rewrite Rabs_pos_eq by lra; change (bpow radix2 10) with 1024; lra).
  pose proof (rnd32_err _ 10 ltac:(lia) B) as E. rewrite <- A2 in E. change (bpow radix2 (10 - 25)) with (/ 32768) in E. assert (- (/ 32768) <= real t' - (real t1 + real d)) by (revert E; unfold Rabs; destruct (Rcase_abs _); lra). lra.
Qed.

Section Stop.
  Context {V C : Type} (nv : num V) (conv : f32 -> V).
  Implicit Type s : env f32 V C.
  Definition stopped s : Prop := e_t s = C512 /\ 512 < real (e_t1 s).
  Definition phase s : R := real (e_t s) + real (e_t1 s).
  Lemma wrap a : (((a * 6364136223846793005) mod 2 ^ 64 + 1) mod 2 ^ 64 < 2 ^ 64)%N. Proof. apply N.mod_lt. discriminate. Qed.
  Lemma segment_clock s t0 v0 f : clock s -> fin32 t0 -> real t0 = real (e_t1 s) -> real (e_t1 s) <= 512 ->
    let s' := segment_from nm nv conv s t0 v0 f in clock s' /\ e_t s' = e_t s /\ real (e_t1 s) + / 4096 <= real (e_t1 s').
  Proof.
    intros (C1 & C2 & C3 & C4 & C5 & C6 & C7 & C8) Ft E Hl s'. destruct (seg_len_range (e_seed s) (e_int s) C6 (proj1 C8) (proj2 C8)) as [L1 L2].
    destruct (point_next t0 _ Ft L1 ltac:(lra) L2) as [P1 P2]. unfold seg_len in P1, P2. unfold s', segment_from. destruct (f _ _). unfold clock. cbn [e_t e_t0 e_t1 e_seed e_sd e_int].
    rewrite E in P2. split; [|split; [reflexivity|apply P2]]. refine (conj C1 (conj Ft (conj P1 (conj C4 (conj _ (conj (wrap _) (conj C7 C8))))))). lra.
  Qed.
  Lemma step_clock s : clock s -> let s' := fst (step nm nv s) in clock s' /\ e_t1 s' = e_t1 s /\ e_st s' = e_st s /\ real (e_t s) <= real (e_t s') /\
    (real (e_t s) < 512 -> real (e_t s) + bpow radix2 (-149) <= real (e_t s')) /\ (e_t s = C512 -> e_t s' = C512).
  Proof.
    intros H s'. pose proof H as (C1 & C2 & C3 & C4 & C5 & C6 & C7 & C8). unfold s', step. cbn [fst e_t e_t1 e_st]. pose proof (bpow_gt_0 radix2 (-149)).
    assert (St : e_t s = C512 -> nadd nm (e_t s) (e_sd s) = C512) by (intros ->; apply time_stop; tauto).
    assert (fin32 (nadd nm (e_t s) (e_sd s)) /\ real (e_t s) <= real (nadd nm (e_t s) (e_sd s)) <= 512 /\ (real (e_t s) < 512 -> real (e_t s) + bpow radix2 (-149) <= real (nadd nm (e_t s) (e_sd s)))) as (A1 & A2 & A3).
    { destruct (Rlt_dec (real (e_t s)) 512) as [l|l].
      - destruct (time_step (e_t s) (e_sd s) C1 (proj1 C7)) as [T1 T2]; [lra|tauto|]. split; [exact T1|]. split; [lra|]. intros _. lra.
      - assert (e_t s = C512) by (apply (real_inj 24 128); auto; [exact fin_512|rewrite real_512; lra|lra]). rewrite St, real_512 by auto. split; [exact fin_512|]. split; lra. }
    split; [|split; [reflexivity|split; [reflexivity|split; [tauto|split; auto]]]]. unfold clock. cbn [e_t e_t0 e_t1 e_seed e_sd e_int]. refine (conj A1 (conj C2 (conj C3 (conj _ (conj C5 (conj C6 (conj C7 C8))))))). lra.
  Qed.
  Lemma due32 s : clock s -> nleb nm (e_t1 s) (e_t s) = true -> real (e_t1 s) <= real (e_t s).
  Proof. intros (C1 & C2 & C3 & _) H. rewrite leb32 in H by auto. revert H. case Rle_bool_spec; [auto|discriminate]. Qed.
  Lemma not_due32 s : clock s -> nleb nm (e_t1 s) (e_t s) = false -> real (e_t s) < real (e_t1 s).
  Proof. intros (C1 & C2 & C3 & _) H. rewrite leb32 in H by auto. revert H. case Rle_bool_spec; [discriminate|auto]. Qed.
  (* a tick, whatever the next segment is *)
  Lemma tick_clock s n : clock s -> (nleb nm (e_t1 s) (e_t s) = true -> clock n /\ e_t n = e_t s /\ real (e_t1 s) + / 4096 <= real (e_t1 n)) ->
    let s' := fst (step nm nv (if nleb nm (e_t1 s) (e_t s) then n else s)) in
    clock s' /\ (stopped s -> stopped s' /\ e_st s' = e_st s) /\ (stopped s' \/ phase s + bpow radix2 (-149) <= phase s').
  Proof.
    intros H Hn s'. assert (B : bpow radix2 (-149) <= / 4096). { change (/ 4096) with (bpow radix2 (-12)). apply bpow_le. lia. } pose proof (bpow_gt_0 radix2 (-149)).
    destruct (nleb nm (e_t1 s) (e_t s)) eqn:D.
    - destruct (Hn eq_refl) as (N1 & N2 & N3). pose proof (due32 s H D) as Le. destruct (step_clock n N1) as (S1 & S2 & S3 & S4 & S5 & S6). fold s' in S1, S2, S3, S4, S5, S6. split; auto. split.
      + intros [T1 T2]. rewrite T1, real_512 in Le. lra.
      + right. unfold phase. rewrite S2. rewrite N2 in S4. lra.
    - pose proof (not_due32 s H D) as Lt. destruct (step_clock s H) as (S1 & S2 & S3 & S4 & S5 & S6). fold s' in S1, S2, S3, S4, S5, S6. split; auto. split.
      + intros [T1 T2]. split; [split; [now apply S6|rewrite S2; exact T2]|exact S3].
      + destruct H as (C1 & C2 & C3 & C4 & C5 & _). destruct (Rlt_dec (real (e_t s)) 512) as [l|l].
        * right. unfold phase. rewrite S2. specialize (S5 l). lra.
        * left. assert (e_t s = C512) by (apply (real_inj 24 128); auto; [exact fin_512|rewrite real_512; lra|lra]). split; auto. rewrite S2. rewrite H, real_512 in Lt. exact Lt.
  Qed.
  Lemma stopped_not_due s : clock s -> stopped s -> nleb nm (e_t1 s) (e_t s) = false.
  Proof. intros H [T1 T2]. destruct (nleb _ _ _) eqn:D; auto. pose proof (due32 s H D) as L. rewrite T1, real_512 in L. lra. Qed.
  Lemma phase_bound s : clock s -> 0 <= phase s <= 1027.
  Proof. intros (_ & _ & _ & C4 & C5 & _). unfold phase. lra. Qed.
  (* a sequence of ticks *)
  Lemma ticks_stop {I} (next : env f32 V C -> I -> env f32 V C) :
    (forall s i, clock s -> nleb nm (e_t1 s) (e_t s) = true -> clock (next s i) /\ e_t (next s i) = e_t s /\ real (e_t1 s) + / 4096 <= real (e_t1 (next s i))) ->
    let tick := fun s i => step nm nv (if nleb nm (e_t1 s) (e_t s) then next s i else s) in
    exists n, forall s, clock s -> forall p x y, (n <= length p)%nat -> length x = length y ->
      e_t (fst (ticks tick s p)) = C512 /\ snd (ticks tick s (p ++ x)) = snd (ticks tick s (p ++ y)) /\ e_st (fst (ticks tick s (p ++ x))) = e_st (fst (ticks tick s p)).
  Proof.
    intros Hn tick. exists (Z.to_nat (up (1028 / bpow radix2 (-149)))). intros s H p x y Hp Hxy.
    assert (T : forall s i, clock s -> clock (fst (tick s i)) /\ (stopped s -> stopped (fst (tick s i)) /\ e_st (fst (tick s i)) = e_st s) /\ (stopped (fst (tick s i)) \/ phase s + bpow radix2 (-149) <= phase (fst (tick s i)))).
    { intros r i Hr. apply (tick_clock r (next r i) Hr). intros D. now apply Hn. }
    assert (L : forall p s, clock s -> clock (fst (ticks tick s p)) /\ (stopped s -> stopped (fst (ticks tick s p)) /\ e_st (fst (ticks tick s p)) = e_st s) /\ (stopped (fst (ticks tick s p)) \/ phase s + INR (length p) * bpow radix2 (-149) <= phase (fst (ticks tick s p)))).
    { clear - T. intros p. induction p as [|i p IH]; intros s H; [cbn; split; auto; split; auto; right; lra|]. cbn [ticks]. destruct (T s i H) as (T1 & T2 & T3). destruct (tick s i) as [s1 o1]. cbn [fst] in *.
      destruct (IH s1 T1) as (I1 & I2 & I3). destruct (ticks tick s1 p) as [s2 o2]. cbn [fst] in *. split; auto. split.
      - intros S. destruct (T2 S) as [T4 T5]. destruct (I2 T4) as [I4 I5]. split; auto. congruence.
      - destruct T3 as [T3|T3]; [left; now apply I2|]. destruct I3 as [I3|I3]; [now left|right]. cbn [length]. rewrite S_INR. lra. }
    destruct (L p s H) as (L1 & L2 & L3). assert (S : stopped (fst (ticks tick s p))).
    { destruct L3 as [L3|L3]; auto. exfalso. pose proof (phase_bound s H). pose proof (phase_bound _ L1) as P1. pose proof (bpow_gt_0 radix2 (-149)) as B.
      assert (1028 / bpow radix2 (-149) <= INR (length p)).
      { apply Rle_trans with (INR (Z.to_nat (up (1028 / bpow radix2 (-149))))); [|now apply le_INR]. destruct (archimed (1028 / bpow radix2 (-149))) as [Ar _]. assert (0 <= 1028 / bpow radix2 (-149)) by (apply Rmult_le_pos; [lra|left; now apply Rinv_0_lt_compat]).
        rewrite INR_IZR_INZ, Z2Nat.id; [lra|]. apply le_IZR. lra. }
      apply (Rmult_le_compat_r (bpow radix2 (-149))) in H1; [|lra]. unfold Rdiv in H1. rewrite Rmult_assoc, Rinv_l in H1; lra. }
    split; [apply S|].
    assert (F : forall x y s, clock s -> stopped s -> length x = length y -> snd (ticks tick s x) = snd (ticks tick s y)).
    { clear - T. intros x. induction x as [|i x IH]; intros [|j y] s H S E; try discriminate E; [reflexivity|]. cbn [ticks]. assert (Et : tick s i = tick s j) by (unfold tick; now rewrite stopped_not_due).
      rewrite <- Et. destruct (T s i H) as (T1 & T2 & _). destruct (tick s i) as [s1 o1]. cbn [fst] in *. specialize (IH y s1 T1 (proj1 (T2 S)) ltac:(now injection E)). destruct (ticks tick s1 x), (ticks tick s1 y). cbn in *. congruence. }
    rewrite !ticks_app. destruct (ticks tick s p) as [s1 o1]. cbn [fst snd] in *. specialize (F x y s1 L1 S Hxy). destruct (L x s1 L1) as (_ & M2 & _). destruct (M2 S) as [_ M3].
    destruct (ticks tick s1 x) as [s2 o2], (ticks tick s1 y) as [s3 o3]. cbn in *. split; congruence.
  Qed.
  Lemma zero32 x : fin32 x -> is_zero nm x = true -> real x = 0.
  Proof.
    intros Fx H. unfold is_zero in H. apply andb_prop in H. assert (F0 : fin32 (n0 nm)) by (split; reflexivity). rewrite !leb32 in H by auto. change (real (n0 nm)) with 0 in H. destruct H as [H1 H2]. revert H1 H2. case Rle_bool_spec; [|discriminate]. case Rle_bool_spec; [|discriminate]. lra.
  Qed.
  Lemma env_stop (f : C -> f32 -> C * list f32) :
    exists n, forall s, clock s -> forall p x, (n <= p)%nat ->
      let st := fun m => fst (ticks (fun s (_ : unit) => env_tick nm nv conv f s) s (repeat tt m)) in e_t (st p) = C512 /\ e_st (st (p + x)%nat) = e_st (st p).
  Proof.
    destruct (ticks_stop (fun s (_ : unit) => env_next nm nv conv f s)) as [n Hn].
    - intros s i H D. pose proof (due32 s H D) as Le. pose proof H as (C1 & C2 & C3 & C4 & C5 & _). apply segment_clock; auto. lra.
    - exists n. intros s H p x Hp st. destruct (Hn s H (repeat tt p) (repeat tt x) (repeat tt x)) as (N1 & _ & N3); [now rewrite repeat_length|reflexivity|]. rewrite <- repeat_app in N3. split; [exact N1|exact N3].
  Qed.
  Lemma envin_stop (f : C -> f32 -> list V -> C * list f32) :
    exists n, forall s, clock s -> forall p x y, (n <= length p)%nat -> length x = length y ->
      let tick := envin_tick nm nv conv f in
      e_t (fst (ticks tick s p)) = C512 /\ snd (ticks tick s (p ++ x)) = snd (ticks tick s (p ++ y)) /\ e_st (fst (ticks tick s (p ++ x))) = e_st (fst (ticks tick s p)).
  Proof.
    apply (ticks_stop (fun s i => envin_next nm nv conv f s i)). intros s i H D. pose proof (due32 s H D) as Le. pose proof H as (C1 & C2 & C3 & C4 & C5 & C6). unfold envin_next.
    destruct (is_zero nm (e_t0 s)) eqn:Z0; destruct (is_zero nm (e_t1 s)) eqn:Z1; cbn [andb]; try (apply segment_clock; auto; lra).
    destruct (f _ _ _) as [st y]. set (s1 := mkEnv _ _ _ _ _ _ _ _ _ _ _ _). assert (H1 : clock s1) by exact H.
    apply (segment_clock s1 (e_t0 s)); auto; [|cbn; lra]. cbn. rewrite !zero32; auto.
  Qed.
End Stop.
