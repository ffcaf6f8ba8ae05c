(* Proofs about envelopes. *)
From Coq Require Import Reals Lra Lia Psatz.
From Verif Require Import HashProofs.
From Verif Require Export EnvSpec.
Local Open Scope R_scope.
Notation nmR := Rnum_ops.

Lemma seed_word h k : (h < 2 ^ 64)%N -> (seed_at h k < 2 ^ 64)%N.
Proof. intros H. destruct k; cbn [seed_at]; auto. apply N.mod_lt. discriminate. Qed.
Lemma rnd_range x : (x < 2 ^ 64)%N -> 0 <= IZR (Z.of_N (rnd1_num x)) / IZR (2 ^ 53) < 1.
Proof.
  intros H. pose proof (rnd1_num_bound x H) as B. assert (P : 0 < IZR (2 ^ 53)) by (apply IZR_lt; reflexivity). split.
  - apply Rmult_le_pos; [apply IZR_le; lia|left; now apply Rinv_0_lt_compat].
  - apply (Rmult_lt_reg_r (IZR (2 ^ 53))); auto. unfold Rdiv. rewrite Rmult_assoc, Rinv_l, Rmult_1_r, Rmult_1_l by lra. apply IZR_lt. lia.
Qed.
Lemma spread_range h k : (h < 2 ^ 64)%N -> 3 / 4 <= spread h k < 5 / 4.
Proof. intros H. unfold spread. pose proof (rnd_range _ (seed_word h k H)). lra. Qed.
Lemma point_step interval h k : 0 < interval -> (h < 2 ^ 64)%N -> 3 / 4 * interval <= point interval h (S k) - point interval h k < 5 / 4 * interval.
Proof. intros Hi H. cbn [point]. pose proof (spread_range h k H). split; nra. Qed.
(* the length of the next segment *)
Definition next_len {C} (s : env R R C) : R := (3 / 4 + 1 / 2 * (IZR (Z.of_N (rnd1_num (e_seed s))) / IZR (2 ^ 53))) * e_int s.
Lemma len_eq {C} (s : env R R C) :
  nmul nmR (lerp nmR (ndiv nmR (nofZ nmR 3) (nofZ nmR 4)) (ndiv nmR (nofZ nmR 5) (nofZ nmR 4)) (rnd1 nmR (e_seed s))) (e_int s) = next_len s.
Proof. unfold next_len, lerp, rnd1. cbn -[Z.pow IZR]. change (n1 nmR) with 1. field. apply Rgt_not_eq, IZR_lt. reflexivity. Qed.
Lemma seg_eq {C} (s : env R R C) t0 v0 f :
  segment_from nmR nmR idR s t0 v0 f =
  let (st, y) := f (e_st s) (t0 + next_len s) in
  mkEnv st (e_t s) t0 (t0 + next_len s) (((e_seed s * 6364136223846793005) mod 2 ^ 64 + 1) mod 2 ^ 64)%N v0 (map idR y)
    (zip2 (fun a b => on_line t0 a (t0 + next_len s) b (e_t s)) v0 (map idR y)) (zip2 (fun a b => (b - a) / (next_len s / e_sd s)) v0 (map idR y)) (e_int s) (e_sd s) (e_hash s).
Proof.
  unfold segment_from. rewrite len_eq. change (nadd nmR) with Rplus. destruct (f (e_st s) (t0 + next_len s)) as [st y]. f_equal.
  unfold zip2. apply map_ext. intros [a b]. unfold lerp, delerp, on_line. cbn. change (n1 nmR) with 1. ring.
Qed.

Lemma tick_keeps {C} f (s : env R R C) : let s' := fst (env_tick nmR nmR idR f s) in e_sd s' = e_sd s /\ e_int s' = e_int s /\ e_t s' = e_t s + e_sd s.
Proof. unfold env_tick, env_next. rewrite seg_eq. destruct (f _ _). destruct (nleb _ _ _); repeat split. Qed.
Lemma state_keeps {C} f (s : env R R C) n : e_sd (env_state f s n) = e_sd s /\ e_int (env_state f s n) = e_int s /\ e_t (env_state f s n) = e_t s + INR n * e_sd s.
Proof.
  induction n as [|n (IH1 & IH2 & IH3)]; [cbn; repeat split; ring|]. cbn [env_state]. rewrite S_INR. destruct (tick_keeps f (env_state f s n)) as (-> & -> & ->). rewrite IH1, IH2, IH3. repeat split; ring.
Qed.
Section Line.
  Variable E : R -> list R.
  Variable ch : nat.
  Hypothesis HE : forall t, length (E t) = ch.
  Variables (interval sd : R) (h : N).
  Hypothesis Hsd : 0 < sd <= 3 / 4 * interval.
  Hypothesis Hh : (h < 2 ^ 64)%N.
  Notation b := (point interval h).
  Let seg k t := zip2 (fun a c => on_line (b k) a (b (S k)) c t) (E (b k)) (E (b (S k))).
  Let slope k := zip2 (fun a c => (c - a) / ((b (S k) - b k) / sd)) (E (b k)) (E (b (S k))).
  Lemma seg_next k t : zip2 Rplus (seg k t) (slope k) = seg k (t + sd).
  Proof.
    unfold seg, slope, zip2. pose proof (point_step interval h k ltac:(lra) Hh) as P. set (B0 := b k) in *. set (B1 := b (S k)) in *. clearbody B0 B1.
    generalize (combine (E B0) (E B1)). intros l. induction l as [|[a c] l IH]; [reflexivity|]. cbn. rewrite IH. f_equal. unfold on_line. field. lra.
  Qed.
  Definition in_seg (s : env R R unit) k : Prop :=
    e_t0 s = b k /\ e_t1 s = b (S k) /\ e_seed s = seed_at h (S k) /\ e_v1 s = E (b (S k)) /\ e_v s = seg k (e_t s) /\ e_d s = slope k /\ e_int s = interval /\ e_sd s = sd /\ b k <= e_t s < b (S k) + sd.
  Lemma next_seg s k : e_t1 s = b k -> e_seed s = seed_at h k -> e_v1 s = E (b k) -> e_int s = interval -> e_sd s = sd -> b k <= e_t s < b k + sd ->
    in_seg (env_next nmR nmR idR (pure E) s) k /\ e_t (env_next nmR nmR idR (pure E) s) = e_t s /\ e_t s < b (S k).
  Proof.
    intros H1 H2 H3 H4 H5 H6. unfold env_next. rewrite seg_eq. unfold pure. assert (L : next_len s = spread h k * interval) by (unfold next_len, spread; rewrite H2, H4; reflexivity).
    rewrite H1, L. change (b k + spread h k * interval) with (b (S k)). pose proof (point_step interval h k ltac:(lra) Hh) as P.
    replace (spread h k * interval) with (b (S k) - b k) by (cbn [point]; ring).
    unfold in_seg. cbn -[point N.modulo N.mul N.add]. rewrite H2, H3, H4, H5, map_id. repeat split; try lra; reflexivity.
  Qed.
  Lemma tick_seg s k : in_seg s k -> exists k', in_segment interval h k' (e_t s) /\ snd (env_tick nmR nmR idR (pure E) s) = seg k' (e_t s) /\
    in_seg (fst (env_tick nmR nmR idR (pure E) s)) k' /\ e_t (fst (env_tick nmR nmR idR (pure E) s)) = e_t s + sd.
  Proof.
    intros (H1 & H2 & H3 & H4 & H5 & H6 & H7 & H8 & H9). unfold env_tick. change (nleb nmR (e_t1 s) (e_t s)) with (if Rle_dec (e_t1 s) (e_t s) then true else false).
    destruct (Rle_dec (e_t1 s) (e_t s)) as [Hle|Hlt].
    - destruct (next_seg s (S k) H2 H3 H4 H7 H8 ltac:(lra)) as ((N1 & N2 & N3 & N4 & N5 & N6 & N7 & N8 & N9) & Nt & Nb).
      generalize dependent (env_next nmR nmR idR (pure E) s). intros s' N1 N2 N3 N4 N5 N6 N7 N8 N9 Nt. rewrite Nt in *.
      exists (S k). unfold step, in_segment. cbn [fst snd e_t]. rewrite ?Nt. change (nadd nmR) with Rplus. rewrite N5, N8. repeat split; cbn -[point N.modulo N.mul N.add]; auto; try lra.
      rewrite N6. apply seg_next.
    - exists k. unfold step, in_segment. cbn [fst snd e_t]. change (nadd nmR) with Rplus. rewrite H5, H8. repeat split; cbn -[point N.modulo N.mul N.add]; auto; try lra.
      rewrite H6. apply seg_next.
  Qed.
  Lemma start_seg s : e_t s = 0 -> e_t1 s = 0 -> e_seed s = h -> e_v1 s = E 0 -> e_int s = interval -> e_sd s = sd ->
    forall n, (exists k, in_seg (env_state (pure E) s (S n)) k) /\ e_t (env_state (pure E) s n) = INR n * sd /\
      exists k, in_segment interval h k (INR n * sd) /\ env_at (pure E) s n = seg k (INR n * sd).
  Proof.
    intros H1 H2 H3 H4 H5 H6. assert (B0 : b 0 = 0) by reflexivity.
    assert (S0 : snd (env_tick nmR nmR idR (pure E) s) = seg 0 0 /\ in_seg (fst (env_tick nmR nmR idR (pure E) s)) 0 /\ e_t (fst (env_tick nmR nmR idR (pure E) s)) = sd).
    { unfold env_tick. change (nleb nmR (e_t1 s) (e_t s)) with (if Rle_dec (e_t1 s) (e_t s) then true else false).
      destruct (Rle_dec (e_t1 s) (e_t s)) as [Hle|Hn]; [|exfalso; lra].
      destruct (next_seg s 0%nat) as ((N1 & N2 & N3 & N4 & N5 & N6 & N7 & N8 & N9) & Nt & Nb); rewrite ?B0; auto; try lra.
      generalize dependent (env_next nmR nmR idR (pure E) s). intros s' N1 N2 N3 N4 N5 N6 N7 N8 N9 Nt. rewrite Nt in *.
      unfold step. cbn [fst snd]. rewrite N5, ?Nt, H1. repeat split; cbn -[point N.modulo N.mul N.add]; auto; rewrite ?Nt, ?H1, ?N8; try lra.
      all: try (rewrite N6; apply seg_next). }
    intros n. induction n as [|n ([k IH] & IHt & IHo)].
    - cbn [env_state]. rewrite Rmult_0_l. split; [exists 0%nat; apply S0|]. split; auto. exists 0%nat. split; [|apply S0]. unfold in_segment. rewrite B0. pose proof (point_step interval h 0 ltac:(lra) Hh). rewrite B0 in *. lra.
    - assert (Ht : e_t (env_state (pure E) s (S n)) = INR (S n) * sd).
      { rewrite (proj2 (proj2 (state_keeps _ s (S n)))), H1, H6. ring. }
      destruct (tick_seg _ k IH) as (k' & Hk' & Ho & Hi & _). rewrite Ht in *. split; [now exists k'|]. split; auto. exists k'. split; auto.
  Qed.
End Line.
Lemma zip2_nth {X} (f : X -> X -> X) a b j d : (j < length a)%nat -> (j < length b)%nat -> nth j (zip2 f a b) d = f (nth j a d) (nth j b d).
Proof.
  revert b j. induction a as [|x a IH]; intros b j Ha Hb; [cbn in Ha; lia|]. destruct b as [|y b]; [cbn in Hb; lia|]. destruct j; [reflexivity|]. cbn in *. apply IH; lia.
Qed.
Lemma zip2_length {X} (f : X -> X -> X) a b : length (zip2 f a b) = Nat.min (length a) (length b).
Proof. unfold zip2. now rewrite map_length, combine_length. Qed.
Lemma envelope_line E ch s n : (forall t, length (E t) = ch) -> fits s ->
  let y := env_at (pure E) (env_reset nmR idR (pure E) s) n in let b := point (e_int s) (e_hash s) in length y = ch /\
  exists k, in_segment (e_int s) (e_hash s) k (INR n * e_sd s) /\
    forall j, (j < ch)%nat -> nth j y 0 = on_line (b k) (nth j (E (b k)) 0) (b (S k)) (nth j (E (b (S k))) 0) (INR n * e_sd s).
Proof.
  intros HE (H1 & H2 & H3) y b. destruct (start_seg E (e_int s) (e_sd s) (e_hash s) H1 H3 (env_reset nmR idR (pure E) s)) with (n := n) as (_ & _ & k & Hk & Hy); try reflexivity.
  { unfold env_reset, pure. cbn [e_v1]. apply map_id. }
  fold y in Hy. rewrite Hy. split; [now rewrite zip2_length, !HE, Nat.min_id|]. exists k. split; auto. intros j Hj. rewrite zip2_nth by (now rewrite HE). reflexivity.
Qed.
Lemma points_rise interval h i j : 0 < interval -> (h < 2 ^ 64)%N -> (i < j)%nat -> point interval h i < point interval h j.
Proof.
  intros Hi Hh H. induction H as [|j H IH]; [pose proof (point_step interval h i Hi Hh); lra|]. pose proof (point_step interval h j Hi Hh). lra.
Qed.
Lemma segment_unique interval h i j t : 0 < interval -> (h < 2 ^ 64)%N -> in_segment interval h i t -> in_segment interval h j t -> i = j.
Proof.
  intros Hi Hh [A1 A2] [B1 B2]. destruct (Nat.lt_total i j) as [H|[H|H]]; auto; exfalso.
  - destruct (Nat.eq_dec (S i) j) as [<-|]; [lra|]. pose proof (points_rise interval h (S i) j Hi Hh ltac:(lia)). lra.
  - destruct (Nat.eq_dec (S j) i) as [<-|]; [lra|]. pose proof (points_rise interval h (S j) i Hi Hh ltac:(lia)). lra.
Qed.
Lemma on_line_between t0 y0 t1 y1 t lo hi : t0 <= t <= t1 -> t0 < t1 -> lo <= y0 <= hi -> lo <= y1 <= hi -> lo <= on_line t0 y0 t1 y1 t <= hi.
Proof.
  intros Ht H0 H1 H2. unfold on_line. assert (U : 0 <= (t - t0) / (t1 - t0) <= 1).
  { split; [apply Rmult_le_pos; [lra|left; apply Rinv_0_lt_compat; lra]|]. apply (Rmult_le_reg_r (t1 - t0)); [lra|]. unfold Rdiv. rewrite Rmult_assoc, Rinv_l; lra. }
  set (u := (t - t0) / (t1 - t0)) in *. clearbody u. split; nra.
Qed.
Lemma envelope_range E ch s n j lo hi : (forall t, length (E t) = ch) -> fits s -> (j < ch)%nat -> (forall t, 0 <= t -> lo <= nth j (E t) 0 <= hi) ->
  lo <= nth j (env_at (pure E) (env_reset nmR idR (pure E) s) n) 0 <= hi.
Proof.
  intros HE Hf Hj HB. destruct (envelope_line E ch s n HE Hf) as (_ & k & [K1 K2] & Hy). rewrite Hy by auto. destruct Hf as (F1 & F2 & F3).
  assert (P : forall k, 0 <= point (e_int s) (e_hash s) k). { intros i. destruct i; [cbn; lra|]. left. apply (points_rise _ _ 0%nat (S i)); auto; [lra|lia]. }
  apply on_line_between; auto; lra.
Qed.
Lemma envelope_close E ch s n j L : (forall t, length (E t) = ch) -> fits s -> (j < ch)%nat -> (forall t u, 0 <= t -> 0 <= u -> Rabs (nth j (E t) 0 - nth j (E u) 0) <= L * Rabs (t - u)) ->
  Rabs (nth j (env_at (pure E) (env_reset nmR idR (pure E) s) n) 0 - nth j (E (INR n * e_sd s)) 0) <= L * (5 / 4 * e_int s).
Proof.
  intros HE Hf Hj HL. destruct (envelope_line E ch s n HE Hf) as (_ & k & [K1 K2] & Hy). rewrite Hy by auto. destruct Hf as (F1 & F2 & F3).
  assert (P : forall k, 0 <= point (e_int s) (e_hash s) k). { intros i. destruct i; [cbn; lra|]. left. apply (points_rise _ _ 0%nat (S i)); auto; [lra|lia]. }
  pose proof (point_step (e_int s) (e_hash s) k ltac:(lra) F3) as St. pose proof (P k) as P0. pose proof (P (S k)) as P1. set (b0 := point (e_int s) (e_hash s) k) in *. set (b1 := point (e_int s) (e_hash s) (S k)) in *.
  set (t := INR n * e_sd s) in *. assert (0 <= L). { pose proof (HL 0 1 ltac:(lra) ltac:(lra)) as X. replace (0 - 1) with (- (1)) in X by ring. rewrite Rabs_Ropp, Rabs_R1 in X. pose proof (Rabs_pos (nth j (E 0) 0 - nth j (E 1) 0)). lra. }
  pose proof (HL b0 t P0 ltac:(lra)) as L0. pose proof (HL b1 t P1 ltac:(lra)) as L1. set (B := L * (5 / 4 * e_int s)).
  assert (A0 : Rabs (b0 - t) <= 5 / 4 * e_int s) by (apply Rabs_le; lra). assert (A1 : Rabs (b1 - t) <= 5 / 4 * e_int s) by (apply Rabs_le; lra).
  assert (C0 : Rabs (nth j (E b0) 0 - nth j (E t) 0) <= B) by (eapply Rle_trans; [exact L0|]; apply Rmult_le_compat_l; auto).
  assert (C1 : Rabs (nth j (E b1) 0 - nth j (E t) 0) <= B) by (eapply Rle_trans; [exact L1|]; apply Rmult_le_compat_l; auto).
  apply Rabs_le.
  assert (D0 : - B <= nth j (E b0) 0 - nth j (E t) 0 <= B) by (revert C0; unfold Rabs; destruct (Rcase_abs _); lra).
  assert (D1 : - B <= nth j (E b1) 0 - nth j (E t) 0 <= B) by (revert C1; unfold Rabs; destruct (Rcase_abs _); lra).
  pose proof (on_line_between b0 (nth j (E b0) 0) b1 (nth j (E b1) 0) t (nth j (E t) 0 - B) (nth j (E t) 0 + B)) as Q. lra.
Qed.
Lemma envelope_exact s n a c : fits s -> env_at (pure (fun t => [a + c * t])) (env_reset nmR idR (pure (fun t => [a + c * t])) s) n = [a + c * (INR n * e_sd s)].
Proof.
  intros Hf. destruct (envelope_line (fun t => [a + c * t]) 1 s n (fun _ => eq_refl) Hf) as (Hl & k & [K1 K2] & Hy). specialize (Hy 0%nat ltac:(lia)). cbn [nth] in Hy.
  set (b0 := point (e_int s) (e_hash s) k) in *. set (b1 := point (e_int s) (e_hash s) (S k)) in *. clearbody b0 b1.
  set (y := env_at _ _ _) in *. destruct y as [|v [|? ?]]; try discriminate Hl. cbn [nth] in Hy. subst v. f_equal. unfold on_line. field. lra.
Qed.

(* ---- blocks ---- *)
Definition ok {C} (s : env R R C) : Prop :=
  0 < e_sd s <= 3 / 4 * e_int s /\ e_int s <= IZR (2 ^ 62) * e_sd s /\ (e_seed s < 2 ^ 64)%N /\ e_t s < e_t1 s + e_sd s /\ e_t1 s - e_t s <= 5 / 4 * e_int s.
Notation due s := (nleb nmR (e_t1 s) (e_t s)).
Lemma due_true {C} (s : env R R C) : e_t1 s <= e_t s -> due s = true.
Proof. intros H. cbn. destruct (Rle_dec _ _); tauto. Qed.
Lemma due_false {C} (s : env R R C) : e_t s < e_t1 s -> due s = false.
Proof. intros H. cbn. destruct (Rle_dec _ _); auto. lra. Qed.
Lemma segment_ok {C} (s : env R R C) v0 f : ok s -> e_t1 s <= e_t s -> let s' := segment_from nmR nmR idR s (e_t1 s) v0 f in ok s' /\ e_t s' < e_t1 s' /\ e_t s' = e_t s.
Proof.
  intros (H1 & H2 & H3 & H4 & H5) Hd s'. unfold s'. rewrite seg_eq. destruct (f _ _) as [st y]. unfold ok. cbn -[N.modulo N.mul N.add IZR Z.pow].
  pose proof (rnd_range _ H3) as B. assert (L : 3 / 4 * e_int s <= next_len s < 5 / 4 * e_int s) by (unfold next_len; split; nra).
  repeat split; try lra. apply N.mod_lt. discriminate.
Qed.
Lemma step_ok {C} (s : env R R C) : ok s -> e_t s < e_t1 s -> ok (fst (step nmR nmR s)).
Proof. intros (H1 & H2 & H3 & H4 & H5) Hd. unfold ok. cbn -[IZR Z.pow]. repeat split; try lra; auto. Qed.
Lemma left_spec {C} (s : env R R C) : ok s -> e_t s < e_t1 s -> let m := samples_left nmR s in
  (1 <= m)%Z /\ (forall j, (j < m)%Z -> e_t s + IZR j * e_sd s < e_t1 s) /\ e_t1 s <= e_t s + IZR m * e_sd s.
Proof.
  intros (H1 & H2 & H3 & H4 & H5) Hd m. set (q := (e_t1 s - e_t s) / e_sd s). assert (Eq : e_t1 s = e_t s + q * e_sd s) by (unfold q; field; lra).
  assert (Hq : 0 < q) by (apply Rdiv_lt_0_compat; lra). assert (Hq2 : q <= 5 / 4 * IZR (2 ^ 62)).
  { apply (Rmult_le_reg_r (e_sd s)); [lra|]. replace (q * e_sd s) with (e_t1 s - e_t s) by lra. eapply Rle_trans; [exact H5|]. rewrite Rmult_assoc. apply Rmult_le_compat_l; lra. }
  set (c := (- Int_part (- q))%Z). destruct (base_Int_part (- q)) as [B1 B2].
  assert (C1 : IZR c < q + 1) by (unfold c; rewrite opp_IZR; lra). assert (C2 : q <= IZR c) by (unfold c; rewrite opp_IZR; lra).
  assert (Cpos : (0 < c)%Z) by (apply lt_IZR; lra).
  assert (Cub : (c < 2 ^ 64)%Z). { apply lt_IZR. eapply Rlt_le_trans; [exact C1|]. apply (Rle_trans _ (5 / 4 * IZR (2 ^ 62) + 1)); [lra|]. 
    replace (IZR (2 ^ 64)) with (4 * IZR (2 ^ 62)) by (rewrite <- mult_IZR; reflexivity). assert (1 <= IZR (2 ^ 62)) by (apply IZR_le; discriminate). lra. }
  assert (Em : m = c). { unfold m, samples_left, ceil_usize. cbn -[Z.pow Z.modulo]. fold q. fold c. apply Z.mod_small. lia. }
  rewrite Em. split; [lia|]. split.
  - intros j Hj. rewrite Eq. assert (IZR j < q). { assert (IZR j <= IZR (c - 1)) by (apply IZR_le; lia). rewrite minus_IZR in *. lra. } nra.
  - rewrite Eq. nra.
Qed.
Lemma run_S {C} (s : env R R C) n : run nmR nmR s (Z.of_nat (S n)) = let (r, o) := run nmR nmR (fst (step nmR nmR s)) (Z.of_nat n) in (r, e_v s :: o).
Proof.
  unfold run. rewrite !Nat2Z.id. cbn [line]. cbn [step fst e_v e_d e_t e_sd e_st e_t0 e_t1 e_seed e_v0 e_v1 e_int e_hash].
  destruct (line nmR _ _ n) as [v o]. f_equal. f_equal. cbn -[Z.of_nat]. rewrite Nat2Z.inj_succ, succ_IZR. ring.
Qed.
Lemma run_0 {C} (s : env R R C) : run nmR nmR s 0 = (s, []).
Proof. unfold run. cbn. destruct s; cbn. f_equal. f_equal. ring. Qed.
Lemma ticks_app {S I O} (tick : S -> I -> S * O) s a b : ticks tick s (a ++ b) = let (s', o) := ticks tick s a in let (r, o') := ticks tick s' b in (r, o ++ o').
Proof.
  revert s. induction a as [|i a IH]; intros s; cbn [ticks app]; [now destruct (ticks tick s b)|]. destruct (tick s i) as [s1 o1]. rewrite IH.
  destruct (ticks tick s1 a) as [s2 o2]. destruct (ticks tick s2 b) as [s3 o3]. reflexivity.
Qed.
(* as long as no segment ends, ticks are steps, whatever the next segment is *)
Lemma run_ticks {C I} (next : env R R C -> I -> env R R C) l : forall s, (forall j, (j < Z.of_nat (length l))%Z -> e_t s + IZR j * e_sd s < e_t1 s) ->
  run nmR nmR s (Z.of_nat (length l)) = ticks (fun s i => step nmR nmR (if due s then next s i else s)) s l.
Proof.
  induction l as [|i l IH]; intros s H; [apply run_0|]. cbn [length]. rewrite run_S. cbn [ticks].
  assert (Hd : due s = false). { apply due_false. specialize (H 0%Z ltac:(cbn [length]; lia)). lra. }
  rewrite Hd. rewrite (surjective_pairing (step nmR nmR s)) at 2. rewrite <- IH. 2:{ intros j Hj. cbn [step fst e_t e_sd e_t1]. change (nadd nmR) with Rplus. specialize (H (j + 1)%Z ltac:(cbn [length]; lia)). rewrite plus_IZR in H. lra. }
  reflexivity.
Qed.
Lemma run_ok {C} n : forall s : env R R C, ok s -> (forall j, (j < Z.of_nat n)%Z -> e_t s + IZR j * e_sd s < e_t1 s) ->
  let s' := fst (run nmR nmR s (Z.of_nat n)) in ok s' /\ e_t s' = e_t s + IZR (Z.of_nat n) * e_sd s /\ e_t1 s' = e_t1 s /\ e_sd s' = e_sd s.
Proof.
  induction n as [|n IH]; intros s Hk H s'; unfold s'. { rewrite run_0. repeat split; try apply Hk. cbn. ring. }
  rewrite run_S. set (s1 := fst (step nmR nmR s)). assert (Hk1 : ok s1). { apply step_ok; auto. specialize (H 0%Z ltac:(lia)). lra. }
  assert (H1 : forall j, (j < Z.of_nat n)%Z -> e_t s1 + IZR j * e_sd s1 < e_t1 s1).
  { intros j Hj. unfold s1. cbn [step fst e_t e_sd e_t1]. change (nadd nmR) with Rplus. specialize (H (j + 1)%Z ltac:(lia)). rewrite plus_IZR in H. lra. }
  specialize (IH s1 Hk1 H1). destruct (run nmR nmR s1 (Z.of_nat n)) as [r o]. cbn [fst] in *. destruct IH as (I1 & I2 & I3 & I4). rewrite I2, I3, I4. split; auto.
  unfold s1. cbn [step fst e_t e_sd e_t1]. change (nadd nmR) with Rplus. rewrite Nat2Z.inj_succ, succ_IZR. repeat split. ring.
Qed.

Lemma zero_true a : a = 0 -> is_zero nmR a = true.
Proof. intros ->. unfold is_zero. cbn. destruct (Rle_dec 0 0); [reflexivity|lra]. Qed.
Lemma zero_false a : 0 < a -> is_zero nmR a = false.
Proof. intros H. unfold is_zero. cbn. destruct (Rle_dec a 0); [lra|reflexivity]. Qed.
Section In.
  Context {C : Type} (f : C -> R -> list R -> C * list R).
  Notation tick := (envin_tick nmR nmR idR f).
  Lemma in_next_ok s i : ok s -> e_t1 s <= e_t s -> let s' := envin_next nmR nmR idR f s i in ok s' /\ e_t s' < e_t1 s' /\ e_t s' = e_t s.
  Proof.
    intros Hk Hd. unfold envin_next. destruct (is_zero nmR (e_t0 s) && is_zero nmR (e_t1 s)) eqn:Z; [|now apply segment_ok].
    apply andb_true_iff in Z as [Z0 Z1]. unfold is_zero in Z0, Z1. cbn in Z0, Z1. destruct (f (e_st s) (e_t0 s) i) as [st y].
    assert (E0 : e_t0 s = e_t1 s). { repeat destruct (Rle_dec _ _) in *; try discriminate. change (n0 nmR) with 0 in *. lra. }
    set (s1 := mkEnv _ _ _ _ _ _ _ _ _ _ _ _). rewrite E0. change (e_t1 s) with (e_t1 s1). apply (segment_ok s1); auto.
  Qed.
  Lemma in_loop fuel : forall ins s, (length ins <= fuel)%nat -> ok s -> e_t s < e_t1 s -> envin_loop nmR nmR idR f fuel s ins = Some (ticks tick s ins).
  Proof.
    induction fuel as [|fuel IH]; intros ins s Hl Hk Ht. { destruct ins; [reflexivity|cbn in Hl; lia]. }
    destruct ins as [|i0 ins0]; [reflexivity|]. set (ins := i0 :: ins0) in *. change (envin_loop nmR nmR idR f (S fuel) s ins) with
      (let k := Z.min (Z.of_nat (length ins)) (samples_left nmR s) in
          let (s', o) := run nmR nmR s k in
          let rest := skipn (Z.to_nat k) ins in
          let s'' := match rest with i :: _ => if (k =? samples_left nmR s)%Z then envin_next nmR nmR idR f s' i else s' | [] => s' end in
          match envin_loop nmR nmR idR f fuel s'' rest with Some (r, o') => Some (r, o ++ o') | None => None end).
    destruct (left_spec s Hk Ht) as (M1 & M2 & M3). set (m := samples_left nmR s) in *. clearbody m. cbv zeta. set (k := Z.min _ m).
    set (n := Z.to_nat k). assert (Ek : k = Z.of_nat n) by (unfold n; rewrite Z2Nat.id; [reflexivity|unfold k; lia]).
    assert (Hn : (n <= length ins)%nat) by (unfold k in Ek; lia). assert (Hn1 : (1 <= n)%nat) by (unfold k in Ek; cbn [length ins] in Ek; lia).
    rewrite Ek. pose proof (run_ticks (fun s i => envin_next nmR nmR idR f s i) (firstn n ins) s) as RT. rewrite firstn_length_le in RT by auto.
    assert (HJ : forall j, (j < Z.of_nat n)%Z -> e_t s + IZR j * e_sd s < e_t1 s) by (intros j Hj; apply M2; unfold k in Ek; lia). specialize (RT HJ).
    pose proof (run_ok n s Hk HJ) as RO. assert (Ei : ticks tick s ins = ticks tick s (firstn n ins ++ skipn n ins)) by (now rewrite firstn_skipn). rewrite Ei, ticks_app.
    change (ticks (fun s i => step nmR nmR (if due s then envin_next nmR nmR idR f s i else s)) s (firstn n ins)) with (ticks tick s (firstn n ins)) in RT. rewrite <- RT.
    destruct (run nmR nmR s (Z.of_nat n)) as [s1 o]. cbn [fst] in RO. destruct RO as (Ok1 & Et & Et1 & Esd).
    destruct (skipn n ins) as [|i rest] eqn:Es. { destruct fuel; reflexivity. }
    assert (Hr : (length (i :: rest) <= fuel)%nat). { rewrite <- Es, skipn_length. lia. }
    assert (Hm : Z.of_nat n = m). { assert (length (skipn n ins) = S (length rest)) by (now rewrite Es). rewrite skipn_length in H. unfold k in Ek. lia. }
    rewrite Hm, Z.eqb_refl. destruct (in_next_ok s1 i Ok1) as (K1 & K2 & K3). { rewrite Et, Et1, Hm. exact M3. }
    rewrite IH; auto. assert (T : ticks tick s1 (i :: rest) = ticks tick (envin_next nmR nmR idR f s1 i) (i :: rest)).
    { cbn [ticks]. assert (E : tick s1 i = tick (envin_next nmR nmR idR f s1 i) i). { unfold envin_tick. rewrite (due_true s1), (due_false _ K2); [reflexivity|]. rewrite Et, Et1, Hm. exact M3. } now rewrite E. }
    rewrite T. destruct (ticks tick (envin_next nmR nmR idR f s1 i) (i :: rest)). reflexivity.
  Qed.
  Lemma in_process fuel ins s : (length ins <= fuel)%nat -> ok s -> envin_process nmR nmR idR f fuel s ins = Some (ticks tick s ins).
  Proof.
    intros Hl Hk. destruct ins as [|i ins]; [reflexivity|]. unfold envin_process. destruct (Rle_dec (e_t1 s) (e_t s)) as [Hd|Hd].
    - rewrite due_true by auto. destruct (in_next_ok s i Hk Hd) as (K1 & K2 & K3). rewrite in_loop by auto. f_equal. cbn [ticks].
      assert (E : tick s i = tick (envin_next nmR nmR idR f s i) i). { unfold envin_tick. rewrite (due_true s), (due_false _ K2); auto. } now rewrite E.
    - apply Rnot_le_lt in Hd. rewrite due_false by auto. now apply in_loop.
  Qed.
  Lemma in_tick_ok s i : ok s -> ok (fst (tick s i)).
  Proof.
    intros Hk. unfold envin_tick. destruct (Rle_dec (e_t1 s) (e_t s)) as [Hd|Hd].
    - rewrite due_true by auto. destruct (in_next_ok s i Hk Hd) as (K1 & K2 & K3). now apply step_ok.
    - apply Rnot_le_lt in Hd. rewrite due_false by auto. now apply step_ok.
  Qed.
  Lemma in_ticks_ok l : forall s, ok s -> ok (fst (ticks tick s l)).
  Proof. induction l as [|i l IH]; intros s Hk; auto. cbn [ticks]. pose proof (in_tick_ok s i Hk). destruct (tick s i) as [s1 o]. specialize (IH s1 H). destruct (ticks tick s1 l). exact IH. Qed.
  Lemma in_blocks s bs : ok s -> blocks (fun s ins => envin_process nmR nmR idR f (length ins) s ins) s bs = Some (snd (ticks tick s (concat bs))).
  Proof.
    revert s. induction bs as [|b bs IH]; intros s Hk; [reflexivity|]. cbn [blocks concat]. rewrite in_process by auto. rewrite ticks_app. pose proof (in_ticks_ok b s Hk) as H.
    destruct (ticks tick s b) as [s1 o1]. rewrite IH by auto. destruct (ticks tick s1 (concat bs)) as [s2 o2]. reflexivity.
  Qed.
End In.

Section No.
  Context {C : Type} (f : C -> R -> C * list R).
  Notation tick := (fun s (_ : unit) => env_tick nmR nmR idR f s).
  Definition ready (s : env R R C) := if due s then env_next nmR nmR idR f s else s.
  Lemma no_next_ok s : ok s -> e_t1 s <= e_t s -> let s' := env_next nmR nmR idR f s in ok s' /\ e_t s' < e_t1 s' /\ e_t s' = e_t s.
  Proof. apply segment_ok. Qed.
  Lemma ready_ok s : ok s -> ok (ready s) /\ e_t (ready s) < e_t1 (ready s).
  Proof.
    intros Hk. unfold ready. destruct (Rle_dec (e_t1 s) (e_t s)) as [Hd|Hd].
    - rewrite due_true by auto. destruct (no_next_ok s Hk Hd) as (K1 & K2 & K3). auto.
    - apply Rnot_le_lt in Hd. rewrite due_false by auto. auto.
  Qed.
  Lemma ready_ready s : e_t s < e_t1 s -> ready s = s.
  Proof. intros H. unfold ready. now rewrite due_false. Qed.
  Lemma tick_ready s : ok s -> env_tick nmR nmR idR f (ready s) = env_tick nmR nmR idR f s.
  Proof. intros Hk. change (step nmR nmR (ready (ready s)) = step nmR nmR (ready s)). rewrite ready_ready; auto. now apply ready_ok. Qed.
  Lemma ticks_ready l s : ok s -> l <> [] -> ticks tick (ready s) l = ticks tick s l.
  Proof. intros Hk Hl. destruct l as [|i l]; [tauto|]. cbn [ticks]. rewrite tick_ready by auto. reflexivity. Qed.
  Lemma tick_ok s : ok s -> ok (fst (env_tick nmR nmR idR f s)).
  Proof. intros Hk. change (ok (fst (step nmR nmR (ready s)))). destruct (ready_ok s Hk). now apply step_ok. Qed.
  Lemma ticks_ok l : forall s, ok s -> ok (fst (ticks tick s l)).
  Proof. induction l as [|i l IH]; intros s Hk; auto. cbn [ticks]. pose proof (tick_ok s Hk). destruct (env_tick nmR nmR idR f s) as [s1 o]. specialize (IH s1 H). destruct (ticks tick s1 l). exact IH. Qed.
  Lemma no_loop fuel : forall left s, (left <= fuel)%nat -> ok s -> e_t s < e_t1 s ->
    exists r, env_loop nmR nmR idR f fuel s left = Some (r, snd (ticks tick s (repeat tt left))) /\ ok r /\ ready r = ready (fst (ticks tick s (repeat tt left))).
  Proof.
    induction fuel as [|fuel IH]; intros left s Hl Hk Ht. { assert (left = 0%nat) by lia. subst. exists s. auto. }
    destruct left as [|left0]. { exists s. auto. } set (left := S left0) in *. change (env_loop nmR nmR idR f (S fuel) s left) with
      (let k := Z.min (Z.of_nat left) (samples_left nmR s) in
          let (s', o) := run nmR nmR s k in
          let s'' := if (k =? samples_left nmR s)%Z then env_next nmR nmR idR f s' else s' in
          match env_loop nmR nmR idR f fuel s'' (left - Z.to_nat k) with Some (r, o') => Some (r, o ++ o') | None => None end).
    destruct (left_spec s Hk Ht) as (M1 & M2 & M3). set (m := samples_left nmR s) in *. clearbody m. cbv zeta. set (k := Z.min _ m).
    set (n := Z.to_nat k). assert (Ek : k = Z.of_nat n) by (unfold n; rewrite Z2Nat.id; [reflexivity|unfold k; lia]).
    assert (Hn : (n <= left)%nat) by (unfold k in Ek; lia). assert (Hn1 : (1 <= n)%nat) by (unfold k, left in Ek; lia).
    assert (HJ : forall j, (j < Z.of_nat n)%Z -> e_t s + IZR j * e_sd s < e_t1 s) by (intros j Hj; apply M2; unfold k in Ek; lia).
    pose proof (run_ticks (fun s (_ : unit) => env_next nmR nmR idR f s) (repeat tt n) s) as RT. rewrite repeat_length in RT. specialize (RT HJ).
    change (ticks (fun s (_ : unit) => step nmR nmR (if due s then env_next nmR nmR idR f s else s)) s (repeat tt n)) with (ticks tick s (repeat tt n)) in RT.
    pose proof (run_ok n s Hk HJ) as RO. rewrite Ek.
    assert (Er : repeat tt left = repeat tt n ++ repeat tt (left - n)) by (rewrite <- repeat_app; f_equal; lia). rewrite Er, ticks_app, <- RT.
    destruct (run nmR nmR s (Z.of_nat n)) as [s1 o]. cbn [fst] in RO. destruct RO as (Ok1 & Et & Et1 & Esd).
    destruct (Z.eqb_spec (Z.of_nat n) m) as [Hm|Hm].
    - assert (D : e_t1 s1 <= e_t s1) by (rewrite Et, Et1, Hm; exact M3). assert (Ern : env_next nmR nmR idR f s1 = ready s1) by (unfold ready; now rewrite due_true). rewrite Ern.
      destruct (ready_ok s1 Ok1) as [K1 K2]. destruct (IH (left - n)%nat (ready s1)) as (r & R1 & R2 & R3); auto; [lia|]. rewrite R1.
      destruct (left - n)%nat as [|x] eqn:El.
      + exists r. cbn [repeat ticks fst snd] in *. rewrite app_nil_r. split; auto. split; auto. now rewrite R3, ready_ready.
      + rewrite ticks_ready in * by (auto; discriminate). exists r. destruct (ticks tick s1 (repeat tt (S x))) as [s2 o2]. auto.
    - assert (En : (left - n = 0)%nat) by (unfold k in Ek; lia). rewrite En. cbn [repeat ticks]. exists s1. split; [destruct fuel; cbn; rewrite app_nil_r; reflexivity|auto].
  Qed.
  Lemma no_process size s : ok s ->
    exists r, env_process nmR nmR idR f size s size = Some (r, snd (ticks tick s (repeat tt size))) /\ ok r /\ ready r = ready (fst (ticks tick s (repeat tt size))).
  Proof.
    intros Hk. unfold env_process. change (if due s then env_next nmR nmR idR f s else s) with (ready s). destruct (ready_ok s Hk) as [K1 K2].
    destruct (no_loop size size (ready s) (le_n _) K1 K2) as (r & R1 & R2 & R3). destruct size as [|x].
    - cbn in *. exists (ready s). split; auto. split; auto. now apply ready_ready.
    - rewrite ticks_ready in * by (auto; discriminate). eauto.
  Qed.
  Lemma no_blocks bs : forall s r, ok s -> ok r -> ready r = ready s ->
    blocks (fun s ins => env_process nmR nmR idR f (length ins) s (length ins)) r bs = Some (snd (ticks tick s (concat bs))).
  Proof.
    induction bs as [|b bs IH]; intros s r Hs Hr E; [reflexivity|]. cbn [blocks concat]. destruct (no_process (length b) r Hr) as (r1 & R1 & R2 & R3). rewrite R1.
    assert (Eb : repeat tt (length b) = b) by (clear; induction b as [|[] b IH]; cbn; congruence). rewrite Eb in *.
    assert (Et : snd (ticks tick r b) = snd (ticks tick s b) /\ ready (fst (ticks tick r b)) = ready (fst (ticks tick s b))).
    { destruct b as [|i b]; [cbn; auto|]. rewrite <- (ticks_ready (i :: b) r), <- (ticks_ready (i :: b) s), E by (auto; discriminate). auto. }
    destruct Et as [Eo Er]. rewrite (IH (fst (ticks tick s b)) r1); auto using ticks_ok; [|congruence].
    rewrite ticks_app. rewrite Eo. destruct (ticks tick s b) as [s1 o1]. cbn [fst snd]. destruct (ticks tick s1 (concat bs)). reflexivity.
  Qed.
End No.

Lemma first_eq interval sd h k n : 0 < sd -> point interval h k <= INR n * sd < point interval h k + sd -> first_sample interval sd h k = n.
Proof.
  intros Hs [H1 H2]. unfold first_sample. set (q := point interval h k / sd). assert (Eq : point interval h k = q * sd) by (unfold q; field; lra). rewrite Eq in *.
  assert (Q : INR n - 1 < q <= INR n) by (split; nra). destruct (base_Int_part (- q)) as [B1 B2].
  assert (E : (- Int_part (- q) = Z.of_nat n)%Z). { apply Z.le_antisymm; apply Z.lt_succ_r; apply lt_IZR; rewrite succ_IZR, ?opp_IZR, <- ?INR_IZR_INZ; lra. }
  rewrite E. apply Nat2Z.id.
Qed.
Section InLine.
  Context {C : Type} (f : C -> R -> list R -> C * list R) (x : nat -> list R) (st : C).
  Variables (interval sd : R) (h : N).
  Hypothesis Hsd : 0 < sd <= 3 / 4 * interval.
  Hypothesis Hh : (h < 2 ^ 64)%N.
  Notation b := (point interval h).
  Notation cl := (closure f st x interval sd h).
  Notation sm := (sample f st x interval sd h).
  Let seg k t := zip2 (fun a c => on_line (b k) a (b (S k)) c t) (sm k) (sm (S k)).
  Let slope k := zip2 (fun a c => (c - a) / ((b (S k) - b k) / sd)) (sm k) (sm (S k)).
  Lemma iseg_next k t : zip2 Rplus (seg k t) (slope k) = seg k (t + sd).
  Proof.
    unfold seg, slope, zip2. pose proof (point_step interval h k ltac:(lra) Hh) as P. set (B0 := b k) in *. set (B1 := b (S k)) in *. clearbody B0 B1.
    generalize (combine (sm k) (sm (S k))). intros l. induction l as [|[a c] l IH]; [reflexivity|]. cbn. rewrite IH. f_equal. unfold on_line. field. lra.
  Qed.
  Definition in_iseg (s : env R R C) n k : Prop :=
    e_t s = INR n * sd /\ e_t0 s = b k /\ e_t1 s = b (S k) /\ e_seed s = seed_at h (S k) /\ e_st s = cl (S (S k)) /\ e_v1 s = sm (S k) /\ e_v s = seg k (e_t s) /\ e_d s = slope k /\
    e_int s = interval /\ e_sd s = sd /\ b k <= e_t s < b (S k) + sd.
  Lemma b_pos k : 0 < b (S k).
  Proof. change 0 with (b 0). apply points_rise; auto; [lra|lia]. Qed.
  Lemma first_0 : first_sample interval sd h 0 = 0%nat.
  Proof. apply first_eq; [lra|]. cbn. lra. Qed.
  (* a segment after the first *)
  Lemma inext_seg s n k : e_t s = INR n * sd -> e_t1 s = b (S k) -> e_seed s = seed_at h (S k) -> e_st s = cl (S (S k)) -> e_v1 s = sm (S k) -> e_int s = interval -> e_sd s = sd ->
    b (S k) <= e_t s < b (S k) + sd ->
    in_iseg (envin_next nmR nmR idR f s (x n)) n (S k) /\ e_t (envin_next nmR nmR idR f s (x n)) = e_t s /\ e_t s < b (S (S k)).
  Proof.
    intros H0 H1 H2 Hc H3 H4 H5 H6. unfold envin_next.
    assert (Z : is_zero nmR (e_t1 s) = false). { apply zero_false. rewrite H1. apply b_pos. }
    rewrite Z, andb_false_r. rewrite seg_eq. assert (L : next_len s = spread h (S k) * interval) by (unfold next_len, spread; rewrite H2, H4; reflexivity).
    rewrite H1, L. change (b (S k) + spread h (S k) * interval) with (b (S (S k))). pose proof (point_step interval h (S k) ltac:(lra) Hh) as P.
    replace (spread h (S k) * interval) with (b (S (S k)) - b (S k)) by (cbn [point]; ring). rewrite Hc.
    assert (Ex : first_sample interval sd h (S k) = n) by (apply first_eq; [lra|]; rewrite <- H0; auto).
    rewrite (surjective_pairing (f (cl (S (S k))) (b (S (S k))) (x n))).
    replace (fst (f (cl (S (S k))) (b (S (S k))) (x n))) with (cl (S (S (S k)))) by (rewrite <- Ex; reflexivity).
    replace (snd (f (cl (S (S k))) (b (S (S k))) (x n))) with (sm (S (S k))) by (rewrite <- Ex; reflexivity).
    unfold in_iseg. cbn [e_t e_t0 e_t1 e_seed e_st e_v1 e_v e_d e_int e_sd]. rewrite H2, H3, H4, H5, map_id. repeat split; try lra; auto.
  Qed.
  Lemma istart_seg s : e_t s = 0 -> e_t0 s = 0 -> e_t1 s = 0 -> e_seed s = h -> e_st s = st -> e_int s = interval -> e_sd s = sd ->
    in_iseg (envin_next nmR nmR idR f s (x 0%nat)) 0 0 /\ e_t (envin_next nmR nmR idR f s (x 0%nat)) = 0.
  Proof.
    intros H0 H00 H1 H2 Hc H4 H5. unfold envin_next.
    assert (Z : is_zero nmR (e_t1 s) = true). { now apply zero_true. }
    assert (Z0 : is_zero nmR (e_t0 s) = true). { now apply zero_true. }
    rewrite Z, Z0. cbn [andb]. rewrite H00, Hc. pose proof (point_step interval h 0 ltac:(lra) Hh) as P. change (b 0) with 0 in P.
    rewrite (surjective_pairing (f st 0 (x 0%nat))).
    replace (fst (f st 0 (x 0%nat))) with (cl 1) by (cbn; rewrite first_0; reflexivity).
    replace (snd (f st 0 (x 0%nat))) with (sm 0) by (unfold sample; cbn; rewrite first_0; reflexivity).
    rewrite seg_eq. cbn [e_st e_t e_int e_sd e_hash e_seed].
    assert (L : next_len (mkEnv (cl 1) (e_t s) 0 (e_t1 s) (e_seed s) (e_v0 s) (e_v1 s) (e_v s) (e_d s) (e_int s) (e_sd s) (e_hash s)) = b 1 - b 0) by (unfold next_len; cbn [e_seed e_int]; rewrite H2, H4; cbn [point]; unfold spread; cbn [seed_at]; ring).
    rewrite L. replace (0 + (b 1 - b 0)) with (b 1) by (cbn [point]; ring).
    rewrite (surjective_pairing (f (cl 1) (b 1) (x 0%nat))).
    replace (fst (f (cl 1) (b 1) (x 0%nat))) with (cl 2) by (cbn [closure pred]; rewrite first_0; reflexivity).
    replace (snd (f (cl 1) (b 1) (x 0%nat))) with (sm 1) by (unfold sample; cbn [pred]; rewrite first_0; reflexivity).
    unfold in_iseg. cbn [e_t e_t0 e_t1 e_seed e_st e_v1 e_v e_d e_int e_sd]. rewrite H0, H2, H4, H5, !map_id. change (b 0) with 0. repeat split; try lra; auto. cbn. ring.
  Qed.
  Lemma itick_seg s n k : in_iseg s n k -> exists k', in_segment interval h k' (INR n * sd) /\ snd (envin_tick nmR nmR idR f s (x n)) = seg k' (INR n * sd) /\
    in_iseg (fst (envin_tick nmR nmR idR f s (x n))) (S n) k'.
  Proof.
    intros (H0 & H1 & H2 & H3 & Hc & H4 & H5 & H6 & H7 & H8 & H9). unfold envin_tick.
    destruct (Rle_dec (e_t1 s) (e_t s)) as [Hle|Hlt].
    - rewrite due_true by auto. destruct (inext_seg s n k H0 H2 H3 Hc H4 H7 H8 ltac:(lra)) as ((N0 & N1 & N2 & N3 & Nc & N4 & N5 & N6 & N7 & N8 & N9) & Nt & Nb).
      generalize dependent (envin_next nmR nmR idR f s (x n)). intros s' N0 N1 N2 N3 Nc N4 N5 N6 N7 N8 N9 Nt. rewrite Nt in *.
      exists (S k). unfold step, in_segment. cbn [fst snd]. change (nadd nmR) with Rplus. rewrite N5, H0 in *. split; [lra|]. split; auto.
      unfold in_iseg. cbn [e_t e_t0 e_t1 e_seed e_st e_v1 e_v e_d e_int e_sd]. rewrite N8, N6, S_INR, iseg_next, Nt. repeat split; auto; try lra.
    - apply Rnot_le_lt in Hlt. rewrite due_false by auto. exists k. unfold step, in_segment. cbn [fst snd e_t]. change (nadd nmR) with Rplus. rewrite H5. rewrite H0 in *. split; [lra|]. split; auto.
      unfold in_iseg. cbn [e_t e_t0 e_t1 e_seed e_st e_v1 e_v e_d e_int e_sd]. rewrite H8, H6, ?H5, S_INR, ?H0, iseg_next. repeat split; auto; try lra.
  Qed.
  Lemma iline s : e_t s = 0 -> e_t0 s = 0 -> e_t1 s = 0 -> e_seed s = h -> e_st s = st -> e_int s = interval -> e_sd s = sd ->
    forall n, exists k, in_segment interval h k (INR n * sd) /\ envin_at f s x n = seg k (INR n * sd) /\ in_iseg (envin_state f s x (S n)) (S n) k.
  Proof.
    intros H0 H00 H1 H2 Hc H4 H5 n. induction n as [|n (k & _ & _ & IH)].
    - exists 0%nat. unfold envin_at. cbn [envin_state INR]. rewrite Rmult_0_l. unfold envin_tick. rewrite due_true by lra.
      destruct (istart_seg s H0 H00 H1 H2 Hc H4 H5) as ((N0 & N1 & N2 & N3 & Nc & N4 & N5 & N6 & N7 & N8 & N9) & Nt).
      generalize dependent (envin_next nmR nmR idR f s (x 0%nat)). intros s' N0 N1 N2 N3 Nc N4 N5 N6 N7 N8 N9 Nt. rewrite Nt in *.
      pose proof (point_step interval h 0 ltac:(lra) Hh) as P. change (b 0) with 0 in P.
      unfold in_segment, step. cbn [fst snd]. change (nadd nmR) with Rplus. rewrite N5. change (b 0) with 0. split; [lra|]. split; auto.
      unfold in_iseg. cbn [e_t e_t0 e_t1 e_seed e_st e_v1 e_v e_d e_int e_sd]. rewrite N8, N6, S_INR, iseg_next, Nt. change (b 0) with 0. cbn [INR]. repeat split; auto; try lra.
    - destruct (itick_seg _ _ _ IH) as (k' & K1 & K2 & K3). exists k'. auto.
  Qed.
End InLine.
Lemma envin_line {C} (f : C -> R -> list R -> C * list R) s x n : fits s ->
  let b := point (e_int s) (e_hash s) in let y := sample f (e_st s) x (e_int s) (e_sd s) (e_hash s) in
  exists k, in_segment (e_int s) (e_hash s) k (INR n * e_sd s) /\
    envin_at f (envin_reset nmR s) x n = zip2 (fun a c => on_line (b k) a (b (S k)) c (INR n * e_sd s)) (y k) (y (S k)).
Proof.
  intros (H1 & H2 & H3) b y. destruct (iline f x (e_st s) (e_int s) (e_sd s) (e_hash s) H1 H3 (envin_reset nmR s)) with (n := n) as (k & K1 & K2 & _); try reflexivity. eauto.
Qed.
