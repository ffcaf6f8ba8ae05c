(* Proofs about dynamical systems. *)
From Coq Require Import Reals Lra Lia SpecFloat.
From Verif Require Import EnvStop.
From Verif Require Export SysSpec.
From Verif Require Import BufProofs.
Local Open Scope R_scope.
Notation nr := Rnum_ops.

Section Run.
  Context {A P S X : Type}.
  Variable xo : unit_ops A P X.
  Variable f : S -> R -> R -> X -> S * X.
  Variables (sr dt : R) (x_rate : X -> R -> X).
  Hypothesis Hsr : 0 < sr.
  Definition at_sample (n u : nat) (st : S) (x : X) (s : system R S X) : Prop :=
    y_x s = x /\ y_st s = st /\ y_time s = INR n / sr /\ y_delta s = INR (n - u) / sr /\ y_interval s = dt /\ y_sr s = sr /\ (u <= n)%nat.
  Lemma time_zero n : feq nr (INR n / sr) (n0 nr) = Nat.eqb n 0.
  Proof.
    unfold feq. cbn [nleb Rnum_ops]. change (n0 Rnum_ops) with 0. assert (I : 0 < / sr) by (apply Rinv_0_lt_compat; exact Hsr). destruct n as [|n].
    - cbn [INR Nat.eqb]. replace (0 / sr) with 0 by (unfold Rdiv; ring). destruct (Rle_dec 0 0); [reflexivity|lra].
    - assert (0 < INR (Datatypes.S n)) by (apply lt_0_INR; lia). assert (0 < INR (Datatypes.S n) / sr) by (apply Rmult_lt_0_compat; assumption). destruct (Rle_dec (INR (Datatypes.S n) / sr) 0); [lra|reflexivity].
  Qed.
  Lemma due_eq n u size s st x : at_sample n u st x s -> nleb nr (y_interval s) (y_delta s) || (feq nr (y_time s) (n0 nr) && Nat.ltb 0 size) = due sr dt n u size.
  Proof.
    intros (_ & _ & E3 & E4 & E5 & _). rewrite E3, E4, E5, time_zero. cbn [nleb Rnum_ops]. unfold due. destruct (Rle_dec dt (INR (n - u) / sr)); reflexivity.
  Qed.
  Lemma update_ok n u st x s size : at_sample n u st x s ->
    let '(u', st', x') := if due sr dt n u size then let (st, x) := f st (INR n / sr) (INR (n - u) / sr) x in (n, st, x) else (u, st, x) in
    at_sample (n + size) u' st' x' (sys_update nr f s size).
  Proof.
    intros H. unfold sys_update. rewrite (due_eq n u size s st x H). destruct H as (E1 & E2 & E3 & E4 & E5 & E6 & Hu). rewrite E1, E2, E3, E4, E5, E6. change (n0 nr) with 0. cbn [nadd ndiv nofZ Rnum_ops]. rewrite <- INR_IZR_INZ.
    destruct (due sr dt n u size).
    - destruct (f st (INR n / sr) (INR (n - u) / sr) x) as [st' x']. unfold at_sample. cbn [y_x y_st y_time y_delta y_interval y_sr]. replace (n + size - n)%nat with size by lia. rewrite plus_INR. repeat split; auto; [field; lra|field; lra|lia].
    - unfold at_sample. cbn [y_x y_st y_time y_delta y_interval y_sr]. replace (n + size - u)%nat with (n - u + size)%nat by lia. rewrite !plus_INR. repeat split; auto; [field; lra|field; lra|lia].
  Qed.
  Lemma run_reference l : forall n u st x s, at_sample n u st x s ->
    let (os, s') := sys_run xo f x_rate s l in let (os', r) := reference xo f sr dt n u st x l in os = os' /\ y_st s' = fst r /\ y_x s' = snd r.
  Proof.
    induction l as [|o l IH]; intros n u st x s H; [cbn; destruct H as (E1 & E2 & _); auto|]. cbn [sys_run reference]. destruct o as [i|size i o|v|].
    - unfold sys_tick. pose proof (update_ok n u st x s 1 H) as U. destruct (if due sr dt n u 1 then _ else _) as [[u' st'] x']. set (s1 := sys_update nr f s 1) in *. destruct U as (E1 & E2 & E3 & E4 & E5 & E6 & Hu). rewrite E1. destruct (u_tick xo x' i) as [x2 o].
      specialize (IH (n + 1)%nat u' st' x2 (mkSys x2 (y_st s1) (y_time s1) (y_delta s1) (y_interval s1) (y_sr s1))). destruct (sys_run xo f x_rate _ l) as [os s']. destruct (reference xo f sr dt (n + 1) u' st' x2 l) as [os' r].
      destruct IH as (I1 & I2 & I3); [repeat split; assumption|]. subst. auto.
    - unfold sys_process. pose proof (update_ok n u st x s size H) as U. destruct (if due sr dt n u size then _ else _) as [[u' st'] x']. set (s1 := sys_update nr f s size) in *. destruct U as (E1 & E2 & E3 & E4 & E5 & E6 & Hu). rewrite E1. destruct (u_process xo x' size i o) as [x2 o2].
      specialize (IH (n + size)%nat u' st' x2 (mkSys x2 (y_st s1) (y_time s1) (y_delta s1) (y_interval s1) (y_sr s1))). destruct (sys_run xo f x_rate _ l) as [os s']. destruct (reference xo f sr dt (n + size) u' st' x2 l) as [os' r].
      destruct IH as (I1 & I2 & I3); [repeat split; assumption|]. subst. auto.
    - specialize (IH n u st (u_set xo x v) (sys_set xo s v)). destruct (sys_run xo f x_rate _ l) as [os s']. destruct (reference xo f sr dt n u st (u_set xo x v) l) as [os' r]. destruct H as (E1 & E2 & E3 & E4 & E5 & E6 & Hu).
      destruct IH as (I1 & I2 & I3); [repeat split; try assumption; cbn; now rewrite E1|]. subst. auto.
    - specialize (IH 0%nat 0%nat st (u_reset xo x) (sys_reset nr xo s)). destruct (sys_run xo f x_rate _ l) as [os s']. destruct (reference xo f sr dt 0 0 st (u_reset xo x) l) as [os' r]. destruct H as (E1 & E2 & E3 & E4 & E5 & E6 & Hu).
      destruct IH as (I1 & I2 & I3); [|subst; auto]. repeat split; try assumption; cbn; try (now rewrite E1); try (change (n0 nr) with 0; field; lra). lia.
  Qed.
  Lemma start_sample x st : at_sample 0 0 st (x_rate x sr) (sys_rate x_rate (sys_new nr x dt st) sr).
  Proof. unfold at_sample, sys_rate, sys_new. cbn [y_x y_st y_time y_delta y_interval y_sr]. change (n0 nr) with 0. cbn [Nat.sub INR]. repeat split; try (unfold Rdiv; ring). lia. Qed.

  Lemma reference_every m : period sr dt m -> forall l n u st x, u = (if Nat.eqb n 0 then 0 else m * ((n - 1) / m))%nat ->
    fst (reference xo f sr dt n u st x (map YTick l)) = map YFrame (every xo f sr m n st x l).
  Proof.
    intros (M1 & M2 & M3) l. induction l as [|i l IH]; intros n u st x Eu; [reflexivity|]. cbn [map reference every].
    assert (Q : (if due sr dt n u 1 then let (st, x) := f st (INR n / sr) (INR (n - u) / sr) x in (n, st, x) else (u, st, x)) =
      (let (st, x) := if Nat.eqb (n mod m) 0 then f st (INR n / sr) (if Nat.eqb n 0 then 0 else INR m / sr) x else (st, x) in ((m * (n / m))%nat, st, x))).
    { unfold due. destruct (Nat.eqb_spec n 0) as [->|N0].
      - subst u. rewrite Nat.mod_0_l, Nat.div_0_l by lia. cbn [Nat.eqb Nat.sub INR andb Nat.ltb Nat.leb]. replace (0 / sr) with 0 by (unfold Rdiv; ring). replace (m * 0)%nat with 0%nat by lia. destruct (Rle_dec dt 0); destruct (f st 0 0 x); reflexivity.
      - assert (D : n = (m * (n / m) + n mod m)%nat) by (apply Nat.div_mod; lia). pose proof (Nat.mod_upper_bound n m ltac:(lia)) as B. set (q := (n / m)%nat) in *. set (r := (n mod m)%nat) in *. destruct (Nat.eqb_spec r 0) as [R0|R0].
        + assert (q <> 0)%nat by (intros Q0; rewrite Q0 in D; lia). assert (V : ((n - 1) / m = q - 1)%nat). { symmetry. apply (Nat.div_unique (n - 1) m (q - 1) (m - 1)); [lia|]. rewrite D, R0. destruct q as [|q']; [lia|]. replace (Datatypes.S q' - 1)%nat with q' by lia. rewrite Nat.mul_succ_r. lia. }
          rewrite Eu, V. assert (W : (n - m * (q - 1) = m)%nat). { rewrite D at 1. rewrite R0. destruct q as [|q']; [lia|]. replace (Datatypes.S q' - 1)%nat with q' by lia. rewrite Nat.mul_succ_r. lia. }
          rewrite W. destruct (Rle_dec dt (INR m / sr)) as [_|NL]; [|contradiction]. destruct (f st (INR n / sr) (INR m / sr) x). f_equal. f_equal. lia.
        + assert (V : ((n - 1) / m = q)%nat) by (symmetry; apply (Nat.div_unique (n - 1) m q (r - 1)); lia). rewrite Eu, V. assert (W : (n - m * q = r)%nat) by lia. rewrite W. pose proof (M3 r ltac:(lia)) as L. destruct (Rle_dec dt (INR r / sr)) as [G|_]; [lra|]. cbn [andb]. reflexivity. }
    rewrite Q. destruct (if Nat.eqb (n mod m) 0 then _ else _) as [st' x']. destruct (u_tick xo x' i) as [x2 o]. specialize (IH (n + 1)%nat (m * (n / m))%nat st' x2). destruct (reference xo f sr dt (n + 1) (m * (n / m)) st' x2 (map YTick l)) as [os r]. cbn [fst] in *.
    rewrite IH; [reflexivity|]. replace (Nat.eqb (n + 1) 0) with false by (symmetry; apply Nat.eqb_neq; lia). now replace (n + 1 - 1)%nat with n by lia.
  Qed.
End Run.

(* ---- when the updates are ---- *)
Lemma updates_spaced sr dt B : 0 < sr -> 0 <= dt -> forall sizes, Forall (fun k => (1 <= k <= B)%nat) sizes -> forall n u, (u < n)%nat -> INR (n - u) / sr <= dt + INR B / sr ->
  spaced (fun g => dt <= INR g / sr <= dt + INR B / sr) u (updates sr dt n u sizes).
Proof.
  intros Hs Hd sizes H. assert (I : 0 < / sr) by (apply Rinv_0_lt_compat; exact Hs). induction H as [|k sizes Hk _ IH]; intros n u Hn Hb; [exact Logic.I|]. cbn [updates]. unfold due. replace (Nat.eqb n 0) with false by (symmetry; apply Nat.eqb_neq; lia). cbn [andb].
  destruct (Rle_dec dt (INR (n - u) / sr)) as [L|L].
  - cbn [spaced]. split; [exact Hn|]. split; [lra|]. apply IH; [lia|]. replace (n + k - n)%nat with k by lia. assert (INR k <= INR B) by (apply le_INR; lia). assert (INR k / sr <= INR B / sr) by (apply Rmult_le_compat_r; lra). lra.
  - apply IH; [lia|]. replace (n + k - u)%nat with (n - u + k)%nat by lia. rewrite plus_INR. assert (INR k <= INR B) by (apply le_INR; lia). assert (INR k / sr <= INR B / sr) by (apply Rmult_le_compat_r; lra). unfold Rdiv in *. lra.
Qed.
Lemma updates_ok sr dt B k sizes : 0 < sr -> 0 <= dt -> Forall (fun k => (1 <= k <= B)%nat) (k :: sizes) ->
  exists l, updates sr dt 0 0 (k :: sizes) = 0%nat :: l /\ spaced (fun g => dt <= INR g / sr <= dt + INR B / sr) 0 l.
Proof.
  intros Hs Hd H. apply Forall_cons_iff in H as [Hk H]. cbn [updates]. exists (updates sr dt (0 + k) 0 sizes). split.
  - unfold due. replace (Nat.ltb 0 k) with true by (symmetry; apply Nat.ltb_lt; lia). cbn [Nat.eqb andb]. destruct (Rle_dec dt (INR (0 - 0) / sr)); reflexivity.
  - apply updates_spaced; auto; [lia|]. assert (INR k <= INR B) by (apply le_INR; lia). assert (I : 0 < / sr) by (apply Rinv_0_lt_compat; exact Hs). replace (0 + k - 0)%nat with k by lia. assert (INR k / sr <= INR B / sr) by (apply Rmult_le_compat_r; lra). lra.
Qed.

(* ---- binary32 ---- *)
Section Stop.
  Context {A P S X : Type}.
  Variable xo : unit_ops A P X.
  Variable f : S -> spec_float -> spec_float -> X -> S * X.
  Notation sys := (system spec_float S X).
  Lemma tick_time (s : sys) i : let s' := fst (sys_tick f32_ops xo f s i) in y_time s' = nadd f32_ops (y_time s) (ndiv f32_ops (nofZ f32_ops 1) (y_sr s)) /\ y_sr s' = y_sr s /\ y_interval s' = y_interval s.
  Proof.
    cbv zeta. unfold sys_tick, sys_update. change (Z.of_nat 1) with 1%Z. destruct (_ || _).
    - destruct (f (y_st s) (y_time s) (y_delta s) (y_x s)) as [st x]. cbn [y_x]. destruct (u_tick xo x i). cbn [fst y_time y_sr y_interval]. auto.
    - cbn [y_x]. destruct (u_tick xo (y_x s) i). cbn [fst y_time y_sr y_interval]. auto.
  Qed.
  Lemma stepping_tick s i : stepping s -> let s' := fst (sys_tick f32_ops xo f s i) in stepping s' /\ (real (y_time s) < 512 -> real (y_time s) + Raux.bpow Zaux.radix2 (-149) <= real (y_time s')) /\ (y_time s = C512 -> y_time s' = C512).
  Proof.
    intros (H1 & H2 & Hd & Hr) s'. destruct (tick_time s i) as (T1 & T2 & _). fold s' in T1, T2. unfold stepping. rewrite T2. cbv zeta in Hd, Hr |- *. set (d := ndiv f32_ops (nofZ f32_ops 1) (y_sr s)) in *.
    assert (St : y_time s = C512 -> y_time s' = C512) by (intros E; rewrite T1, E; apply time_stop; assumption).
    destruct (Rlt_dec (real (y_time s)) 512) as [l|l].
    - destruct (time_step (y_time s) d H1 Hd ltac:(lra) Hr) as [T3 T4]. rewrite <- T1 in T3, T4. pose proof (Raux.bpow_gt_0 Zaux.radix2 (-149)). refine (conj (conj T3 (conj _ (conj Hd Hr))) (conj _ St)); [lra|intros _; apply T4].
    - assert (E : y_time s = C512) by (apply (real_inj 24 128); auto; [exact fin_512|rewrite real_512; lra|lra]). rewrite (St E), real_512. refine (conj (conj fin_512 (conj _ (conj Hd Hr))) (conj _ _)); [lra|intros; lra|reflexivity].
  Qed.
  Lemma reaches : forall k (s : sys) l, stepping s -> (k <= length l)%nat -> 512 - real (y_time s) <= INR k * Raux.bpow Zaux.radix2 (-149) -> y_time (fst (ticks (sys_tick f32_ops xo f) s l)) = C512.
  Proof.
    pose proof (Raux.bpow_gt_0 Zaux.radix2 (-149)) as P0. assert (St : forall l (s : sys), stepping s -> y_time s = C512 -> y_time (fst (ticks (sys_tick f32_ops xo f) s l)) = C512).
    { induction l as [|i l IH]; intros s H E; [exact E|]. cbn [ticks]. destruct (stepping_tick s i H) as (S1 & _ & S3). destruct (sys_tick f32_ops xo f s i) as [s1 o]. cbn [fst] in *. specialize (IH s1 S1 (S3 E)). destruct (ticks (sys_tick f32_ops xo f) s1 l). exact IH. }
    assert (Fin : forall s : sys, stepping s -> ~ real (y_time s) < 512 -> y_time s = C512) by (intros s (H1 & H2 & _) N; apply (real_inj 24 128); auto; [exact fin_512|rewrite real_512; lra|lra]).
    induction k as [|k IH]; intros s l H L D.
    - apply St; [exact H|]. apply Fin; [exact H|]. cbn in D. lra.
    - destruct (Rlt_dec (real (y_time s)) 512) as [lt|ge]; [|apply St; auto]. destruct l as [|i l]; [cbn in L; lia|]. cbn [ticks]. destruct (stepping_tick s i H) as (S1 & S2 & _). destruct (sys_tick f32_ops xo f s i) as [s1 o]. cbn [fst] in *.
      specialize (IH s1 l S1 ltac:(cbn in L; lia)). destruct (ticks (sys_tick f32_ops xo f) s1 l). cbn [fst] in *. apply IH. specialize (S2 lt). rewrite S_INR in D. lra.
  Qed.
  Lemma stops : exists N, forall s : sys, stepping s -> forall l, (N <= length l)%nat -> y_time (fst (ticks (sys_tick f32_ops xo f) s l)) = C512.
  Proof.
    pose proof (Raux.bpow_gt_0 Zaux.radix2 (-149)) as P0. destruct (archimed (512 / Raux.bpow Zaux.radix2 (-149))) as [Ar _]. set (z := up (512 / Raux.bpow Zaux.radix2 (-149))) in *.
    assert (Z0 : (0 <= z)%Z). { apply le_IZR. assert (0 < 512 / Raux.bpow Zaux.radix2 (-149)) by (apply Rmult_lt_0_compat; [lra|apply Rinv_0_lt_compat; exact P0]). lra. }
    exists (Z.to_nat z). intros s H l L. apply (reaches (Z.to_nat z)); auto. rewrite INR_IZR_INZ, Z2Nat.id by exact Z0. destruct H as (_ & H2 & _).
    apply Rle_trans with 512; [lra|]. replace 512 with (512 / Raux.bpow Zaux.radix2 (-149) * Raux.bpow Zaux.radix2 (-149)) by (field; lra). apply Rmult_le_compat_r; lra.
  Qed.
End Stop.
