(* C80: sample-and-hold. *)
From Coq Require Import Reals Lra Lia SpecFloat.
From Flocq Require Import Core.Defs IEEE754.BinarySingleNaN.
From Verif Require Import HoldSpec TuneSpec HoldProofs HoldFloat.
Local Open Scope R_scope.
Local Open Scope nat_scope.

(* C80: hold(v) samples its input and holds it for a time between (1 - v) / f and (1 + v) / f seconds, chosen by the next random number, rounded up to a whole number of samples; f is read at the moment of sampling. *)
Theorem C80_stretches : forall (G S X : Type) (tl : tools R G S X) (v sr : R) n (ins : list (R * R)) os, random_ok tl -> (0 <= v)%R -> Forall (fun p => 0 < snd p)%R ins ->
  build Rnum_ops tl true (OHold v) = Some n -> t_outs Rnum_ops tl n (ARate sr :: frames_of ins) = Some os ->
  exists ys, os = map (fun y => [y]) ys /\ holding v (1 / sr) (draw tl (tl_rnd tl 0%N)) ins ys.
Proof. intros G S X tl. exact (hold_stretches tl). Qed.
Print Assumptions C80_stretches.
Example C80_stretches_example : random_ok real_tools /\ (forall v sr ins, exists n os, build Rnum_ops real_tools true (OHold v) = Some n /\ t_outs Rnum_ops real_tools n (ARate sr :: frames_of ins) = Some os) /\
  holding (1 / 2) (1 / 8) (fun _ => 1 / 2)%R [(5, 4); (6, 4); (7, 2); (8, 1); (9, 1)]%R [5; 5; 7; 7; 7]%R.
Proof.
  split; [intros g; cbn; lra|]. split; [exact (hold_total real_tools)|].
  apply (H_hold _ _ _ 5%R 4%R [(6, 4)]%R [(7, 2); (8, 1); (9, 1)]%R [7; 7; 7]%R (1 / 4)%R); [cbn; lra|cbn; lra|left; cbn; lra|right; cbn; lra|].
  apply (H_hold _ _ _ 7%R 2%R [(8, 1); (9, 1)]%R []%R []%R (1 / 2)%R); [cbn; lra|cbn; lra|left; cbn; lra|now left|constructor].
Qed.

(* C80: without variability and at a constant frequency f, every m-th input is held, where m is sr / f rounded up. *)
Theorem C80_regular : forall (G S X : Type) (tl : tools R G S X) (sr f : R) n (m : nat) (ins : list (R * R)) os, random_ok tl -> (0 < sr)%R -> (0 < f)%R -> (INR m < sr / f <= INR (Datatypes.S m))%R ->
  Forall (fun p => snd p = f) ins -> build Rnum_ops tl true (OHold 0%R) = Some n -> t_outs Rnum_ops tl n (ARate sr :: frames_of ins) = Some os ->
  length os = length ins /\ forall k, k < length ins -> nth k os [] = [fst (nth (k / Datatypes.S m * Datatypes.S m) ins (0, 0)%R)].
Proof. intros G S X tl. exact (hold_regular tl). Qed.
Print Assumptions C80_regular.
Example C80_regular_example : (INR 2 < 8 / 3 <= INR 3)%R /\ (exists n os, build Rnum_ops real_tools true (OHold 0%R) = Some n /\ t_outs Rnum_ops real_tools n (ARate 8%R :: frames_of (ramp_in 3 7)) = Some os /\
  os = [[0]; [0]; [0]; [3]; [3]; [3]; [6]]%R).
Proof.
  split; [cbn; lra|]. destruct (hold_total real_tools 0%R 8%R (ramp_in 3 7)) as (n & os & Hn & E). exists n, os. split; auto. split; auto.
  destruct (hold_regular real_tools 8%R 3%R n 2 (ramp_in 3 7) os ltac:(intros g; cbn; lra) ltac:(lra) ltac:(lra) ltac:(cbn; lra) ltac:(repeat constructor) Hn E) as [L K].
  change (length (ramp_in 3 7)) with 7 in *. destruct os as [|a [|b [|c [|d [|e [|f [|g [|]]]]]]]]; try discriminate L.
  pose proof (K 0 ltac:(lia)) as K0. pose proof (K 1 ltac:(lia)) as K1. pose proof (K 2 ltac:(lia)) as K2. pose proof (K 3 ltac:(lia)) as K3. pose proof (K 4 ltac:(lia)) as K4. pose proof (K 5 ltac:(lia)) as K5. pose proof (K 6 ltac:(lia)) as K6.
  cbn in K0, K1, K2, K3, K4, K5, K6. subst. repeat (f_equal; try lra).
Qed.

(* REFUTED: the input is sampled f times a second. Hold::tick (noise.rs:292-304) computes the next time from the time at which it sampled, not from the time at which it was to sample, so that every hold time is
   rounded up to a whole number of samples and the errors add up. At a frequency of 3/8 of the sample rate, 48 samples hold 16 values instead of 18. *)
Theorem C80_mean_frequency_refuted : ~ (forall (sr f : R) n N os, (0 < f < sr / 2)%R -> build Rnum_ops real_tools true (OHold 0%R) = Some n ->
  t_outs Rnum_ops real_tools n (ARate sr :: frames_of (ramp_in f N)) = Some os -> (Rabs (INR (samplings (fun k => nth 0 (nth k os []) 0) N) - INR N * f / sr) <= 1)%R).
Proof. exact ramp_rate. Qed.
Print Assumptions C80_mean_frequency_refuted.

(* REFUTED: sampling goes on once the frequency is positive again. If the frequency input is 0 when the input is sampled (noise.rs:292-304), the next time is infinite, and the output keeps that sample for ever,
   whatever the frequency is later, until reset. A node whose frequency comes from a control that starts at 0 never samples again. Stated with the times in binary64, at the default sample rate. *)
Theorem C80_zero_frequency_refuted : forall (G S X : Type) (tl : tools spec_float G S X) n (x : spec_float) (ins : list (spec_float * spec_float)), random64 tl -> build f64_ops tl true (OHold (n0 f64_ops)) = Some n ->
  t_outs f64_ops tl n (frames_of ((x, S754_zero false) :: ins)) = Some (repeat [x] (Datatypes.S (length ins))).
Proof. intros G S X tl n x ins Hr. exact (frozen tl Hr n x ins). Qed.
Print Assumptions C80_zero_frequency_refuted.
Example C80_zero_frequency_refuted_example : forall (G S X : Type) (tl : tools spec_float G S X),
  random64 (mkTools (tl_elem tl) (tl_tanh tl) (tl_pow tl) (tl_floor tl) (tl_halfway tl) (tl_rnd tl) (fun g => (g, S754_finite false 6755399441055744 (-53))) (tl_shape tl) (tl_shape_reset tl) (tl_tick tl) (tl_reset tl) (tl_rate tl)).
Proof. intros G S X tl g. cbn. split; [split; reflexivity|]. unfold real, BinarySingleNaN.SF2R, Defs.F2R. cbn. lra. Qed.
