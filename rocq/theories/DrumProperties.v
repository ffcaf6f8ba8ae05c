(* C34 and C78: pink and brown noise, and the snare drum. *)
From Coq Require Import Reals Lra Lia.
From Verif Require Import DrumSpec DrumProofs DrumSnare DrumLevel.
Import ListNotations.
Local Open Scope R_scope.

(* C34: pinkpass is Kellett's pinking filter, whatever the signal. It raises no signal by more than a factor of 8.01, and a constant signal by more than 7.99 (C34_pinkpass_gain). *)
Theorem C34_pinkpass : forall x N n, (n < N)%nat -> nth n (drums_out pinkpassR (map (fun k => [x k]) (seq 0 N))) [] = [pinked x n] /\ (forall b, (forall k, Rabs (x k) <= b) -> Rabs (pinked x n) <= 8.01 * b).
Proof. intros x N n H. split; [exact (pinkpass_outputs x N n H)|]. intros b. exact (pinked_bound x b n). Qed.
Print Assumptions C34_pinkpass.
Theorem C34_pinkpass_gain : exists n, forall N, (n < N)%nat -> exists y, nth n (drums_out pinkpassR (map (fun _ => [1]) (seq 0 N))) [] = [y] /\ 7.99 < y.
Proof. destruct pinked_one as [n P]. exists n. intros N H. exists (pinked (fun _ => 1) n). split; [exact (pinkpass_outputs (fun _ => 1) N n H)|exact P]. Qed.
Print Assumptions C34_pinkpass_gain.
Example C34_pinkpass_case : pinked (fun k => match k with O => 1 | _ => 0 end) 0 = 0.115830421 * (0.0555179 + 0.0750759 + 0.153852 + 0.3104856 + 0.5329522 - 0.016898 + 0.5362).
Proof. unfold pinked. cbn [leaky before]. lra. Qed.

(* C34: pink() is the pinking filter of the white noise that belongs to its hash: the same whenever it is played from the start, and always within -8.01 ... 8.01. *)
Theorem C34_pink : forall h N n, (n < N)%nat -> nth n (drums_out (pinkR h) (repeat [] N)) [] = [pinked (white_at h) n] /\ -1 <= white_at h n <= 1 /\ Rabs (pinked (white_at h) n) <= 8.01.
Proof. intros h N n H. split; [exact (pink_outputs h N n H)|]. split; [exact (white_range h n)|exact (pink_level h n)]. Qed.
Print Assumptions C34_pink.
(* C34: brown() is white noise through a one-pole lowpass filter at 10 Hz, times 13.7, and always within -13.7 ... 13.7. *)
Theorem C34_brown : forall sr h N n, 0 < sr -> (n < N)%nat -> nth n (drums_out (brownR sr h) (repeat [] N)) [] = [13.7 * smoothed sr 10 (white_at h) n] /\ Rabs (13.7 * smoothed sr 10 (white_at h) n) <= 13.7.
Proof. intros sr h N n S0 H. split; [exact (brown_outputs sr h N n H)|exact (brown_level sr h n S0)]. Qed.
Print Assumptions C34_brown.
Example C34_pink_case : white_at 0 0 <> white_at 0 1.
Proof.
  unfold white_at. match goal with |- context [N.shiftr (hash32x ((noise_reset 0 + N.of_nat 0 + 1) mod 2 ^ 32)) 8] => idtac end.
  assert (A : N.eqb (N.shiftr (hash32x ((noise_reset 0 + N.of_nat 0 + 1) mod 2 ^ 32)) 8) (N.shiftr (hash32x ((noise_reset 0 + N.of_nat 1 + 1) mod 2 ^ 32)) 8) = false) by (vm_compute; reflexivity).
  intros E. apply N.eqb_neq in A. apply A. apply N2Z.inj. apply eq_IZR. lra.
Qed.

(* C78: the snare drum is a mix of nine sinusoids and pink noise, each with its own decay, through a lowpass filter whose cutoff frequency falls, times the fade-in of declick. This holds for all hashes of its nodes and for all
   numbers r that its seed draws. *)
Theorem C78_snaredrum : forall sr h r sharpness N n, usual sr -> (forall i, (h i < 2 ^ 64)%N) -> (n < N)%nat -> nth n (drums_out (snareR sr h r sharpness) (repeat [] N)) [] = [snare_of sr h r sharpness n].
Proof. intros sr h r s N n HS HH H. exact (snare_outputs sr h r s HS HH N n H). Qed.
Print Assumptions C78_snaredrum.
(* C78: the mix decays as exp(-12 t) and never exceeds 6.707, and the cutoff frequency stays within 0 ... 15000 Hz. So at sample rates above 30000 Hz the sound begins with silence and is bounded for all time, for all hashes and
   draws. The bound is that of a filter that receives all of the energy of the mix: 401 at 44100 Hz. *)
Theorem C78_snaredrum_bounded : forall sr h r sharpness n, usual sr -> (forall i, (h i < 2 ^ 64)%N) ->
  Rabs (snare_mixed sr h r n) <= 6.707 * exp (- (12 * (INR n / sr - 1 / 400))) /\ Rabs (snare_mixed sr h r n) <= 6.707 /\ 0 <= control sr h 22 snare_cutoff n <= 15000 /\
  (30000 < sr -> Rabs (snare_of sr h r sharpness n) <= sqrt (tan (PI * 15000 / sr) * (48 + 2 * sr)) /\ snare_of sr h r sharpness 0 = 0).
Proof.
  intros sr h r s n HS HH. destruct (mixed_level sr h r HS HH n) as [A B]. split; [exact A|]. split; [exact B|]. split; [exact (cutoff_range sr h HS HH n)|]. intros S3. exact (snare_level sr h r HS HH s n S3).
Qed.
Print Assumptions C78_snaredrum_bounded.
(* C78: its modes begin within 1 Hz of their frequencies and are within 3 Hz of them after a second, for all draws. *)
Theorem C78_snaredrum_modes : forall i a b, 0 <= a <= 1 -> 0 <= b <= 1 -> let f := nth i snare_modes 0 in Rabs (bent f a b 0 - f) <= 1 /\ Rabs (bent f a b 1 - f) <= 3.
Proof. intros i a b A B f. unfold bent. split; apply Rabs_le; lra. Qed.
Print Assumptions C78_snaredrum_modes.
Example C78_snaredrum_case : usual 44100 /\ (forall i, (N.of_nat (Nat.min i 22) < 2 ^ 64)%N) /\ 30000 < 44100 /\ snare_cutoff 0 = 15000 /\ snare_cutoff 1 = 1000 /\ snare_attack 0 = 0.02 /\ snare_attack 1 = 0.002.
Proof.
  split; [unfold usual; lra|]. split; [intros i; assert (Nat.min i 22 <= 22)%nat by lia; assert (N.of_nat (Nat.min i 22) <= 22)%N by lia; eapply N.le_lt_trans; [eassumption|reflexivity]|]. split; [lra|].
  unfold snare_cutoff, snare_attack. rewrite !Rpower_O, !Rpower_1 by lra. lra.
Qed.
