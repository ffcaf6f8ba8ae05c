(* C78: what pebbles plays. *)
From Coq Require Import Reals Lra Lia.
From Verif Require Import VoicesSpec VoicesProofs VoicesPitch SysProperties.
Import ListNotations.
Local Open Scope R_scope.

(* C78: pebbles is the sum of a hundred sines, through the pinking filter and times 0.1. The pitch of each is written every m samples, where m is the number of samples in 10 ms, and reaches the sine through a follower. This holds
   for all speeds, all sample rates, all coefficients of the followers, all hashes and all seeds. *)
Theorem C78_pebbles_sound : forall speed sr co h seed m N n, 0 < sr -> period sr (1 / 100) m -> (forall i, (h i < 2 ^ 64)%N) -> (n < N)%nat -> nth n (pebbles_soundR speed sr co h seed N) 0 = pebbles_of speed sr co h seed m n.
Proof. intros speed sr co h seed m N n HS HM HH H. exact (pebbles_plays speed sr co h seed m HS HM HH N n H). Qed.
Print Assumptions C78_pebbles_sound.
Theorem C78_pebbles_level : forall speed sr co h seed m n, Rabs (pebbles_of speed sr co h seed m n) <= 80.1.
Proof. exact pebbles_level. Qed.
Print Assumptions C78_pebbles_level.
(* C78: unless the speed is too high for the gravity, which is a hundred thousand at 10 ms, all pitches that are written are positive, and the first voice stays at 110 Hz from the first sample on. *)
Theorem C78_pebbles_voices : forall speed sr co seed m n, (seed < 2 ^ 64)%N -> 0 <= INR m / sr * speed * (1 / 1000) <= 1 ->
  (forall i, (i < 100)%nat -> 0 < pitch speed sr seed m i n) /\ pitch speed sr seed m 0 n = 110 /\ followed co (pitch speed sr seed m 0) n = 110.
Proof. exact voices_pitches. Qed.
Print Assumptions C78_pebbles_voices.
Example C78_pebbles_sound_case : 0 < 44100 /\ period 44100 (1 / 100) 441 /\ (forall i, (N.of_nat (Nat.min i 99) < 2 ^ 64)%N) /\ 0 <= INR 441 / 44100 * 1 * (1 / 1000) <= 1.
Proof.
  split; [lra|]. split; [exact C70_period_case|]. split; [|rewrite INR_IZR_INZ; cbn; lra].
  intros i. assert (Nat.min i 99 <= 99)%nat by lia. assert (N.of_nat (Nat.min i 99) <= 99)%N by lia. eapply N.le_lt_trans; [eassumption|reflexivity].
Qed.
