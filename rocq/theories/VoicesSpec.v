(* What the sound of VoicesModel.v should be, over the reals. No proofs here. *)
From Coq Require Import Reals.
From Verif Require Export VoicesModel SysSpec SoundSpec DrumSpec.
Local Open Scope R_scope.

(* a follower that starts at its first input, as a state per sample: C39 says what it does *)
Fixpoint follower (co : R) (x : nat -> R) (n : nat) : follow (F := R) := match n with O => fo_new Rnum_ops co | S n => fo_tick Rnum_ops (follower co x n) (x n) end.
Definition followed (co : R) (x : nat -> R) (n : nat) : R := fo_v3 (follower co x (S n)).
Section Voices.
  Variables (speed sr co : R) (h : nat -> N) (seed : N) (m : nat).
  (* the frequencies that are written before sample k m, where m is the number of samples between updates: the first update is at time zero and moves nothing *)
  Definition written (k : nat) : list R := nth k (pebbles Rnum_ops exp ln seed (0 :: repeat (INR m / sr * speed * (1 / 1000)) k)) [].
  (* the pitch of voice i at sample n *)
  Definition pitch (i n : nat) : R := nth i (written (n / m)) 0.
  (* a hundred sines that glide from pitch to pitch *)
  Definition pebbles_mixed (n : nat) : R := sum_to (fun i => sine_of sr (h i) (followed co (pitch i)) n) 100.
  Definition pebbles_of (n : nat) : R := pinked pebbles_mixed n * (1 / 10).
End Voices.
Notation pebbles_soundR speed sr co h seed := (pebbles_sound Rnum_ops exp ln sin (2 * PI) speed sr co h seed).
