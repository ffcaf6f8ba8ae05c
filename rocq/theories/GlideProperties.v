(* C78: how the voices of pebbles glide. *)
From Coq Require Import Reals Lra.
From Verif Require Import VoicesSpec GlideProofs.
Local Open Scope R_scope.

(* C78: each sine of pebbles starts at its first pitch and glides: its frequency is positive, and never below or above all of the pitches that have been written so far. *)
Theorem C78_pebbles_glide : forall speed sr co seed m i n, (seed < 2 ^ 64)%N -> 0 <= INR m / sr * speed * (1 / 1000) <= 1 -> 0 <= co <= 1 -> (i < 100)%nat ->
  let f := followed co (pitch speed sr seed m i) in 0 < f n /\ f 0%nat = pitch speed sr seed m i 0 /\ forall lo hi, (forall k, (k <= n)%nat -> lo <= pitch speed sr seed m i k <= hi) -> lo <= f n <= hi.
Proof. exact voices_glide. Qed.
Print Assumptions C78_pebbles_glide.
Example C78_pebbles_glide_case : (7 < 2 ^ 64)%N /\ 0 <= INR 441 / 44100 * 1 * (1 / 1000) <= 1 /\ 0 <= 1 / 100 <= 1 /\ (99 < 100)%nat.
Proof. split; [reflexivity|]. split; [rewrite INR_IZR_INZ; cbn; lra|]. split; [lra|repeat constructor]. Qed.
