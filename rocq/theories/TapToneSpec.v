(* What taps should do with a tone. *)
From Coq Require Import Reals.
From Verif Require Export DelaySpec.
Local Open Scope R_scope.

(* sample n of a tone of amplitude A, phase p and w radians per sample; times are in samples and need not be whole *)
Definition tone (A w p t : R) : R := A * cos (w * t + p).
(* the input frames of a tap: the tone, and the delays in seconds *)
Definition tone_frames (A w p : R) (delays : list R) : list (list R) := map (fun n => [tone A w p (INR n); nth n delays 0]) (seq 0 (length delays)).
(* the outputs of tap(lo, hi) and of tap_linear(lo, hi) at the sample rate sr *)
Definition tap_outputs (sr lo hi : R) (ins : list (list R)) : list (list R) := snd (ticks (tap_tick Rnum_ops lo hi sr) (line_new 0 (tap_length Rnum_ops sr hi)) ins).
Definition linear_outputs (sr lo hi : R) (ins : list (list R)) : list (list R) := snd (ticks (linear_tick Rnum_ops lo hi sr) (line_new 0 (linear_length Rnum_ops sr hi)) ins).
