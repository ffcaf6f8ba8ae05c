(* Claim C23, continued: how well taps delay tones by times that are not whole numbers of samples. *)
From Coq Require Import Reals Lra.
From Verif Require Import TapToneSpec.
From Verif Require TapToneProofs.
Local Open Scope R_scope.

(* tap, given a tone of w radians per sample: while the delay is within the declared range and at least 1.00001 samples, and the tap has heard the tone for long enough, the output is the
   tone as it was that long ago, up to 3/32 of the cube of w. The delay may be different at each sample. *)
Theorem C23_tap_tone sr lo hi A w p delays k : 0 < sr -> 0 <= hi -> (k < length delays)%nat -> let d := nth k delays 0 in lo <= d <= hi -> 1.00001 <= d * sr -> d * sr + 2 <= INR k ->
  exists y, nth k (tap_outputs sr lo hi (tone_frames A w p delays)) [] = [y] /\ Rabs (y - tone A w p (INR k - d * sr)) <= 3 / 32 * (Rabs A * Rabs w ^ 3).
Proof. exact (TapToneProofs.tap_tone sr lo hi A w p delays k). Qed.
Print Assumptions C23_tap_tone.
(* tap_linear: up to 1/8 of the square of w; its delay may be shorter *)
Theorem C23_linear_tone sr lo hi A w p delays k : 0 < sr -> 0 <= lo <= hi -> (k < length delays)%nat -> let d := nth k delays 0 in lo <= d <= hi -> d * sr + 1 <= INR k ->
  exists y, nth k (linear_outputs sr lo hi (tone_frames A w p delays)) [] = [y] /\ Rabs (y - tone A w p (INR k - d * sr)) <= 1 / 8 * (Rabs A * Rabs w ^ 2).
Proof. exact (TapToneProofs.linear_tone sr lo hi A w p delays k). Qed.
Print Assumptions C23_linear_tone.
(* 100 samples at 1000 Hz with a delay of 2.5 samples; a tone of 1/8 radian per sample, which is 955 Hz at 48000 Hz, is right to 1/5000 in a tap and to 1/500 in a linear tap *)
Example C23_tap_tone_case : let d := nth 99 (repeat (5 / 2000) 100) 0 in 0 <= d <= 1 / 100 /\ 1.00001 <= d * 1000 /\ d * 1000 + 2 <= INR 99 /\ 3 / 32 * (Rabs 1 * Rabs (1 / 8) ^ 3) <= 1 / 5000 /\ 1 / 8 * (Rabs 1 * Rabs (1 / 8) ^ 2) <= 1 / 500.
Proof. cbn [nth repeat]. rewrite Rabs_R1, (Rabs_right (1 / 8)) by lra. rewrite INR_IZR_INZ. cbn [Z.of_nat Pos.of_succ_nat Pos.succ]. lra. Qed.
