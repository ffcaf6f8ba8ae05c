(* C78: how loud the snare drum and the cymbal can become after their filters. *)
From Coq Require Import Reals Lra Lia.
From Verif Require Import TableCases DrumSpec CymbalSpec SweptLevel.
Local Open Scope R_scope.

(* C78: the filters of these sounds, lowpass and highpass with Q of 1, amplify a signal within -X ... X by no more than a factor that depends on the highest cutoff frequency alone, however the cutoff frequency moves from sample to sample. *)
Theorem C78_swept : forall sr f x top X n, 0 < sr -> 2 * top < sr -> (forall k, 0 <= f k <= top) -> (forall k, Rabs (x k) <= X) -> let T := tan (PI * top / sr) in
  Rabs (lowpassed sr f x n) <= 1.155 * (X * sqrt (4 + T + 9 * (T * T))) /\ Rabs (highpassed sr f x n) <= X + 1.155 * (X * sqrt (4 + T + 9 * (T * T))).
Proof.
  intros sr f x top X n S0 H Hf Hx T. pose proof (warped_range sr f top S0 H Hf) as W. split; [exact (low_swept sr f x T X W Hx n)|exact (high_swept sr f x T X W Hx n)].
Qed.
Print Assumptions C78_swept.
(* C78: so the snare drum at sample rates above 30000 Hz is bounded for all time by a number that falls as the sample rate rises: 46 at 44100 Hz. *)
Theorem C78_snaredrum_level : forall sr h r sharpness n, usual sr -> (forall i, (h i < 2 ^ 64)%N) -> 30000 < sr -> let T := tan (PI * 15000 / sr) in
  Rabs (snare_of sr h r sharpness n) <= 7.75 * sqrt (4 + T + 9 * (T * T)).
Proof. intros sr h r s n HS HH S3 T. exact (snare_swept sr h r HS HH s n S3). Qed.
Print Assumptions C78_snaredrum_level.
(* C78: and so is the cymbal at sample rates above 40000 Hz. *)
Theorem C78_cymbal_bounded : forall tb sr h r n, normal tb -> usual sr -> (forall i, (h i < 2 ^ 64)%N) -> 40000 < sr -> let T := tan (PI * 20000 / sr) in
  Rabs (cymbal_of tb sr h r n) <= 14.6 * sqrt (4 + T + 9 * (T * T)).
Proof. intros tb sr h r n HT HS HH S4 T. exact (cymbal_swept tb sr h r HS HH HT n S4). Qed.
Print Assumptions C78_cymbal_bounded.
(* at 80000 Hz the tangent for the cymbal is 1 *)
Example C78_swept_case : tan (PI * 20000 / 80000) = 1 /\ 14.6 * sqrt (4 + 1 + 9 * (1 * 1)) <= 54.7 /\ usual 80000 /\ 2 * 20000 < 80000 /\
  (forall k, 0 <= (if Nat.even k then 20000 else 0) <= 20000) /\ (forall k : nat, Rabs (if Nat.even k then 1 else -1) <= 1).
Proof.
  split; [replace (PI * 20000 / 80000) with (PI / 4) by lra; apply tan_PI4|]. split.
  - replace (4 + 1 + 9 * (1 * 1)) with 14 by lra. assert (sqrt 14 <= 3.742) by (rewrite <- (sqrt_square 3.742) by lra; apply sqrt_le_1_alt; lra). lra.
  - split; [split; lra|]. split; [lra|]. split; intros k; destruct (Nat.even k); try lra; apply Rabs_le; lra.
Qed.
