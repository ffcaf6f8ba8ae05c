(* C63: how loud wavetables are when they are read between their samples, and how loud their partials are. *)
From Coq Require Import Reals Lra.
From Verif Require Import TableSpec TableCases TableHeardProofs.
Local Open Scope R_scope.

(* Between the samples of a table the interpolation rises at most 1/100000 above the largest of them, and so does the blend of the tables: with tables in -1...1 nothing is ever louder than 1.00001. *)
Theorem C63_no_overshoot : (forall a b c d x B, 0 <= x <= 1 -> Rabs a <= B -> Rabs b <= B -> Rabs c <= B -> Rabs d <= B -> Rabs (optimal4x44 Rnum_ops a b c d x) <= 1.00001 * B) /\
  (forall tb f phase, normal tb -> Rabs (level tb f phase) <= 1.00001).
Proof.
  split.
  - intros a b c d x B X A1 A2 A3 A4. pose proof (opt_level a b c d x B X A1 A2 A3 A4). lra.
  - intros tb f phase [H _]. pose proof (level_level 1 f phase ltac:(lra) tb H). lra.
Qed.
Print Assumptions C63_no_overshoot.
(* At the samples of its table, partial k of N samples is heard 0.6134 + 0.3865 cos (2 pi k / N) times as loud as the table has it, up to 1/2000 of its amplitude: nearly as it is if the table is long, and less the shorter the table is. *)
Theorem C63_partial_level : forall t k A phi, let N := length t in (0 < N)%nat -> (forall n, (n < N)%nat -> nth n t 0 = A * sin (2 * PI * (INR k * INR n / INR N + phi))) ->
  forall n, (n < N)%nat -> Rabs (sample t (INR n / INR N) - (0.6134 + 0.3865 * cos (2 * PI * (INR k / INR N))) * nth n t 0) <= Rabs A / 2000.
Proof. intros t k A phi N HN HT n Hn. exact (sample_partial t k A phi HN HT n Hn). Qed.
Print Assumptions C63_partial_level.
Example C63_partial_level_case : exists t, length t = 16%nat /\ forall n, (n < 16)%nat -> nth n t 0 = 2 * sin (2 * PI * (INR 3 * INR n / INR 16 + 1 / 8)).
Proof.
  set (g := fun n => 2 * sin (2 * PI * (INR 3 * INR n / INR 16 + 1 / 8))). exists (map g (seq 0 16)). split; [now rewrite map_length, seq_length|]. intros n H.
  rewrite (nth_indep _ 0 (g 0%nat)) by (rewrite map_length, seq_length; exact H). rewrite map_nth, seq_nth by exact H. reflexivity.
Qed.
(* REFUTED: a partial of a wavetable is heard with the amplitude that the table gives it (wavetable.rs:24-38, 54-58: "Target at least 4x oversampling when choosing wave table length"). The interpolator is meant for signals that have been emphasized at high frequencies to make up for what it takes away, and the tables are not: partials near a quarter of the table's length are heard at less than 0.66 of their amplitude (-3.7 dB). The example is partial 15 of the table for 1300 Hz, at 19500 Hz; at 10000 Hz about 1 dB is lost. *)
Theorem C63_partial_level_refuted : forall ifft pitch i w, is_inverse_dft ifft -> 0 < pitch -> let N := wave_length (top pitch) in (0 < i)%nat -> (15 * N <= 64 * i)%nat -> (4 * i <= N)%nat -> pitch * INR i <= 20000 ->
  make_waveR ifft pitch (fun _ => 0) (only i) = Val w -> length w = N /\
  forall n, (n < N)%nat -> nth n w 0 = sin (2 * PI * (INR i * INR n / INR N)) /\ Rabs (sample w (INR n / INR N)) <= 0.652 * Rabs (nth n w 0) + 1 / 2000.
Proof. exact dull_partial. Qed.
Print Assumptions C63_partial_level_refuted.
Example C63_partial_level_refuted_case : top 1300 = 16%nat /\ wave_length 16 = 64%nat /\ 1300 * INR 15 <= 20000. Proof. exact dull_case. Qed.
