(* C78. *)
From Coq Require Import Reals Lra Lia.
From Verif Require Import MathNoise SoundProofs SoundCurves.
From Verif Require Import SoundSpec.
Import ListNotations.
Local Open Scope R_scope.

(* C78: the bass drum is a sinusoid whose frequency is the control signal drum_sweep, times the control signal drum_decay, times the fade-in of declick. The hashes h1, h2 and h3 come from the places of the nodes in the
   expression, and every hash gives this sound. *)
Theorem C78_bassdrum : forall sr h1 h2 h3 sharpness p0 p1 N n, usual sr -> (h1 < 2 ^ 64)%N -> (h2 < 2 ^ 64)%N -> (h3 < 2 ^ 64)%N -> 0 < p0 -> 0 < p1 -> (n < N)%nat ->
  nth n (sound_outputs (bassdrumR sr h1 h2 h3 sharpness p0 p1) (repeat [] N)) [] =
  [sine_of sr h2 (fun k => nth 0 (lfo_of sr h1 1 (fun t => [drum_sweep p0 p1 t]) k) 0) n * nth 0 (lfo_of sr h3 1 (fun t => [drum_decay t]) n) 0 * gain (drum_attack sharpness) (INR n / sr)].
Proof. exact drum_outputs. Qed.
Print Assumptions C78_bassdrum.
(* C78: so it begins with silence, never leaves exp(9/400) in either direction, and decays as exp(-9 t): below a millionth after 1.6 seconds. *)
Theorem C78_bassdrum_decays : forall sr h1 h2 h3 sharpness p0 p1 N n, usual sr -> (h1 < 2 ^ 64)%N -> (h2 < 2 ^ 64)%N -> (h3 < 2 ^ 64)%N -> 0 < p0 -> 0 < p1 -> (n < N)%nat ->
  exists y, nth n (sound_outputs (bassdrumR sr h1 h2 h3 sharpness p0 p1) (repeat [] N)) [] = [y] /\ Rabs y <= exp (- (9 * (INR n / sr - 1 / 400))) /\ (n = 0%nat -> y = 0).
Proof.
  intros sr h1 h2 h3 s p0 p1 N n HS H1 H2 H3 P0 P1 Hn. exists (drum_out sr h1 h2 h3 s p0 p1 n). split; [now apply drum_outputs|]. destruct (drum_bound sr h1 h2 h3 s p0 p1 n HS H3) as [A B]. split; [exact A|]. intros ->. exact B.
Qed.
Print Assumptions C78_bassdrum_decays.
(* C78: its frequency is between the two pitches, apart from a fall of 10 Hz in a second, and exactly on the second one from 22.5 ms on. *)
Theorem C78_bassdrum_pitch : forall sr h p0 p1 n, usual sr -> (h < 2 ^ 64)%N -> 0 < p0 -> 0 < p1 -> let t := INR n / sr in let f := nth 0 (lfo_of sr h 1 (fun t => [drum_sweep p0 p1 t]) n) 0 in
  Rmin p0 p1 <= f + 10 * t <= Rmax p0 p1 /\ (9 / 400 <= t -> f = p1 - 10 * t).
Proof. exact drum_frequency. Qed.
Print Assumptions C78_bassdrum_pitch.
Example C78_bassdrum_example : usual 44100 /\ drum_sweep 180 60 0 = 180 /\ drum_sweep 180 60 1 = 50 /\ drum_attack 0 = 2 / 1000 /\ drum_attack 1 = 2 / 100000.
Proof.
  unfold usual, drum_sweep, drum_attack. rewrite Rmult_0_r, (Rmin_right 1 0), (Rmax_left 0 0), Rpower_O by lra. rewrite (Rmin_left 1 (50 * 1)), (Rmax_right 0 1), Rpower_1 by lra. rewrite Rpower_O, Rpower_1 by lra. lra.
Qed.

(* C78: the glissando is the sum of forty sinusoids, panned from the middle of the left to the middle of the right, whose amplitudes and frequencies are the control signals `gliding`. *)
Theorem C78_risset : forall sr he hs up N n, usual sr -> (forall i, (he i < 2 ^ 64)%N) -> (forall i, (hs i < 2 ^ 64)%N) -> (n < N)%nat -> exists x, rissetR sr he hs up = Some x /\
  let control i := lfo_of sr (he i) 2 (gliding up i) in
  let voice i := nth 0 (control i n) 0 * sine_of sr (hs i) (fun k => nth 1 (control i k) 0) n in
  nth n (sound_outputs x (repeat [] N)) [] = [1 / 10 * sum_to (fun i => to_left (place i) * voice i) 40; 1 / 10 * sum_to (fun i => to_right (place i) * voice i) 40].
Proof. exact risset_outputs. Qed.
Print Assumptions C78_risset.
(* C78: it never ends and never leaves the range of hearing: after 2.5 seconds each voice is where the next one was, the last taking the place of the first, and after 100 seconds all are back. On their way, voices move by an octave in ten
   seconds, up or down. At any time, there are four in each of the ten octaves. *)
Theorem C78_endless : forall t, 0 <= t ->
  (forall i, 0 <= position i t < 1 /\ position i (t + 5 / 2) = position (S i) t /\ position (i + 40) t = position i t /\ position i (t + 100) = position i t /\
    (forall d, 0 <= d -> position i t + d / 100 < 1 -> position i (t + d) = position i t + d / 100)) /\
  (forall k, (k < 10)%nat -> exists l, NoDup l /\ length l = 4%nat /\ forall i, In i l <-> (i < 40)%nat /\ INR k / 10 <= position i t < INR (k + 1) / 10).
Proof. intros t _. split; [|intros k; exact (spread_out t k)]. intros i. split; [exact (position_unit i t)|exact (handover i t)]. Qed.
Print Assumptions C78_endless.
Theorem C78_voices : forall up i t, 0 <= t -> (i < 40)%nat -> let p := position i t in
  (exists a f, gliding up i t = [a; f] /\ 0 <= a /\ 19 <= f <= 20481 /\ Rabs (f - pitch_at up p) <= 1 /\ a * a_weightR f = swell p) /\
  pitch_at true (p + 1 / 10) = 2 * pitch_at true p /\ pitch_at false (p + 1 / 10) = pitch_at false p / 2 /\ 20 <= pitch_at up p <= 20480 /\
  0 <= swell p <= 1 /\ swell p <= 3 * (PI * p) ^ 2 /\ swell p <= 3 * (PI * (1 - p)) ^ 2.
Proof.
  intros up i t _ H p. pose proof (position_unit i t) as P. fold p in P. split; [exact (gliding_facts up i t H)|]. destruct (pitch_octave p) as [O1 O2]. split; [exact O1|]. split; [exact O2|].
  split; [apply pitch_range; lra|]. destruct (swell_facts p ltac:(lra)) as (A & B & C & _). split; [exact A|]. split; [exact B|exact C].
Qed.
Print Assumptions C78_voices.
Example C78_voices_example : swell (1 / 2) = 1 /\ pitch_at true 0 = 20 /\ pitch_at true 1 = 20480 /\ pitch_at false 0 = 20480 /\ pitch_at false 1 = 20 /\ place 0 = - (1 / 2) /\ place 39 = 1 / 2.
Proof. split; [apply (swell_facts 0); lra|]. destruct pitch_ends as (A & B & C & D). split; [exact A|]. split; [exact B|]. split; [exact C|]. split; [exact D|]. unfold place. cbn [INR]. lra. Qed.

(* C78: the loudness curves are normalized at 1 kHz, and are never zero or undefined at a frequency that sounds; a_weight has no peak above 1.26. dissonance_max finds the most dissonant frequency above f: its dissonance with f is within
   1/100000 of 1, which no dissonance exceeds. *)
Theorem C78_weights : Rabs (a_weightR 1000 - 1) <= 1 / 1000000 /\ Rabs (m_weightR 1000 - 1) <= 1 / 1000000 /\ a_weightR 0 = 0 /\
  (forall f, f <> 0 -> 0 < a_weightR f < 126 / 100) /\ (forall f, a_weightR (- f) = a_weightR f) /\ (forall f, 0 < f -> 0 < m_weightR f).
Proof. split; [exact a_weight_1k|]. split; [exact m_weight_1k|]. split; [exact a_weight_0|]. split; [exact a_weight_pos|]. split; [exact a_weight_even|exact m_weight_pos]. Qed.
Print Assumptions C78_weights.
Theorem C78_dissonance_max : forall f g, 0 <= f -> 0 <= g -> let d := dissonance Rnum_ops exp f in
  f < dissonance_max Rnum_ops f /\ 99999 / 100000 <= d (dissonance_max Rnum_ops f) /\ d g <= 1.
Proof. intros f g Hf Hg d. destruct (dissonance_peak f Hf) as [A B]. split; [exact A|]. split; [exact B|]. apply dissonance_range; assumption. Qed.
Print Assumptions C78_dissonance_max.
Example C78_dissonance_max_example : dissonance_max Rnum_ops 440 = 4659592 / 10000.
Proof. unfold dissonance_max. cbn [nadd nmul ndiv nofZ Rnum_ops]. lra. Qed.

(* C78: the control signals that gen_lfo makes stay within 0...1, for all choices of the Dna. *)
Theorem C78_gen_lfo : forall sr h n hash64a hash64g seed f o, usual sr -> (h < 2 ^ 64)%N -> (forall s, (hash64a s < 2 ^ 64)%N) ->
  0 <= nth 0 (lfo_of sr h 1 (fun t => [slow_sine Rnum_ops sin (2 * PI) f o t]) n) 0 <= 1 /\ 0 <= nth 0 (lfo_of sr h 1 (fun t => [slow_noise Rnum_ops hash64a hash64g seed f t]) n) 0 <= 1.
Proof. intros sr h n ha hg seed f o HS H W. split; apply lfo_range; try assumption; intros t _; destruct (slow_range ha hg seed f o t W) as [A B]; assumption. Qed.
Print Assumptions C78_gen_lfo.
Example C78_gen_lfo_example : slow_sine Rnum_ops sin (2 * PI) 1 (1 / 4) 0 = 1.
Proof. unfold slow_sine, sin_hz. cbn [nadd nmul ndiv nofZ Rnum_ops]. change (n1 Rnum_ops) with 1. replace ((0 + 1 / 4) * 1 * (2 * PI)) with (PI / 2) by field. rewrite sin_PI2. lra. Qed.
