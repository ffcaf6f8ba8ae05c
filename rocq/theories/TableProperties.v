(* C63: wavetable synthesis. Definitions are in TableModel.v (the code) and TableSpec.v (what it should do). *)
From Coq Require Import Reals Lra Lia SpecFloat.
From Verif Require Import OscProofs TableProofs TableBuild TableFloat TableCases.
From Verif Require Import OverSpec TableSpec.
Local Open Scope R_scope.

(* Reading at a frequency blends the tables that belong to it, whichever table was used last, and never fails. *)
Theorem C63_read : forall tb hint f phase, tables_ok tb -> (hint <= length tb - 3)%nat -> 0 <= phase < 1 -> exists r, (r <= length tb - 3)%nat /\ readR tb hint f phase = Val (level tb f phase, r).
Proof. exact read_any_hint. Qed.
Print Assumptions C63_read.
(* Between its points, the interpolation follows straight lines closely, and it is the same in both directions. *)
Theorem C63_interpolation : (forall a b x, 0 <= x <= 1 -> Rabs (optimal4x44 Rnum_ops (a - b) a (a + b) (a + 2 * b) x - (a + b * x)) <= (Rabs a + Rabs b) / 1000) /\
  forall a b c d x, optimal4x44 Rnum_ops d c b a (1 - x) = optimal4x44 Rnum_ops a b c d x.
Proof. exact (conj interpolates_line interpolates_mirrored). Qed.
Print Assumptions C63_interpolation.
Example C63_read_case : tables_ok three_tables /\ (0 <= length three_tables - 3)%nat.
Proof. exact (conj three_tables_ok (le_n _)). Qed.
(* No partial sounds above 22000 Hz up to the pitch of the last table: the tables that are heard at frequency f have so few partials. *)
Theorem C63_bandlimited : forall tb f phase, tables_ok tb -> 0 < fst (nth 0 tb (0, [])) -> 0 <= f <= fst (nth (length tb - 1) tb (0, [])) ->
  exists j w, (j + 1 < length tb)%nat /\ 0 <= w <= 1 /\
    level tb f phase = (1 - w) * sample (snd (nth j tb (0, []))) phase + w * sample (snd (nth (j + 1) tb (0, []))) phase /\
    forall k, (w <> 1 /\ (k <= top (fst (nth j tb (0%R, []))))%nat) \/ (k <= top (fst (nth (j + 1) tb (0%R, []))))%nat -> f * INR k <= 22000.
Proof. exact band_limit. Qed.
Print Assumptions C63_bandlimited.
Example C63_bandlimited_case : tables_ok three_tables /\ 0 < fst (nth 0 three_tables (0, [])) /\ 0 <= 150 <= fst (nth (length three_tables - 1) three_tables (0, [])).
Proof. split; [exact three_tables_ok|]. cbn. lra. Qed.
(* A synthesizer puts out the tables at its frequency and phase, and the phase, which is its first phase plus the periods that have passed. *)
Theorem C63_synth : forall tb (s : @synth R) l, tables_ok tb -> (sy_hint s <= length tb - 3)%nat -> exists s' o, synth_runR tb s l = Val (s', o) /\ length o = length l /\ (sy_hint s' <= length tb - 3)%nat /\
  (forall n f, nth_error l n = Some f -> let p := phase_after s (firstn (S n) l) in nth_error o n = Some (level tb (Rabs f) p, p)).
Proof. exact synth_output. Qed.
Print Assumptions C63_synth.
Example C63_synth_case : tables_ok three_tables /\ (sy_hint (synth_new Rnum_ops 44100%R) <= length three_tables - 3)%nat.
Proof. exact (conj three_tables_ok (le_n _)). Qed.
(* After a change of the sample rate, also while it plays, it goes on from the phase it had reached, and a frequency of f adds f / sr to the phase with each sample. *)
Theorem C63_rate : forall tb (s s1 : @synth R) before o1 sr l, tables_ok tb -> (sy_hint s <= length tb - 3)%nat -> before <> [] -> synth_runR tb s before = Val (s1, o1) ->
  exists s' o, synth_runR tb (synth_set_sr Rnum_ops s1 sr) l = Val (s', o) /\ length o = length l /\
  (forall n f, nth_error l n = Some f -> let p := frac (phase_after s before + turns (1 / sr) (firstn (S n) l)) in nth_error o n = Some (level tb (Rabs f) p, p)).
Proof. exact rate_changed. Qed.
Print Assumptions C63_rate.
Example C63_rate_case : exists s1 o1, synth_runR three_tables (synth_new Rnum_ops 44100) [440] = Val (s1, o1).
Proof. destruct (synth_output three_tables (synth_new Rnum_ops 44100) [440] three_tables_ok (le_n _)) as (s1 & o1 & H & _). exists s1, o1. exact H. Qed.
(* A reset returns to the first phase, set or pseudorandom: what was played before is not heard. *)
Theorem C63_reset : forall tb rnd (s s1 : @synth R) l o1 l', tables_ok tb -> (sy_hint s <= length tb - 3)%nat -> synth_runR tb s l = Val (s1, o1) ->
  exists s2 s3 o, synth_runR tb (synth_reset rnd s1) l' = Val (s2, o) /\ synth_runR tb (synth_reset rnd s) l' = Val (s3, o).
Proof. exact reset_forgets. Qed.
Print Assumptions C63_reset.
Theorem C63_set_phase : forall tb rnd (s : @synth R) p f l, tables_ok tb -> (sy_hint s <= length tb - 3)%nat ->
  exists s' y o, synth_runR tb (synth_reset rnd (synth_set_phase s p)) (f :: l) = Val (s', (y, frac (p + f * sy_sd s)) :: o).
Proof. exact set_phase_heard. Qed.
Print Assumptions C63_set_phase.
(* Processing a block gives the samples and the state that ticks give, if each word of 8 samples has one frequency and no phase is within 10^-7 below an integer.
   Missing: all other blocks, of which it is false (next two theorems). *)
Theorem C63_blocks_partial : forall tb (s : @synth R) l, tables_ok tb -> 0 <= sy_phase s < 1 -> (sy_hint s <= length tb - 3)%nat -> steady (length l / 8) l -> clear_of_end s l ->
  synth_processR tb s l = synth_runR tb s l.
Proof. intros tb s l ok. exact (process_ok tb ok l s). Qed.
Print Assumptions C63_blocks_partial.
Example C63_blocks_case : 0 <= sy_phase (synth_new Rnum_ops 64) < 1 /\ steady (length (repeat 2 16) / 8) (repeat 2 16) /\ clear_of_end (synth_new Rnum_ops 64) (repeat 2 16).
Proof. exact blocks_case. Qed.
(* In a block a synthesizer chooses the tables of 8 samples by the first of their frequencies: if the frequency changes within them it puts out other samples than ticks do
   (here, with binary32 numbers, less than a third; if the frequency rises it plays partials above 22000 Hz). *)
Theorem C63_blocks_refuted : exists tb s l x y, heard (synth_run f32_ops tb s l) 1 = Some x /\ heard (synth_process f32_ops tb s l) 1 = Some y /\ nltb f32_ops (nmul f32_ops (fst y) (f32c 3)) (fst x) = true.
Proof. exists four, at_rest, sweep. exact sweep_differs. Qed.
Print Assumptions C63_blocks_refuted.
(* The phase output is documented to be in 0...1. In blocks it can be negative: the floor of a vector of numbers is that of the next integer for numbers just below it. *)
Theorem C63_phase_range_refuted : exists tb s l x y, heard (synth_run f32_ops tb s l) 0 = Some x /\ heard (synth_process f32_ops tb s l) 0 = Some y /\ (nleb f32_ops (n0 f32_ops) (snd x) && nltb f32_ops (snd y) (n0 f32_ops))%bool = true.
Proof. exists four, near_end, (repeat (n1 f32_ops) 8). exact phase_negative. Qed.
Print Assumptions C63_phase_range_refuted.
(* A synthesizer driven by phase reads at the fractional part of its input, at the frequency of the distance on the circle from the last phase, which is at most half the sample rate; at half the sample rate at first. *)
Theorem C63_phase_synth : forall tb (s : @psynth R) l, tables_ok tb -> (ps_hint s <= length tb - 3)%nat -> 0 <= ps_phase s < 1 -> exists s' o, psynth_runR tb s l = Val (s', o) /\ (ps_hint s' <= length tb - 3)%nat /\ 0 <= ps_phase s' < 1 /\ length o = length l /\
  forall n x, nth_error l n = Some x -> exists c, 0 <= c <= 1 / 2 /\ nth_error o n = Some (level tb (c * ps_sr s) (frac x)) /\
    (n = 0%nat -> ps_ready s = false -> c = 1 / 2) /\ (n = 0%nat -> ps_ready s = true -> c = circular (frac x) (ps_phase s)) /\ (forall m x', n = S m -> nth_error l m = Some x' -> c = circular (frac x) (frac x')).
Proof. exact phase_synth_output. Qed.
Print Assumptions C63_phase_synth.
Theorem C63_phase_reset : forall tb (s s1 : @psynth R) l o1 l', tables_ok tb -> (ps_hint s <= length tb - 3)%nat -> 0 <= ps_phase s < 1 -> psynth_runR tb s l = Val (s1, o1) ->
  exists s2 s3 o, psynth_runR tb (psynth_reset s1) l' = Val (s2, o) /\ psynth_runR tb (psynth_reset s) l' = Val (s3, o).
Proof. exact phase_reset_forgets. Qed.
Print Assumptions C63_phase_reset.
(* A pulse wave is the difference of two saw waves, one of them ahead by the width. *)
Theorem C63_pulse : forall tb (s1 : @synth R) (s2 : @psynth R) f w, tables_ok tb -> (sy_hint s1 <= length tb - 3)%nat -> (ps_hint s2 <= length tb - 3)%nat -> 0 <= ps_phase s2 < 1 ->
  let p := frac (sy_phase s1 + f * sy_sd s1) in let q := frac (p + w) in exists h1 h2, (h1 <= length tb - 3)%nat /\ (h2 <= length tb - 3)%nat /\
  pulsewave_tick Rnum_ops tb (s1, s2) (f, w) = Val (synth_at s1 p h1, mkPsynth q true h2 (ps_sr s2), level tb (Rabs f) p - level tb (psynth_freqs (if ps_ready s2 then Some (ps_phase s2) else None) q * ps_sr s2) q).
Proof. exact pulsewave_ok. Qed.
Print Assumptions C63_pulse.
Example C63_pulse_case : 0 <= ps_phase (psynth_new Rnum_ops 44100) < 1. Proof. cbn. lra. Qed.
(* A frequency that is not a number is undefined behaviour for every table and state: the phase becomes NaN, which is converted to an index by an unsafe function that requires it to be in range
   ("we know phase is in 0...1"). No function that the caller uses is unsafe. *)
Theorem C63_nan_refuted : forall (tb : list (spec_float * list spec_float)) s, (3 <= length tb)%nat -> (sy_hint s < length tb)%nat -> synth_tick f32_ops tb s S754_nan = Undefined.
Proof. exact synth_nan. Qed.
Print Assumptions C63_nan_refuted.
(* A new wavetable has pitches each a factor above the last, tables of 4 times as many samples as partials, filled with the partials, all scaled so that the largest sample is 1. *)
Theorem C63_tables : forall ifft fuel mn mx per phase amplitude tb, is_inverse_dft ifft -> 0 < mn -> 0 < per -> table_newR ifft fuel mn mx per phase amplitude = Val tb ->
  pitches tb mn (Rpower 2 (1 / per)) mx /\ sized tb /\ filled tb (partials phase amplitude) /\ normal tb.
Proof. exact table_new_ok. Qed.
Print Assumptions C63_tables.
Example C63_tables_case : is_inverse_dft idft. Proof. exact idft_ok. Qed.
(* It is always finished, without panic if the lowest pitch is above 22000/8192 Hz; and it can be played if the pitches have room for 3 tables. *)
Theorem C63_builds : forall ifft mn mx per phase amplitude, is_inverse_dft ifft -> 0 < mn -> 0 < per -> exists n r, r <> Undefined /\ (forall fuel, (n <= fuel)%nat -> table_newR ifft fuel mn mx per phase amplitude = r) /\
  (22000 < mn * INR (2 ^ 13) -> exists tb, r = Val tb /\ (mn * Rpower 2 (1 / per) ^ 2 <= mx -> tables_ok tb)).
Proof. exact table_new_builds. Qed.
Print Assumptions C63_builds.
Example C63_builds_case : 22000 < 20 * INR (2 ^ 13) /\ 20 * Rpower 2 (1 / 4) ^ 2 <= 20000. Proof. exact builds_case. Qed.
(* A lower pitch than 22000/8192 Hz panics if partial 8192 has an amplitude: there are more partials than samples. *)
Theorem C63_low_pitch_refuted : forall ifft fuel mn mx per phase amplitude, 0 < mn -> mn * INR (2 ^ 13) < 22000 -> mn <= mx -> 0 < amplitude mn (2 ^ 13)%nat -> table_newR ifft (S fuel) mn mx per phase amplitude = Panics.
Proof. exact table_new_panics. Qed.
Print Assumptions C63_low_pitch_refuted.
Example C63_low_pitch_case : 2 * INR (2 ^ 13) < 22000 /\ 0 < saw_amplitude Rnum_ops 2 (2 ^ 13)%nat. Proof. exact low_pitch_case. Qed.
(* If the number of tables per octave leaves room for only one or two tables, the wavetable is made but every attempt to play it panics. *)
Theorem C63_few_tables_refuted : forall ifft fuel mn mx per phase amplitude tb, is_inverse_dft ifft -> 0 < mn -> 0 < per -> mx < mn * Rpower 2 (1 / per) ^ 2 -> table_newR ifft fuel mn mx per phase amplitude = Val tb ->
  forall s f, synth_tick Rnum_ops tb s f = Panics \/ synth_tick Rnum_ops tb s f = Undefined.
Proof. exact few_tables. Qed.
Print Assumptions C63_few_tables_refuted.
Example C63_few_tables_case : 20000 < 20 * Rpower 2 (1 / (1 / 5)) ^ 2. Proof. exact few_case. Qed.
(* Pitches below 22000/4096 Hz have more partials than half the samples of the largest table, and the upper ones become others: partial i sounds as partial 8192 - i does, with the sign changed. *)
Theorem C63_alias_refuted : forall ifft pitch i, is_inverse_dft ifft -> 0 < pitch -> let n := wave_length (top pitch) in (0 < i < n)%nat -> pitch * INR i <= 20000 -> pitch * INR (n - i) <= 20000 ->
  exists w, make_waveR ifft pitch (fun _ => 0) (only i) = Val w /\ make_waveR ifft pitch (fun _ => 1 / 2) (only (n - i)) = Val w.
Proof. exact alias_wave. Qed.
Print Assumptions C63_alias_refuted.
Example C63_alias_case : wave_length (top 4) = (2 ^ 13)%nat /\ 4 * INR (2 ^ 12 + 2 ^ 9) <= 20000 /\ 4 * INR (2 ^ 13 - (2 ^ 12 + 2 ^ 9)) <= 20000. Proof. exact alias_case. Qed.
(* A wavetable from a wave has the partials of the wave, each a quarter of its period late: sines where the wave has cosines and negative cosines where it has sines. *)
Theorem C63_from_wave : forall ifft rfft norm arg fuel mn mx per x tb, is_inverse_dft ifft -> is_real_dft rfft -> is_polar norm arg -> 0 < mn -> 0 < per -> from_waveR ifft rfft arg norm fuel mn mx per x = Val tb ->
  filled tb (fun pitch t => total (top pitch) (fun i => let k := S i in if Nat.ltb k (length x / 2) then fade (pitch * INR k) * (cosine_part x k * sin (2 * PI * (INR k * t)) - sine_part x k * cos (2 * PI * (INR k * t))) else 0)).
Proof. exact from_wave_filled. Qed.
Print Assumptions C63_from_wave.
Example C63_from_wave_case : is_inverse_dft idft /\ is_real_dft rdft /\ is_polar pnorm parg. Proof. exact (conj idft_ok (conj rdft_ok polar_ok)). Qed.
(* So the wave is not what is played: of the wave 1, 0, -1, 0, whose first sample is its largest, every table starts with 0. *)
Theorem C63_from_wave_refuted : forall ifft rfft norm arg fuel mn mx per tb, is_inverse_dft ifft -> is_real_dft rfft -> is_polar norm arg -> 0 < mn -> mx <= 22000 -> 0 < per ->
  from_waveR ifft rfft arg norm fuel mn mx per [1; 0; -1; 0] = Val tb -> forall k, (k < length tb)%nat -> nth 0 (snd (nth k tb (0, []))) 0 = 0.
Proof. exact from_cosine. Qed.
Print Assumptions C63_from_wave_refuted.
(* The partials of saw, square and triangle *)
Theorem C63_saw : forall pitch t, partials (saw_phase Rnum_ops) (saw_amplitude Rnum_ops) pitch t = total (top pitch) (fun i => let k := S i in (-1) ^ i / INR k * fade (pitch * INR k) * sin (2 * PI * (INR k * t))).
Proof. exact saw_partials. Qed.
Print Assumptions C63_saw.
Theorem C63_square : forall pitch t, partials (square_phase Rnum_ops) (square_amplitude Rnum_ops) pitch t = total (top pitch) (fun i => let k := S i in if Nat.odd k then 1 / INR k * fade (pitch * INR k) * sin (2 * PI * (INR k * t)) else 0).
Proof. exact square_partials. Qed.
Print Assumptions C63_square.
Theorem C63_triangle : forall pitch t, partials (triangle_phase Rnum_ops) (triangle_amplitude Rnum_ops) pitch t =
  total (top pitch) (fun i => let k := S i in if Nat.odd k then (-1) ^ (i / 2) / (INR k * INR k) * fade (pitch * INR k) * sin (2 * PI * (INR k * t)) else 0).
Proof. exact triangle_partials. Qed.
Print Assumptions C63_triangle.
