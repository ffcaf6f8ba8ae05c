(* C62: oscillators. Definitions are in OscModel.v (the code) and OscSpec.v, OscFloatSpec.v (what they should do). *)
From Coq Require Import Reals Lra Lia SpecFloat.
From Verif Require Import OscString OscFloat.
Local Open Scope R_scope.

(* A sine oscillator that starts at a phase of 0 to 1 puts out the sine of the phase plus the periods that have passed, for all frequencies at its input. *)
Theorem C62_sine : forall (s : oscR) l n, 0 <= os_phase s < 1 -> (n < length l)%nat ->
  nth n (snd (osc_run sine_tickR s l)) 0 = sin (2 * PI * (os_phase s + turns (os_sd s) (firstn n l))).
Proof. intros s l n. exact (sine_output l s n). Qed.
Print Assumptions C62_sine.
(* Processing blocks of any sizes gives the samples and the state that ticks give. *)
Theorem C62_sine_blocks : forall bs (s : oscR), 0 <= os_phase s < 1 -> osc_blocks sine_processR s bs = osc_run sine_tickR s (concat bs).
Proof. exact sine_all_blocks. Qed.
Print Assumptions C62_sine_blocks.
(* A ramp puts out the fractional part of the same. *)
Theorem C62_ramp : forall (s : oscR) l n, 0 <= os_phase s < 1 -> (n < length l)%nat -> nth n (snd (osc_run ramp_tickR s l)) 0 = frac (os_phase s + turns (os_sd s) (firstn n l)).
Proof. intros s l n. exact (ramp_output l s n). Qed.
Print Assumptions C62_ramp.
(* Saw: between -1 and 1 up to the sample rate, and the saw with jumps except within a sample of a jump. *)
Theorem C62_saw : forall (s : oscR) l n f, 0 <= os_phase s < 1 -> nth_error l n = Some f ->
  let p := frac (os_phase s + turns (os_sd s) (firstn n l)) in let y := nth n (snd (osc_run saw_tickR s l)) 0 in
  (f * os_sd s <= 1 -> -1 <= y <= 1) /\ (far_from (f * os_sd s) p 0 -> y = naive_saw p).
Proof. intros s l n f. exact (saw_output l s n f). Qed.
Print Assumptions C62_saw.
(* Square: between -1 and 1 up to half of the sample rate, and the square with jumps except within a sample of a jump. *)
Theorem C62_square : forall (s : oscR) l n f, 0 <= os_phase s < 1 -> nth_error l n = Some f ->
  let p := frac (os_phase s + turns (os_sd s) (firstn n l)) in let y := nth n (snd (osc_run square_tickR s l)) 0 in
  (f * os_sd s <= 1 / 2 -> -1 <= y <= 1) /\ (far_from (f * os_sd s) p 0 -> far_from (f * os_sd s) p (1 / 2) -> y = naive_pulse (1 / 2) p).
Proof. intros s l n f. exact (square_output l s n f). Qed.
Print Assumptions C62_square.
(* Pulse: the same, with the width at the second input. *)
Theorem C62_pulse : forall (s : oscR) l n f w, 0 <= os_phase s < 1 -> nth_error l n = Some (f, w) ->
  let p := frac (os_phase s + turns (os_sd s) (map fst (firstn n l))) in let y := nth n (snd (osc_run pulse_tickR s l)) 0 in
  (f * os_sd s <= 1 / 2 -> 0 <= w <= 1 -> -1 <= y <= 1) /\ (far_from (f * os_sd s) p 0 -> far_from (f * os_sd s) p w -> y = naive_pulse w p).
Proof. intros s l n f w. exact (pulse_output l s n f w). Qed.
Print Assumptions C62_pulse.
(* Reset starts at a phase of 0 to 1: the one that was set, or one that depends on nothing but the hash. *)
Theorem C62_reset : forall s : oscR, (os_hash s < 2 ^ 64)%N -> (forall p, os_init s = Some p -> 0 <= p < 1) -> 0 <= os_phase (osc_reset Rnum_ops s) < 1 /\
  forall s' : oscR, os_hash s' = os_hash s -> os_init s' = os_init s -> os_phase (osc_reset Rnum_ops s') = os_phase (osc_reset Rnum_ops s).
Proof. intros s H P. split; [now apply start_phase|]. intros s' E1 E2. unfold osc_reset. cbn [os_phase]. now rewrite E1, E2. Qed.
Print Assumptions C62_reset.
(* Setting the phase changes nothing until reset, and then the oscillator starts there, whatever its hash. *)
Theorem C62_set_phase : forall (s : oscR) p l h, snd (osc_run sine_tickR (osc_set_phase idR s p) l) = snd (osc_run sine_tickR s l) /\ snd (osc_run saw_tickR (osc_set_phase idR s p) l) = snd (osc_run saw_tickR s l) /\
  os_phase (osc_reset Rnum_ops (fst (osc_run sine_tickR (osc_set_phase idR s p) l))) = p /\ os_phase (osc_set_hash Rnum_ops (osc_set_phase idR s p) h) = p.
Proof.
  intros s p l h. split; [now rewrite set_phase_later|]. split; [now rewrite set_phase_later|]. split; [now rewrite set_phase_later|reflexivity].
Qed.
Print Assumptions C62_set_phase.
(* frequencies of 441 and 4410 Hz and a negative one, at 44100 Hz *)
Example C62_sine_case : let s := mkOsc (1 / 4) (1 / 44100) 0 None in 0 <= os_phase s < 1 /\ turns (os_sd s) [441; 4410; -4410] = 1 / 100.
Proof. cbn. split; lra. Qed.
Example C62_saw_case : let s := mkOsc (1 / 4) (1 / 44100) 0 None in far_from (4410 * os_sd s) (frac (os_phase s + turns (os_sd s) (firstn 1 [4410; 4410]))) 0.
Proof.
  cbn [firstn turns os_sd os_phase]. unfold far_from. replace (1 / 4 + (4410 * (1 / 44100) + 0)) with (7 / 20) by lra. rewrite (frac_id (7 / 20)) by lra. rewrite Rminus_0_r, frac_id by lra. lra.
Qed.

(* The summation formula oscillator with spacing 1 + k puts out the sum of partials with frequencies f (1 + i (1 + k)) and amplitudes r ^ i, of i from 0 to floor (22050 / f / (1 + k)).
   Hence it is at most 1 / (1 - r). Here s is the state at the start and l is all that came before. *)
Theorem C62_dsf : forall (s : dsfs R) l f r k, rough_ok (ds_rough s) -> ds_spacing s = INR (S k) -> 0 < f ->
  let s' := dsf_after s l in let r' := match r with Some r => clamp Rnum_ops (1 / 10000) (9999 / 10000) r | None => ds_rough s' end in
  let x := 2 * PI * (ds_phase s + turns (ds_sd s) (map fst l ++ [f])) in
  exists n, INR n <= 22050 / f / INR (S k) < INR n + 1 /\ snd (dsf_tickR s' f r) = partials r' x (x * INR (S k)) n /\ Rabs (snd (dsf_tickR s' f r)) <= 1 / (1 - r') /\ rough_ok r'.
Proof. exact dsf_output. Qed.
Print Assumptions C62_dsf.
(* Roughness is limited by all ways to set it. *)
Theorem C62_roughness : forall (s : dsfs R) r, rough_ok (ds_rough (set_roughness Rnum_ops s r)).
Proof. intros s r. apply rough_clamped. Qed.
Print Assumptions C62_roughness.
Example C62_dsf_case : let s := mkDsf (1 / 4) (1 / 2) 2 (1 / 44100) 0 None in rough_ok (ds_rough s) /\ ds_spacing s = INR 2.
Proof. cbn. unfold rough_ok. lra. Qed.
(* The documentation of the formula says `0..n`. The sum has the term of n, too, for all arguments; it is not the sum without it. *)
Theorem C62_dsf_count_refuted : (forall r f d n, 0 < r < 1 -> dsfR f d r (INR n) = partials r f d n) /\ exists r f d n, 0 < r < 1 /\ dsfR f d r (INR (S n)) <> partials r f d n.
Proof.
  split; [intros; now apply dsf_sum|]. exists (1 / 2), (PI / 2), 0, 0%nat. split; [lra|]. rewrite dsf_sum by lra. unfold partials. cbn [total INR pow]. rewrite !Rmult_0_l, !Rplus_0_r, !Rmult_0_r, Rplus_0_r, sin_PI2. lra.
Qed.
Print Assumptions C62_dsf_count_refuted.
(* The highest partial is meant to be below 22050 Hz. The highest partial of the saw is above, for all frequencies. *)
Theorem C62_dsf_top_refuted : forall f n, 0 < f -> INR n <= 22050 / f / INR 1 < INR n + 1 -> f * (1 + INR n * INR 1) > 22050.
Proof. intros f n H B. change (INR 1) with 1 in *. rewrite Rmult_1_r. apply dsf_top; auto. replace (22050 / f) with (22050 / f / 1) by (field; lra). exact B. Qed.
Print Assumptions C62_dsf_top_refuted.
Example C62_dsf_top_case : 0 < 441 /\ INR 50 <= 22050 / 441 / INR 1 < INR 50 + 1.
Proof. rewrite !INR_IZR_INZ. cbn. lra. Qed.
(* At frequency 0 an oscillator should stay where it is. The summation formula oscillator, in binary32, puts out NaN in all states, for all functions sin that are NaN at infinity and NaN. *)
Theorem C62_dsf_zero_refuted : forall sin_ cos_ pow_ tau floor_ (s : dsfs f32) rough, sin_ S754_nan = S754_nan -> (forall b, sin_ (S754_infinity b) = S754_nan) ->
  floor_ (S754_infinity false) = S754_infinity false -> (exists m e, ds_spacing s = S754_finite false m e) -> snd (dsf_tick f32_ops sin_ cos_ pow_ tau floor_ s (S754_zero false) rough) = S754_nan.
Proof. exact dsf_nan. Qed.
Print Assumptions C62_dsf_zero_refuted.
Example C62_dsf_zero_case : exists m e, nofZ f32_ops 2 = S754_finite false m e. Proof. do 2 eexists. vm_compute. reflexivity. Qed.

(* A plucked string of at most sample rate / 2.2 never panics, and satisfies the recurrence of a string: what comes out goes through a line, a gain, a damping filter and a tuning filter and is added to the input.
   The delays of line, damping filter and tuning filter add up to one period; the line starts with no DC, and the gain for a second is what was asked for. *)
Theorem C62_pluck : forall draw sr f g d l, 0 < f -> 11 / 5 <= sr / f -> exists s o exc eta, pluck_runR draw (pluck_newR sr f g d) l = Some (s, o) /\
  is_string (Rpower g (1 / f)) (d / 4, 1 - d / 2, d / 4) eta exc l o /\ -1 < eta < 1 /\ INR (length exc) + 1 + (1 - eta) / (1 + eta) = sr / f /\ total (length exc) (fun i => nth i exc 0) = 0.
Proof. exact pluck_new_string. Qed.
Print Assumptions C62_pluck.
Theorem C62_pluck_gain : forall sr f g d : R, 0 < f -> 0 < g -> Rpower (pl_gain (pluck_newR sr f g d)) f = g.
Proof. exact pluck_gain. Qed.
Print Assumptions C62_pluck_gain.
(* After reset it plays what a new string plays. *)
Theorem C62_pluck_reset : forall draw sr f g d l0 s o l, 0 < f -> 11 / 5 <= sr / f -> pluck_runR draw (pluck_newR sr f g d) l0 = Some (s, o) ->
  option_map snd (pluck_runR draw (pluck_resetR s) l) = option_map snd (pluck_runR draw (pluck_newR sr f g d) l).
Proof. exact pluck_reset_string. Qed.
Print Assumptions C62_pluck_reset.
Example C62_pluck_case : 0 < 441 /\ 11 / 5 <= 44100 / 441. Proof. lra. Qed.
(* A node should not panic on a frequency below half of the sample rate. A string of more than sample rate / 2.2 panics in its first sample, whatever its input and its other parameters. *)
Theorem C62_pluck_high_refuted : (forall draw sr f g d x l, 0 < f -> sr / f < 11 / 5 -> pluck_runR draw (pluck_newR sr f g d) (x :: l) = None) /\ exists sr f : R, 0 < f < sr / 2 /\ sr / f < 11 / 5.
Proof. split; [exact pluck_high|]. exists 44100, 21000. lra. Qed.
Print Assumptions C62_pluck_high_refuted.

(* The dynamical systems should stay bounded. At 4000 Hz and a sample rate of 44100 Hz, 24 samples after they start (with hash 0) they put out NaN, and they do so forever, at all frequencies. *)
Theorem C62_chaos_refuted : forall l f, snd (rossler_tick f32_ops (chaos_run (rossler_tick f32_ops) rossler_start (repeat (nofZ f32_ops 4000) 24 ++ l)) f) = S754_nan /\
  snd (lorenz_tick f32_ops (chaos_run (lorenz_tick f32_ops) rossler_start (repeat (nofZ f32_ops 4000) 24 ++ l)) f) = S754_nan.
Proof. intros l f. split; [apply rossler_nan|apply lorenz_nan]. Qed.
Print Assumptions C62_chaos_refuted.
(* An oscillator of positive frequency should run. In binary32, at a phase of 1/2 to 1 and a frequency of less than 2^-25 of the sample rate, its state never changes again. *)
Theorem C62_still_refuted : forall sin_ tau l (s : osc f32), fin32 (os_phase s) -> 1 / 2 <= real (os_phase s) < 1 -> Forall (slow (os_sd s)) l ->
  fst (osc_run (sine_tick f32_ops f32_ops (fun x => x) (fun x => x) sin_ tau) s l) = s /\ fst (osc_run (ramp_tick f32_ops (fun x => x) (fun x => x)) s l) = s.
Proof. intros sin_ tau l s F P H. split; apply osc_still; auto. Qed.
Print Assumptions C62_still_refuted.
(* 0.001 Hz at 44100 Hz *)
Example C62_still_case : slow (ndiv f32_ops (n1 f32_ops) (nofZ f32_ops 44100)) (ndiv f32_ops (n1 f32_ops) (nofZ f32_ops 1000)).
Proof.
  unfold slow. replace (nmul f32_ops _ _) with (S754_finite false 12765305 (-49)) by (vm_compute; reflexivity). split; [split; reflexivity|]. unfold real, BinarySingleNaN.SF2R, Defs.F2R. cbn. lra.
Qed.
(* Processing a block should leave the state that ticks leave. In binary32 it does not: here the block has 8 samples of 5000 Hz. *)
Theorem C62_block_refuted : exists (s : osc f32) l, forall sin_ tau, let id := fun x : f32 => x in
  os_phase (fst (sine_process f32_ops f32_ops id id sin_ tau s l)) <> os_phase (fst (osc_run (sine_tick f32_ops f32_ops id id sin_ tau) s l)).
Proof.
  exists (mkOsc (ndiv f32_ops (n1 f32_ops) (nofZ f32_ops 3)) (ndiv f32_ops (n1 f32_ops) (nofZ f32_ops 44100)) 0 None), (repeat (nofZ f32_ops 5000) 8). intros sin_ tau. vm_compute. discriminate.
Qed.
Print Assumptions C62_block_refuted.
