(* C49: envelopes and the live ADSR. Definitions are in EnvModel.v (the code) and EnvSpec.v (what it should do). *)
From Coq Require Import Reals Lra QArith.
From Verif Require Import EnvExamples.
Local Open Scope R_scope.

(* An envelope of a function of time is, at each sample, on the line between the values of the function at the ends of the segment that the
   sample is in. Segments are 3/4 to 5/4 of the interval long. *)
Theorem C49_envelope_line : forall E ch s n, (forall t, length (E t) = ch) -> fits s ->
  let y := env_at (pure E) (env_reset Rnum_ops idR (pure E) s) n in let b := point (e_int s) (e_hash s) in length y = ch /\
  exists k, in_segment (e_int s) (e_hash s) k (INR n * e_sd s) /\
    forall j, (j < ch)%nat -> nth j y 0 = on_line (b k) (nth j (E (b k)) 0) (b (S k)) (nth j (E (b (S k))) 0) (INR n * e_sd s).
Proof. exact envelope_line. Qed.
Print Assumptions C49_envelope_line.
Theorem C49_segments : forall interval h k, 0 < interval -> (h < 2 ^ 64)%N ->
  point interval h 0 = 0 /\ 3 / 4 * interval <= point interval h (S k) - point interval h k < 5 / 4 * interval.
Proof. intros interval h k H1 H2. split; [reflexivity|exact (point_step interval h k H1 H2)]. Qed.
Print Assumptions C49_segments.
Example C49_envelope_case : fits (env44 tt) /\ forall t : R, length [t; t * t] = 2%nat.
Proof. split; [apply env44_fits|reflexivity]. Qed.

(* Its output stays in the range of the function, is close to a function that does not change fast, and is exact for linear functions. *)
Theorem C49_envelope_range : forall E ch s n j lo hi, (forall t, length (E t) = ch) -> fits s -> (j < ch)%nat ->
  (forall t, 0 <= t -> lo <= nth j (E t) 0 <= hi) ->
  lo <= nth j (env_at (pure E) (env_reset Rnum_ops idR (pure E) s) n) 0 <= hi.
Proof. exact envelope_range. Qed.
Print Assumptions C49_envelope_range.
Example C49_envelope_range_case : forall n, -1 <= nth 0 (env_at (pure (fun t => [sin t])) (env_reset Rnum_ops idR (pure (fun t => [sin t])) (env44 tt)) n) 0 <= 1.
Proof. intros n. apply (C49_envelope_range (fun t => [sin t]) 1); [reflexivity|apply env44_fits|auto|]. intros t _. apply SIN_bound. Qed.
Theorem C49_envelope_close : forall E ch s n j L, (forall t, length (E t) = ch) -> fits s -> (j < ch)%nat ->
  (forall t u, 0 <= t -> 0 <= u -> Rabs (nth j (E t) 0 - nth j (E u) 0) <= L * Rabs (t - u)) ->
  Rabs (nth j (env_at (pure E) (env_reset Rnum_ops idR (pure E) s) n) 0 - nth j (E (INR n * e_sd s)) 0) <= L * (5 / 4 * e_int s).
Proof. exact envelope_close. Qed.
Print Assumptions C49_envelope_close.
Example C49_envelope_close_case : forall t u, 0 <= t -> 0 <= u -> Rabs (nth 0 [3 * t] 0 - nth 0 [3 * u] 0) <= 3 * Rabs (t - u).
Proof. intros t u _ _. cbn [nth]. replace (3 * t - 3 * u) with (3 * (t - u)) by ring. rewrite Rabs_mult, (Rabs_pos_eq 3) by lra. apply Rle_refl. Qed.
Theorem C49_envelope_linear : forall s n a c, fits s ->
  env_at (pure (fun t => [a + c * t])) (env_reset Rnum_ops idR (pure (fun t => [a + c * t])) s) n = [a + c * (INR n * e_sd s)].
Proof. exact envelope_exact. Qed.
Print Assumptions C49_envelope_linear.
Example C49_range_case : (forall t, 0 <= t -> -1 <= nth 0 [sin t] 0 <= 1) /\ env_at (pure (fun t => [1 + 2 * t])) (env_reset Rnum_ops idR (pure (fun t => [1 + 2 * t])) (env44 tt)) 441 = [1 + 2 * (INR 441 * (1 / 44100))].
Proof. split; [intros t _; cbn; apply SIN_bound|]. exact (C49_envelope_linear (env44 tt) 441 1 2 (env44_fits tt)). Qed.

(* An envelope of a function of time and the input is on the line between two results of that function. It is called once for each point, in order; its
   input then is the one of the first sample of the segment that ends at the point. *)
Theorem C49_envelope_input_line : forall C (f : C -> R -> list R -> C * list R) s x n, fits s ->
  let b := point (e_int s) (e_hash s) in let y := sample f (e_st s) x (e_int s) (e_sd s) (e_hash s) in
  exists k, in_segment (e_int s) (e_hash s) k (INR n * e_sd s) /\
    envin_at f (envin_reset Rnum_ops s) x n = zip2 (fun a c => on_line (b k) a (b (S k)) c (INR n * e_sd s)) (y k) (y (S k)).
Proof. exact @envin_line. Qed.
Print Assumptions C49_envelope_input_line.

(* Processing in blocks is ticking, for every control function, stateful or not, and every partition into blocks. *)
Theorem C49_envelope_blocks : forall C (f : C -> R -> C * list R) s bs, fits s ->
  blocks (fun s ins => env_process Rnum_ops Rnum_ops idR f (length ins) s (length ins)) (env_reset Rnum_ops idR f s) bs =
  Some (snd (ticks (fun s (_ : unit) => env_tick Rnum_ops Rnum_ops idR f s) (env_reset Rnum_ops idR f s) (concat bs))).
Proof. exact @env_blocks. Qed.
Print Assumptions C49_envelope_blocks.
Theorem C49_envelope_input_blocks : forall C (f : C -> R -> list R -> C * list R) s bs, fits s ->
  blocks (fun s ins => envin_process Rnum_ops Rnum_ops idR f (length ins) s ins) (envin_reset Rnum_ops s) bs =
  Some (snd (ticks (envin_tick Rnum_ops Rnum_ops idR f) (envin_reset Rnum_ops s) (concat bs))).
Proof. exact @envin_blocks. Qed.
Print Assumptions C49_envelope_input_blocks.
Example C49_blocks_case : fits (env44 (adsr_start Rnum_ops)). Proof. apply env44_fits. Qed.

(* It is not so with binary32 rounding, or with intervals shorter than a sample; with an interval of zero, which can be set, processing does not end. *)
Theorem C49_blocks_float_refuted : exists a b,
  nth 13 (snd (ticks (fun s (_ : unit) => env_tick f32_ops f32_ops (fun x => x) ramp32 s) slow32 (repeat tt 64))) [] = [a] /\
  option_map (fun r => nth 13 (snd r) []) (env_process f32_ops f32_ops (fun x => x) ramp32 64 slow32 64) = Some [b] /\ a <> b.
Proof. exact rounding_differs. Qed.
Print Assumptions C49_blocks_float_refuted.
Theorem C49_blocks_short_refuted : exists a b,
  nth 2 (snd (ticks (fun s (_ : unit) => env_tick Qnum_ops Qnum_ops (fun x => x) jump s) quick (repeat tt 4))) [] = [a] /\
  option_map (fun r => nth 2 (snd r) []) (env_process Qnum_ops Qnum_ops (fun x => x) jump 32 quick 4) = Some [b] /\ ~ (a == b)%Q.
Proof. exact short_differs. Qed.
Print Assumptions C49_blocks_short_refuted.
Theorem C49_zero_interval_refuted : forall C (f : C -> R -> C * list R) s size fuel, size <> 0%nat ->
  env_process Rnum_ops Rnum_ops idR f fuel (set_interval (env_reset Rnum_ops idR f s) 0) size = None.
Proof. exact @zero_interval_hangs. Qed.
Print Assumptions C49_zero_interval_refuted.
(* The sample rate cannot be changed in the middle of a segment: E(t) = t gives 2 sd at time sd + sd'. *)
Theorem C49_rate_change_refuted : forall s sd, fits s -> 0 < sd -> e_sd s + sd < 3 / 4 * e_int s ->
  let r := fst (env_tick Rnum_ops Rnum_ops idR (pure (fun t => [t])) (env_reset Rnum_ops idR (pure (fun t => [t])) s)) in
  let t := fst (env_tick Rnum_ops Rnum_ops idR (pure (fun t => [t])) (set_duration r sd)) in
  e_t t = e_sd s + sd /\ snd (env_tick Rnum_ops Rnum_ops idR (pure (fun t => [t])) t) = [e_sd s + e_sd s].
Proof. exact rate_change_lags. Qed.
Print Assumptions C49_rate_change_refuted.

(* With binary32 times, as in the live ADSR, the time of an envelope that is ticked stops at 512 seconds. From then on the control function is not
   called, and the input has no effect. *)
Theorem C49_clock_stops_refuted : forall C (f : C -> f32 -> list f32 -> C * list f32),
  exists n, forall s, clock s -> forall p x y, (n <= length p)%nat -> length x = length y ->
  let tick := envin_tick f32_ops f32_ops (fun v => v) f in
  e_t (fst (ticks tick s p)) = C512 /\ snd (ticks tick s (p ++ x)) = snd (ticks tick s (p ++ y)) /\ e_st (fst (ticks tick s (p ++ x))) = e_st (fst (ticks tick s p)).
Proof. intros C f. exact (envin_stop f32_ops (fun v => v) f). Qed.
Print Assumptions C49_clock_stops_refuted.
Theorem C49_clock_stops_no_input_refuted : forall C (f : C -> f32 -> C * list f32),
  exists n, forall s, clock s -> forall p x, (n <= p)%nat ->
  let st := fun m => fst (ticks (fun s (_ : unit) => env_tick f32_ops f32_ops (fun v => v) f s) s (repeat tt m)) in
  e_t (st p) = C512 /\ e_st (st (p + x)%nat) = e_st (st p).
Proof. intros C f. exact (env_stop f32_ops (fun v => v) f). Qed.
Print Assumptions C49_clock_stops_no_input_refuted.
Example C49_clock_case : clock (clock44 (adsr_start f32_ops)) /\ real C512 = 512.
Proof. split; [apply clock44_ok|apply real_512]. Qed.

(* The live ADSR: the range of its output, the attack when the control is positive from the start, the sustain level while it stays positive, and silence after release. *)
Theorem C49_adsr_range : forall attack decay sustain release s x n, adsr_ok attack decay sustain release -> fits s -> e_st s = adsr_start Rnum_ops ->
  0 <= adsr_at attack decay sustain release s x n <= 1.
Proof. exact adsr_range. Qed.
Print Assumptions C49_adsr_range.
Theorem C49_adsr_attack : forall attack decay sustain release s x n, adsr_ok attack decay sustain release -> fits s -> e_st s = adsr_start Rnum_ops ->
  (forall m, 0 < x m) -> INR n * e_sd s + 5 / 4 * e_int s <= attack -> adsr_at attack decay sustain release s x n = INR n * e_sd s / attack.
Proof. exact adsr_attack. Qed.
Print Assumptions C49_adsr_attack.
Example C49_adsr_attack_case : adsr_ok 1 1 (1 / 2) 1 /\ fits (env44 (adsr_start Rnum_ops)) /\ INR 441 * (1 / 44100) + 5 / 4 * e_int (env44 (adsr_start Rnum_ops)) <= 1.
Proof. split; [unfold adsr_ok; lra|]. split; [apply env44_fits|]. rewrite INR_IZR_INZ. cbn. lra. Qed.
Theorem C49_adsr_sustain : forall attack decay sustain release s x n0 n, adsr_ok attack decay sustain release -> fits s -> e_st s = adsr_start Rnum_ops ->
  (forall m, (n0 <= m)%nat -> 0 < x m) -> INR n0 * e_sd s + attack + decay + 15 / 4 * e_int s <= INR n * e_sd s ->
  adsr_at attack decay sustain release s x n = sustain.
Proof. exact adsr_held. Qed.
Print Assumptions C49_adsr_sustain.
Theorem C49_adsr_release : forall attack decay sustain release s x n0 n, adsr_ok attack decay sustain release -> fits s -> e_st s = adsr_start Rnum_ops ->
  (forall m, (n0 <= m)%nat -> x m <= 0) -> INR n0 * e_sd s + release + 15 / 4 * e_int s <= INR n * e_sd s ->
  adsr_at attack decay sustain release s x n = 0.
Proof. exact adsr_released. Qed.
Print Assumptions C49_adsr_release.
Example C49_adsr_case : adsr_ok (1 / 10) (1 / 5) (1 / 2) 1 /\ fits (env44 (adsr_start Rnum_ops)) /\ e_st (env44 (adsr_start Rnum_ops)) = adsr_start Rnum_ops.
Proof. split; [unfold adsr_ok; lra|]. split; [apply env44_fits|reflexivity]. Qed.

(* It sounds although the control has been zero from the start. *)
Theorem C49_adsr_silent_refuted : forall attack decay sustain release s, adsr_ok attack decay sustain release -> fits s -> e_st s = adsr_start Rnum_ops ->
  0 < attack -> 0 < sustain -> 5 / 4 * e_int s <= release -> e_sd s < 3 / 4 * e_int s ->
  adsr_at attack decay sustain release s (fun _ => 0) 0 = 0 /\ 0 < adsr_at attack decay sustain release s (fun _ => 0) 1.
Proof. exact adsr_sounds. Qed.
Print Assumptions C49_adsr_silent_refuted.
(* Reset does not take it back to its start: after a key press that was not the first event, its first sample after reset with the key held is negative. *)
Theorem C49_adsr_reset_refuted : forall attack decay sustain release s, adsr_ok attack decay sustain release -> fits s -> e_st s = adsr_start Rnum_ops -> 0 < attack ->
  let key := fun n => match n with 0%nat => 0 | _ => 1 end in
  exists n, let r := envin_state (adsr_fn Rnum_ops attack decay sustain release) (envin_reset Rnum_ops s) (fun n => [key n]) n in
    adsr_at attack decay sustain release r (fun _ => 1) 0 < 0.
Proof. exact adsr_reset_negative. Qed.
Print Assumptions C49_adsr_reset_refuted.
