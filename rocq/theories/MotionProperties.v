(* Claims C49, C58 and C69, continued: how fast noise, envelopes and the delays of reverb2_stereo move. *)
From Coq Require Import Reals Lra Lia.
From Verif Require Import HashProofs EnvExamples MotionSpec RevSpec HallSpec.
From Verif Require MotionProofs HallProofs.
Local Open Scope R_scope.

(* spline_noise is continuous: it moves by at most 12/5 of what its argument moves *)
Theorem C58_spline_noise_slope hash64a hash64g seed x y : (forall s, word 64 (hash64a s)) ->
  Rabs (spline_noise Rnum_ops hash64a hash64g seed x - spline_noise Rnum_ops hash64a hash64g seed y) <= 12 / 5 * Rabs (x - y).
Proof. intros W. exact (MotionProofs.noise_slope hash64a hash64g W seed x y). Qed.
Print Assumptions C58_spline_noise_slope.
(* the noise does move: from 0 at time 0 to the highest point that a hash can give at time 1 *)
Example C58_spline_noise_slope_case : let ha := fun s : N => if (s =? atto_hash 7 1)%N then (2 ^ 63 + 2 ^ 62)%N else (2 ^ 63)%N in
  (forall s, word 64 (ha s)) /\ spline_noise Rnum_ops ha (fun _ => 0%N) 7 0 = 0 /\ spline_noise Rnum_ops ha (fun _ => 0%N) 7 1 = 2 / 5.
Proof.
  intros ha. assert (Z : rnd2 Rnum_ops (fun _ => 0%N) 7 = 0) by (unfold rnd2; cbn -[Z.pow]; ring). split; [intros s; unfold ha, word; now destruct (s =? _)%N|].
  rewrite (MotionProofs.noise_at_integer ha (fun _ => 0%N) 7 0 Z), (MotionProofs.noise_at_integer ha (fun _ => 0%N) 7 1 Z). unfold get_point, hash11, ha. change (word_of 1) with 1%N. rewrite N.eqb_refl. cbn [atto_hash].
  replace (atto_hash 7 (word_of 0) =? atto_hash 7 1)%N with false by (symmetry; vm_compute; reflexivity). split; cbn [N.shiftr]; cbn -[Z.pow]; lra.
Qed.

(* An envelope moves no faster than its control function. *)
Theorem C49_envelope_slope E ch s n j L : (forall t, length (E t) = ch) -> fits s -> (j < ch)%nat ->
  (forall t u, 0 <= t -> 0 <= u -> Rabs (nth j (E t) 0 - nth j (E u) 0) <= L * Rabs (t - u)) ->
  let y n := nth j (env_at (pure E) (env_reset Rnum_ops idR (pure E) s) n) 0 in Rabs (y (S n) - y n) <= L * e_sd s.
Proof. exact (MotionProofs.envelope_slope E ch s n j L). Qed.
Print Assumptions C49_envelope_slope.
Example C49_envelope_slope_case : fits (env44 tt) /\ forall t u, 0 <= t -> 0 <= u -> Rabs (nth 0 [3 * t] 0 - nth 0 [3 * u] 0) <= 3 * Rabs (t - u).
Proof. split; [apply env44_fits|]. intros t u _ _. cbn [nth]. replace (3 * t - 3 * u) with (3 * (t - u)) by ring. rewrite Rabs_mult, (Rabs_pos_eq 3) by lra. apply Rle_refl. Qed.

(* The delays of reverb2_stereo stay in their range, and in one sample they move by at most 3/5 * range * |speed| samples: this is 0.0012 |speed|, as the range is 2 ms. *)
Theorem C69_reverb2_delays hash64a hash64g speed sr h i lo hi n : (forall s, word 64 (hash64a s)) -> 134 <= sr <= 1000000000 -> (h i < 2 ^ 64)%N -> lo <= hi ->
  let d := wobbleR hash64a hash64g speed sr h i lo hi in lo <= d n <= hi /\ Rabs (d (S n) - d n) * sr <= 3 / 5 * (hi - lo) * Rabs speed.
Proof. intros W Hs Hh Hl. split; [exact (MotionProofs.wobbleR_range hash64a hash64g W speed sr h i lo hi n Hs Hh Hl)|exact (MotionProofs.wobbleR_slope hash64a hash64g W speed sr h i lo hi n Hs Hh Hl)]. Qed.
Print Assumptions C69_reverb2_delays.
(* reverb2_stereo with its own moving delays: if the modulation speed is at most 277, and the speed times the reverberation time is below 100, then its energy stays bounded, for every
   size of room and every loop filter that adds no energy. The bound depends on how much of the attenuation of one pass the moving taps leave. *)
Theorem C69_reverb2_moving {P X} (xo : unit_ops R P X) x_rate held hash64a hash64g sr room time diffusion speed h filter : passive xo x_rate held -> held filter = 0 ->
  (forall s, word 64 (hash64a s)) -> (forall i, (h i < 2 ^ 64)%N) -> 134 <= sr <= 1000000000 -> 0 < time -> 0 <= diffusion <= 1 -> Rabs speed <= 277 -> Rabs speed * time < 100 ->
  let g := hall_gainR room time * sqrt (1 + 2 * (12 / 10000 * Rabs speed)) in
  g < 1 /\ exists x, hallR xo sr room time diffusion (wobbleR hash64a hash64g speed sr h) filter = Some x /\ wf (hops xo) x /\ ins (hops xo) x = 2%nat /\ outs (hops xo) x = 2%nat /\
  energy_gain (hops xo) 1 (8 * (g / (1 - g) * (g / (1 - g)))) x.
Proof.
  intros Hp Hf W Hh Hs Ht Hd S1 S2 g. pose proof (Rabs_pos speed) as S0. assert (G : g < 1) by (apply MotionProofs.moving_gain; lra). split; [exact G|].
  refine (HallProofs.hall_ok xo x_rate held Hp sr room time diffusion (12 / 10000 * Rabs speed) _ filter Hf ltac:(lra) Ht Hd ltac:(lra) _ G).
  intros i lo hi n R. destruct (C69_reverb2_delays hash64a hash64g speed sr h i lo hi n W Hs (Hh i) ltac:(lra)) as [_ D]. replace (hi - lo) with (2 / 1000) in D by lra.
  set (a := wobbleR hash64a hash64g speed sr h i lo hi (Datatypes.S n)) in *. set (b := wobbleR hash64a hash64g speed sr h i lo hi n) in *. pose proof (Rle_abs (a - b)) as A. apply Rmult_le_compat_r with (r := sr) in A; lra.
Qed.
Print Assumptions C69_reverb2_moving.
(* the example of the documentation, reverb2_stereo(10.0, 1.0, 0.5, 1.0, filter), with a filter that passes everything *)
Example C69_reverb2_moving_meets : passive pass_ops (fun u _ => u) (fun _ => 0) /\ (forall s : N, word 64 ((fun _ => 12345678901234567890%N) s)) /\ (forall i : nat, ((fun i => N.of_nat i mod 2 ^ 64) i < 2 ^ 64)%N) /\
  134 <= 44100 <= 1000000000 /\ 0 <= 1 / 2 <= 1 /\ Rabs 1 <= 277 /\ Rabs 1 * 1 < 100.
Proof.
  split; [repeat split; intros; cbn; lra|]. split; [intros _; reflexivity|]. split; [intros i; now apply N.mod_lt|]. rewrite Rabs_R1. lra.
Qed.
