(* Claims C58 and C76, continued: a sharper slope of fractal noise, and how fast the delays of the chorus move. *)
From Coq Require Import Reals Lra.
From Verif Require Import HashProofs ChorusSpec FxProofs3.
From Verif Require MotionProofs SlopeProofs ChorusProofs.
Local Open Scope R_scope.

(* fractal_noise with n octaves: its slope is at most 12/5 times the mean of the frequencies 1, 2, 4, ... of its octaves, weighted with their amplitudes 1, r, r^2, ... *)
Theorem C58_fractal_mean_slope hash64a hash64g draws roughness x y a b : (forall s, word 64 (hash64a s)) -> 0 <= roughness ->
  fractal Rnum_ops (spline_noise Rnum_ops hash64a hash64g) draws roughness x = Some a -> fractal Rnum_ops (spline_noise Rnum_ops hash64a hash64g) draws roughness y = Some b ->
  Rabs (a - b) <= 12 / 5 * (geometric (2 * roughness) (length draws) / geometric roughness (length draws)) * Rabs (x - y).
Proof. intros W. exact (ChorusProofs.fractal_sharp _ draws roughness (12 / 5) x y a b ltac:(lra) (fun s => MotionProofs.noise_slope hash64a hash64g W s)). Qed.
Print Assumptions C58_fractal_mean_slope.
(* one octave; two octaves of equal weight *)
Example C58_fractal_mean_slope_case : geometric (2 * (1 / 2)) 1 / geometric (1 / 2) 1 = 1 /\ geometric (2 * 1) 2 / geometric 1 2 = 3 / 2.
Proof. cbn [geometric]. split; field. Qed.

(* The chorus, with the fractal noise of eight octaves that it uses: in one sample delay j = 0 ... 3 moves by at most 3.77 * variation * |modulation frequency + 0.02 j| samples.
   This is how far the pitch of a copy is from that of the input: with a variation of 5 ms and a modulation frequency of 0.2 Hz it is at most half a percent, or 9 cents. *)
Theorem C76_chorus_motion sr hash64a hash64g draws h seed sep var mf : usual sr -> (h < 2 ^ 64)%N -> 0 <= sep -> 0 <= var -> (forall s, word 64 (hash64a s)) -> (forall s, length (draws s) = 8%nat) ->
  exists x, chorus Rnum_ops sr (fractal_of hash64a hash64g draws) hash64g h seed sep var mf = Some x /\ exists d : nat -> nat -> R,
  (forall j k, (j < 4)%nat -> (INR j + 1) * sep <= d j k <= (INR j + 1) * sep + var /\ Rabs (d j (S k) - d j k) * sr <= 377 / 100 * var * Rabs (mf + INR j * (2 / 100))) /\
  forall l k, stream 1 l -> (k < length l)%nat -> let v := fun j => delayed_by sr sep (4 * sep + var) (sample_of l) k (d j k) in
    nth k (fx_outputs x l) [] = [1 / 5 * (sample_of l k + v 0%nat + v 1%nat + v 2%nat + v 3%nat)].
Proof.
  intros Hs Hh S V W D. replace (377 / 100) with (754 / 100 / 2) by field. apply ChorusProofs.chorus_motion; auto.
  - intros s x. apply fractal_of_range; [exact W|]. intros t E. pose proof (D t) as L. rewrite E in L. discriminate.
  - intros s x y. now apply ChorusProofs.chorus_noise.
Qed.
Print Assumptions C76_chorus_motion.
Example C76_chorus_motion_case : usual 44100 /\ (77 < 2 ^ 64)%N /\ (forall s : N, length ((fun s => repeat (1 / 2, s) 8) s) = 8%nat) /\ 377 / 100 * (5 / 1000) * Rabs (2 / 10 + INR 3 * (2 / 100)) <= 5 / 1000.
Proof. split; [split; [lra|apply IZR_le; discriminate]|]. split; [reflexivity|]. split; [reflexivity|]. cbn [INR]. rewrite Rabs_right by lra. lra. Qed.
