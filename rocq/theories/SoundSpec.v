(* What the sounds of SoundModel.v should be, over the reals. No proofs here. *)
From Coq Require Import Reals.
From Verif Require Export SoundModel NodeSpec NodeArith MeterSpec FxSpec OscSpec PreSpec.
Local Open Scope R_scope.

Definition soundR : unit_ops R (param R) (su R) := su_ops Rnum_ops sin cos (2 * PI).
Notation sound_outputs := (NodeSpec.outputs R_arith soundR).
Notation bassdrumR := (bassdrum Rnum_ops exp ln).
Notation rissetR := (risset Rnum_ops R_arith sqrt exp ln sin cos (2 * PI)).
Notation a_weightR := (a_weight Rnum_ops sqrt).
Notation m_weightR := (m_weight Rnum_ops sqrt).
(* the control signal of `lfo`: C49 is about it *)
Definition lfo_of (sr : R) (h : N) (ch : nat) (E : R -> list R) (k : nat) : list R := envelope_of sr h ch (1 / 500) E k.
(* an oscillator that starts at the phase that belongs to its hash, with frequency f k at sample k *)
Definition sine_of (sr : R) (h : N) (f : nat -> R) (n : nat) : R := sin (2 * PI * (EnvModel.rnd1 Rnum_ops h + sum_to (fun k => f k / sr) n)).

(* the bass drum: its pitch moves from p0 to p1 within 20 ms, with equal ratios in equal times, and falls by 10 Hz in a second *)
Definition drum_sweep (p0 p1 t : R) : R := p0 * Rpower (p1 / p0) (Rmax 0 (Rmin 1 (50 * t))) - 10 * t.
Definition drum_decay (t : R) : R := exp (- (9 * t)).
Definition drum_attack (sharpness : R) : R := 2 / 1000 * Rpower (1 / 100) sharpness.

(* the glissando: voice i is at this point of its way through ten octaves; the pitch there, and the swell of the loudness *)
Definition position (i : nat) (t : R) : R := frac_part (t / 100 + INR i / 40).
Definition pitch_at (up : bool) (p : R) : R := if up then 20 * Rpower 2 (10 * p) else 20480 * Rpower 2 (- (10 * p)).
Definition swell (p : R) : R := let s := sin (PI * p) in 3 * s ^ 2 - 2 * s ^ 3.
Definition detuned (i : nat) : R := 2 * EnvModel.rnd1 Rnum_ops (N.of_nat i) - 1.
(* voice i, and the places of the voices between left (-1) and right (1) *)
Definition gliding (up : bool) (i : nat) (t : R) : list R := let f := pitch_at up (position i t) + detuned i in [swell (position i t) / a_weightR f; f].
Definition place (i : nat) : R := INR i / 39 - 1 / 2.
Definition to_left (p : R) : R := cos ((p + 1) * (PI / 4)).
Definition to_right (p : R) : R := sin ((p + 1) * (PI / 4)).
