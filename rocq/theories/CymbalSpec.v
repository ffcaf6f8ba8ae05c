(* What the cymbal of CymbalModel.v should be, over the reals. No proofs here. *)
From Coq Require Import Reals.
From Verif Require Export CymbalModel DrumSpec TableSpec.
Local Open Scope R_scope.

Definition cymbalsR (tb : list (R * list R)) : unit_ops R (param R) (cu R unit unit R) := cu_ops Rnum_ops real_tools tb.
Notation cymbal_outputs tb := (NodeSpec.outputs R_arith (cymbalsR tb)).
Definition cymbalR (sr : R) (h : nat -> N) (r : nat -> R) : NodeModel.node R (cu R unit unit R) := cymbal Rnum_ops real_tools exp ln sr h r.

Section Cymbal.
  Variables (tb : list (R * list R)) (sr : R) (h : nat -> N) (r : nat -> R).
  (* a wavetable oscillator that starts at the phase that belongs to its hash, with frequency f k at sample k: see C63 *)
  Definition wave_of (i : nat) (f : nat -> R) (n : nat) : R := level tb (Rabs (f n)) (frac (EnvModel.rnd1 Rnum_ops (h i) + sum_to (fun k => f k / sr) (S n))).
  (* a frequency within 5 Hz of f *)
  Definition near (i : nat) (f : R) : R := f + 5 * (2 * r i - 1).
  (* an oscillator at a steady frequency f moves the frequency of another one by m around g *)
  Definition clang_pitch (i : nat) (f m g : R) (n : nat) : R := m * wave_of (2 * i) (fun _ => f) n + g.
  Definition clang_of (i : nat) (f m g : R) (n : nat) : R := wave_of (2 * i + 1) (clang_pitch i f m g) n.
  (* three of them, with a decay *)
  Definition cymbal_mixed (n : nat) : R :=
    (clang_of 0 (near 0 1339.0586) 54127 (near 1 1703.2929) n + clang_of 1 (near 2 2090.1314) 43480 (near 3 1425.6187) n + clang_of 2 (near 4 1189.1727) 56771 (near 5 1954.3242) n) * control sr h 6 (fading 8) n.
  (* the cutoff frequency of the lowpass falls from 20000 Hz to 2000 Hz in a second and stays there *)
  Definition cymbal_cutoff (t : R) : R := 20000 * Rpower (1 / 10) (Rmax 0 (Rmin 1 t)).
  (* a highpass filter with Q of 1: what the lowpass and the bandpass of the same filter leave *)
  Definition highpassed (f x : nat -> R) (n : nat) : R := let g := warped sr f n in let s := low_state sr f x n in x n - band_of g (x n) s - low_of g (x n) s.
  Definition cymbal_of (n : nat) : R := highpassed (fun _ => 2500) (lowpassed sr (control sr h 7 cymbal_cutoff) cymbal_mixed) n * gain (1 / 1000) (INR n / sr).
End Cymbal.
