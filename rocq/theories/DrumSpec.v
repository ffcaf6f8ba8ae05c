(* What pink and brown noise and the snare drum of DrumModel.v should be, over the reals. No proofs here. *)
From Coq Require Import Reals.
From Verif Require Export DrumModel SoundSpec TuneSpec.
Local Open Scope R_scope.

Definition drumR : unit_ops R (param R) (du R unit unit R) := du_ops Rnum_ops real_tools.
Notation drums_out := (NodeSpec.outputs R_arith drumR).
Definition pinkpassR : NodeModel.node R (du R unit unit R) := pinkpass_new Rnum_ops.
Definition pinkR : N -> NodeModel.node R (du R unit unit R) := pink_noise Rnum_ops.
Definition brownR : R -> N -> NodeModel.node R (du R unit unit R) := brown_noise Rnum_ops real_tools.
Definition snareR (sr : R) (h : nat -> N) (r : nat -> R) (sharpness : R) : NodeModel.node R (du R unit unit R) := snaredrum Rnum_ops real_tools exp ln sr h r sharpness.

(* white noise: sample n is the hash of a 32-bit counter that starts from the folded hash of the node; the highest 24 bits of the hash, scaled to -1 ... 1 *)
Definition white_at (h : N) (n : nat) : R := 2 * (IZR (Z.of_N (N.shiftr (hash32x ((noise_reset h + N.of_nat n + 1) mod 2 ^ 32)) 8)) / 16777215) - 1.
(* sample n of the leaky integrator y = p y + c x, from rest; the sum of six of them, of the signal and of the signal one sample before: Kellett's pinking filter *)
Fixpoint leaky (p c : R) (x : nat -> R) (n : nat) : R := match n with O => c * x O | S m => p * leaky p c x m + c * x n end.
Definition pinked (x : nat -> R) (n : nat) : R :=
  0.115830421 * (leaky 0.99886 0.0555179 x n + leaky 0.99332 0.0750759 x n + leaky 0.969 0.153852 x n + leaky 0.8665 0.3104856 x n + leaky 0.55 0.5329522 x n - leaky (- (0.7616)) 0.016898 x n
    + 0.115926 * before x n + 0.5362 * x n).
(* a one-pole smoother with cutoff frequency f *)
Definition smoothed (sr f : R) (x : nat -> R) (n : nat) : R := let c := exp (- (2 * PI * f / sr)) in leaky c (1 - c) x n.

(* a lowpass filter with Q of 1 and cutoff frequency f k at sample k: two integrators, integrated with the trapezoidal rule. Its two states before sample n; the bandpass and the lowpass signal at sample n *)
Definition warped (sr : R) (f : nat -> R) (n : nat) : R := tan (PI * f n / sr).
Definition band_of (g x : R) (s : R * R) : R := (fst s + g * (x - snd s)) / (1 + g + g * g).
Definition low_of (g x : R) (s : R * R) : R := snd s + g * band_of g x s.
Fixpoint low_state (sr : R) (f x : nat -> R) (n : nat) : R * R :=
  match n with
  | O => (0, 0)
  | S m => let s := low_state sr f x m in let g := warped sr f m in (2 * band_of g (x m) s - fst s, 2 * low_of g (x m) s - snd s)
  end.
Definition lowpassed (sr : R) (f x : nat -> R) (n : nat) : R := low_of (warped sr f n) (x n) (low_state sr f x n).

(* the snare drum: nine sinusoids whose frequencies start within 1 Hz of these and are within 3 Hz of them after a second *)
Definition snare_modes : list R := [180; 330; 275; 320; 400; 430; 509; 550; 616].
Definition bent (f a b t : R) : R := (1 - t) * (f + (2 * a - 1)) + t * (f + 3 * (2 * b - 1)).
Section Snare.
  Variables (sr : R) (h : nat -> N) (r : nat -> R).
  Definition control (i : nat) (E : R -> R) (n : nat) : R := nth 0 (lfo_of sr (h i) 1 (fun t => [E t]) n) 0.
  Definition mode (i n : nat) : R := sine_of sr (h (2 * i + 1)%nat) (control (2 * i) (bent (nth i snare_modes 0) (r (2 * i)%nat) (r (2 * i + 1)%nat))) n.
  Definition fading (c t : R) : R := exp (- (c * t)).
  (* two modes, seven modes and pink noise, each with its decay *)
  Definition snare_mixed (n : nat) : R :=
    0.2 * (mode 0 n + mode 1 n) * control 18 (fading 16) n
    + 0.1 * (mode 2 n + mode 3 n + mode 4 n + mode 5 n + mode 6 n + mode 7 n + mode 8 n) * control 19 (fading 14) n
    + 0.7 * pinked (white_at (h 20)) n * control 21 (fading 12) n.
  (* the cutoff frequency falls from 15000 Hz by a factor of 15 in a second *)
  Definition snare_cutoff (t : R) : R := 15000 * Rpower (1 / 15) t.
  Definition snare_attack (sharpness : R) : R := 0.02 * Rpower (1 / 10) sharpness.
  Definition snare_of (sharpness : R) (n : nat) : R := lowpassed sr (control 22 snare_cutoff) snare_mixed n * gain (snare_attack sharpness) (INR n / sr).
End Snare.
