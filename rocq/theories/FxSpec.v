(* What chorus, flanger and phaser should do, over the reals. No proofs here. *)
From Coq Require Import Reals.
From Verif Require Export FxModel NodeSpec NodeArith EnvSpec DelaySpec.
Local Open Scope R_scope.

Definition fxR : unit_ops R (param R) (fx R) := fx_ops Rnum_ops tanh.
Notation fx_outputs := (NodeSpec.outputs R_arith fxR).
(* sample k of a mono stream, and 0 after its end; the sample before sample k of a signal; the sample j samples before sample k *)
Definition sample_of (l : list (list R)) (k : nat) : R := nth 0 (nth k l []) 0.
Definition before (u : nat -> R) (k : nat) : R := match k with O => 0 | S k => u k end.
Definition recent (u : nat -> R) (k j : nat) : R := if Nat.leb j k then u (k - j)%nat else 0.
(* sample k of a control signal: the envelope of EnvSpec.v for function E, which C49 is about *)
Definition envelope_of (sr : R) (h : N) (ch : nat) (interval : R) (E : R -> list R) (k : nat) : list R :=
  let z := repeat 0 ch in env_at (pure E) (env_reset Rnum_ops idR (pure E) (mkEnv tt 0 0 0 0%N z z z z interval (1 / sr) h)) k.
(* signal u as it was dl seconds before sample k, between samples the cubic spline; delays are kept within lo ... hi, and are longer than one sample *)
Definition delayed_by (sr lo hi : R) (u : nat -> R) (k : nat) (dl : R) : R :=
  cubic_spec Rnum_ops (Rmax lo (1.00001 / sr)) (Rmax hi (1.00001 / sr)) sr (recent u k) dl.
(* sample rates at which the envelopes of effects have at least one sample in a segment *)
Definition usual (sr : R) : Prop := 1000 <= sr <= IZR (2 ^ 62).
(* a first order allpass filter for a delay of d samples: coefficient, and its equation *)
Definition allpass_of (d : R) : R := (1 - d) / (1 + d).
Definition allpassed (d : nat -> R) (x y : nat -> R) (k : nat) : Prop := y k = allpass_of (d k) * (x k - before y k) + before x k.
(* the sum of f 0 ... f (n - 1) *)
Fixpoint sum_to (f : nat -> R) (n : nat) : R := match n with O => 0 | S n => sum_to f n + f n end.
(* fractal_noise(seed, 8, 0.45, x), where draws gives the numbers that funutd draws for the seed: see C58 *)
Definition fractal_of (hash64a hash64g : N -> N) (draws : N -> list (R * N)) (seed : N) (x : R) : R :=
  match fractal Rnum_ops (spline_noise Rnum_ops hash64a hash64g) (draws seed) (9 / 20) x with Some y => y | None => 0 end.
(* the energy of a mono stream *)
Definition energy_of (l : list (list R)) : R := sum_to (fun k => sample_of l k * sample_of l k) (length l).
