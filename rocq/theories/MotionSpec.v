(* What is claimed of the motion of noise, envelopes and the delays of reverb2_stereo. *)
From Coq Require Import Reals.
From Verif Require Export EnvSpec MotionModel.
Local Open Scope R_scope.

(* the delay in seconds that the Envelope of line i gives at sample n; h has the hash of the Envelope of each line *)
Definition wobbleR (hash64a hash64g : N -> N) (speed sr : R) (h : nat -> N) (i : nat) (lo hi : R) (n : nat) : R :=
  let f t := [wobble Rnum_ops hash64a hash64g speed i lo hi t] in nth 0 (env_at (pure f) (wobble_env Rnum_ops hash64a hash64g speed i lo hi sr (h i)) n) 0.
