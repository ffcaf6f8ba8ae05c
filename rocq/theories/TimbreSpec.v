(* What a table wave is made of, partial by partial. No proofs here. *)
From Coq Require Import Reals.
From Verif Require Export TimbreModel.
From Verif Require Import OverSpec TableSpec.
Local Open Scope R_scope.

(* a timbre gives the phase, in turns, and the amplitude of every partial *)
Record timbre := mkT { tm_phase : nat -> R; tm_amplitude : R -> nat -> R }.
Definition saw_timbre : timbre := mkT (saw_phase Rnum_ops) (saw_amplitude Rnum_ops).
Definition triangle_timbre : timbre := mkT (triangle_phase Rnum_ops) (triangle_amplitude Rnum_ops).
Definition organ_timbre : timbre := mkT (organ_phase Rnum_ops) (organ_amplitude Rnum_ops).
Definition soft_saw_timbre : timbre := mkT (soft_saw_phase Rnum_ops) (soft_saw_amplitude Rnum_ops).
Definition hammond_timbre : timbre := mkT (hammond_phase Rnum_ops) (hammond_amplitude Rnum_ops).
(* partial k of a wave with the given pitch, at time t of the period *)
Definition component (w : timbre) (pitch : R) (k : nat) (t : R) : R :=
  sounding (tm_amplitude w pitch k) * fade (pitch * INR k) * sin (2 * PI * (INR k * t + tm_phase w k)).
Definition is_octave (k : nat) : Prop := exists z, k = (2 ^ z)%nat.
(* waves can be mixed if, however they are mixed, every partial of the mix has the mixed amplitude *)
Definition mixable (v w : timbre) : Prop :=
  forall a x y pitch k, 0 <= a <= 1 -> 0 < x -> 0 < y -> (1 <= k)%nat -> exists phase, forall t,
    (1 - a) * (x * component v pitch k t) + a * (y * component w pitch k t) =
    ((1 - a) * (x * sounding (tm_amplitude v pitch k)) + a * (y * sounding (tm_amplitude w pitch k))) * fade (pitch * INR k) * sin (2 * PI * (INR k * t + phase)).
