(* What waveshapers should do, over the reals. *)
From Coq Require Import Reals.
From Verif Require Export ShapeModel OscSpec OverSpec.
Local Open Scope R_scope.

Notation shape_oneR := (shape_one Rnum_ops tanh atan sqrt PI (2 / PI)).
Notation shape_runR := (shape_run Rnum_ops tanh atan sqrt PI (2 / PI)).
Notation shape_processR := (shape_process Rnum_ops tanh atan sqrt PI (2 / PI)).
Notation set_srR := (shape_set_sr Rnum_ops idR idR Rpower).
Notation resetR := (shape_reset Rnum_ops).
Notation adaptive_newR := (adaptive_new Rnum_ops Rnum_ops idR idR Rpower).
(* shapes and samples on which the functions for words and for single samples should agree: not those of the findings *)
Definition regular (s : @shape R) (x : R) : Prop :=
  match s with
  | ClipTo lo hi => lo <= hi
  | Softsign h => 0 <= h
  | Crush h => forall k, x * h <> IZR k + 1 / 2
  | SoftCrush h => frac (x * h) < 9999999 / 10000000
  | _ => True
  end.
(* f saturates at -1 and 1: odd, increasing, within them, and as close to them as you like *)
Definition saturates (f : R -> R) : Prop :=
  (forall x, -1 < f x < 1) /\ (forall x, f (- x) = - f x) /\ (forall x y, x < y -> f x < f y) /\ (forall e, 0 < e -> exists x, 1 - e < f x).
(* the level estimate after inputs l, from v: a mean of the squares of the inputs (and 10^-6) with weights that fall by m per sample *)
Definition mean_square (m v : R) (l : list R) : R := let n := length l in m ^ n * v + total n (fun k => (1 - m) * m ^ (n - 1 - k) * (1 / 1000000 + nth k l 0 * nth k l 0)).
(* the inputs of the inner shape of Adaptive *)
Definition leveled (m v : R) (l : list R) : list R := map (fun n => nth n l 0 / sqrt (mean_square m v (firstn (S n) l))) (seq 0 (length l)).
