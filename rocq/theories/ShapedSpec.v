(* Shapes without state, for filters with shaped states. No proofs here. *)
From Coq Require Import Reals.
From Verif Require Export TuneSpec.
Local Open Scope R_scope.

(* biquad.rs and shape.rs ShapeFn: a function as a shape *)
Definition shaping (sh : R -> R) : tools R unit unit R :=
  mkTools R_elem tanh Rpower (fun x => IZR (Int_part x)) (fun x => / (1 + x)) (fun _ => tt) (fun g => (g, 1 / 2)) (fun s x => (s, sh x)) (fun s => s) (fun x v => (v, x)) (fun _ => 0) (fun x _ => x).
(* distances do not grow *)
Definition nonexpansive (sh : R -> R) : Prop := forall x y, Rabs (sh x - sh y) <= Rabs (x - y).
