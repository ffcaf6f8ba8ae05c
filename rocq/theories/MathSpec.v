(* What an easing function is. *)
From Coq Require Import Reals.
Local Open Scope R_scope.
Definition in01 (x : R) : Prop := 0 <= x <= 1.
(* maps [0,1] strictly monotonically onto [0,1] *)
Record eases (f : R -> R) : Prop := {
  e_range : forall x, in01 x -> in01 (f x);
  e_rises : forall x y, 0 <= x -> x < y -> y <= 1 -> f x < f y;
  e_onto : forall y, in01 y -> exists x, in01 x /\ f x = y }.
Definition symmetric (f : R -> R) : Prop := forall x, f (1 - x) = 1 - f x.
(* values that rise and stay apart from each other by a step of the index *)
Definition within (a b x : R) : Prop := Rmin a b <= x <= Rmax a b.
