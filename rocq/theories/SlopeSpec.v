(* What is claimed of the slopes of noise. *)
From Coq Require Import Reals.
From Verif Require Export MathModel.
Local Open Scope R_scope.

(* every easing function in the tree goes from 0 to 1 and moves at most L times as fast as its argument *)
Fixpoint climbs (L : R) (e : easing R) : Prop :=
  match e with
  | Ease f => f 0 = 0 /\ f 1 = 1 /\ forall t u, 0 <= t <= u -> u <= 1 -> Rabs (f u - f t) <= L * (u - t)
  | Pair r f => climbs L r /\ climbs L f
  end.
