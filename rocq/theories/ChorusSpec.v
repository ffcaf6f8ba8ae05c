(* What is claimed of the slope of fractal noise and of the motion of the delays of the chorus. *)
From Coq Require Import Reals.
From Verif Require Export FxSpec SlopeSpec.
Local Open Scope R_scope.

(* 1 + r + ... + r^(n - 1) *)
Fixpoint geometric (r : R) (n : nat) : R := match n with O => 0 | S n => 1 + r * geometric r n end.
