(* What the opcodes of PreModel.v should do. No proofs here. *)
From Coq Require Import Reals SpecFloat.
From Verif Require Export PreModel NodeSpec NodeLaws FirSpec FloatLink.
Local Open Scope nat_scope.

(* the k-th of n evenly spaced numbers from 0 to 1; the middle if there is only one *)
Definition spaced (n k : nat) : R := if Nat.eqb n 1 then (1 / 2)%R else (INR k / INR (n - 1))%R.

(* conversion from f64 to f32: rounding to nearest, ties to even *)
Definition to_f32 (x : spec_float) : spec_float :=
  match x with S754_finite s m e => binary_normalize 24 128 (if s then Z.neg m else Z.pos m) e s | x => x end.

(* a sinusoid *)
Definition tone (w p : R) (n : nat) : list R := map (fun t => cos (w * INR t + p)%R) (seq 0 n).
(* the gain of a filter that halves to `gain` at the Nyquist frequency along half a period of a cosine *)
Definition raised (gain w : R) : R := ((1 + gain) / 2 + (1 - gain) / 2 * cos w)%R.

(* calling a method n times, and calling a method with each of a list of arguments *)
Fixpoint play {X B} (f : X -> option (X * B)) (n : nat) (x : X) : option (list B) :=
  match n with
  | O => Some []
  | S n => match f x with Some (x, b) => option_map (cons b) (play f n x) | None => None end
  end.
Fixpoint feed {X B C} (f : X -> C -> option (X * B)) (l : list C) (x : X) : option (list B) :=
  match l with
  | [] => Some []
  | c :: l => match f x c with Some (x, b) => option_map (cons b) (feed f l x) | None => None end
  end.
(* a frame with one or two channels as one sample, and as two *)
Definition average {A} (nm : num A) (zero : A) (o : list A) : A := match o with [a] => a | [a; b] => ndiv nm (nadd nm a b) (nofZ nm 2) | _ => zero end.
Definition pair_of {A} (zero : A) (o : list A) : A * A := match o with [a] => (a, a) | [a; b] => (a, b) | _ => (zero, zero) end.
Definition one_of {A} (zero : A) (o : list A) : A := match o with [a] => a | _ => zero end.
