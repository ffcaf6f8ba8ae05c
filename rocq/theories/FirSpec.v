(* What a FIR filter, a mixing matrix and a panner should compute, said without the model. *)
From Coq Require Import Reals.
From Verif Require Export Base.

(* the sample k steps before time t; the past is silent *)
Definition ago {A} (zero : A) (xs : list A) (t k : nat) : A := if Nat.leb k t then nth (t - k) xs zero else zero.

(* sum over 0 <= k < n *)
Fixpoint sigma (n : nat) (f : nat -> R) : R := match n with O => 0%R | S n' => (sigma n' f + f n')%R end.
(* the convolution of the input with an impulse response *)
Definition convolution (h xs : list R) (t : nat) : R := sigma (length h) (fun k => nth k h 0%R * ago 0%R xs t k)%R.
(* the unit impulse, of n samples *)
Definition impulse (n : nat) : list R := 1%R :: repeat 0%R (n - 1).

(* matrices as lists of rows: entry, product with a vector, product *)
Definition entry (m : list (list R)) (i j : nat) : R := nth j (nth i m []) 0%R.
Definition is_matrix (rows cols : nat) (m : list (list R)) : Prop := length m = rows /\ Forall (fun r => length r = cols) m.
Definition apply_matrix (m : list (list R)) (cols : nat) (v : list R) : list R :=
  map (fun i => sigma cols (fun j => entry m i j * nth j v 0%R)%R) (seq 0 (length m)).
Definition matrix_product (a b : list (list R)) (inner cols : nat) : list (list R) :=
  map (fun i => map (fun j => sigma inner (fun k => entry a i k * entry b k j)%R) (seq 0 cols)) (seq 0 (length a)).

(* equal power panning: position v, clamped to -1..1, is an angle between 0 (left) and a right angle (right) *)
Definition pan_position (v : R) : R := Rmin (Rmax v (-1)) 1.
Definition left_gain (v : R) : R := cos ((pan_position v + 1) * (PI / 4)).
Definition right_gain (v : R) : R := sin ((pan_position v + 1) * (PI / 4)).
(* what happens to a panner: a frame is ticked, or a setting arrives (Some: a pan setting, None: another one) *)
Inductive pan_event (A : Type) := PanTick (f : list A) | PanSet (p : option A).
Arguments PanTick {A}. Arguments PanSet {A}.
(* the pan value in force after some events: with one input, the last one set; with two, also the second input *)
Fixpoint pan_in_force {A} (zero : A) (inputs : nat) (v : A) (es : list (pan_event A)) : A :=
  match es with
  | [] => v
  | PanTick f :: r => pan_in_force zero inputs (if Nat.eqb inputs 1 then v else nth 1 f zero) r
  | PanSet p :: r => pan_in_force zero inputs (match p with Some w => w | None => v end) r
  end.
