(* The Hadamard transform of 2^k values in Sylvester's form: H (a, b) = (H a + H b, H a - H b). *)
From Coq Require Import Reals.
From Verif Require Export Base BufModel.
Close Scope R_scope. Open Scope nat_scope.
Fixpoint sylvester (k : nat) (x : list R) : list R :=
  match k with
  | O => x
  | S k => let a := sylvester k (firstn (2 ^ k) x) in let b := sylvester k (skipn (2 ^ k) x) in zipw Rplus a b ++ zipw Rminus a b
  end.
Fixpoint energy (x : list R) : R := match x with [] => 0%R | v :: r => (v * v + energy r)%R end.
(* the entry of the matrix at (i, j): -1 to the number of bits that i and j share *)
Fixpoint bits (k i j : nat) : nat := match k with O => 0 | S k => (if Nat.testbit i k && Nat.testbit j k then 1 else 0) + bits k i j end.
Definition sign (k i j : nat) : R := if Nat.even (bits k i j) then 1%R else (-1)%R.
Definition rsum (m : nat) (f : nat -> R) : R := fold_right (fun j acc => (f j + acc)%R) 0%R (seq 0 m).
(* (1.0 / sqrt(2^k)) as f32: exact for even k, and 11863283 / 2^24 halved (k - 1) / 2 times for odd k *)
Definition f32_scale (k : nat) : R := ((if Nat.even k then 1 else 11863283 / 16777216) / 2 ^ (Nat.div2 k))%R.
