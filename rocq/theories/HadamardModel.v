(* The Hadamard feedback matrix: /repo/src/feedback.rs:15-65. No proofs here. None is an index out of bounds. *)
From Verif Require Export Base BufModel Num.

Section Hadamard.
  Context {F : Type}.
  Variable n : num F.
  Notation zero := (n0 n).
  (* feedback.rs:41-44: output[j], output[j + h] = x + y, x - y *)
  Definition butterfly (h : nat) (o : option (list F)) (j : nat) : option (list F) :=
    match o with
    | Some v => if Nat.ltb (j + h) (length v) then let x := nth j v zero in let y := nth (j + h) v zero in Some (upd (upd v j (nadd n x y)) (j + h) (nsub n x y)) else None
    | None => None
    end.
  (* feedback.rs:39-52: while i < N { for j in i..i + h {...}; i += h * 2 }. N is enough fuel as h >= 1. *)
  Fixpoint span (fuel N h i : nat) (o : option (list F)) : option (list F) :=
    match fuel with
    | O => None
    | S f => if Nat.ltb i N then span f N h (i + h * 2) (fold_left (butterfly h) (seq i h) o) else o
    end.
  (* feedback.rs:37-54: while h < N {...; h *= 2} *)
  Fixpoint levels (fuel N h : nat) (o : option (list F)) : option (list F) :=
    match fuel with
    | O => None
    | S f => if Nat.ltb h N then levels f N (h * 2) (span (S N) N h 0 o) else o
    end.
  (* feedback.rs:33-56 frame; scale is (1.0 / sqrt(N as f64)) as f32 *)
  Definition hadamard (scale : F) (x : list F) : option (list F) :=
    let N := length x in option_map (map (fun v => nmul n v scale)) (levels (S N) N 1 (Some x)).
End Hadamard.
