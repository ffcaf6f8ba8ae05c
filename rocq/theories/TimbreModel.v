(* The organ, soft saw and Hammond tables of /repo/src/wavetable.rs:557-635. No proofs here.
   The pitches and the number of tables per octave are those of the other named tables (TableModel.v). u32 is nat: see C83_no_overflow. *)
From Verif Require Export TableModel.
Local Open Scope nat_scope.

(* wavetable.rs:576, 616: u32::trailing_zeros of a number other than 0. Partials are numbered from 1 (line 62). *)
Fixpoint trailing_zeros_in (fuel i : nat) : nat :=
  match fuel with O => 0 | S f => if Nat.even i then S (trailing_zeros_in f (Nat.div2 i)) else 0 end.
(* wavetable.rs:576, 616 *)
Definition trailing_zeros (i : nat) : nat := trailing_zeros_in i i.
(* wavetable.rs:576-580, 616-620: i >> i.trailing_zeros() *)
Definition shifted (i : nat) : nat := Nat.shiftr i (trailing_zeros i).

Section Timbre.
  Context {F : Type} (nf : num F).
  Notation one := (n1 nf).
  Notation zero := (n0 nf).
  Notation half := (half_if nf true).
  Local Infix "*." := (nmul nf) (at level 40, left associativity).
  Local Infix "/." := (ndiv nf) (at level 40, left associativity).
  (* wavetable.rs:566-574 *)
  Definition organ_phase (i : nat) : F := if Nat.eqb (Nat.modulo i 4) 3 then half else if Nat.odd i then zero else half.
  (* wavetable.rs:575-579 *)
  Definition organ_amplitude (_ : F) (i : nat) : F := let j := shifted i in inv nf (i + j * j * j).
  (* wavetable.rs:595-603 *)
  Definition soft_saw_phase (i : nat) : F := if Nat.eqb (Nat.modulo i 4) 3 then half else if Nat.odd i then zero else half.
  (* wavetable.rs:604 *)
  Definition soft_saw_amplitude (_ : F) (i : nat) : F := inv nf (i * i).
  (* wavetable.rs:615 *)
  Definition hammond_phase (_ : nat) : F := zero.
  (* wavetable.rs:615-631 *)
  Definition hammond_amplitude (_ : F) (i : nat) : F :=
    let z := trailing_zeros i in
    let j := shifted i in
    let f := inv nf ((z + 1) * (z + 1)) in
    match i with
    | 1 => one | 2 => one | 3 => one
    | _ => match j with 1 => f | 3 => f | 9 => (one /. nofZ nf 5) *. f | _ => zero end
    end.
End Timbre.
