(* What delay lines, taps and feedback are expected to do, as equations between streams. *)
From Coq Require Import ZArith.
From Verif Require Export DelayModel.

(* the stream n samples later, and zeros before that *)
Definition delayed {A} (zero : A) (n : nat) (xs : list A) : list A := firstn (length xs) (repeat zero n ++ xs).
(* the sample j samples before sample k of the stream; zero before its beginning *)
Definition ago {A} (zero : A) (xs : list A) (k j : nat) : A := if Nat.leb j k then nth (k - j) xs zero else zero.

Section Taps.
  Context {F : Type}.
  Variable nm : num F.
  Notation zero := (n0 nm).
  (* a delay line with taps: input frame k is the sample and the delays of the taps; interp reads the past *)
  Definition taps_out (interp : (nat -> F) -> F -> F) (ins : list (list F)) (k : nat) : list F :=
    [fold_left (fun a dl => nadd nm a (interp (ago zero (map (fun i => nth 0 i zero) ins) k) dl)) (tl (nth k ins [])) zero].
  (* interpolation at the delay dl seconds, kept within bounds: between the samples f and f + 1 samples ago *)
  Definition cubic_spec (min max sr : F) (past : nat -> F) (dl : F) : F :=
    let t := nmul nm (clamp nm min max dl) sr in let f := Z.to_nat (nfloor nm t) in
    spline nm (past (f - 1)) (past f) (past (f + 1)) (past (f + 2)) (nsub nm t (nofZ nm (nfloor nm t))).
  Definition linear_spec (min max sr : F) (past : nat -> F) (dl : F) : F :=
    let t := nmul nm (clamp nm min max dl) sr in let f := Z.to_nat (nfloor nm t) in
    lerp nm (past f) (past (f + 1)) (nsub nm t (nofZ nm (nfloor nm t))).
End Taps.

Section Feedback.
  Context {A P U : Type}.
  Variables (zero : A) (add : A -> A -> A) (ops : unit_ops A P U).
  (* unit u of n channels with its output added to its input d samples later; past holds the outputs, the latest first *)
  Fixpoint loop (n d : nat) (u : U) (past : list (list A)) (ins : list (list A)) : U * list (list A) :=
    match ins with
    | [] => (u, [])
    | i :: r => let (u1, o) := u_tick ops u (zipw add i (nth (d - 1) past (repeat zero n))) in
                let (u2, os) := loop n d u1 (o :: past) r in (u2, o :: os)
    end.
End Feedback.

(* what may happen to a delay *)
Inductive delay_op (F : Type) := DTick (input : list F) | DReset | DRate (sr : F).
Arguments DTick {F}. Arguments DReset {F}. Arguments DRate {F}.
Definition delay_do {F} (nm : num F) (d : delay) (o : delay_op F) : delay :=
  match o with DTick i => fst (delay_step nm d i) | DReset => delay_reset nm d | DRate sr => delay_set_sample_rate nm d sr end.
