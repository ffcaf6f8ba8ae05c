(* What the resampler should do, over the reals. *)
From Coq Require Import Reals.
From Verif Require Export ResampleModel.
Local Open Scope R_scope.

Section Spec.
  Context {S : Type} (gen_tick : S -> S * list R).
  (* the generator after n ticks, and the frame of tick n *)
  Fixpoint gen_at (x : S) (n : nat) : S := match n with 0%nat => x | Datatypes.S n => fst (gen_tick (gen_at x n)) end.
  Definition gen_frame (x : S) (n : nat) : list R := snd (gen_tick (gen_at x n)).
  (* the generator at time t, interpolated in the channel *)
  Definition gen_interp (x : S) (channel : nat) (t : R) : R :=
    let i := Z.to_nat (Int_part t) in let g := fun n => nth channel (gen_frame x n) 0 in
    spline Rnum_ops (g (i - 1)%nat) (g i) (g (i + 1)%nat) (g (i + 2)%nat) (t - IZR (Int_part t)).
End Spec.
(* the time in the generator after the speeds l: negative speeds count as zero *)
Fixpoint position (l : list R) : R := match l with [] => 1 | v :: l => Rmax 0 v + position l end.
Notation idR := (fun x : R => x).
(* a resampler of a generator with ch channels *)
Definition res_shape {S} (r : resampler S R R) (ch : nat) : Prop := length (r_buf r) = ch /\ forall b, In b (r_buf r) -> length b = 128%nat.
