(* What the oversampler should do, over the reals: insert a zero after each input sample, filter with twice the interpolation filter, run the
   enclosed node, filter, and keep every second sample. Samples before the start are zero. *)
From Coq Require Import Reals.
From Verif Require Export OverModel.
Local Open Scope R_scope.

(* f 0 + ... + f (n - 1) *)
Fixpoint total (n : nat) (f : nat -> R) : R := match n with 0%nat => 0 | S n => total n f + f n end.
(* convolution of y with the impulse response h of n samples *)
Definition conv (n : nat) (h : nat -> R) (y : nat -> R) (m : nat) : R := total n (fun k => if (k <=? m)%nat then h k * y (m - k)%nat else 0).
(* the interpolation filter: the weights from last to first *)
Definition halfband (w : list R) (k : nat) : R := nth (42 - k) w 0.
Section Spec.
  Context {X : Type} (w : list R) (x_tick : X -> list R -> X * list R) (x : X) (inputs outputs : nat) (input : nat -> list R).
  Notation filter := (conv 43 (halfband w)).
  (* channel c of the input with zeros inserted *)
  Definition stuffed (c m : nat) : R := if Nat.even m then nth c (input (m / 2)%nat) 0 else 0.
  (* frame m of the input of the enclosed node *)
  Definition node_input (m : nat) : list R := map (fun c => 2 * filter (stuffed c) m) (seq 0 inputs).
  (* the enclosed node before frame m, and frame m of its output *)
  Fixpoint node_at (m : nat) : X := match m with 0%nat => x | S m => fst (x_tick (node_at m) (node_input m)) end.
  Definition node_output (m : nat) : list R := snd (x_tick (node_at m) (node_input m)).
  Definition over_output (t : nat) : list R := map (fun c => filter (fun m => nth c (node_output m) 0) (2 * t)) (seq 0 outputs).
End Spec.
(* the halfband filter of the code *)
Definition halfband_min : list R := map (fun z => IZR z / IZR (10 ^ 12)) HALFBAND_MIN_12.
(* an oversampler of a node with the given numbers of channels: rings of 128 samples *)
Definition over_shape {X} (o : over X R) (inputs outputs : nat) : Prop := length (o_in o) = inputs /\ length (o_out o) = outputs /\ (o_j o < 128)%nat.
