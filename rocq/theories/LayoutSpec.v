(* What a buffer means: memory is one row of samples, and sample i of channel c is the sample 64 c + i of the row. *)
From Verif Require Export LayoutModel.

Section Spec.
  Context {A : Type}.
  (* n channels of 8 words of 8 samples *)
  Definition well (n : nat) (b : list (list A)) : Prop := length b = 8 * n /\ Forall (fun w => length w = 8) b.
  Definition sample (b : list (list A)) (c i : nat) : option A := nth_error (concat b) (64 * c + i).
  (* b' is b except at the samples of channel c from i on, where it has the samples vs *)
  Definition changes (n : nat) (b b' : list (list A)) (c i : nat) (vs : list A) : Prop :=
    well n b' /\ forall c' i', c' < n -> i' < 64 ->
      sample b' c' i' = if Nat.eqb c' c && Nat.leb i i' && Nat.ltb i' (i + length vs) then nth_error vs (i' - i) else sample b c' i'.
  (* an array of n channels *)
  Definition well_array (n : nat) (a : list (list (list A))) : Prop := length a = n /\ Forall (well 1) a.
  (* the channels as lists of samples, as in BufModel.v *)
  Definition as_channels (n : nat) (b : list (list A)) : list (list A) := slices n 64 (concat b).
End Spec.
