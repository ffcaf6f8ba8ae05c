(* What it means that reset() restores a node, in terms of what can be heard. No proofs here. *)
From Verif Require Export NodeModel NodeSpec.

Section Spec.
  Context {A P U : Type}.
  Variable ar : arith A.
  Variable ops : unit_ops A P U.
  (* a unit after a stream of input frames, and the output frames it has given *)
  Definition after (u : U) (l : list (list A)) : U := fst (BufModel.ticks (u_tick ops) u l).
  Definition played (u : U) (l : list (list A)) : list (list A) := snd (BufModel.ticks (u_tick ops) u l).
  (* the numbers of inputs and outputs never change, and output frames have as many samples as there are outputs *)
  Definition fixed_arity (u : U) : Prop := forall l, stream (u_ins ops u) l ->
    u_ins ops (after u l) = u_ins ops u /\ u_outs ops (after u l) = u_outs ops u /\ stream (u_outs ops u) (played u l).
  (* two units that cannot be told apart by playing them *)
  Definition alike (u v : U) : Prop := u_ins ops u = u_ins ops v /\ u_outs ops u = u_outs ops v /\
    forall l, stream (u_ins ops u) l -> u_ins ops (after u l) = u_ins ops (after v l) /\ u_outs ops (after u l) = u_outs ops (after v l) /\ played u l = played v l.
  (* whatever has been played, reset() brings back a unit like this one *)
  Definition restored (u : U) : Prop := forall l, stream (u_ins ops u) l -> alike (u_reset ops (after u l)) u.
  (* An expression as it is built, of units for which ready holds: feedback is at zero, and impulses are ahead. *)
  Variable ready : U -> Prop.
  Section All.
    Variable fresh : node A U -> Prop.
    Definition each := fix go (xs : list (node A U)) : Prop := match xs with [] => True | x :: r => fresh x /\ go r end.
  End All.
  Fixpoint fresh (x : node A U) : Prop :=
    match x with
    | Leaf u => ready u
    | Impulse _ v one => v = one
    | Binop _ x y | Pipe x y | Stack x y | Branch x y | Bus x y => fresh x /\ fresh y
    | Unop _ x | Thru x => fresh x
    | MultiBus xs | MultiStack xs | Reduce _ xs | MultiBranch xs | Chain xs => each fresh xs
    | Feedback x v _ => fresh x /\ Forall (fun a => a = a_zero ar) v
    | Feedback2 x y v _ => fresh x /\ fresh y /\ Forall (fun a => a = a_zero ar) v
    | _ => True
    end.
End Spec.

(* units that keep their arity and that reset() restores *)
Definition resettable {A P U} (ops : unit_ops A P U) (u : U) : Prop := fixed_arity ops u /\ restored ops u.
(* a kind of unit that is given by its numbers of inputs and outputs, tick and reset *)
Definition machine {A P U} (ins outs : nat) (tick : U -> list A -> U * list A) (reset : U -> U) : unit_ops A P U :=
  mkUnit A P U (fun _ => ins) (fun _ => outs) tick (fun u _ _ o => (u, o)) (fun u _ => u) reset (fun _ => 0%N) (fun u _ => u).
(* units of two kinds *)
Definition either {A P U V} (f : unit_ops A P U) (g : unit_ops A P V) : unit_ops A P (U + V) :=
  mkUnit A P (U + V)
    (fun u => match u with inl u => u_ins f u | inr v => u_ins g v end) (fun u => match u with inl u => u_outs f u | inr v => u_outs g v end)
    (fun u i => match u with inl u => let (u, o) := u_tick f u i in (inl u, o) | inr v => let (v, o) := u_tick g v i in (inr v, o) end)
    (fun u k i o => match u with inl u => let (u, o) := u_process f u k i o in (inl u, o) | inr v => let (v, o) := u_process g v k i o in (inr v, o) end)
    (fun u s => match u with inl u => inl (u_set f u s) | inr v => inr (u_set g v s) end)
    (fun u => match u with inl u => inl (u_reset f u) | inr v => inr (u_reset g v) end)
    (fun u => match u with inl u => u_id f u | inr v => u_id g v end)
    (fun u h => match u with inl u => inl (u_set_hash f u h) | inr v => inr (u_set_hash g v h) end).
(* an expression as a unit, such as those that are put into AllNest or FeedbackUnit *)
Definition expr_ops {A P U} (ar : arith A) (ops : unit_ops A P U) : unit_ops A P (node A U) :=
  mkUnit A P (node A U) (ins ops) (outs ops) (tick ar ops) (fun x _ _ o => (x, o)) (fun x _ => x) (reset ar ops) (fun _ => 0%N) (fun x _ => x).
