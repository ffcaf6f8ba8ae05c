(* Callers may mix single ticks and blocks freely. A sequence of requests, what it feeds to a unit and what it gets back. *)
From Verif Require Export UnitModel.

Section Requests.
  Context {A X : Type}.
  Variable zero : A.
  Variable tick : X -> list A -> X * list A.
  Variable process : X -> nat -> list (list A) -> list (list A) -> X * list (list A).
  (* one frame, or a block: its size, the input buffer and the previous contents of the output buffer *)
  Inductive request := Tick (input : list A) | Block (size : nat) (inb out : list (list A)).
  Definition request_ok (ins outs : nat) (r : request) : Prop :=
    match r with Tick i => length i = ins | Block size inb out => size <= MAXB /\ shaped ins inb /\ shaped outs out end.
  Definition fed (r : request) : list (list A) := match r with Tick i => [i] | Block size inb _ => frames zero inb size end.
  Definition serve (x : X) (r : request) : X * list (list A) :=
    match r with
    | Tick i => let (x', o) := tick x i in (x', [o])
    | Block size inb out => let (x', out') := process x size inb out in (x', frames zero out' size)
    end.
  Fixpoint serve_all (x : X) (rs : list request) : X * list (list A) :=
    match rs with
    | [] => (x, [])
    | r :: rs' => let (x', os) := serve x r in let (x'', os') := serve_all x' rs' in (x'', os ++ os')
    end.
End Requests.
Arguments Tick {A}. Arguments Block {A}.
