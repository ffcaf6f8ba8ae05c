(* What the reports of a network mean: the equations that its labels solve, and what it does to endless streams of samples. *)
From Coq Require Import Reals.
From Verif Require Export FreqSpec NetRouteModel NetSpec SignalSpec.

Section Labels.
  Context {F P U : Type}.
  Variable nm : num F.
  Variable u_route : U -> F -> list (signal F) -> option (list (signal F)).
  (* One label for each output of each node: node i is given the labels of its sources (zero inputs are the constant zero),
     and entry i of inner is what the analysis of its unit returns. *)
  Definition labels_solve (freq : F) (g : list (list port)) (us : list U) (input : list (signal F)) (inner : list (list (signal F))) : Prop :=
    length us = length g /\ length inner = length g /\
    forall i ps u o, nth_error g i = Some ps -> nth_error us i = Some u -> nth_error inner i = Some o ->
      exists ins, mapM (value (Value (n0 nm)) inner input) ps = Some ins /\ u_route u freq ins = Some o.
  (* and the outputs of the network have the labels of their sources *)
  Definition net_labels (freq : F) (n : net F U) (us : list U) (input : list (signal F)) (inner : list (list (signal F))) (out : list (signal F)) : Prop :=
    labels_solve freq (graph n) us input inner /\ mapM (value (Value (n0 nm)) inner input) (map e_src (n_oedge n)) = Some out.
  (* The analysis of a unit returns one label for each output. *)
  Definition routes (ops : unit_ops F P U) (freq : F) (u : U) : Prop :=
    forall ins, length ins = u_ins ops u -> exists o, u_route u freq ins = Some o /\ length o = u_outs ops u.
End Labels.

Section NetStreams.
  Context {A P U : Type}.
  Variable zero : A.
  Variable ops : unit_ops A P U.
  Variable uping : bool -> U -> N -> U * N.
  Variable ahash : N -> N -> N.
  (* the network after t frames of the stream X, and its output frame at time t *)
  Fixpoint net_state (n : net A U) (X : nat -> list A) (t : nat) : option (net A U) :=
    match t with O => Some n | S k => match net_state n X k with Some m => option_map fst (net_tick zero ops uping ahash m (X k)) | None => None end end.
  Definition net_output (n : net A U) (X : nat -> list A) (t : nat) : option (list A) :=
    match net_state n X t with Some m => option_map snd (net_tick zero ops uping ahash m (X t)) | None => None end.
End NetStreams.

(* each row of a mixer has a weight for each input *)
Definition lu_shaped (u : lunit R) : Prop := match u with Mix n m => Forall (fun row => length row = n) m | _ => True end.
