(* What the labels of signal flow analysis mean, in terms of what a node does to endless streams of samples. *)
From Coq Require Import Reals.
From Verif Require Export SignalModel NodeArith.

Section Streams.
  Context {A P U : Type}.
  Variable ar : arith A.
  Variable ops : unit_ops A P U.
  (* an endless multichannel stream: the frame at each time *)
  Notation stream := (nat -> list A).
  (* the node after t frames of the stream, and its output frame at time t *)
  Fixpoint state (x : node A U) (X : stream) (t : nat) : node A U :=
    match t with O => x | S k => fst (tick ar ops (state x X k) (X k)) end.
  Definition output (x : node A U) (X : stream) : stream := fun t => snd (tick ar ops (state x X t) (X t)).
End Streams.
Definition width {A} (n : nat) (X : nat -> list A) : Prop := forall t, length (X t) = n.

(* The least number, if there is one. *)
Definition omin (a b : option R) : option R :=
  match a, b with Some x, Some y => Some (Rmin x y) | Some x, None => Some x | None, o => o end.
(* the sum, if both are there *)
Definition osum (a b : option R) : option R := match a, b with Some x, Some y => Some (x + y)%R | _, _ => None end.

(* Which expressions are analysed correctly. MultiStack and Reduce hand the labels of all their inputs to their first child,
   which must then be one that can cope with labels beyond its own inputs, and several nodes return as many labels as they get.
   safe e x: x copes with exactly as many labels as it has inputs (e = true) or with at least as many (e = false);
   tight e x: x returns exactly as many labels as it has outputs, given the same. u_copes: the leaf units that look only at their own labels. *)
Section Safe.
  Context {F U : Type}.
  Variable u_copes : U -> bool.
  Fixpoint tight (e : bool) (x : expr F U) : bool :=
    match x with
    | XPrim (PMultiPass _) | XPrim PPass => e
    | XBinop _ a _ => tight true a
    | XUnop _ a => tight e a
    | XPipe a b => tight (tight e a) b
    | XBus a _ => tight e a
    | XMultiBus (a :: _) => tight e a
    | XReduce _ (a :: r) => tight (e && match r with [] => true | _ => false end) a
    | XChain xs => (fix go (e : bool) (xs : list (expr F U)) : bool := match xs with [] => e | a :: r => go (tight e a) r end) e xs
    | _ => true
    end.
  Definition tight_chain := fix go (e : bool) (xs : list (expr F U)) : bool := match xs with [] => e | a :: r => go (tight e a) r end.
  Fixpoint safe (e : bool) (x : expr F U) : bool :=
    match x with
    | XLeaf u => e || u_copes u
    | XPrim (PMultiPass _) | XPrim PPass | XPrim (PSink _) | XPrim (PConstant _) => true
    | XPrim _ => e
    | XBinop _ a b | XStack a b => safe true a && safe true b
    | XUnop _ a | XThru a => safe e a
    | XPipe a b => safe e a && safe (tight e a) b
    | XBranch a b | XBus a b => safe e a && safe e b
    | XMultiBus xs | XMultiBranch xs => forallb (safe e) xs
    | XMultiStack xs | XReduce _ xs =>
        match xs with [] => true | a :: r => safe (e && match r with [] => true | _ => false end) a && forallb (safe true) r end
    | XChain xs => (fix go (e : bool) (xs : list (expr F U)) : bool := match xs with [] => true | a :: r => safe e a && go (tight e a) r end) e xs
    | XFeedback _ _ _ | XFeedback2 _ _ _ _ => e
    end.
  (* Expressions without MultiStack and Reduce (of more than one node). *)
  Fixpoint no_multi (x : expr F U) : Prop :=
    match x with
    | XMultiStack (_ :: _ :: _) | XReduce _ (_ :: _ :: _) => False
    | XBinop _ a b | XStack a b | XPipe a b | XBranch a b | XBus a b => no_multi a /\ no_multi b
    | XUnop _ a | XThru a => no_multi a
    | XMultiBus xs | XMultiBranch xs | XMultiStack xs | XReduce _ xs | XChain xs =>
        (fix go (xs : list (expr F U)) : Prop := match xs with [] => True | a :: r => no_multi a /\ go r end) xs
    | _ => True
    end.
  (* the leaf units outside of feedback loops are of a certain kind, and the map nodes are those that the function map makes:
     /repo/src/prelude.rs:1121-1127 *)
  Fixpoint over (p : U -> Prop) (nm : num F) (x : expr F U) : Prop :=
    match x with
    | XLeaf u => p u
    | XPrim (PMap _ _ _ r) => r = Arbitrary (n0 nm)
    | XBinop _ a b | XStack a b | XPipe a b | XBranch a b | XBus a b => over p nm a /\ over p nm b
    | XUnop _ a | XThru a => over p nm a
    | XMultiBus xs | XMultiBranch xs | XMultiStack xs | XReduce _ xs | XChain xs =>
        (fix go (xs : list (expr F U)) : Prop := match xs with [] => True | a :: r => over p nm a /\ go r end) xs
    | _ => True
    end.
End Safe.

(* The meaning of labels, over the reals. A signal is a family of streams, one for each w : W (for each way of feeding the expression). *)
Definition meaning (W : Type) := signal R -> (W -> nat -> R) -> Prop.
(* n channels and their labels; extra labels are allowed *)
Definition labelled {W} (M : meaning W) (n : nat) (S : list (signal R)) (X : W -> nat -> list R) : Prop :=
  n <= length S /\ (forall w, width n (X w)) /\ forall i, i < n -> M (nth i S Unknown) (fun w t => nth i (X w t) 0%R).

(* Latency, as two runs w = true and w = false of the same expression whose inputs agree before time T: a signal with latency l is the same
   in both runs before time T + l; a signal of unknown origin or a constant is the same in both at all times; and no frequency responses. *)
Definition same_before (T : R) : meaning bool := fun s f =>
  match s with
  | Latency l => forall t, (INR t < T + l)%R -> f true t = f false t
  | Response _ _ => False
  | _ => forall t, f true t = f false t
  end.
(* Constants: a signal labelled with a value has that value at all times. *)
Definition constant_if_value : meaning unit := fun s f =>
  match s with Value v => forall w t, f w t = v | _ => True end.

(* A leaf unit is analysed correctly with respect to a meaning. *)
Section Leaves.
  Context {P U W : Type}.
  Variable ops : unit_ops R P U.
  Variable u_route : U -> R -> list (signal R) -> option (list (signal R)).
  Variable u_copes : U -> bool.
  Definition leaf_sound (M : meaning W) (freq : R) (u : U) : Prop :=
    forall S S' X, labelled M (u_ins ops u) S X -> (length S = u_ins ops u \/ u_copes u = true) -> u_route u freq S = Some S' ->
    length S' = u_outs ops u /\ labelled M (u_outs ops u) S' (fun w => output R_arith ops (Leaf u) (X w)).
  (* A leaf unit returns one label for each output, makes no frequency responses out of nothing,
     and the latencies that it returns move with the latencies it gets. *)
  Definition shift (d : R) (S : list (signal R)) : list (signal R) := map (fun s => sig_delay Rnum_ops s d) S.
  Definition no_response (s : signal R) : Prop := match s with Response _ _ => False | _ => True end.
  Record leaf_regular (u : U) : Prop := {
    lr_outs : forall freq S S', u_ins ops u <= length S -> (length S = u_ins ops u \/ u_copes u = true) -> u_route u freq S = Some S' ->
      length S' = u_outs ops u /\ (Forall no_response (firstn (u_ins ops u) S) -> Forall no_response S');
    lr_shift : forall freq d S, u_ins ops u <= length S -> (length S = u_ins ops u \/ u_copes u = true) ->
      u_route u freq (shift d S) = option_map (shift d) (u_route u freq S)
  }.
End Leaves.
