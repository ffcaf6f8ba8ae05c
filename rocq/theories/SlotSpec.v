(* What a slot should do. *)
From Verif Require Export SlotModel.
From Coq Require Import Permutation.

Section Spec.
  Context {F D P U : Type}.
  Variables (nf : num F) (nd : num D) (cast : D -> F) (at_d : fade -> D -> D) (at_f : fade -> F -> F).
  Variable ops : unit_ops F P U.
  Variable set_rate : U -> D -> U.
  Variables ins outs : nat.
  (* calls of the frontend (Set) and of the backend *)
  Inductive slot_event := Set_ (e : nedit D U) | Tick (input : list F) | Process (size : nat) (inb out : list (list F)) | Reset | Rate (r : D).
  Notation slot := (@slot F D U).
  Definition slot_step (s : slot) (e : slot_event) : option slot :=
    match e with
    | Set_ e => slot_set ops ins outs s e
    | Tick i => Some (fst (slot_tick nf nd cast at_d ops s i))
    | Process size inb out => Some (fst (slot_process nf nd cast at_f ops s size inb out))
    | Reset => Some (slot_reset ops s)
    | Rate r => Some (slot_set_rate set_rate s r)
    end.
  (* any interleaving; None if a call panics *)
  Fixpoint slot_run (es : list slot_event) (s : slot) : option slot :=
    match es with [] => Some s | e :: r => match slot_step s e with Some s' => slot_run r s' | None => None end end.
  (* rendering *)
  Definition renders (e : slot_event) : Prop := match e with Tick _ => True | Process size _ _ => 1 <= size | _ => False end.
  (* fade times and sample rates are positive, and no block is empty *)
  Definition timely (positive : D -> Prop) (e : slot_event) : Prop :=
    match e with Set_ e => positive (ed_time e) | Rate r => positive r | Process size _ _ => 1 <= size | _ => True end.
  (* the units that were set, in order *)
  Definition sets (es : list slot_event) : list U := concat (map (fun e => match e with Set_ e => [ed_unit e] | _ => [] end) es).
  (* all calls of set pass a unit of the right arity *)
  Definition arities (es : list slot_event) : Prop := Forall (fun u => u_ins ops u = ins /\ u_outs ops u = outs) (sets es).
  (* at every moment of the run at most 1022 updates wait *)
  Definition roomy (es : list slot_event) (s : slot) : Prop :=
    forall n s', slot_run (firstn n es) s = Some s' -> length (sl_updates s') + 2 <= CHANNEL.

  Definition in_edit (e : option (nedit D U)) : list U := match e with Some e => [ed_unit e] | None => [] end.
  (* every unit in the slot: playing, waiting, on the way back, deallocated by the frontend, refused, or dropped by the backend *)
  Definition waiting (s : slot) : list U := in_edit (sb_next (sl_back s)) ++ in_edit (sb_latest (sl_back s)) ++ map ed_unit (sl_updates s).
  Definition units (s : slot) : list U := sb_current (sl_back s) :: waiting s ++ sl_returns s ++ sl_freed s ++ sl_refused s ++ sl_dropped s.
  (* A numbering of units: rendering, reset and the sample rate change the state of a unit but not its number. *)
  Definition names (tag : U -> nat) : Prop :=
    (forall u i, tag (fst (u_tick ops u i)) = tag u) /\ (forall u size inb out, tag (fst (u_process ops u size inb out)) = tag u) /\
    (forall u, tag (u_reset ops u) = tag u) /\ (forall u r, tag (set_rate u r) = tag u).
  (* nothing but this unit plays, and nothing waits *)
  Definition plays (tag : U -> nat) (s : slot) (t : nat) : Prop := tag (sb_current (sl_back s)) = t /\ waiting s = [].
  (* the units that the slot renders run at its sample rate; rate_of is the sample rate of a unit *)
  Definition at_rate (rate_of : U -> D) (s : slot) : Prop :=
    let b := sl_back s in Forall (fun u => rate_of u = sb_rate b) (sb_current b :: in_edit (sb_next b) ++ in_edit (sb_latest b)).
  (* only set_sample_rate changes the sample rate of a unit *)
  Definition rates (rate_of : U -> D) : Prop :=
    (forall u i, rate_of (fst (u_tick ops u i)) = rate_of u) /\ (forall u size inb out, rate_of (fst (u_process ops u size inb out)) = rate_of u) /\
    (forall u, rate_of (u_reset ops u) = rate_of u) /\ (forall u r, rate_of (set_rate u r) = r).
  (* units are set to the slot's sample rate before they are passed to it, and the rate does not change while an update waits *)
  Fixpoint careful (rate_of : U -> D) (es : list slot_event) (s : slot) : Prop :=
    match es with
    | [] => True
    | e :: r =>
        match e with Set_ e => rate_of (ed_unit e) = sb_rate (sl_back s) | Rate _ => sl_updates s = [] | _ => True end /\
        match slot_step s e with Some s' => careful rate_of r s' | None => True end
    end.
End Spec.
Arguments slot_event F D U : clear implicits.
(* the crossfading part of a slot, as the unit of a network node *)
Definition core {F U : Type} (s : @slot F F U) : slotx F U :=
  mkX (sb_current (sl_back s)) (sb_next (sl_back s)) (sb_latest (sl_back s)) (sb_phase (sl_back s)) (sb_buffer (sl_back s)).

