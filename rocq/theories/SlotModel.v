(* The updatable slot: /repo/src/slot.rs. No proofs here.
   F is the sample type (f32) and D the type of times and phases (f64), with operations nf and nd; cast is `as f32`. at_d and at_f are the
   fade curves on them. U is the type of units.
   A channel is the list of the values in it, the oldest first; each operation on it is one step, and so is each call of the frontend or
   of the backend. Nothing is the only message that is not modelled; it is never sent. *)
From Verif Require Export FadeModel SnoopModel.

Section Slot.
  Context {F D P U : Type}.
  Variables (nf : num F) (nd : num D) (cast : D -> F) (at_d : fade -> D -> D) (at_f : fade -> F -> F).
  Variable ops : unit_ops F P U.
  Variable set_rate : U -> D -> U.     (* set_sample_rate of a unit *)
  Notation zf := (n0 nf).
  Notation zd := (n0 nd).
  (* slot.rs:92-108 SlotBackend. Its fade and fade_time belong to next and its latest_fade and latest_fade_time to latest; when there is no unit
     they are overwritten before they are read. tick is a scratch frame. *)
  Record backend := mkSB { sb_rate : D; sb_current : U; sb_next : option (nedit D U); sb_latest : option (nedit D U); sb_phase : D; sb_buffer : list (list F) }.
  (* slot.rs:27-33, 92-108: the channel of updates and that of returned units, the units that the frontend has deallocated, and the units that were dropped
     because a channel was full: updates by the frontend, returned units by the backend. The last three lists are not in the code. *)
  Record slot := mkSlot { sl_back : backend; sl_updates : list (nedit D U); sl_returns : list U;
    sl_freed : list U; sl_refused : list U; sl_dropped : list U }.
  (* slot.rs:37-68 new *)
  Definition slot_new (default_rate : D) (u : U) : slot :=
    mkSlot (mkSB default_rate (set_rate u default_rate) None None zd (repeat (repeat zf MAXB) (u_outs ops u))) [] [] [] [] [].
  (* slot.rs:70-79 set; None if an arity differs *)
  Definition slot_set (ins outs : nat) (s : slot) (e : nedit D U) : option slot :=
    if Nat.eqb ins (u_ins ops (ed_unit e)) && Nat.eqb outs (u_outs ops (ed_unit e)) then
      let (q, ok) := try_send CHANNEL (sl_updates s) e in
      Some (mkSlot (sl_back s) q [] (sl_freed s ++ sl_returns s) (if ok then sl_refused s else sl_refused s ++ [ed_unit e]) (sl_dropped s))
    else None.

  (* slot.rs:92-108 (field update) *)
  Definition with_back (s : slot) (b : backend) : slot := mkSlot b (sl_updates s) (sl_returns s) (sl_freed s) (sl_refused s) (sl_dropped s).
  (* slot.rs:146, 160, 174-180: sender.try_send(SlotMessage::Return(unit)) of the backend *)
  Definition give_back (s : slot) (u : U) : slot :=
    let (q, ok) := try_send CHANNEL (sl_returns s) u in
    mkSlot (sl_back s) (sl_updates s) q (sl_freed s) (sl_refused s) (if ok then sl_dropped s else sl_dropped s ++ [u]).
  (* slot.rs:138-152: one update *)
  Definition take_update (s : slot) (e : nedit D U) : slot :=
    let b := sl_back s in
    match sb_next b with
    | None => with_back s (mkSB (sb_rate b) (sb_current b) (Some e) (sb_latest b) zd (sb_buffer b))
    | Some _ =>
        let s := match sb_latest b with Some l => give_back s (ed_unit l) | None => s end in
        with_back s (mkSB (sb_rate b) (sb_current b) (sb_next b) (Some e) (sb_phase b) (sb_buffer b))
    end.
  (* slot.rs:136-154 handle_messages: all the updates *)
  Definition handle_messages (s : slot) : slot :=
    fold_left take_update (sl_updates s) (mkSlot (sl_back s) [] (sl_returns s) (sl_freed s) (sl_refused s) (sl_dropped s)).
  (* slot.rs:157-165 next_phase *)
  Definition slot_next_phase (s : slot) : slot :=
    let b := sl_back s in
    match sb_next b with
    | Some e => with_back (give_back s (sb_current b)) (mkSB (sb_rate b) (ed_unit e) (sb_latest b) None zd (sb_buffer b))
    | None => s                          (* unwrap of None; not reached *)
    end.
  Local Infix "+." := (nadd nd) (at level 50, left associativity).
  Local Infix "-." := (nsub nd) (at level 50, left associativity).
  Local Infix "*." := (nmul nd) (at level 40, left associativity).
  Local Infix "/." := (ndiv nd) (at level 40, left associativity).
  (* slot.rs:186-195 (field update) *)
  Definition set_unit (e : nedit D U) (u : U) : nedit D U := mkEdit u (ed_fade e) (ed_time e).
  (* slot.rs:197-215 tick *)
  Definition slot_tick (s : slot) (input : list F) : slot * list F :=
    let s := handle_messages s in
    let b := sl_back s in
    let (u, o) := u_tick ops (sb_current b) input in
    match sb_next b with
    | None => (with_back s (mkSB (sb_rate b) u None (sb_latest b) (sb_phase b) (sb_buffer b)), o)
    | Some e =>
        let f := cast (at_d (ed_fade e) (n1 nd -. sb_phase b)) in
        let o1 := map (fun v => nmul nf v f) o in
        let (w, t) := u_tick ops (ed_unit e) input in
        let f := cast (at_d (ed_fade e) (sb_phase b)) in
        let o2 := zipw (fun x y => nadd nf x (nmul nf y f)) o1 t in
        let phase := sb_phase b +. n1 nd /. (ed_time e *. sb_rate b) in
        let s' := with_back s (mkSB (sb_rate b) u (Some (set_unit e w)) (sb_latest b) phase (sb_buffer b)) in
        (if nleb nd (n1 nd) phase then slot_next_phase s' else s', o2)
    end.
  (* slot.rs:217-277 process. fade_d is 1.0 / (fade_time * sample_rate) as f32, where the cast applies to the product. *)
  Definition slot_blend (f : fade) (p d : F) (m size : nat) (a b : list F) : list F :=
    map (fun k => if Nat.ltb k m then nadd nf (nmul nf (nth k a zf) (at_f f (nsub nf (n1 nf) (ramp nf p d k)))) (nmul nf (nth k b zf) (at_f f (ramp nf p d k)))
                  else if Nat.ltb k size then nth k b zf else nth k a zf) (seq 0 MAXB).
  (* slot.rs:217-277 *)
  Definition slot_process (s : slot) (size : nat) (inb out : list (list F)) : slot * list (list F) :=
    let s := handle_messages s in
    let b := sl_back s in
    let (u, out1) := u_process ops (sb_current b) size inb out in
    match sb_next b with
    | None => (with_back s (mkSB (sb_rate b) u None (sb_latest b) (sb_phase b) (sb_buffer b)), out1)
    | Some e =>
        let phase_left := to_usize nd ((n1 nd -. sb_phase b) *. ed_time e *. sb_rate b) in
        let m := Nat.min size phase_left in
        let fade_d := ndiv nf (n1 nf) (cast (ed_time e *. sb_rate b)) in
        let (w, tmp) := u_process ops (ed_unit e) size inb (sb_buffer b) in
        let out2 := zipw (slot_blend (ed_fade e) (cast (sb_phase b)) fade_d m size) out1 tmp in
        let phase := sb_phase b +. nofZ nd (Z.of_nat m) /. (ed_time e *. sb_rate b) in
        let s' := with_back s (mkSB (sb_rate b) u (Some (set_unit e w)) (sb_latest b) phase tmp) in
        (if Nat.leb phase_left size then slot_next_phase s' else s', out2)
    end.
  (* slot.rs:170-183 reset *)
  Definition slot_reset (s : slot) : slot :=
    let b := sl_back s in
    match sb_latest b, sb_next b with
    | Some l, Some e => with_back (give_back (give_back s (sb_current b)) (ed_unit e)) (mkSB (sb_rate b) (u_reset ops (ed_unit l)) None None (sb_phase b) (sb_buffer b))
    | Some l, None => with_back (give_back s (sb_current b)) (mkSB (sb_rate b) (u_reset ops (ed_unit l)) None None (sb_phase b) (sb_buffer b))
    | None, Some e => with_back (give_back s (sb_current b)) (mkSB (sb_rate b) (u_reset ops (ed_unit e)) None None (sb_phase b) (sb_buffer b))
    | None, None => with_back s (mkSB (sb_rate b) (u_reset ops (sb_current b)) None None (sb_phase b) (sb_buffer b))
    end.
  (* slot.rs:186-195 set_sample_rate *)
  Definition slot_set_rate (s : slot) (r : D) : slot :=
    let b := sl_back s in
    let re := option_map (fun e : nedit D U => set_unit e (set_rate (ed_unit e) r)) in
    with_back s (mkSB r (set_rate (sb_current b) r) (re (sb_next b)) (re (sb_latest b)) (sb_phase b) (sb_buffer b)).
End Slot.
Arguments mkSB {F D U}. Arguments sb_rate {F D U}. Arguments sb_current {F D U}. Arguments sb_next {F D U}. Arguments sb_latest {F D U}. Arguments sb_phase {F D U}. Arguments sb_buffer {F D U}.
Arguments mkSlot {F D U}. Arguments sl_back {F D U}. Arguments sl_updates {F D U}. Arguments sl_returns {F D U}. Arguments sl_freed {F D U}. Arguments sl_refused {F D U}. Arguments sl_dropped {F D U}.
