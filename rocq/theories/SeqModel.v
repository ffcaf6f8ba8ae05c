(* The sequencer, /repo/src/sequencer.rs, and its realtime backend, /repo/src/realseq.rs. No proofs here.
   F is the type of times and of samples, with operations nm: the code keeps times in f64 and samples and fade weights in f32; the casts
   are left out. An end time may be infinite (None), and the threshold is minus infinity at first (None). None as a result is a panic.
   Event ids, which the code draws from a global atomic generator (19-31), are passed in. Memory allocation is not modelled. *)
From Coq Require Export Permutation.
From Verif Require Export FadeModel NetModel.

Section Seq.
  Context {F P U : Type}.
  Variable nm : num F.
  Variable at_ : fade -> F -> F.        (* the fade curves *)
  Variable ops : unit_ops F P U.
  Variable usr : U -> F -> U.           (* AudioUnit::set_sample_rate *)
  Local Infix "+." := (nadd nm) (at level 50, left associativity).
  Local Infix "-." := (nsub nm) (at level 50, left associativity).
  Local Infix "*." := (nmul nm) (at level 40, left associativity).
  Local Infix "/." := (ndiv nm) (at level 40, left associativity).
  Local Infix "<." := (nltb nm) (at level 70).
  Local Infix "<=." := (nleb nm) (at level 70).
  Notation zero := (n0 nm).
  (* sequencer.rs:166-211 *)
  Definition half : F := n1 nm /. nofZ nm 2.

  (* sequencer.rs:59-68 Event *)
  Record event := mkEv { ev_unit : U; ev_start : F; ev_end : option F; ev_ease : fade; ev_in : F; ev_out : F; ev_id : N }.
  (* sequencer.rs:59-68 *)
  Definition ev_set_unit (e : event) (u : U) : event := mkEv u (ev_start e) (ev_end e) (ev_ease e) (ev_in e) (ev_out e) (ev_id e).
  (* sequencer.rs:59-68 *)
  Definition ev_set_end (e : event) (t : option F) (o : F) : event := mkEv (ev_unit e) (ev_start e) t (ev_ease e) (ev_in e) o (ev_id e).
  (* sequencer.rs:59-68 *)
  Definition ev_set_times (e : event) (s : F) (t : option F) : event := mkEv (ev_unit e) s t (ev_ease e) (ev_in e) (ev_out e) (ev_id e).

  (* sequencer.rs:222 BinaryHeap of events, ordered by 105-109: the heap is the list of its elements in some order; pop takes one that starts first.
     Which one, among events that start together, and the order of the rest are left open: pop is any function with heap_laws. *)
  Variable pop : list event -> option (event * list event).
  (* sequencer.rs:89-109, 222 *)
  Definition heap_laws : Prop :=
    pop [] = None /\
    forall l, l <> [] -> exists e r, pop l = Some (e, r) /\ Permutation l (e :: r) /\ forall x, In x r -> (ev_start e <=. ev_start x) = true.

  (* sequencer.rs:111-115 Edit, and the map of edits *)
  Definition emap := list (N * (option F * F)).
  (* sequencer.rs:111-115 *)
  Fixpoint elookup (m : emap) (id : N) : option (option F * F) :=
    match m with [] => None | (k, x) :: r => if N.eqb k id then Some x else elookup r id end.
  (* sequencer.rs:111-115 *)
  Definition eremove (m : emap) (id : N) : emap := filter (fun x => negb (N.eqb (fst x) id)) m.
  (* sequencer.rs:111-115 *)
  Definition einsert (m : emap) (id : N) (x : option F * F) : emap := (id, x) :: eremove m id.

  (* sequencer.rs:213-243 Sequencer, without frontend; tick_buffer is overwritten before it is read *)
  Record seqr := mkSeq {
    q_active : list event; q_map : imap; q_thr : option F; q_ready : list event; q_past : list event; q_edits : emap;
    q_outs : nat; q_time : F; q_sr : F; q_sd : F; q_buf : list (list F); q_replay : bool }.
  (* sequencer.rs:277-296 new; sr is DEFAULT_SR *)
  Definition seq_new (sr : F) (replay : bool) (outs : nat) : seqr :=
    mkSeq [] [] None [] [] [] outs zero sr (n1 nm /. sr) (repeat (repeat zero MAXB) outs) replay.

  (* sequencer.rs:506-533 *)
  Definition below (t : F) (thr : option F) : bool := match thr with Some x => t <. x | None => false end.
  (* sequencer.rs:343-348, 394-399: where a new event goes *)
  Definition place (s : seqr) (e : event) : seqr :=
    if below (ev_start e) (q_thr s) then
      mkSeq (q_active s ++ [e]) (iinsert (q_map s) (ev_id e) (length (q_active s))) (q_thr s) (q_ready s) (q_past s) (q_edits s) (q_outs s) (q_time s) (q_sr s) (q_sd s) (q_buf s) (q_replay s)
    else
      mkSeq (q_active s) (q_map s) (q_thr s) (e :: q_ready s) (q_past s) (q_edits s) (q_outs s) (q_time s) (q_sr s) (q_sd s) (q_buf s) (q_replay s).
  (* sequencer.rs:343-348, 394-399 *)
  Definition shift_end (t : F) (x : option F) : option F := option_map (fun v => v +. t) x.
  (* sequencer.rs:307-334: the assertions of push and push_relative, 316-319 *)
  Definition pushable (s : seqr) (e : event) : bool :=
    Nat.eqb (u_ins ops (ev_unit e)) 0 && Nat.eqb (u_outs ops (ev_unit e)) (q_outs s) &&
    match ev_end e with Some t => (ev_in e <=. (t -. ev_start e)) && (ev_out e <=. (t -. ev_start e)) | None => true end.
  (* sequencer.rs:307-334 push and 337-349 push_event *)
  Definition push_event (s : seqr) (e : event) : seqr := place s e.
  (* sequencer.rs:307-334 *)
  Definition seq_push (s : seqr) (e : event) : option seqr :=
    if pushable s e then Some (push_event s (ev_set_unit e (usr (ev_unit e) (q_sr s)))) else None.
  (* sequencer.rs:356-382 push_relative and 385-401 push_relative_event *)
  Definition push_relative_event (s : seqr) (e : event) : seqr := place s (ev_set_times e (ev_start e +. q_time s) (shift_end (q_time s) (ev_end e))).
  (* sequencer.rs:356-382 *)
  Definition seq_push_relative (s : seqr) (e : event) : option seqr :=
    if pushable s e then Some (push_relative_event s (ev_set_unit e (usr (ev_unit e) (q_sr s)))) else None.
  (* sequencer.rs:430-462 edit *)
  Definition end_below (t thr : option F) : bool := match t, thr with Some a, Some b => a <. b | _, _ => false end.
  (* sequencer.rs:430-462 *)
  Definition seq_edit (s : seqr) (id : N) (t : option F) (o : F) : option seqr :=
    match lookup (q_map s) id with
    | Some i =>
        let? e := nth_error (q_active s) i in
        Some (mkSeq (upd (q_active s) i (ev_set_end e t o)) (q_map s) (q_thr s) (q_ready s) (q_past s) (q_edits s) (q_outs s) (q_time s) (q_sr s) (q_sd s) (q_buf s) (q_replay s))
    | None =>
        if end_below t (q_thr s) then Some s
        else Some (mkSeq (q_active s) (q_map s) (q_thr s) (q_ready s) (q_past s) (einsert (q_edits s) id (t, o)) (q_outs s) (q_time s) (q_sr s) (q_sd s) (q_buf s) (q_replay s))
    end.
  (* sequencer.rs:471-503 edit_relative *)
  Definition seq_edit_relative (s : seqr) (id : N) (t : option F) (o : F) : option seqr := seq_edit s id (option_map (fun x => q_time s +. x) t) o.

  (* sequencer.rs:514-520: the edits of an event that becomes active *)
  Definition edited (m : emap) (e : event) : event := match elookup m (ev_id e) with Some (t, o) => ev_set_end e t o | None => e end.
  (* sequencer.rs:506-527 ready_to_active: the loop; each round pops one event *)
  Fixpoint activate (fuel : nat) (thr : F) (ready active : list event) (m : imap) (ed : emap) : list event * list event * imap * emap :=
    match fuel with
    | O => (ready, active, m, ed)
    | S fuel' =>
        match pop ready with
        | None => (ready, active, m, ed)
        | Some (e, r) =>
            if ev_start e <. thr then activate fuel' thr r (active ++ [edited ed e]) (iinsert m (ev_id e) (length active)) (eremove ed (ev_id e))
            else (ready, active, m, ed)
        end
    end.
  (* sequencer.rs:506-527 *)
  Definition ready_to_active (s : seqr) (next_end : F) : seqr :=
    let thr := next_end -. q_sd s *. half in
    let '(ready, active, m, ed) := activate (length (q_ready s)) thr (q_ready s) (q_active s) (q_map s) (q_edits s) in
    mkSeq active m (Some thr) ready (q_past s) ed (q_outs s) (q_time s) (q_sr s) (q_sd s) (q_buf s) (q_replay s).

  (* the loop over the active events in tick (642-700) and process (714-781). An event that has ended is swapped with the last one and
     moved to the past; any other is played, by play, which also updates the output. Each round handles one event. *)
  Section Scan.
    Context {X : Type}.
    Variable ended : event -> bool.
    Variable play : event -> X -> option (event * X).
    (* sequencer.rs:650, 722: Vec::swap_remove *)
    Definition swap_remove (l : list event) (i : nat) : list event :=
      match nth_error l (length l - 1) with Some x => removelast (upd l i x) | None => l end.
    (* sequencer.rs:633-660, 704-735 *)
    Fixpoint scan (fuel i : nat) (active : list event) (m : imap) (past : list event) (x : X) : option (list event * imap * list event * X) :=
      match fuel with
      | O => Some (active, m, past, x)
      | S fuel' =>
          let? e := nth_error active i in
          if ended e then
            let m1 := iremove m (ev_id e) in
            let? m2 := (if Nat.ltb (i + 1) (length active) then let? l := nth_error active (length active - 1) in Some (iinsert m1 (ev_id l) i) else Some m1) in
            scan fuel' i (swap_remove active i) m2 (e :: past) x
          else
            let? (e', x') := play e x in scan fuel' (S i) (upd active i e') m past x'
      end.
  End Scan.

  (* math.rs:218-220 *)
  Definition delerp (a b x : F) : F := (x -. a) /. (b -. a).
  (* sequencer.rs:633-760: end_time <= t, end_time >= t *)
  Definition ends_by (e : event) (t : F) : bool := match ev_end e with Some x => x <=. t | None => false end.

  (* sequencer.rs:653-694: the weight of an event in tick at the given time, in its two factors; with an infinite end time the fade out phase is
     not a number and there is no fade out *)
  Definition tick_in (e : event) (time : F) (v : F) : F :=
    if zero <. ev_in e then
      let p := delerp (ev_start e) (ev_start e +. ev_in e) time in if p <. n1 nm then v *. at_ (ev_ease e) p else v
    else v.
  (* sequencer.rs:653-694 *)
  Definition tick_out (e : event) (time : F) (v : F) : F :=
    match ev_end e with
    | Some t => if zero <. ev_out e then
                  let p := delerp (t -. ev_out e) t time in if zero <. p then v *. at_ (ev_ease e) (n1 nm -. p) else v
                else v
    | None => v
    end.
  (* sequencer.rs:652-698 *)
  Definition play_tick (time : F) (e : event) (out : list F) : option (event * list F) :=
    let (u, o) := u_tick ops (ev_unit e) [] in
    Some (ev_set_unit e u, zipw (fun a b => a +. tick_out e time (tick_in e time b)) out o).
  (* sequencer.rs:652-698 *)
  Definition clear_past (s : seqr) : list event := if q_replay s then q_past s else [].
  (* sequencer.rs:633-702 tick *)
  Definition seq_tick (s : seqr) : option (seqr * list F) :=
    let end_time := q_time s +. q_sd s in
    let s1 := ready_to_active s end_time in
    let ended e := ends_by e (q_time s +. half *. q_sd s) in
    let? (active, m, past, out) := scan ended (play_tick (q_time s)) (length (q_active s1)) 0 (q_active s1) (q_map s1) (clear_past s) (repeat zero (q_outs s)) in
    Some (mkSeq active m (q_thr s1) (q_ready s1) past (q_edits s1) (q_outs s) end_time (q_sr s) (q_sd s) (q_buf s) (q_replay s), out).

  (* sequencer.rs:118-211, 704-760: round(x) as usize: halves round up, and negative numbers give 0 *)
  Definition round_usize (x : F) : nat :=
    let f := nfloor nm x in Z.to_nat (if half <=. (x -. nofZ nm f) then f + 1 else f)%Z.
  (* sequencer.rs:118-211: channel[from..to] *= w(from), w(from + 1), ...; a panic if from > to or to is out of range *)
  Definition scale_range (from to : nat) (w : nat -> F) (b : list (list F)) : option (list (list F)) :=
    if Nat.leb from to && forallb (fun ch => Nat.leb to (length ch)) b then
      Some (map (fun ch => map (fun k => if Nat.leb from k && Nat.ltb k to then nth k ch zero *. w (k - from) else nth k ch zero) (seq 0 (length ch))) b)
    else None.
  (* sequencer.rs:117-163 fade_in *)
  Definition fade_in_block (sd time end_time : F) (start_index end_index : nat) (ease : fade) (dur fade_start : F) (b : list (list F)) : option (list (list F)) :=
    let fade_end := fade_start +. dur in
    if (zero <. dur) && (time <. fade_end) then
      let fade_end_i := if end_time <=. fade_end then end_index else round_usize ((fade_end -. time) /. sd) in
      let phase := delerp fade_start fade_end (time +. nofZ nm (Z.of_nat start_index) *. sd) in
      let d := sd /. dur in
      scale_range 0 fade_end_i (fun k => at_ ease (ramp nm phase d k)) b
    else Some b.
  (* sequencer.rs:165-211 fade_out; with an infinite end time fade_start_time < end_time is false *)
  Definition fade_out_block (sd time end_time : F) (end_index : nat) (ease : fade) (dur : F) (fade_end : option F) (b : list (list F)) : option (list (list F)) :=
    match fade_end with
    | None => Some b
    | Some fe =>
        let fade_start := fe -. dur in
        if (zero <. dur) && (fade_start <. end_time) then
          let fade_i := if fade_start <=. time then 0 else round_usize ((fade_start -. time) /. sd) in
          let phase := delerp fade_start fe (time +. nofZ nm (Z.of_nat fade_i) *. sd) in
          let d := sd /. dur in
          scale_range fade_i end_index (fun k => at_ ease (n1 nm -. ramp nm phase d k)) b
        else Some b
    end.
  (* sequencer.rs:724-778: one event in process. x is the output and the intermediate buffer. The additions by SIMD words and the remainder
     (760-777) together add the samples start_index..end_index; an index out of range is a panic. *)
  Definition start_index (s : seqr) (e : event) : nat := if ev_start e <=. q_time s then 0 else round_usize ((ev_start e -. q_time s) *. q_sr s).
  (* sequencer.rs:724-778 *)
  Definition end_index (s : seqr) (end_time : F) (size : nat) (e : event) : nat :=
    match ev_end e with Some t => if end_time <=. t then size else round_usize ((t -. q_time s) *. q_sr s) | None => size end.
  (* sequencer.rs:724-778 *)
  Definition mix_range (from to : nat) (b out : list (list F)) : list (list F) :=
    zipw (fun src ch => map (fun k => if Nat.leb from k && Nat.ltb k to then nth k ch zero +. nth (k - from) src zero else nth k ch zero) (seq 0 (length ch))) b out.
  (* sequencer.rs:724-778 *)
  Definition play_block (s : seqr) (size : nat) (e : event) (x : list (list F) * list (list F)) : option (event * (list (list F) * list (list F))) :=
    let (out, b) := x in
    let end_time := q_time s +. q_sd s *. nofZ nm (Z.of_nat size) in
    let si := start_index s e in let ei := end_index s end_time size e in
    if Nat.ltb si ei then
      if Nat.leb ei MAXB then
        let (u, b1) := u_process ops (ev_unit e) (ei - si) [] b in
        let? b2 := fade_in_block (q_sd s) (q_time s) end_time si ei (ev_ease e) (ev_in e) (ev_start e) b1 in
        let? b3 := fade_out_block (q_sd s) (q_time s) end_time ei (ev_ease e) (ev_out e) (ev_end e) b2 in
        Some (ev_set_unit e u, (mix_range si ei b3 out, b3))
      else None
    else Some (e, x).
  (* sequencer.rs:704-783 process *)
  Definition seq_process (s : seqr) (size : nat) (out : list (list F)) : option (seqr * list (list F)) :=
    let out0 := map (write_simd zero size (fun _ => zero)) out in
    let end_time := q_time s +. q_sd s *. nofZ nm (Z.of_nat size) in
    let s1 := ready_to_active s end_time in
    let ended e := ends_by e (q_time s +. half *. q_sd s) in
    let? (active, m, past, x) := scan ended (play_block s size) (length (q_active s1)) 0 (q_active s1) (q_map s1) (clear_past s) (out0, q_buf s) in
    Some (mkSeq active m (q_thr s1) (q_ready s1) past (q_edits s1) (q_outs s) end_time (q_sr s) (q_sd s) (snd x) (q_replay s), fst x).

  (* sequencer.rs:577-607: while let Some(e) = heap.pop() *)
  Fixpoint pop_all (fuel : nat) (l : list event) : list event :=
    match fuel with O => [] | S f => match pop l with Some (e, r) => e :: pop_all f r | None => [] end end.
  (* sequencer.rs:585-597, 615-627: everything goes to the active list, is changed by f, and goes to the heap *)
  Definition all_to_ready (f : U -> U) (s : seqr) : list event :=
    map (fun e => ev_set_unit e (f (ev_unit e))) (q_active s ++ pop_all (length (q_ready s)) (q_ready s) ++ q_past s).
  (* sequencer.rs:577-607 reset *)
  Definition seq_reset (s : seqr) : seqr :=
    if q_replay s then mkSeq [] [] None (all_to_ready (u_reset ops) s) [] (q_edits s) (q_outs s) zero (q_sr s) (q_sd s) (q_buf s) (q_replay s)
    else mkSeq [] [] None [] [] [] (q_outs s) zero (q_sr s) (q_sd s) (q_buf s) (q_replay s).
  (* sequencer.rs:609-630 set_sample_rate *)
  Definition neqb (a b : F) : bool := (a <=. b) && (b <=. a).
  (* sequencer.rs:609-630 *)
  Definition seq_set_sample_rate (s : seqr) (r : F) : seqr :=
    if neqb (q_sr s) r then s
    else mkSeq [] [] None (all_to_ready (fun u => usr u r) s) [] (q_edits s) (q_outs s) (q_time s) r (n1 nm /. r) (q_buf s) (q_replay s).

  (* realseq.rs:11-23 Message *)
  Inductive smsg := MReset | MPush (e : event) | MPushRelative (e : event) | MEdit (id : N) (t : option F) (o : F) | MEditRelative (id : N) (t : option F) (o : F).
  (* realseq.rs:61-83 handle_messages. A Reset calls SequencerBackend::reset (102-116), which handles the remaining messages first, then
     empties the sequencer unless events are replayed, then resets it; the channel is empty when the loop goes on. *)
  Fixpoint handle (q : list smsg) (s : seqr) : option seqr :=
    match q with
    | [] => Some s
    | MReset :: r => let? s1 := handle r s in Some (seq_reset s1)
    | MPush e :: r => handle r (push_event s e)
    | MPushRelative e :: r => handle r (push_relative_event s e)
    | MEdit id t o :: r => let? s1 := seq_edit s id t o in handle r s1
    | MEditRelative id t o :: r => let? s1 := seq_edit_relative s id t o in handle r s1
    end.
  (* realseq.rs:124-140 tick and process; the past events are sent to the frontend unless they are replayed *)
  Definition send_past (s : seqr) : seqr :=
    if q_replay s then s else mkSeq (q_active s) (q_map s) (q_thr s) (q_ready s) [] (q_edits s) (q_outs s) (q_time s) (q_sr s) (q_sd s) (q_buf s) (q_replay s).
  (* realseq.rs:124-140 *)
  Definition sback_tick (q : list smsg) (s : seqr) : option (seqr * list F) :=
    let? s1 := handle q s in let? (s2, o) := seq_tick s1 in Some (send_past s2, o).
  (* realseq.rs:124-140 *)
  Definition sback_process (q : list smsg) (s : seqr) (size : nat) (out : list (list F)) : option (seqr * list (list F)) :=
    let? s1 := handle q s in let? (s2, o) := seq_process s1 size out in Some (send_past s2, o).
  (* realseq.rs:102-116 *)
  Definition sback_reset (q : list smsg) (s : seqr) : option seqr := let? s1 := handle q s in Some (seq_reset s1).
End Seq.

Arguments event : clear implicits. Arguments seqr : clear implicits. Arguments smsg : clear implicits.
Arguments mkEv {F U}. Arguments mkSeq {F U}.
