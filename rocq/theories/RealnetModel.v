(* A network with a realtime backend: the frontend half in /repo/src/net.rs, the backend in /repo/src/realnet.rs. No proofs here.
   Network nodes hold the crossfading slots of FadeModel.v. None is a panic.
   The two threads interleave by whole messages: a poll of the backend empties the queue, and a message sent while it does so
   counts as sent before the poll. Units are values, so that sending the original and keeping the clone (net.rs:1147-1149) or the
   converse is the same. The channel that returns units for deallocation and changes of sample rate are not modelled. *)
From Verif Require Export FadeModel NetModel NetSpec.

Section Realnet.
  Context {F P U : Type}.
  Variable nm : num F.
  Variable at_ : fade -> F -> F.
  Variable ops : unit_ops F P U.
  Variable sr : F.
  Variable uping : bool -> U -> N -> U * N.
  Variable ahash : N -> N -> N.
  Variable cap : nat.                  (* the capacity of the channel to the backend: 1024 (net.rs:1097) *)
  Variable dummy : nat -> nat -> U.    (* DummyUnit::new (audiounit.rs:653-666) *)
  Notation slot := (slotx F U).
  Notation net := (net F slot).
  Notation nedit := (nedit F U).
  Notation zero := (n0 nm).
  Notation xops := (x_ops nm at_ ops sr).

  (* net.rs:1371-1377: ping reaches the current unit of a vertex *)
  Definition xping (probe : bool) (x : slot) (h : N) : slot * N := let (u, h') := uping probe (x_unit x) h in (x_set_unit x u, h').

  (* net.rs:64-72 NodeEdit in the queue of a committed network *)
  Record qedit := mkQE { q_id : N; q_index : nat; q_edit : nedit }.
  (* realnet.rs:14-20 NetMessage; Net::edit_queue of the message is its second part *)
  Inductive msg := MNet (n : net) (es : list qedit) | MSet (s : setting P).
  (* the frontend, its edit queue (net.rs:143), the channel, and the network of the backend (realnet.rs:36) *)
  Record sys := mkSys { s_front : net; s_edits : list (N * nedit); s_queue : list msg; s_back : net }.

  (* net.rs:1162, 1359: Sender::try_send: the message is dropped if the channel is full *)
  Definition send (q : list msg) (m : msg) : list msg := if Nat.ltb (length q) cap then q ++ [m] else q.
  (* net.rs:1121-1165: self.revision += 1 *)
  Definition bump (n : net) : net :=
    mkNet (n_in n) (n_out n) (n_oedge n) (n_vertex n) (n_order n) (n_index n) (n_error n) (n_revision n + 1).

  (* net.rs:1094-1112 backend *)
  Definition start (n : net) : option sys := let? n1 := ordered xping ahash n in Some (mkSys (bump n1) [] [] n1).

  (* net.rs:1133-1143: the edits of nodes that still exist, with their current index *)
  Definition committed_edits (n : net) (es : list (N * nedit)) : list qedit :=
    flat_map (fun ie => match lookup (n_index n) (fst ie) with Some i => [mkQE (fst ie) i (snd ie)] | None => [] end) es.
  (* net.rs:1121-1165 commit. backend_inputs and backend_outputs are those of the network in the backend. *)
  Definition commit (s : sys) : option sys :=
    if Nat.eqb (n_in (s_front s)) (n_in (s_back s)) && Nat.eqb (n_out (s_front s)) (n_out (s_back s)) then
      let? n1 := ordered xping ahash (s_front s) in
      Some (mkSys (bump n1) [] (send (s_queue s) (MNet n1 (committed_edits n1 (s_edits s)))) (s_back s))
    else None.

  (* net.rs:487-511 crossfade, with a backend *)
  Definition front_crossfade (s : sys) (id : N) (e : nedit) : option sys :=
    let? i := lookup (n_index (s_front s)) id in
    let? v := nth_error (n_vertex (s_front s)) i in
    if Nat.eqb (u_ins ops (ed_unit e)) (v_inputs v) && Nat.eqb (u_outs ops (ed_unit e)) (v_outputs v) then
      Some (mkSys (s_front s) (s_edits s ++ [(id, e)]) (s_queue s) (s_back s))
    else None.
  (* net.rs:244-249 fade_in; id is the fresh id *)
  Definition front_fade_in (s : sys) (id : N) (e : nedit) : option sys :=
    let d := dummy (u_ins ops (ed_unit e)) (u_outs ops (ed_unit e)) in
    front_crossfade (mkSys (push zero xops (s_front s) id (x_new nm ops d)) (s_edits s) (s_queue s) (s_back s)) id e.
  (* net.rs:1357-1359 set, with a backend *)
  Definition front_set (s : sys) (p : setting P) : sys := mkSys (s_front s) (s_edits s) (send (s_queue s) (MSet p)) (s_back s).

  (* net.rs:231-803: the other operations on the frontend: those of NetSpec.v, where a vertex is a slot around the unit *)
  Definition lift (a : action (A := F) (P := P) (U := U)) : action (A := F) (P := P) (U := slot) :=
    match a with
    | Push id u => Push id (x_new nm ops u)
    | Chain id u => Chain id (x_new nm ops u)
    | Replace id u => Replace id (x_new nm ops u)
    | Remove id => Remove id
    | RemoveLink id => RemoveLink id
    | SetSource id c s => SetSource id c s
    | SetOutputSource c s => SetOutputSource c s
    | Connect s sp t tp => Connect s sp t tp
    | Disconnect id p => Disconnect id p
    | ConnectInput g t tp => ConnectInput g t tp
    | PipeInput t => PipeInput t
    | ConnectOutput s sp g => ConnectOutput s sp g
    | DisconnectOutput g => DisconnectOutput g
    | PipeOutput s => PipeOutput s
    | PassThrough i o => PassThrough i o
    | PipeAll s t => PipeAll s t
    | CheckError => CheckError
    | Tick i => Tick i
    | Process size inb out => Process size inb out
    | Set_ s => Set_ s
    | Reset_ => Reset_
    end.
  (* net.rs:462-470: replace exchanges the unit of the vertex only *)
  Definition front_edit (a : action (A := F) (P := P) (U := U)) (n : net) : option net :=
    match a with
    | Replace id u => replace xops n id (fun x => x_set_unit x u)
    | _ => apply zero xops xping ahash (lift a) n
    end.

  (* vertex.rs:233-247: vertex[i].enqueue(edit) *)
  Definition v_enqueue (v : vertex F slot) (e : nedit) : vertex F slot := v_set_unit v (enqueue nm (v_unit v) e).
  (* net.rs:1285-1290 apply_edits *)
  Fixpoint apply_edits (n : net) (es : list qedit) : option net :=
    match es with
    | [] => Some n
    | e :: r => let? v := nth_error (n_vertex n) (q_index e) in apply_edits (n_set_vertex n (upd (n_vertex n) (q_index e) (v_enqueue v (q_edit e)))) r
    end.
  (* net.rs:1293-1303 apply_foreign_edits *)
  Definition foreign_edit (n : net) (e : qedit) : net :=
    match lookup (n_index n) (q_id e) with
    | Some i => match nth_error (n_vertex n) i with
                | Some v => n_set_vertex n (upd (n_vertex n) i (v_enqueue v (q_edit e)))
                | None => n            (* a panic; not reached, as the index map only holds valid indices *)
                end
    | None => n
    end.
  (* net.rs:1293-1303 *)
  Definition apply_foreign (n : net) (es : list qedit) : net := fold_left foreign_edit es n.
  (* net.rs:1061-1073: unit, next, latest and the phase are taken over; the buffers stay *)
  Definition take_over (running x : slot) : slot := mkX (x_unit running) (x_next running) (x_latest running) (x_phase running) (x_tmp x).
  (* net.rs:1053-1076 migrate: the loop over the nodes of the old network *)
  Fixpoint migrate_loop (old : net) (ids : imap) (n : net) : net :=
    match ids with
    | [] => n
    | (id, i) :: r =>
        migrate_loop old r
          match lookup (n_index n) id with
          | None => n
          | Some j => match nth_error (n_vertex old) i, nth_error (n_vertex n) j with
                      | Some w, Some v => if N.leb (v_changed v) (n_revision old)
                                          then n_set_vertex n (upd (n_vertex n) j (v_set_unit v (take_over (v_unit w) (v_unit v))))
                                          else n
                      | _, _ => n      (* a panic; not reached *)
                      end
          end
    end.
  (* net.rs:1053-1076 *)
  Definition migrate (old n : net) : net := migrate_loop old (n_index old) n.
  (* realnet.rs:63-90: the loop over the messages. latest is latest_net. *)
  Fixpoint drain (q : list msg) (old : net) (latest : option (net * list qedit)) : net * option (net * list qedit) :=
    match q with
    | [] => (old, latest)
    | MSet p :: r => drain r (net_set xops old p) latest
    | MNet n es :: r => drain r (match latest with Some (_, es0) => apply_foreign old es0 | None => old end) (Some (n, es))
    end.
  (* realnet.rs:62-107 handle_messages *)
  Definition poll (s : sys) : option sys :=
    match drain (s_queue s) (s_back s) None with
    | (old, None) => Some (mkSys (s_front s) (s_edits s) [] old)
    | (old, Some (n, es)) => let? b := apply_edits (migrate old n) es in Some (mkSys (s_front s) (s_edits s) [] b)
    end.
  (* realnet.rs:62-107 *)
  Definition with_back (s : sys) (b : net) : sys := mkSys (s_front s) (s_edits s) (s_queue s) b.
  (* realnet.rs:129-137: tick and process *)
  Definition back_tick (s : sys) (i : list F) : option (sys * list F) :=
    let? s1 := poll s in let? (b, o) := net_tick zero xops xping ahash (s_back s1) i in Some (with_back s1 b, o).
  (* realnet.rs:129-137 *)
  Definition back_process (s : sys) (size : nat) (inb out : list (list F)) : option (sys * list (list F)) :=
    let? s1 := poll s in let? (b, o) := net_process zero xops xping ahash (s_back s1) size inb out in Some (with_back s1 b, o).
  (* realnet.rs:119-122 reset: the network is reset before the messages are handled *)
  Definition back_reset (s : sys) : option sys := let? b := net_reset xops xping ahash (s_back s) in poll (with_back s b).
End Realnet.

Arguments msg : clear implicits. Arguments sys : clear implicits. Arguments qedit : clear implicits.
