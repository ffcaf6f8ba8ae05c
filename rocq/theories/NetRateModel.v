(* The sample rates of networks and of the units in them: /repo/src/net.rs, /repo/src/vertex.rs. No proofs here.
   A network is that of NetModel.v, with the crossfading vertices of FadeModel.v, and its sample rate. None is a panic.
   An operation on a network that is not mentioned here does not deal with sample rates. *)
From Verif Require Export RealnetModel.

Section NetRate.
  Context {F P U : Type}.
  Variable nm : num F.
  Variable at_ : fade -> F -> F.
  Variable ops : unit_ops F P U.
  Variable uping : bool -> U -> N -> U * N.
  Variable ahash : N -> N -> N.
  Variable dummy : nat -> nat -> U.    (* DummyUnit::new (audiounit.rs:653-666) *)
  Variable urate : U -> F -> U.        (* AudioUnit::set_sample_rate of a unit *)
  Variable narrow : F -> F.            (* x as f32 as f64 *)
  Variable default_sr : F.             (* lib.rs:57 DEFAULT_SR, 44100 *)
  Notation slot := (slotx F U).
  Notation net := (net F slot).
  Notation nedit := (nedit F U).
  Notation action := (action (A := F) (P := P) (U := U)).
  Notation xops := (x_ops nm at_ ops).

  (* net.rs:119-148 Net: the field sample_rate *)
  Record rnet := mkRN { rn_net : net; rn_rate : F }.
  (* net.rs:184-205 new *)
  Definition rn_new (ins outs : nat) : rnet := mkRN (net_new ins outs) (narrow default_sr).
  (* net.rs:231-240 push, 462-470 replace, and chain (net.rs:780-808), which pushes: the unit is given the rate of the network *)
  Definition rated (sr : F) (a : action) : action :=
    match a with
    | Push id u => Push id (urate u sr)
    | Chain id u => Chain id (urate u sr)
    | Replace id u => Replace id (urate u sr)
    | a => a
    end.
  (* net.rs:231-803: all edits but crossfades, and playing *)
  Definition rn_edit (a : action) (n : rnet) : option rnet :=
    let? m := front_edit nm at_ ops (rn_rate n) uping ahash (rated (rn_rate n) a) (rn_net n) in Some (mkRN m (rn_rate n)).
  (* net.rs:1183-1216 tick with its output *)
  Definition rn_tick (n : rnet) (i : list F) : option (rnet * list F) :=
    let? (m, o) := net_tick (n0 nm) (xops (rn_rate n)) (xping uping) ahash (rn_net n) i in Some (mkRN m (rn_rate n), o).
  (* net.rs:487-511 crossfade, in a network without a backend *)
  Definition rn_crossfade (id : N) (e : nedit) (n : rnet) : option rnet :=
    let? i := lookup (n_index (rn_net n)) id in
    let? v := nth_error (n_vertex (rn_net n)) i in
    if Nat.eqb (u_ins ops (ed_unit e)) (v_inputs v) && Nat.eqb (u_outs ops (ed_unit e)) (v_outputs v) then
      Some (mkRN (n_set_vertex (rn_net n) (upd (n_vertex (rn_net n)) i (v_enqueue nm v (ed_set_unit e (urate (ed_unit e) (rn_rate n)))))) (rn_rate n))
    else None.
  (* net.rs:244-249 fade_in *)
  Definition rn_fade_in (id : N) (e : nedit) (n : rnet) : option rnet :=
    let? n1 := rn_edit (Push id (dummy (u_ins ops (ed_unit e)) (u_outs ops (ed_unit e)))) n in rn_crossfade id e n1.
  (* net.rs:1315-1332 set_sample_rate: the unit of each vertex; not the units that are faded in *)
  Definition rn_set_rate (sr : F) (n : rnet) : option rnet :=
    let sr := narrow sr in
    if nleb nm (rn_rate n) sr && nleb nm sr (rn_rate n) then Some n
    else
      let m := rn_net n in
      let? m' := ordered (xping uping) ahash
        (n_set_vertex m (map (fun v => v_set_changed (v_set_unit v (x_set_unit (v_unit v) (urate (x_unit (v_unit v)) sr))) (n_revision m)) (n_vertex m))) in
      Some (mkRN m' sr).
  (* net.rs:1434-1819: the operators on networks; the result is the first network, with the vertices of the second added *)
  Definition rn_thru (n : rnet) : rnet := mkRN (net_thru (rn_net n)) (rn_rate n).
  (* net.rs:1763-1819 *)
  Definition rn_pipe (fresh : nat -> N) (n1 n2 : rnet) : option rnet := let? m := net_pipe fresh (rn_net n1) (rn_net n2) in Some (mkRN m (rn_rate n1)).
  (* net.rs:1516-1569 *)
  Definition rn_stack (fresh : nat -> N) (n1 n2 : rnet) : option rnet := let? m := net_stack fresh (rn_net n1) (rn_net n2) in Some (mkRN m (rn_rate n1)).
  (* net.rs:1453-1507 *)
  Definition rn_branch (fresh : nat -> N) (n1 n2 : rnet) : option rnet := let? m := net_branch fresh (rn_net n1) (rn_net n2) in Some (mkRN m (rn_rate n1)).
  (* the operator nodes are pushed (net.rs:1619-1627, 1721-1729) *)
  Definition rn_binop (shared : bool) (fresh new : nat -> N) (b : U) (n1 n2 : rnet) : option rnet :=
    let? m := combine_binop (n0 nm) (xops (rn_rate n1)) shared fresh new (x_new nm ops (urate b (rn_rate n1))) (rn_net n1) (rn_net n2) in Some (mkRN m (rn_rate n1)).

  (* ---- with a backend ---- *)
  (* the frontend and its queue of edits (net.rs:143, 508-510) *)
  Record rfront := mkRF { rf_net : rnet; rf_edits : list (N * nedit) }.
  (* net.rs:143, 508-510 *)
  Definition rf_crossfade (id : N) (e : nedit) (f : rfront) : rfront := mkRF (rf_net f) (rf_edits f ++ [(id, ed_set_unit e (urate (ed_unit e) (rn_rate (rf_net f))))]).
  (* net.rs:1315-1332: set_sample_rate as above: it does not look at the queue *)
  Definition rf_set_rate (sr : F) (f : rfront) : option rfront := let? n := rn_set_rate sr (rf_net f) in Some (mkRF n (rf_edits f)).
  (* net.rs:1121-1165 commit and realnet.rs:62-107 handle_messages, for one commit to a backend that has no edits waiting; old is the network of the backend *)
  Definition rf_commit (f : rfront) (old : net) : option rnet :=
    let? n1 := ordered (xping uping) ahash (rn_net (rf_net f)) in
    let? b := apply_edits nm (migrate old n1) (committed_edits n1 (rf_edits f)) in
    Some (mkRN b (rn_rate (rf_net f))).
End NetRate.

Arguments rnet : clear implicits. Arguments rfront : clear implicits.
