(* Signal flow analysis of a network: AudioUnit::route of Net, /repo/src/net.rs:1379-1411, and the methods response and latency of
   /repo/src/audiounit.rs:194-255 for it. No proofs here.
   None is a panic. The units in the vertices bring their own route function; that a unit's route may change the unit
   (it takes &mut self) is not modelled: no route function does, except that a net orders itself. *)
From Verif Require Export SignalModel NetModel.

Section NetRoute.
  Context {F P U : Type}.
  Variable nm : num F.
  Variable ops : unit_ops F P U.
  Variable uping : bool -> U -> N -> U * N.
  Variable ahash : N -> N -> N.
  Variable u_route : U -> F -> list (signal F) -> option (list (signal F)).
  Notation net := (net F U).
  Notation vertex := (vertex F U).

  (* net.rs:1390-1394 and 1402-1408: the label of a port; inner_signal has one frame for each vertex *)
  Definition port_label (inner : list (list (signal F))) (input : list (signal F)) (p : port) : option (signal F) :=
    match p with
    | PLocal j q => let? s := nth_error inner j in nth_error s q
    | PGlobal j => nth_error input j
    | PZero => Some (Value (n0 nm))
    end.
  (* net.rs:1388-1395: the frame of input labels of a vertex *)
  Definition input_labels (inner : list (list (signal F))) (input : list (signal F)) (v : vertex) : option (list (signal F)) :=
    mapM (fun channel => let? e := nth_error (v_src v) channel in port_label inner input (e_src e)) (seq 0 (u_ins ops (v_unit v))).
  (* net.rs:1387-1397 *)
  Fixpoint route_vertices (freq : F) (vs : list vertex) (input : list (signal F)) (order : list nat) (inner : list (list (signal F))) : option (list (list (signal F))) :=
    match order with
    | [] => Some inner
    | i :: r =>
        let? v := nth_error vs i in
        let? ins := input_labels inner input v in
        let? o := u_route (v_unit v) freq ins in
        route_vertices freq vs input r (upd inner i o)
    end.
  (* net.rs:1379-1411. SignalFrame::new fills with Unknown (signal.rs:117-122). The net, which may have been ordered, and the output labels. *)
  Definition net_route (freq : F) (n : net) (input : list (signal F)) : option (net * list (signal F)) :=
    let? n1 := ordered uping ahash n in
    let? order := n_order n1 in
    let? inner := route_vertices freq (n_vertex n1) input order (map (fun v => repeat Unknown (u_outs ops (v_unit v))) (n_vertex n1)) in
    let? out := mapM (fun channel => let? e := nth_error (n_oedge n1) channel in port_label inner input (e_src e)) (seq 0 (n_out n1)) in
    Some (n1, out).

  (* audiounit.rs:194-205 response *)
  Definition net_response (n : net) (freq : F) (output : nat) : option (option (F * F)) :=
    if Nat.ltb output (n_out n) then
      let? (_, o) := net_route freq n (repeat (Response (c1 nm) (n0 nm)) (n_in n)) in
      let? s := nth_error o output in
      Some (match s with Response r _ => Some r | _ => None end)
    else None.
  (* audiounit.rs:234-255 latency *)
  Definition net_latency (n : net) : option (option F) :=
    if Nat.eqb (n_out n) 0 then Some None
    else
      let? (_, o) := net_route (n1 nm) n (repeat (Latency (n0 nm)) (n_in n)) in
      let? c := at_all o (n_out n) in
      Some (fold_left (least nm) c None).
End NetRoute.
