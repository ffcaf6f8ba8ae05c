(* Net, /repo/src/net.rs, with its vertices, /repo/src/vertex.rs. No proofs here.
   A is the sample type, U the type of the units in the vertices. A vertex that is crossfading has, besides its
   unit, two more units; that part of Vertex is the unit type of FadeModel.v, so U may be that type.
   None is a panic. Node ids, which the code draws from a global atomic generator (net.rs:46-56), are passed in.
   Sample rates and memory allocation are not modelled (all units are assumed to run at the rate of the net);
   the frontend channel and the edit queue are in RealnetModel.v. *)
From Verif Require Export UnitModel OrderModel.

Declare Scope opt_scope.
Notation "'let?' x := e 'in' k" := (match e with None => None | Some x => k end)
  (at level 200, x pattern, e at level 100, k at level 200, right associativity) : opt_scope.
Open Scope opt_scope.

(* net.rs:1379-1411 *)
Fixpoint mapM {X Y} (f : X -> option Y) (l : list X) : option (list Y) :=
  match l with [] => Some [] | x :: r => let? y := f x in let? ys := mapM f r in Some (y :: ys) end.

(* net.rs:77-87 Port *)
Inductive port := PLocal (node p : nat) | PGlobal (p : nat) | PZero.
(* net.rs:89-103 Source: as Port, with the id of the node in place of its index *)
Inductive source := SLocal (id : N) (p : nat) | SGlobal (p : nat) | SZero.
(* net.rs:105-109 Edge *)
Record edge := mkE { e_src : port; e_tgt : port }.

(* the translation map from node id to vertex index (net.rs:131, a HashMap): lookup, insertion and removal *)
Definition imap := list (N * nat).
(* net.rs:131 *)
Fixpoint lookup (m : imap) (id : N) : option nat :=
  match m with [] => None | (k, i) :: r => if N.eqb k id then Some i else lookup r id end.
(* net.rs:131, 382-448 *)
Definition iremove (m : imap) (id : N) : imap := filter (fun e => negb (N.eqb (fst e) id)) m.
(* net.rs:131, 231-241 *)
Definition iinsert (m : imap) (id : N) (i : nat) : imap := (id, i) :: iremove m id.

Section Net.
  Context {A P U : Type}.
  Variable zero : A.
  Variable ops : unit_ops A P U.
  (* AudioUnit::ping of a unit; AttoHash::hash (math.rs:610) *)
  Variable uping : bool -> U -> N -> U * N.
  Variable ahash : N -> N -> N.
  Notation buf := (list (list A)).

  (* vertex.rs:17-51 Vertex, without the crossfade fields and the counters of the ordering (OrderModel.v) *)
  Record vertex := mkV {
    v_unit : U;
    v_src : list edge;
    v_in : buf;
    v_out : buf;
    v_tin : list A;
    v_tout : list A;
    v_id : N;
    v_sv : option (nat * nat);
    v_changed : N
  }.
  (* net.rs:119-148 Net. The contents of the global buffers are never used, only their number of channels. *)
  Record net := mkNet {
    n_in : nat;
    n_out : nat;
    n_oedge : list edge;
    n_vertex : list vertex;
    n_order : option (list nat);
    n_index : imap;
    n_error : bool;
    n_revision : N
  }.

  (* vertex.rs:81-91 *)
  Definition v_inputs (v : vertex) : nat := length (v_tin v).
  (* vertex.rs:81-91 *)
  Definition v_outputs (v : vertex) : nat := length (v_tout v).

  (* vertex.rs:17-51: field updates *)
  Definition v_set_src (v : vertex) (s : list edge) : vertex :=
    mkV (v_unit v) s (v_in v) (v_out v) (v_tin v) (v_tout v) (v_id v) (v_sv v) (v_changed v).
  (* vertex.rs:17-51 *)
  Definition v_set_unit (v : vertex) (u : U) : vertex :=
    mkV u (v_src v) (v_in v) (v_out v) (v_tin v) (v_tout v) (v_id v) (v_sv v) (v_changed v).
  (* vertex.rs:17-51 *)
  Definition v_set_id (v : vertex) (id : N) : vertex :=
    mkV (v_unit v) (v_src v) (v_in v) (v_out v) (v_tin v) (v_tout v) id (v_sv v) (v_changed v).
  (* vertex.rs:17-51 *)
  Definition v_set_sv (v : vertex) (s : option (nat * nat)) : vertex :=
    mkV (v_unit v) (v_src v) (v_in v) (v_out v) (v_tin v) (v_tout v) (v_id v) s (v_changed v).
  (* vertex.rs:17-51 *)
  Definition v_set_changed (v : vertex) (c : N) : vertex :=
    mkV (v_unit v) (v_src v) (v_in v) (v_out v) (v_tin v) (v_tout v) (v_id v) (v_sv v) c.
  (* net.rs:120-148 *)
  Definition n_set_vertex (n : net) (vs : list vertex) : net :=
    mkNet (n_in n) (n_out n) (n_oedge n) vs (n_order n) (n_index n) (n_error n) (n_revision n).
  (* net.rs:120-148 *)
  Definition n_set_oedge (n : net) (es : list edge) : net :=
    mkNet (n_in n) (n_out n) es (n_vertex n) (n_order n) (n_index n) (n_error n) (n_revision n).
  (* net.rs:120-148 *)
  Definition n_set_index (n : net) (m : imap) : net :=
    mkNet (n_in n) (n_out n) (n_oedge n) (n_vertex n) (n_order n) m (n_error n) (n_revision n).
  (* net.rs:331-335 *)
  Definition invalidate (n : net) : net :=
    mkNet (n_in n) (n_out n) (n_oedge n) (n_vertex n) None (n_index n) (n_error n) (n_revision n).

  (* vertex.rs:54-79 Vertex::new *)
  Definition vertex_new (id : N) (index : nat) (u : U) : vertex :=
    mkV u (map (fun i => mkE PZero (PLocal index i)) (seq 0 (u_ins ops u)))
      (repeat (repeat zero MAXB) (u_ins ops u)) (repeat (repeat zero MAXB) (u_outs ops u))
      (repeat zero (u_ins ops u)) (repeat zero (u_outs ops u)) id None 0%N.

  (* net.rs:184-205 *)
  Definition net_new (inputs outputs : nat) : net :=
    mkNet inputs outputs (map (fun c => mkE PZero (PGlobal c)) (seq 0 outputs)) [] None [] false 0%N.

  (* net.rs:231-240 push; id is the fresh id *)
  Definition push (n : net) (id : N) (u : U) : net :=
    let index := length (n_vertex n) in
    invalidate (n_set_index (n_set_vertex n (n_vertex n ++ [vertex_new id index u])) (iinsert (n_index n) id index)).

  (* net.rs:308-324, 660-686: l[i] = x, a panic if i is out of bounds *)
  Definition put {X} (l : list X) (i : nat) (x : X) : option (list X) := if Nat.ltb i (length l) then Some (upd l i x) else None.

  (* net.rs:260-268, 296-303: the user's view of a port *)
  Definition view (n : net) (p : port) : option source :=
    match p with
    | PGlobal i => Some (SGlobal i)
    | PLocal i j => let? v := nth_error (n_vertex n) i in Some (SLocal (v_id v) j)
    | PZero => Some SZero
    end.
  (* net.rs:260-268 *)
  Definition net_source (n : net) (node : N) (channel : nat) : option source :=
    let? index := lookup (n_index n) node in
    let? v := nth_error (n_vertex n) index in
    if Nat.ltb channel (v_inputs v) then let? e := nth_error (v_src v) channel in view n (e_src e) else None.
  (* net.rs:296-303 *)
  Definition output_source (n : net) (channel : nat) : option source :=
    if Nat.ltb channel (n_out n) then let? e := nth_error (n_oedge n) channel in view n (e_src e) else None.

  (* net.rs:277-288 and 310-321: the port meant by a source; node is the reading node, if any *)
  Definition resolve (n : net) (node : option N) (s : source) : option port :=
    match s with
    | SGlobal i => if Nat.ltb i (n_in n) then Some (PGlobal i) else None
    | SLocal id j =>
        if match node with Some k => N.eqb id k | None => false end then None
        else let? i := lookup (n_index n) id in let? v := nth_error (n_vertex n) i in
             if Nat.ltb j (v_outputs v) then Some (PLocal i j) else None
    | SZero => Some PZero
    end.
  (* net.rs:274-291 *)
  Definition set_source (n : net) (node : N) (channel : nat) (s : source) : option net :=
    let? index := lookup (n_index n) node in
    let? v := nth_error (n_vertex n) index in
    if Nat.ltb channel (v_inputs v) then
      let? p := resolve n (Some node) s in
      let? e := nth_error (v_src v) channel in
      Some (invalidate (n_set_vertex n (upd (n_vertex n) index (v_set_src v (upd (v_src v) channel (mkE p (e_tgt e)))))))
    else None.
  (* net.rs:308-323 *)
  Definition set_output_source (n : net) (channel : nat) (s : source) : option net :=
    if Nat.ltb channel (n_out n) then
      let? p := resolve n None s in
      let? e := nth_error (n_oedge n) channel in
      Some (invalidate (n_set_oedge n (upd (n_oedge n) channel (mkE p (e_tgt e)))))
    else None.

  (* ---- remove ---- *)
  (* net.rs:386-396 and 400-409: what a port becomes when node ni is removed; the sources of ni are read as they are now *)
  Definition redirect (ni : nat) (link : bool) (vs : list vertex) (p : port) : option port :=
    match p with
    | PLocal j q =>
        if Nat.eqb j ni then
          if link then let? v := nth_error vs ni in let? e := nth_error (v_src v) q in Some (e_src e) else Some PZero
        else Some p
    | _ => Some p
    end.
  (* net.rs:386-396: the loop over the global outputs *)
  Definition redirect_outputs (ni : nat) (link : bool) (vs : list vertex) (es : list edge) : option (list edge) :=
    mapM (fun e => let? p := redirect ni link vs (e_src e) in Some (mkE p (e_tgt e))) es.
  (* net.rs:399-409: the loop over the channels of vertex w *)
  Fixpoint redirect_channels (ni : nat) (link : bool) (w : nat) (chs : list nat) (vs : list vertex) : option (list vertex) :=
    match chs with
    | [] => Some vs
    | c :: r =>
        let? v := nth_error vs w in
        let? e := nth_error (v_src v) c in
        let? p := redirect ni link vs (e_src e) in
        redirect_channels ni link w r (upd vs w (v_set_src v (upd (v_src v) c (mkE p (e_tgt e)))))
    end.
  (* net.rs:398-410: the loop over the vertices *)
  Fixpoint redirect_vertices (ni : nat) (link : bool) (ws : list nat) (vs : list vertex) : option (list vertex) :=
    match ws with
    | [] => Some vs
    | w :: r => let? v := nth_error vs w in
                let? vs' := redirect_channels ni link w (seq 0 (v_inputs v)) vs in redirect_vertices ni link r vs'
    end.
  (* net.rs:420-434: rename index last to ni in a port *)
  Definition rename (last ni : nat) (p : port) : port :=
    match p with PLocal j q => if Nat.eqb j last then PLocal ni q else p | _ => p end.
  (* net.rs:420-434 *)
  Definition rename_edge (last ni : nat) (e : edge) : edge := mkE (rename last ni (e_src e)) (e_tgt e).
  (* net.rs:435-437: set the targets *)
  Definition retarget (index : nat) (es : list edge) : list edge :=
    map (fun ce => mkE (e_src (snd ce)) (PLocal index (fst ce))) (combine (seq 0 (length es)) es).
  (* net.rs:382-442. Swapping with the last vertex and popping is written as overwriting and dropping the last. *)
  Definition remove_2 (n : net) (node : N) (link : bool) : option (net * U) :=
    let? ni := lookup (n_index n) node in
    let? v := nth_error (n_vertex n) ni in
    if link && negb (Nat.eqb (v_inputs v) (v_outputs v)) then None
    else
      let? oe := redirect_outputs ni link (n_vertex n) (n_oedge n) in
      let? vs := redirect_vertices ni link (seq 0 (length (n_vertex n))) (n_vertex n) in
      let? v1 := nth_error vs ni in
      let m := iremove (n_index n) (v_id v1) in
      let last := length vs - 1 in
      if Nat.eqb last ni then
        Some (mkNet (n_in n) (n_out n) oe (removelast vs) None m (n_error n) (n_revision n), v_unit v1)
      else
        let? vl := nth_error vs last in
        let vs2 := map (fun w => v_set_src w (map (rename_edge last ni) (v_src w))) (upd (removelast vs) ni vl) in
        let? w := nth_error vs2 ni in
        let vs3 := upd vs2 ni (v_set_src w (retarget ni (v_src w))) in
        Some (mkNet (n_in n) (n_out n) (map (rename_edge last ni) oe) vs3 None (iinsert m (v_id vl) ni) (n_error n) (n_revision n), v_unit v1).

  (* net.rs:462-470 replace: f computes the new contents of the vertex, fun _ => new unless the vertex is crossfading *)
  Definition replace (n : net) (node : N) (f : U -> U) : option net :=
    let? ni := lookup (n_index n) node in
    let? v := nth_error (n_vertex n) ni in
    if Nat.eqb (u_ins ops (f (v_unit v))) (v_inputs v) && Nat.eqb (u_outs ops (f (v_unit v))) (v_outputs v) then
      Some (n_set_vertex n (upd (n_vertex n) ni (v_set_changed (v_set_unit v (f (v_unit v))) (n_revision n))))
    else None.
  (* net.rs:487-511 crossfade without a backend: f enqueues the edit in the vertex *)
  Definition edit_unit (n : net) (node : N) (f : U -> U) : option net :=
    let? ni := lookup (n_index n) node in
    let? v := nth_error (n_vertex n) ni in
    if Nat.eqb (u_ins ops (f (v_unit v))) (v_inputs v) && Nat.eqb (u_outs ops (f (v_unit v))) (v_outputs v) then
      Some (n_set_vertex n (upd (n_vertex n) ni (v_set_unit v (f (v_unit v)))))
    else None.

  (* ---- connections ---- *)
  (* net.rs:561-573: self.vertex[target].source[port] = edge(p, Local(target, port)) *)
  Definition plug (n : net) (target tp : nat) (p : port) : option net :=
    let? v := nth_error (n_vertex n) target in
    let? s := put (v_src v) tp (mkE p (PLocal target tp)) in
    Some (invalidate (n_set_vertex n (upd (n_vertex n) target (v_set_src v s)))).
  (* net.rs:660-671: self.output_edge[channel] = edge(p, Global(channel)) *)
  Definition plug_output (n : net) (channel : nat) (p : port) : option net :=
    let? s := put (n_oedge n) channel (mkE p (PGlobal channel)) in Some (invalidate (n_set_oedge n s)).
  (* net.rs:561-573, 599-608, 659-671 *)
  Definition connect_index (n : net) (source sp target tp : nat) : option net := plug n target tp (PLocal source sp).
  (* net.rs:561-573, 599-608, 659-671 *)
  Definition connect_input_index (n : net) (g target tp : nat) : option net := plug n target tp (PGlobal g).
  (* net.rs:561-573, 599-608, 659-671 *)
  Definition connect_output_index (n : net) (source sp g : nat) : option net := plug_output n g (PLocal source sp).
  (* net.rs:528-539 *)
  Definition connect (n : net) (source : N) (sp : nat) (target : N) (tp : nat) : option net :=
    if N.eqb source target then None
    else let? s := lookup (n_index n) source in let? t := lookup (n_index n) target in connect_index n s sp t tp.
  (* net.rs:553-557 *)
  Definition disconnect (n : net) (node : N) (p : nat) : option net :=
    let? ni := lookup (n_index n) node in
    let? v := nth_error (n_vertex n) ni in
    let? e := nth_error (v_src v) p in
    Some (invalidate (n_set_vertex n (upd (n_vertex n) ni (v_set_src v (upd (v_src v) p (mkE PZero (e_tgt e))))))).
  (* net.rs:587-595 *)
  Definition connect_input (n : net) (g : nat) (target : N) (tp : nat) : option net :=
    let? t := lookup (n_index n) target in connect_input_index n g t tp.
  (* net.rs:643-651 *)
  Definition connect_output (n : net) (source : N) (sp g : nat) : option net :=
    let? s := lookup (n_index n) source in connect_output_index n s sp g.
  (* net.rs:654-657 *)
  Definition disconnect_output (n : net) (g : nat) : option net := plug_output n g PZero.
  (* net.rs:714-717 *)
  Definition pass_through (n : net) (input output : nat) : option net := plug_output n output (PGlobal input).

  (* net.rs:624-641, 736-756: the loops of pipe_input, pipe_output, pipe_all: channel c gets port f c *)
  Fixpoint plug_all (n : net) (target : nat) (f : nat -> port) (chs : list nat) : option net :=
    match chs with [] => Some n | c :: r => let? n' := plug n target c (f c) in plug_all n' target f r end.
  (* net.rs:688-702 *)
  Fixpoint plug_outputs (n : net) (f : nat -> port) (chs : list nat) : option net :=
    match chs with [] => Some n | c :: r => let? n' := plug_output n c (f c) in plug_outputs n' f r end.
  (* net.rs:624-641, 688-711, 736-756: channel c of k, modulo k; zeros if k = 0 *)
  Definition wrapped (k : nat) (mk : nat -> port) (c : nat) : port := if Nat.ltb 0 k then mk (c mod k) else PZero.
  (* net.rs:624-639 *)
  Definition pipe_input (n : net) (target : N) : option net :=
    let? t := lookup (n_index n) target in
    let? v := nth_error (n_vertex n) t in
    let? n' := plug_all n t (wrapped (n_in n) PGlobal) (seq 0 (v_inputs v)) in Some (invalidate n').
  (* net.rs:688-702 *)
  Definition pipe_output (n : net) (source : N) : option net :=
    let? s := lookup (n_index n) source in
    let? v := nth_error (n_vertex n) s in
    let? n' := plug_outputs n (wrapped (v_outputs v) (PLocal s)) (seq 0 (n_out n)) in Some (invalidate n').
  (* net.rs:736-756 *)
  Definition pipe_all (n : net) (source target : N) : option net :=
    if N.eqb source target then Some n
    else
      let? s := lookup (n_index n) source in
      let? t := lookup (n_index n) target in
      let? vs := nth_error (n_vertex n) s in
      let? vt := nth_error (n_vertex n) t in
      let? n' := plug_all n t (wrapped (v_outputs vs) (PLocal s)) (seq 0 (v_inputs vt)) in Some (invalidate n').
  (* net.rs:786-796: the sources of the outputs become the sources of the new unit *)
  Fixpoint chain_sources (n : net) (index : nat) (is : list nat) : option net :=
    match is with
    | [] => Some n
    | i :: r =>
        let? p := (if Nat.ltb 0 (n_out n) then let? e := nth_error (n_oedge n) (i mod n_out n) in Some (e_src e) else Some PZero) in
        let? v := nth_error (n_vertex n) index in
        let? e := nth_error (v_src v) i in
        chain_sources (n_set_vertex n (upd (n_vertex n) index (v_set_src v (upd (v_src v) i (mkE p (e_tgt e)))))) index r
    end.
  (* net.rs:780-804 *)
  Definition chain (n : net) (id : N) (u : U) : option net :=
    let n1 := push n id u in
    let? index := lookup (n_index n1) id in
    let? n2 := (if Nat.eqb (length (n_vertex n1)) 1 then (if Nat.ltb 0 (n_in n1) then pipe_input n1 id else Some n1)
                else chain_sources n1 index (seq 0 (u_ins ops u))) in
    let? n3 := pipe_output n2 id in Some (invalidate n3).

  (* ---- order ---- *)
  (* vertex.rs:99-123: the source vertex, if inputs 0, 1, ... come from successive outputs of one vertex *)
  Fixpoint contiguous (node port0 i : nat) (es : list edge) : bool :=
    match es with
    | [] => true
    | e :: r => match e_src e with
                | PLocal j q => if Nat.eqb node j && Nat.eqb (port0 + i) q then contiguous node port0 (S i) r else false
                | _ => false
                end
    end.
  (* vertex.rs:99-123 *)
  Definition source_vertex (v : vertex) : option (nat * nat) :=
    match v_src v with
    | e :: r => match e_src e with PLocal j q => if contiguous j q 1 r then Some (j, q) else None | _ => None end
    | [] => None
    end.
  (* net.rs:1371-1377 ping: the hash includes the net and the units but no connections *)
  Fixpoint ping_vertices (probe : bool) (vs : list vertex) (h : N) : list vertex * N :=
    match vs with
    | [] => ([], h)
    | v :: r => let (u, h1) := uping probe (v_unit v) h in let (r', h2) := ping_vertices probe r h1 in (v_set_unit v u :: r', h2)
    end.
  (* net.rs:1371-1377 *)
  Definition net_ping (probe : bool) (vs : list vertex) (h : N) : list vertex * N := ping_vertices probe vs (ahash h 63%N).

  (* net.rs:857-917: the source vertices of the local inputs, in channel order *)
  Definition locals (es : list edge) : list nat := flat_map (fun e => match e_src e with PLocal j _ => [j] | _ => [] end) es.
  (* net.rs:857-917 *)
  Definition adjacency (vs : list vertex) : list (list nat) := map (fun v => locals (v_src v)) vs.
  (* net.rs:835-853 *)
  Definition determine_order (n : net) : option net :=
    let vs := map (fun v => v_set_sv v (source_vertex v)) (n_vertex n) in
    let (vs1, h) := net_ping true vs 63%N in
    let (vs2, _) := net_ping false vs1 h in
    let? (order, ok) := determine_order_in (adjacency vs2) in
    Some (mkNet (n_in n) (n_out n) (n_oedge n) vs2 (Some order) (n_index n) (negb ok) (n_revision n)).
  (* net.rs:1183-1189, 1220-1229: if !self.is_ordered() { self.determine_order() } *)
  Definition ordered (n : net) : option net := match n_order n with Some _ => Some n | None => determine_order n end.
  (* net.rs:211-216 *)
  Definition net_error (n : net) : option (net * bool) := let? n' := ordered n in Some (n', n_error n').

  (* ---- check, net.rs:973-1036: true if no assertion fails ---- *)
  Definition port_eqb (p q : port) : bool :=
    match p, q with
    | PLocal i j, PLocal k l => Nat.eqb i k && Nat.eqb j l
    | PGlobal i, PGlobal j => Nat.eqb i j
    | PZero, PZero => true
    | _, _ => false
    end.
  (* net.rs:973-1036 *)
  Definition check_port (n : net) (self : option nat) (p : port) : bool :=
    match p with
    | PLocal i j => Nat.ltb i (length (n_vertex n)) && negb (match self with Some k => Nat.eqb i k | None => false end)
                    && match nth_error (n_vertex n) i with Some v => Nat.ltb j (v_outputs v) | None => false end
    | PGlobal j => Nat.ltb j (n_in n)
    | PZero => true
    end.
  (* net.rs:973-1036 *)
  Definition check_edges (n : net) (self : option nat) (es : list edge) (tgt : nat -> port) : bool :=
    forallb (fun ce => port_eqb (e_tgt (snd ce)) (tgt (fst ce)) && check_port n self (e_src (snd ce))) (combine (seq 0 (length es)) es).
  (* net.rs:973-1036 *)
  Definition check_vertex (n : net) (index : nat) (v : vertex) : bool :=
    match lookup (n_index n) (v_id v) with Some i => Nat.eqb i index | None => false end
    && Nat.eqb (length (v_src v)) (v_inputs v) && Nat.eqb (length (v_in v)) (v_inputs v) && Nat.eqb (length (v_out v)) (v_outputs v)
    && check_edges n (Some index) (v_src v) (PLocal index)
    && match v_sv v with
       | None => true
       | Some (s, p) => Nat.ltb s (length (n_vertex n)) && negb (Nat.eqb s index)
           && match nth_error (n_vertex n) s with Some w => Nat.leb (p + v_inputs v) (v_outputs w) | None => false end
       end.
  (* net.rs:973-1036 *)
  Definition check (n : net) : bool :=
    Nat.eqb (length (n_oedge n)) (n_out n) && Nat.eqb (length (n_index n)) (length (n_vertex n))
    && check_edges n None (n_oedge n) PGlobal
    && forallb (fun iv => check_vertex n (fst iv) (snd iv)) (combine (seq 0 (length (n_vertex n))) (n_vertex n)).

  (* ---- running ---- *)
  (* net.rs:1194-1203, 1209-1215: the value of a port; a vertex output is its latest tick output *)
  Definition read_tick (vs : list vertex) (input : list A) (p : port) : option A :=
    match p with
    | PZero => Some zero
    | PGlobal q => nth_error input q
    | PLocal j q => let? v := nth_error vs j in nth_error (v_tout v) q
    end.
  (* vertex.rs:141-159 (the unit part) *)
  Definition v_tick (v : vertex) (tin : list A) : vertex :=
    let (u, tout) := u_tick ops (v_unit v) tin in mkV u (v_src v) (v_in v) (v_out v) tin tout (v_id v) (v_sv v) (v_changed v).
  (* net.rs:1192-1206 *)
  Fixpoint run_tick (order : list nat) (input : list A) (vs : list vertex) : option (list vertex) :=
    match order with
    | [] => Some vs
    | i :: r =>
        let? v := nth_error vs i in
        let? tin := mapM (fun e => read_tick vs input (e_src e)) (v_src v) in
        run_tick r input (upd vs i (v_tick v tin))
    end.
  (* net.rs:1183-1216. The output slice has one entry per global output. *)
  Definition net_tick (n : net) (input : list A) : option (net * list A) :=
    let? n1 := ordered n in
    let? order := n_order n1 in
    let? vs := run_tick order input (n_vertex n1) in
    let? out := mapM (fun e => read_tick vs input (e_src e)) (n_oedge n1) in
    Some (n_set_vertex n1 vs, out).

  (* net.rs:1252-1261, 1274-1280: the channel read by a port *)
  Definition read_block (vs : list vertex) (inb : buf) (p : port) : option (list A) :=
    match p with
    | PZero => Some (repeat zero MAXB)
    | PGlobal q => nth_error inb q
    | PLocal j q => let? v := nth_error vs j in nth_error (v_out v) q
    end.
  (* net.rs:1220-1282: copying of the SIMD words of the channels es into dst *)
  Definition gather (size : nat) (vs : list vertex) (inb : buf) (es : list edge) (dst : buf) : option buf :=
    let? chs := mapM (fun e => read_block vs inb (e_src e)) es in Some (copy_simd zero size chs dst).
  (* vertex.rs:163-230 (the unit part) *)
  Definition v_process (v : vertex) (size : nat) (inb vin : buf) : vertex :=
    let (u, out) := u_process ops (v_unit v) size inb (v_out v) in mkV u (v_src v) vin out (v_tin v) (v_tout v) (v_id v) (v_sv v) (v_changed v).
  (* net.rs:1232-1270 *)
  Fixpoint run_process (order : list nat) (size : nat) (inb : buf) (vs : list vertex) : option (list vertex) :=
    match order with
    | [] => Some vs
    | i :: r =>
        let? v := nth_error vs i in
        match v_sv v with
        | Some (s, p) =>
            let? w := nth_error vs s in
            if Nat.leb (p + v_inputs v) (length (v_out w)) then
              run_process r size inb (upd vs i (v_process v size (firstn (v_inputs v) (skipn p (v_out w))) (v_in v)))
            else None
        | None =>
            let? vin := gather size vs inb (v_src v) (v_in v) in
            run_process r size inb (upd vs i (v_process v size vin vin))
        end
    end.
  (* net.rs:1220-1282 *)
  Definition net_process (n : net) (size : nat) (inb out : buf) : option (net * buf) :=
    let? n1 := ordered n in
    let? order := n_order n1 in
    let? vs := run_process order size inb (n_vertex n1) in
    let? out' := gather size vs inb (n_oedge n1) out in
    Some (n_set_vertex n1 vs, out').

  (* net.rs:1357-1365 set, without a frontend *)
  Definition net_set (n : net) (s : setting P) : net :=
    match direction s with
    | ANode id => match lookup (n_index n) id with
                  | Some i => match nth_error (n_vertex n) i with
                              | Some v => n_set_vertex n (upd (n_vertex n) i (v_set_unit v (u_set ops (v_unit v) (peel s))))
                              | None => n
                              end
                  | None => n
                  end
    | _ => n
    end.
  (* net.rs:1334-1347 *)
  Definition net_reset (n : net) : option net :=
    ordered (n_set_vertex n (map (fun v => v_set_changed (v_set_unit v (u_reset ops (v_unit v))) (n_revision n)) (n_vertex n))).

  (* ---- combination ---- *)
  (* net.rs:930-940; id fresh *)
  Definition wrap (id : N) (u : U) : option net :=
    let n := push (net_new (u_ins ops u) (u_outs ops u)) id u in
    let? n1 := (if Nat.ltb 0 (n_in n) then pipe_input n id else Some n) in
    if Nat.ltb 0 (n_out n1) then pipe_output n1 id else Some n1.
  (* net.rs:963-970; u is the constant unit *)
  Fixpoint connect_outputs (n : net) (id : N) (is : list nat) : option net :=
    match is with [] => Some n | i :: r => let? n' := connect_output n id 0 i in connect_outputs n' id r end.
  (* net.rs:963-970 *)
  Definition scalar (id : N) (channels : nat) (u : U) : option net :=
    connect_outputs (push (net_new 0 channels) id u) id (seq 0 channels).

  (* net.rs:1040-1050; fresh i is the fresh id for vertex i *)
  Fixpoint disambiguate (fresh : nat -> N) (other : imap) (is : list nat) (n : net) : option net :=
    match is with
    | [] => Some n
    | i :: r =>
        let? v := nth_error (n_vertex n) i in
        match lookup other (v_id v) with
        | Some _ => disambiguate fresh other r
            (n_set_index (n_set_vertex n (upd (n_vertex n) i (v_set_id v (fresh i)))) (iinsert (iremove (n_index n) (v_id v)) (fresh i) i))
        | None => disambiguate fresh other r n
        end
    end.

  (* net.rs:1453-1508, 1763-1820: the port of net2 in the combined network: local ports move by offset, global ports become f p *)
  Definition shift (offset : nat) (f : nat -> option port) (p : port) : option port :=
    match p with PLocal j q => Some (PLocal (j + offset) q) | PGlobal q => f q | PZero => Some PZero end.
  (* net.rs:1453-1508, 1763-1820: the loops over the vertices of net2: renumber sources, set targets, enter into the index *)
  Fixpoint adopt (offset : nat) (f : nat -> option port) (node : nat) (vs : list vertex) (m : imap) : option (list vertex * imap) :=
    match vs with
    | [] => Some ([], m)
    | v :: r =>
        let? ps := mapM (fun e => shift offset f (e_src e)) (v_src v) in
        let? (r', m') := adopt offset f (S node) r (iinsert m (v_id v) node) in
        Some (v_set_src v (map (fun cp => mkE (snd cp) (PLocal node (fst cp))) (combine (seq 0 (length ps)) ps)) :: r', m')
    end.
  (* net.rs:1453-1508, 1763-1820: edges with the given sources for outputs start, start + 1, ... *)
  Definition out_edges (start : nat) (ps : list port) : list edge :=
    map (fun cp => mkE (snd cp) (PGlobal (fst cp))) (combine (seq start (length ps)) ps).

  (* net.rs:1435-1445. Vec::resize truncates or extends. *)
  Definition net_thru (n : net) : net :=
    mkNet (n_in n) (n_in n) (firstn (n_in n) (n_oedge n) ++ map (fun i => mkE (PGlobal i) (PGlobal i)) (seq (n_out n) (n_in n - n_out n)))
      (n_vertex n) None (n_index n) (n_error n) (n_revision n).

  (* net.rs:1453-1507 *)
  Definition net_branch (fresh : nat -> N) (n1 n2 : net) : option net :=
    if Nat.eqb (n_in n1) (n_in n2) then
      let? n2 := disambiguate fresh (n_index n1) (seq 0 (length (n_vertex n2))) n2 in
      let offset := length (n_vertex n1) in
      let? oe := mapM (fun e => shift offset (fun q => Some (PGlobal q)) (e_src e)) (n_oedge n2) in
      let? (vs, m) := adopt offset (fun q => Some (PGlobal q)) offset (n_vertex n2) (n_index n1) in
      Some (mkNet (n_in n1) (n_out n1 + n_out n2) (n_oedge n1 ++ out_edges (n_out n1) oe) (n_vertex n1 ++ vs) None m (n_error n1) (n_revision n1))
    else None.

  (* net.rs:1516-1569 *)
  Definition net_stack (fresh : nat -> N) (n1 n2 : net) : option net :=
    let? n2 := disambiguate fresh (n_index n1) (seq 0 (length (n_vertex n2))) n2 in
    let offset := length (n_vertex n1) in
    let f := fun q => Some (PGlobal (q + n_in n1)) in
    let? oe := mapM (fun e => shift offset f (e_src e)) (n_oedge n2) in
    let? (vs, m) := adopt offset f offset (n_vertex n2) (n_index n1) in
    Some (mkNet (n_in n1 + n_in n2) (n_out n1 + n_out n2) (n_oedge n1 ++ out_edges (n_out n1) oe) (n_vertex n1 ++ vs) None m (n_error n1) (n_revision n1)).

  (* net.rs:1619-1627, 1721-1729: push one operator node per output and connect it; new i is its fresh id *)
  Fixpoint push_binops (new : nat -> N) (b : U) (add_offset : nat) (is : list nat) (n : net) : option net :=
    match is with
    | [] => Some n
    | i :: r => let? n' := connect_output_index (push n (new i) b) (add_offset + i) 0 i in push_binops new b add_offset r n'
    end.
  (* net.rs:1628-1649, 1730-1751: connect the former outputs; unconnected outputs leave the input at zero *)
  Fixpoint join_outputs (add_offset chan i : nat) (ps : list port) (n : net) : option net :=
    match ps with
    | [] => Some n
    | p :: r => let? n' := (match p with
                            | PLocal j q => connect_index n j q (add_offset + i) chan
                            | PGlobal q => connect_input_index n q (add_offset + i) chan
                            | PZero => Some n
                            end) in
                join_outputs add_offset chan (S i) r n'
    end.
  (* net.rs:1577-1653 (shared inputs false) and 1681-1755 (shared inputs true, b adds) *)
  Definition combine_binop (shared : bool) (fresh new : nat -> N) (b : U) (n1 n2 : net) : option net :=
    if (negb shared || Nat.eqb (n_in n1) (n_in n2)) && Nat.eqb (n_out n1) (n_out n2) then
      let? n2 := disambiguate fresh (n_index n1) (seq 0 (length (n_vertex n2))) n2 in
      let offset := length (n_vertex n1) in
      let f := fun q => Some (PGlobal (if shared then q else q + n_in n1)) in
      let? (vs, m) := adopt offset f offset (n_vertex n2) (n_index n1) in
      let n := mkNet (if shared then n_in n1 else n_in n1 + n_in n2) (n_out n1) (n_oedge n1) (n_vertex n1 ++ vs) None m (n_error n1) (n_revision n1) in
      let add_offset := length (n_vertex n) in
      let? n := push_binops new b add_offset (seq 0 (n_out n)) n in
      let? n := join_outputs add_offset 0 0 (map e_src (n_oedge n1)) n in
      let? ps := mapM (fun e => shift offset f (e_src e)) (n_oedge n2) in
      let? n := join_outputs add_offset 1 0 ps n in
      Some (invalidate n)
    else None.
  (* net.rs:1577-1653 *)
  Definition net_binary := combine_binop false.
  (* net.rs:1681-1755 *)
  Definition net_bus := combine_binop true.

  (* net.rs:1763-1819 *)
  Definition net_pipe (fresh : nat -> N) (n1 n2 : net) : option net :=
    if Nat.eqb (n_out n1) (n_in n2) then
      let? n2 := disambiguate fresh (n_index n1) (seq 0 (length (n_vertex n2))) n2 in
      let offset := length (n_vertex n1) in
      let f := fun q => let? e := nth_error (n_oedge n1) q in Some (e_src e) in
      let? (vs, m) := adopt offset f offset (n_vertex n2) (n_index n1) in
      let? oe := mapM (fun e => shift offset f (e_src e)) (n_oedge n2) in
      Some (mkNet (n_in n1) (n_out n2) (out_edges 0 oe) (n_vertex n1 ++ vs) None m (n_error n1) (n_revision n1))
    else None.
End Net.

Arguments net : clear implicits. Arguments vertex : clear implicits.
