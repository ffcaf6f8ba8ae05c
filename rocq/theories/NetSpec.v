(* What the Net properties mean: consistency of a network, editing histories, and the dataflow equations. *)
From Verif Require Export NetModel OrderSpec.

Section Spec.
  Context {A P U : Type}.
  Variable zero : A.
  Variable ops : unit_ops A P U.
  Variable uping : bool -> U -> N -> U * N.
  Variable ahash : N -> N -> N.
  Notation net := (net A U).
  Notation vertex := (vertex A U).

  (* ---- the user's view ---- *)
  Definition contains (n : net) (id : N) : Prop := lookup (n_index n) id <> None.
  (* Net::node(id), Net::inputs_in(id), Net::outputs_in(id): net.rs:807-832 *)
  Definition node (n : net) (id : N) : option U :=
    match lookup (n_index n) id with Some i => option_map v_unit (nth_error (n_vertex n) i) | None => None end.
  Definition inputs_in (n : net) (id : N) : nat := match node n id with Some u => u_ins ops u | None => 0 end.
  Definition outputs_in (n : net) (id : N) : nat := match node n id with Some u => u_outs ops u | None => 0 end.
  (* a source refers to an existing node and port *)
  Definition source_ok (n : net) (s : source) : Prop :=
    match s with SZero => True | SGlobal q => q < n_in n | SLocal id q => contains n id /\ q < outputs_in n id end.
  (* the network is well formed, in terms of the API: ids resolve to nodes, one to one and onto the nodes; every input of
     every node and every output of the net has a source, which refers to an existing node and port; no node reads itself *)
  Record consistent (n : net) : Prop := {
    cs_node : forall id, contains n id -> exists u, node n id = Some u;
    cs_onto : forall i v, nth_error (n_vertex n) i = Some v -> lookup (n_index n) (v_id v) = Some i;
    cs_id : forall id i, lookup (n_index n) id = Some i -> exists v, nth_error (n_vertex n) i = Some v /\ v_id v = id;
    cs_source : forall id c, contains n id -> c < inputs_in n id -> exists s, net_source n id c = Some s /\ source_ok n s;
    cs_self : forall id c q, net_source n id c <> Some (SLocal id q);
    cs_output : forall c, c < n_out n -> exists s, output_source n c = Some s /\ source_ok n s
  }.

  (* ---- editing and playing ---- *)
  Inductive action :=
  | Push (id : N) (u : U) | Remove (id : N) | RemoveLink (id : N) | Replace (id : N) (u : U)
  | SetSource (id : N) (c : nat) (s : source) | SetOutputSource (c : nat) (s : source)
  | Connect (s : N) (sp : nat) (t : N) (tp : nat) | Disconnect (id : N) (p : nat)
  | ConnectInput (g : nat) (t : N) (tp : nat) | PipeInput (t : N)
  | ConnectOutput (s : N) (sp g : nat) | DisconnectOutput (g : nat) | PipeOutput (s : N)
  | PassThrough (i o : nat) | PipeAll (s t : N) | Chain (id : N) (u : U)
  | CheckError | Tick (i : list A) | Process (size : nat) (inb out : list (list A)) | Set_ (s : setting P) | Reset_.
  Definition apply (a : action) (n : net) : option net :=
    match a with
    | Push id u => Some (push zero ops n id u)
    | Remove id => option_map fst (remove_2 n id false)
    | RemoveLink id => option_map fst (remove_2 n id true)
    | Replace id u => replace ops n id (fun _ => u)
    | SetSource id c s => set_source n id c s
    | SetOutputSource c s => set_output_source n c s
    | Connect s sp t tp => connect n s sp t tp
    | Disconnect id p => disconnect n id p
    | ConnectInput g t tp => connect_input n g t tp
    | PipeInput t => pipe_input n t
    | ConnectOutput s sp g => connect_output n s sp g
    | DisconnectOutput g => disconnect_output n g
    | PipeOutput s => pipe_output n s
    | PassThrough i o => pass_through n i o
    | PipeAll s t => pipe_all n s t
    | Chain id u => chain zero ops n id u
    | CheckError => option_map fst (net_error uping ahash n)
    | Tick i => option_map fst (net_tick zero ops uping ahash n i)
    | Process size inb out => option_map fst (net_process zero ops uping ahash n size inb out)
    | Set_ s => Some (net_set ops n s)
    | Reset_ => net_reset ops uping ahash n
    end.
  (* arguments in range: new ids are new, nodes exist, ports are within the arity of the node or net, blocks have the right shape *)
  Definition in_range (n : net) (a : action) : Prop :=
    match a with
    | Push id _ => ~ contains n id
    | Chain id _ => ~ contains n id
    | Remove id => contains n id
    | RemoveLink id => contains n id /\ inputs_in n id = outputs_in n id
    | Replace id u => contains n id /\ u_ins ops u = inputs_in n id /\ u_outs ops u = outputs_in n id
    | SetSource id c s => contains n id /\ c < inputs_in n id /\ source_ok n s /\ forall q, s <> SLocal id q
    | SetOutputSource c s => c < n_out n /\ source_ok n s
    | Connect s sp t tp => s <> t /\ contains n s /\ contains n t /\ sp < outputs_in n s /\ tp < inputs_in n t
    | Disconnect id p => contains n id /\ p < inputs_in n id
    | ConnectInput g t tp => g < n_in n /\ contains n t /\ tp < inputs_in n t
    | PipeInput t => contains n t
    | ConnectOutput s sp g => contains n s /\ sp < outputs_in n s /\ g < n_out n
    | DisconnectOutput g => g < n_out n
    | PipeOutput s => contains n s
    | PassThrough i o => i < n_in n /\ o < n_out n
    | PipeAll s t => contains n s /\ contains n t
    | CheckError | Set_ _ | Reset_ => True
    | Tick i => length i = n_in n
    | Process size inb out => size <= MAXB /\ shaped (n_in n) inb /\ shaped (n_out n) out
    end.
  (* the removed node and one of its readers read each other on the same port number: removal with links would close a loop *)
  Definition loops_back (n : net) (id : N) : Prop :=
    exists b c p q, net_source n b c = Some (SLocal id p) /\ net_source n id p = Some (SLocal b q).
  Definition no_loop_back (n : net) (a : action) : Prop := match a with RemoveLink id => ~ loops_back n id | _ => True end.

  (* what a source becomes when node id is removed: zero, or the source of the same-numbered input of the removed node *)
  Definition after_removal (n : net) (id : N) (link : bool) (s : source) : option source :=
    match s with
    | SLocal k p => if N.eqb k id then (if link then net_source n id p else Some SZero) else Some s
    | _ => Some s
    end.

  (* ---- what each edit does, in terms of source(), output_source() and node() ---- *)
  (* channel c of k channels, modulo k; zero if there are none *)
  Definition spread (k : nat) (mk : nat -> source) (c : nat) : source := if Nat.ltb 0 k then mk (c mod k) else SZero.
  (* the source of input d of node k after edit a *)
  Definition wired (n : net) (a : action) (k : N) (d : nat) : option source :=
    let at_ id c s := if N.eqb k id && Nat.eqb d c then Some s else net_source n k d in
    let all id m f := if N.eqb k id then (if Nat.ltb d m then f d else None) else net_source n k d in
    match a with
    | Push id u => all id (u_ins ops u) (fun _ => Some SZero)
    | SetSource id c s => at_ id c s
    | Connect s sp t tp => at_ t tp (SLocal s sp)
    | Disconnect id p => at_ id p SZero
    | ConnectInput g t tp => at_ t tp (SGlobal g)
    | PipeInput t => all t (inputs_in n t) (fun d => Some (spread (n_in n) SGlobal d))
    | PipeAll s t => if N.eqb s t then net_source n k d else all t (inputs_in n t) (fun d => Some (spread (outputs_in n s) (SLocal s) d))
    | Chain id u => all id (u_ins ops u) (fun d =>
        if Nat.eqb (length (n_vertex n)) 0 then Some (spread (n_in n) SGlobal d)
        else if Nat.eqb (n_out n) 0 then Some SZero else output_source n (d mod n_out n))
    | _ => net_source n k d
    end.
  (* the source of net output c after edit a *)
  Definition out_wired (n : net) (a : action) (c : nat) : option source :=
    let at_ g s := if Nat.eqb c g then Some s else output_source n c in
    let all f := if Nat.ltb c (n_out n) then Some (f c) else None in
    match a with
    | SetOutputSource g s => at_ g s
    | ConnectOutput s sp g => at_ g (SLocal s sp)
    | DisconnectOutput g => at_ g SZero
    | PassThrough i o => at_ o (SGlobal i)
    | PipeOutput s => all (spread (outputs_in n s) (SLocal s))
    | Chain id u => all (spread (u_outs ops u) (SLocal id))
    | _ => output_source n c
    end.
  (* node k after edit a *)
  Definition unit_after (n : net) (a : action) (k : N) : option U :=
    match a with
    | Push id u | Chain id u | Replace id u => if N.eqb k id then Some u else node n k
    | Set_ s => match direction s with
                | ANode id => if N.eqb k id then option_map (fun u => u_set ops u (peel s)) (node n k) else node n k
                | _ => node n k
                end
    | _ => node n k
    end.
  Definition edit (a : action) : Prop :=
    match a with Remove _ | RemoveLink _ | CheckError | Tick _ | Process _ _ _ | Reset_ => False | _ => True end.
  Definition playing (a : action) : Prop := match a with CheckError | Tick _ | Process _ _ _ | Reset_ => True | _ => False end.

  (* ids drawn from the generator for a combination of networks: new and distinct *)
  Definition fresh_for (n1 n2 : net) (f : nat -> N) : Prop :=
    (forall i j, f i = f j -> i = j) /\ forall i, ~ contains n1 (f i) /\ ~ contains n2 (f i).

  (* networks obtained by editing, playing and combining. ok restricts the actions allowed. *)
  Inductive reachable (ok : net -> action -> Prop) : net -> Prop :=
  | r_new i o : reachable ok (net_new i o)
  | r_act n a n' : reachable ok n -> in_range n a -> ok n a -> apply a n = Some n' -> reachable ok n'
  | r_thru n : reachable ok n -> reachable ok (net_thru n)
  | r_pipe f n1 n2 n : reachable ok n1 -> reachable ok n2 -> fresh_for n1 n2 f -> net_pipe f n1 n2 = Some n -> reachable ok n
  | r_stack f n1 n2 n : reachable ok n1 -> reachable ok n2 -> fresh_for n1 n2 f -> net_stack f n1 n2 = Some n -> reachable ok n
  | r_branch f n1 n2 n : reachable ok n1 -> reachable ok n2 -> fresh_for n1 n2 f -> net_branch f n1 n2 = Some n -> reachable ok n
  | r_binop shared f g b n1 n2 n : reachable ok n1 -> reachable ok n2 -> fresh_for n1 n2 f -> fresh_for n1 n2 g -> (forall i j, f i <> g j) ->
      u_ins ops b = 2 -> u_outs ops b = 1 -> combine_binop zero ops shared f g b n1 n2 = Some n -> reachable ok n.

  (* units keep their arity when they are controlled *)
  Record control_laws : Prop := {
    cl_set_ins : forall u s, u_ins ops (u_set ops u s) = u_ins ops u;
    cl_set_outs : forall u s, u_outs ops (u_set ops u s) = u_outs ops u;
    cl_reset_ins : forall u, u_ins ops (u_reset ops u) = u_ins ops u;
    cl_reset_outs : forall u, u_outs ops (u_reset ops u) = u_outs ops u;
    cl_ping_ins : forall b u h, u_ins ops (fst (uping b u h)) = u_ins ops u;
    cl_ping_outs : forall b u h, u_outs ops (fst (uping b u h)) = u_outs ops u
  }.

  (* ---- the connection graph ---- *)
  Definition sources (v : vertex) : list port := map e_src (v_src v).
  Definition graph (n : net) : list (list port) := map sources (n_vertex n).
  Definition units (n : net) : list U := map v_unit (n_vertex n).
  Definition local_sources (ps : list port) : list nat := flat_map (fun p => match p with PLocal j _ => [j] | _ => [] end) ps.
  (* there is a directed cycle of connections between nodes *)
  Definition has_cycle (n : net) : Prop := cyclic (map local_sources (graph n)).

  (* ---- dataflow: in one sample, vals lists the outputs of all nodes ---- *)
  Definition value (vals : list (list A)) (input : list A) (p : port) : option A :=
    match p with
    | PZero => Some zero
    | PGlobal q => nth_error input q
    | PLocal j q => match nth_error vals j with Some o => nth_error o q | None => None end
    end.
  (* node i, in state u, is fed the values of its sources, goes to state u' and outputs entry i of vals *)
  Definition flow (g : list (list port)) (us : list U) (input : list A) (us' : list U) (vals : list (list A)) : Prop :=
    length us = length g /\ length us' = length g /\ length vals = length g /\
    forall i ps u u' o, nth_error g i = Some ps -> nth_error us i = Some u -> nth_error us' i = Some u' -> nth_error vals i = Some o ->
      exists ins, mapM (value vals input) ps = Some ins /\ u_tick ops u ins = (u', o).
  Definition dataflow (n : net) (us : list U) (input : list A) (us' : list U) (vals : list (list A)) (out : list A) : Prop :=
    flow (graph n) us input us' vals /\ mapM (value vals input) (map e_src (n_oedge n)) = Some out.

  (* ---- blocks ---- *)
  Definition block : Type := (nat * list (list A) * list (list A))%type.
  Definition block_ok (n : net) (b : block) : Prop :=
    match b with (size, inb, out) => size <= MAXB /\ shaped (n_in n) inb /\ shaped (n_out n) out end.
  Fixpoint run_blocks (n : net) (bs : list block) : option (net * list (list A)) :=
    match bs with
    | [] => Some (n, [])
    | (size, inb, out) :: r =>
        let? (n1, out1) := net_process zero ops uping ahash n size inb out in
        let? (n2, os) := run_blocks n1 r in Some (n2, frames zero out1 size ++ os)
    end.
  Fixpoint run_ticks (n : net) (ins : list (list A)) : option (net * list (list A)) :=
    match ins with
    | [] => Some (n, [])
    | i :: r => let? (n1, o) := net_tick zero ops uping ahash n i in let? (n2, os) := run_ticks n1 r in Some (n2, o :: os)
    end.
  Definition input_frames (bs : list block) : list (list A) :=
    flat_map (fun b => match b with (size, inb, _) => frames zero inb size end) bs.
  (* the same network up to the contents of the scratch buffers of its nodes *)
  Definition settled (v : vertex) := (v_unit v, v_src v, v_id v, v_sv v, v_changed v).
  Definition same_state (n n' : net) : Prop :=
    n_in n = n_in n' /\ n_out n = n_out n' /\ n_oedge n = n_oedge n' /\ n_order n = n_order n' /\ n_index n = n_index n' /\
    n_error n = n_error n' /\ n_revision n = n_revision n' /\ map settled (n_vertex n) = map settled (n_vertex n').
End Spec.
