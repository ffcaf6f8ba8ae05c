(* What the frontend/backend properties mean: histories, and what a poll of the backend must do to a node. *)
From Verif Require Export RealnetModel.

Section RealnetSpec.
  Context {F P U : Type}.
  Variable nm : num F.
  Variable at_ : fade -> F -> F.
  Variable ops : unit_ops F P U.
  Variable sr : F.
  Variable uping : bool -> U -> N -> U * N.
  Variable ahash : N -> N -> N.
  Variable cap : nat.
  Variable dummy : nat -> nat -> U.
  Notation slot := (slotx F U).
  Notation net := (net F slot).
  Notation nedit := (nedit F U).
  Notation msg := (msg F P U). Notation sys := (sys F P U). Notation qedit := (qedit F U).
  Notation xops := (x_ops nm at_ ops sr).

  (* ---- histories ---- *)
  Inductive event :=
  | Edit (a : action (A := F) (P := P) (U := U)) | Crossfade (id : N) (e : nedit) | FadeIn (id : N) (e : nedit)
  | Setting (p : setting P) | Commit
  | Poll | BackTick (i : list F) | BackProcess (size : nat) (inb out : list (list F)) | BackReset.
  Definition step (e : event) (s : sys) : option sys :=
    match e with
    | Edit a => let? n := front_edit nm at_ ops sr uping ahash a (s_front s) in Some (mkSys n (s_edits s) (s_queue s) (s_back s))
    | Crossfade id e => front_crossfade ops s id e
    | FadeIn id e => front_fade_in nm at_ ops sr dummy s id e
    | Setting p => Some (front_set cap s p)
    | Commit => commit uping ahash cap s
    | Poll => poll nm at_ ops sr s
    | BackTick i => option_map fst (back_tick nm at_ ops sr uping ahash s i)
    | BackProcess size inb out => option_map fst (back_process nm at_ ops sr uping ahash s size inb out)
    | BackReset => back_reset nm at_ ops sr uping ahash s
    end.
  (* the event gives node id a new or newly reset unit in the frontend *)
  Definition touches (e : event) (id : N) : bool :=
    match e with
    | Edit (Push k _) | Edit (Chain k _) | Edit (Replace k _) | FadeIn k _ => N.eqb k id
    | Edit Reset_ => true
    | _ => false
    end.
  (* the nodes created by the event *)
  Definition creates (e : event) : list N := match e with Edit (Push k _) | Edit (Chain k _) | FadeIn k _ => [k] | _ => [] end.
  (* arguments in range; the queue is not full when something is sent; the frontend itself is not played *)
  Definition allowed (used : list N) (s : sys) (e : event) : Prop :=
    (forall k, In k (creates e) -> ~ In k used) /\
    match e with
    | Edit a => NetSpec.in_range xops (s_front s) (lift nm ops a) /\ no_loop_back (s_front s) (lift nm ops a) /\
                match a with Tick _ | Process _ _ _ | Set_ _ => False | _ => True end
    | Crossfade id e => contains (s_front s) id /\ u_ins ops (ed_unit e) = inputs_in xops (s_front s) id /\ u_outs ops (ed_unit e) = outputs_in xops (s_front s) id
    | FadeIn id e => True
    | Setting _ | Commit => length (s_queue s) < cap
    | Poll | BackTick _ | BackProcess _ _ _ | BackReset => True
    end.

  (* the networks waiting in the channel, and the settings waiting *)
  Definition pending (q : list msg) : list (net * list qedit) := flat_map (fun m => match m with MNet n es => [(n, es)] | MSet _ => [] end) q.
  Definition settings (q : list msg) : list (setting P) := flat_map (fun m => match m with MSet p => [p] | MNet _ _ => [] end) q.

  (* A system with a record of its history: the ids used so far, the nodes touched between the commit of the network that the backend
     plays and the newest pending commit, the nodes touched since the newest commit, and the frontend as it was committed last. *)
  Record watched := mkW { w_sys : sys; w_used : list N; w_done : N -> bool; w_open : N -> bool; w_last : net }.
  Definition polls (e : event) : Prop := match e with Poll | BackTick _ | BackProcess _ _ _ | BackReset => True | _ => False end.
  Definition watch (w : watched) (e : event) (s : sys) : watched :=
    match e with
    | Commit => mkW s (w_used w) (fun id => w_done w id || w_open w id) (fun _ => false) (s_front (w_sys w))
    | Poll | BackTick _ | BackProcess _ _ _ | BackReset => mkW s (w_used w) (fun _ => false) (w_open w) (w_last w)
    | _ => mkW s (creates e ++ w_used w) (w_done w) (fun id => w_open w id || touches e id) (w_last w)
    end.
  Inductive happens : watched -> Prop :=
  | h_start n s : reachable (n0 nm) xops (xping uping) ahash (fun n a => no_loop_back n a /\ match a with Tick _ | Process _ _ _ => False | _ => True end) n ->
      start uping ahash n = Some s -> happens (mkW s (map v_id (n_vertex n)) (fun _ => false) (fun _ => false) n)
  | h_step w e s : happens w -> allowed (w_used w) (w_sys w) e -> step e (w_sys w) = Some s -> happens (watch w e s).

  (* ---- what a node receives ---- *)
  (* a setting reaches the current unit of the node it is addressed to; an edit is queued in the node it is for *)
  Definition set_one (id : N) (x : slot) (p : setting P) : slot :=
    match direction p with ANode k => if N.eqb k id then x_set_unit x (u_set ops (x_unit x) (peel p)) else x | _ => x end.
  Definition edit_one (id : N) (x : slot) (e : qedit) : slot := if N.eqb (q_id e) id then enqueue nm x (q_edit e) else x.
  Definition received (id : N) (ps : list (setting P)) (es : list qedit) (x : slot) : slot :=
    fold_left (edit_one id) es (fold_left (set_one id) ps x).
  (* the settings addressed to node id, in order, applied to a unit *)
  Definition heard (id : N) (ps : list (setting P)) (u : U) : U :=
    fold_left (fun u p => match direction p with ANode k => if N.eqb k id then u_set ops u (peel p) else u | _ => u end) ps u.
  (* e is the last edit for node id in the list *)
  Definition last_edit (id : N) (es : list qedit) (e : nedit) : Prop := exists l q, filter (fun q => N.eqb (q_id q) id) es = l ++ [q] /\ q_edit q = e.
  (* e is the unit that the node is fading to, or the one it will fade to next *)
  Definition fades_to (x : slot) (e : nedit) : Prop := x_next x = Some e \/ x_latest x = Some e.
  (* the same nodes and connections *)
  Definition same_connections (n n' : net) : Prop :=
    (forall k c, net_source n' k c = net_source n k c) /\ (forall c, output_source n' c = output_source n c) /\
    (forall k, contains n' k <-> contains n k) /\ n_in n' = n_in n /\ n_out n' = n_out n.
  (* the same connections and order *)
  Definition same_wiring (n n' : net) : Prop :=
    same_connections n n' /\ n_order n' = n_order n.
  (* What a poll makes of the network b of the backend. Without a waiting network the nodes hear the waiting settings. Otherwise b is
     wired like the newest network c; a node that the backend had and that was not touched since runs on, having heard all waiting
     settings and received the edits of all waiting networks in order; any other node is as in c, with the edits of c. *)
  Definition polled (w : watched) (b : net) : Prop :=
    (pending (s_queue (w_sys w)) = [] -> same_wiring (s_back (w_sys w)) b /\
       forall id, node b id = option_map (received id (settings (s_queue (w_sys w))) []) (node (s_back (w_sys w)) id)) /\
    (forall before c es, pending (s_queue (w_sys w)) = before ++ [(c, es)] -> same_wiring c b /\
       forall id x, node c id = Some x ->
         node b id = Some (match node (s_back (w_sys w)) id with
                           | Some r => if w_done w id then received id [] es x
                                       else take_over (received id (settings (s_queue (w_sys w))) (flat_map snd before ++ es) r) x
                           | None => received id [] es x
                           end)).
  (* a node of the backend that was not replaced and that is still there *)
  Definition stays (w : watched) (id : N) : Prop :=
    contains (s_back (w_sys w)) id /\ contains (w_last w) id /\ w_done w id = false.
  (* units keep their arity when controlled, the placeholder has the given arity *)
  Definition dummy_laws : Prop := forall i o, u_ins ops (dummy i o) = i /\ u_outs ops (dummy i o) = o.
End RealnetSpec.
