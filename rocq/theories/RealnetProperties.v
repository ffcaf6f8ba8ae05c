(* Properties of a network with a realtime backend (C08, C09, C10). The histories, and what a poll must do, are in RealnetSpec.v. *)
From Coq Require Import QArith.
From Verif Require Import RealnetExamples.
Local Open Scope nat_scope.

(* C08. Throughout every history, when no network is waiting in the channel, the backend has exactly the nodes and connections of
   the frontend as it was committed last. *)
Theorem C08_playing_is_committed : forall (F P U : Type) (nm : num F) at_ (ops : unit_ops F P U) sr uping ahash cap dummy,
  control_laws ops uping -> dummy_laws ops dummy ->
  forall w, happens nm at_ ops sr uping ahash cap dummy w -> pending (s_queue (w_sys w)) = [] -> same_connections (w_last w) (s_back (w_sys w)).
Proof. intros F P U nm at_ ops sr uping ahash cap dummy Hc Hd. exact (playing_is_committed nm at_ ops sr uping ahash cap dummy Hc Hd). Qed.
Print Assumptions C08_playing_is_committed.

(* C08. A commit with room in the channel sends one network with the frontend's nodes, connections and pending edits, and with the
   frontend's units if giving units their hashes does not change them. *)
Theorem C08_commit : forall (F P U : Type) (nm : num F) at_ (ops : unit_ops F P U) sr uping ahash cap dummy,
  control_laws ops uping -> dummy_laws ops dummy ->
  forall w, happens nm at_ ops sr uping ahash cap dummy w -> length (s_queue (w_sys w)) < cap ->
  exists c es s,
    commit uping ahash cap (w_sys w) = Some s /\ s_queue s = s_queue (w_sys w) ++ [MNet c es] /\ s_back s = s_back (w_sys w) /\ s_edits s = [] /\
    same_connections (s_front (w_sys w)) c /\ same_connections (s_front (w_sys w)) (s_front s) /\ n_order c <> None /\
    (forall q, In q es <-> contains (s_front (w_sys w)) (q_id q) /\ In (q_id q, q_edit q) (s_edits (w_sys w)) /\ lookup (n_index (s_front (w_sys w))) (q_id q) = Some (q_index q)) /\
    ((forall b u h, fst (uping b u h) = u) -> forall id, node c id = node (s_front (w_sys w)) id).
Proof. intros F P U nm at_ ops sr uping ahash cap dummy Hc Hd. exact (commit_sends nm at_ ops sr uping ahash cap dummy Hc Hd). Qed.
Print Assumptions C08_commit.

(* C08. A poll never panics and empties the channel; afterwards the backend is wired like the frontend committed last, in the order of
   the committed network, unchanged nodes run on, and new or replaced nodes are as they were in the frontend. *)
Theorem C08_poll : forall (F P U : Type) (nm : num F) at_ (ops : unit_ops F P U) sr uping ahash cap dummy,
  control_laws ops uping -> dummy_laws ops dummy ->
  forall w, happens nm at_ ops sr uping ahash cap dummy w ->
  exists s, poll nm at_ ops sr (w_sys w) = Some s /\ s_front s = s_front (w_sys w) /\ s_edits s = s_edits (w_sys w) /\ s_queue s = [] /\
    same_connections (w_last w) (s_back s) /\ polled nm ops w (s_back s).
Proof. intros F P U nm at_ ops sr uping ahash cap dummy Hc Hd. exact (poll_correct nm at_ ops sr uping ahash cap dummy Hc Hd). Qed.
Print Assumptions C08_poll.

(* C08. Editing, fading in, crossfading, setting, committing and polling never panic when the arguments are in range. *)
Theorem C08_no_panic : forall (F P U : Type) (nm : num F) at_ (ops : unit_ops F P U) sr uping ahash cap dummy,
  control_laws ops uping -> dummy_laws ops dummy ->
  forall w e, happens nm at_ ops sr uping ahash cap dummy w -> allowed nm at_ ops sr cap (w_used w) (w_sys w) e ->
  match e with BackTick _ | BackProcess _ _ _ | BackReset => False | _ => True end ->
  step nm at_ ops sr uping ahash cap dummy e (w_sys w) <> None.
Proof.
  intros F P U nm at_ ops sr uping ahash cap dummy Hc Hd w e Hw. apply step_ok; auto. exact (happens_inv nm at_ ops sr uping ahash cap dummy Hc Hd w Hw).
Qed.
Print Assumptions C08_no_panic.

(* C08 fails when the channel is full: whatever its capacity, there is a history in which a commit returns normally and its network
   never reaches the backend, nor do the edits it carried. *)
Theorem C08_full_channel_refuted : forall cap, exists w s s2,
  vhappens cap Silent w /\ commit voice_ping ahash0 cap (w_sys w) = Some s /\ poll Qnum_ops Q_at voice_ops 1%Q s = Some s2 /\
  contains (s_front (w_sys w)) 1 /\ ~ contains (s_back s2) 1 /\ s_queue s2 = [] /\ s_edits s2 = [].
Proof. exact full_queue. Qed.
Print Assumptions C08_full_channel_refuted.

Example C08_meets : vhappens 8 Silent (after evs_heard) /\ pending (s_queue (w_sys (after evs_heard))) = [] /\ output_source (s_back (w_sys (after evs_heard))) 0 = Some (SLocal 1 0) /\
  vhappens 8 Silent (after evs_once) /\ length (pending (s_queue (w_sys (after evs_once)))) = 1.
Proof. split; [exact h_heard|]. split; [reflexivity|]. split; [vm_compute; reflexivity|]. split; [exact h_once|reflexivity]. Qed.

(* C09. A node that the backend plays, that is still in the last committed network and that was not replaced or reset in the frontend,
   hears every waiting setting addressed to it, in the order of sending, whatever networks wait among them. *)
Theorem C09_settings_partial : forall (F P U : Type) (nm : num F) at_ (ops : unit_ops F P U) sr uping ahash cap dummy,
  control_laws ops uping -> dummy_laws ops dummy ->
  forall w id s, happens nm at_ ops sr uping ahash cap dummy w -> stays w id -> poll nm at_ ops sr (w_sys w) = Some s ->
  exists r y, node (s_back (w_sys w)) id = Some r /\ node (s_back s) id = Some y /\ x_unit y = heard ops id (settings (s_queue (w_sys w))) (x_unit r).
Proof. intros F P U nm at_ ops sr uping ahash cap dummy Hc Hd. exact (settings_heard nm at_ ops sr uping ahash cap dummy Hc Hd). Qed.
Print Assumptions C09_settings_partial.

(* C09 fails for a node that is new in a network waiting with the setting: it is set after its commit, and after the poll the backend
   plays it with the value it had before. *)
Theorem C09_new_node_refuted : exists w s,
  vhappens 8 Silent w /\ (exists c es, s_queue (w_sys w) = [MNet c es; MSet (set1 7)] /\ contains c 1) /\
  poll Qnum_ops Q_at voice_ops 1%Q (w_sys w) = Some s /\ s_queue s = [] /\
  option_map x_unit (node (s_back s) 1) = Some (Voice 5) /\ u_set voice_ops (Voice 5) (peel (set1 7)) = Voice 7 /\
  option_map snd (net_tick 0%Q (x_ops Qnum_ops Q_at voice_ops 1%Q) (xping voice_ping) ahash0 (s_back s) []) = Some [5%Q].
Proof.
  exists (after evs_lost). destruct (poll Qnum_ops Q_at voice_ops 1%Q (w_sys (after evs_lost))) as [s|] eqn:E; [|vm_compute in E; discriminate]. exists s. split; [exact h_lost|].
  split; [eexists _, _; split; [vm_compute; reflexivity|vm_compute; discriminate]|]. split; [reflexivity|]. vm_compute in E. injection E as <-. repeat split; vm_compute; reflexivity.
Qed.
Print Assumptions C09_new_node_refuted.

Example C09_meets : vhappens 8 Silent (after evs_heard) /\ stays (after evs_heard) 1 /\ settings (s_queue (w_sys (after evs_heard))) = [set1 7] /\
  option_map (fun s => option_map x_unit (node (s_back s) 1)) (poll Qnum_ops Q_at voice_ops 1%Q (w_sys (after evs_heard))) = Some (Some (Voice 7)).
Proof. split; [exact h_heard|]. split; [split; [|split]; vm_compute; congruence|]. split; vm_compute; reflexivity. Qed.

(* C10. However many commits wait, a node that stays fades to the unit of the last edit requested for it in any of them. *)
Theorem C10_playing_nodes_partial : forall (F P U : Type) (nm : num F) at_ (ops : unit_ops F P U) sr uping ahash cap dummy,
  control_laws ops uping -> dummy_laws ops dummy ->
  forall w id s e, happens nm at_ ops sr uping ahash cap dummy w -> stays w id -> last_edit id (flat_map snd (pending (s_queue (w_sys w)))) e ->
  poll nm at_ ops sr (w_sys w) = Some s -> exists y, node (s_back s) id = Some y /\ fades_to y e.
Proof. intros F P U nm at_ ops sr uping ahash cap dummy Hc Hd. exact (edits_kept nm at_ ops sr uping ahash cap dummy Hc Hd). Qed.
Print Assumptions C10_playing_nodes_partial.

(* C10. A new node fades to the unit of the last edit requested for it before the newest commit and after the commit before that one. *)
Theorem C10_new_nodes_partial : forall (F P U : Type) (nm : num F) at_ (ops : unit_ops F P U) sr uping ahash cap dummy,
  control_laws ops uping -> dummy_laws ops dummy ->
  forall w id s c es e before, happens nm at_ ops sr uping ahash cap dummy w -> pending (s_queue (w_sys w)) = before ++ [(c, es)] -> contains c id ->
  ~ contains (s_back (w_sys w)) id -> last_edit id es e -> poll nm at_ ops sr (w_sys w) = Some s -> exists y, node (s_back s) id = Some y /\ fades_to y e.
Proof. intros F P U nm at_ ops sr uping ahash cap dummy Hc Hd. exact (edits_new nm at_ ops sr uping ahash cap dummy Hc Hd). Qed.
Print Assumptions C10_new_nodes_partial.

(* C10 fails: with a second commit before the poll, a node that was faded in stays the silent placeholder. Nothing is left in the
   channel or in the edit queue of the frontend that could start the fade. *)
Theorem C10_skipped_fade_in_refuted : exists w s x,
  vhappens 8 Silent w /\ (exists c es c', s_queue (w_sys w) = [MNet c es; MNet c' []] /\ last_edit 1 es five) /\
  poll Qnum_ops Q_at voice_ops 1%Q (w_sys w) = Some s /\ node (s_back s) 1 = Some x /\
  x_unit x = Silent 0 1 /\ x_next x = None /\ x_latest x = None /\ s_queue s = [] /\ s_edits s = [] /\ option_map x_unit (node (s_front s) 1) = Some (Silent 0 1).
Proof.
  exists (after evs_twice). destruct (poll Qnum_ops Q_at voice_ops 1%Q (w_sys (after evs_twice))) as [s|] eqn:E; [|vm_compute in E; discriminate]. exists s. eexists. split; [exact h_twice|].
  split; [eexists _, _, _; split; [vm_compute; reflexivity|exists [], (mkQE 1%N 0 five); split; reflexivity]|]. split; [reflexivity|]. vm_compute in E. injection E as <-. split; [vm_compute; reflexivity|]. repeat split; vm_compute; reflexivity.
Qed.
Print Assumptions C10_skipped_fade_in_refuted.

(* C10 fails later too: when the frontend is reset and committed after the fade has ended, the placeholder comes back. *)
Theorem C10_reset_refuted : exists w s,
  vhappens 8 Silent w /\ option_map x_unit (node (s_back (w_sys w)) 1) = Some (Voice 5) /\ option_map x_next (node (s_back (w_sys w)) 1) = Some None /\
  poll Qnum_ops Q_at voice_ops 1%Q (w_sys w) = Some s /\ option_map x_unit (node (s_back s) 1) = Some (Silent 0 1) /\
  option_map x_next (node (s_back s) 1) = Some None /\ s_queue s = [] /\ s_edits s = [].
Proof.
  exists (after evs_reset). destruct (poll Qnum_ops Q_at voice_ops 1%Q (w_sys (after evs_reset))) as [s|] eqn:E; [|vm_compute in E; discriminate]. exists s. split; [exact h_reset|].
  split; [vm_compute; reflexivity|]. split; [vm_compute; reflexivity|]. split; [reflexivity|]. vm_compute in E. injection E as <-. repeat split; vm_compute; reflexivity.
Qed.
Print Assumptions C10_reset_refuted.

Example C10_meets : vhappens 8 Silent (after evs_once) /\ (exists c es, pending (s_queue (w_sys (after evs_once))) = [] ++ [(c, es)] /\ contains c 1 /\ last_edit 1 es five) /\
  ~ contains (s_back (w_sys (after evs_once))) 1 /\
  option_map (fun s => option_map x_next (node (s_back s) 1)) (poll Qnum_ops Q_at voice_ops 1%Q (w_sys (after evs_once))) = Some (Some (Some five)).
Proof.
  split; [exact h_once|]. split; [eexists _, _; split; [vm_compute; reflexivity|split; [vm_compute; discriminate|exists [], (mkQE 1%N 0 five); split; reflexivity]]|]. split; [vm_compute; auto|vm_compute; reflexivity].
Qed.
