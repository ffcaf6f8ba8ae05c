(* Histories of frontend and backend: the invariant, and what a poll does. *)
From Verif Require Export RealnetProofs.
From Coq Require Import Lia.

#[local] Arguments iinsert : simpl never.
#[local] Arguments iremove : simpl never.

Section History.
  Context {F P U : Type}.
  Variable nm : num F.
  Variable at_ : fade -> F -> F.
  Variable ops : unit_ops F P U.
  Variable sr : F.
  Variable uping : bool -> U -> N -> U * N.
  Variable ahash : N -> N -> N.
  Variable cap : nat.
  Variable dummy : nat -> nat -> U.
  Notation slot := (slotx F U).
  Notation net := (net F slot).
  Notation vertex := (vertex F slot).
  Notation msg := (msg F P U). Notation sys := (sys F P U). Notation qedit := (qedit F U).
  Notation event := (event (F := F) (P := P) (U := U)).
  Notation xops := (x_ops nm at_ ops sr).
  Notation xp := (xping uping).
  Notation zero := (n0 nm).
  Notation wf := (NetWf.wf xops).
  Hypothesis Hctl : control_laws ops uping.
  Hypothesis Hdummy : dummy_laws ops dummy.
  Let xc := xctl nm at_ ops sr uping Hctl.

  Lemma in_contains (n : net) v : indexed n -> In v (n_vertex n) -> contains n (v_id v).
  Proof. intros (_ & H & _ & _) Hv. apply In_nth_error in Hv as (i & E). unfold contains. rewrite (H i v E). discriminate. Qed.
  Lemma contains_in (n : net) id : indexed n -> contains n id -> exists v, In v (n_vertex n) /\ v_id v = id.
  Proof. intros (H & _) Hc. unfold contains in Hc. destruct (lookup (n_index n) id) as [i|] eqn:E; [|congruence]. destruct (H id i E) as (v & Hv & Hid). exists v. split; auto. eapply nth_error_In; eauto. Qed.
  Lemma ids_contains (n : net) id : indexed n -> (contains n id <-> In id (map v_id (n_vertex n))).
  Proof.
    intros H. split; [intros Hc; destruct (contains_in n id H Hc) as (v & Hv & <-); now apply in_map|]. intros Hi. apply in_map_iff in Hi as (v & <- & Hv). now apply in_contains.
  Qed.

  (* ---- what an edit of the frontend marks ---- *)
  Definition marks (e : event) (n n' : net) : Prop :=
    forall v', In v' (n_vertex n') ->
      (touches e (v_id v') = false -> exists v, In v (n_vertex n) /\ v_id v = v_id v' /\ v_changed v = v_changed v') /\
      (touches e (v_id v') = true -> (In (v_id v') (creates e) /\ v_changed v' = 0%N) \/ (exists v, In v (n_vertex n) /\ v_id v = v_id v') /\ v_changed v' = n_revision n).
  Definition from (n : net) (v' : vertex) : Prop := exists v, In v (n_vertex n) /\ v_id v = v_id v' /\ v_changed v = v_changed v'.
  Definition from_or (n : net) (id : N) (v' : vertex) : Prop := from n v' \/ (v_id v' = id /\ v_changed v' = 0%N).
  Lemma from_self n : Forall (from n) (n_vertex n).
  Proof. apply Forall_forall. intros v Hv. exists v. auto. Qed.
  Lemma from_or_self n id : Forall (from_or n id) (n_vertex n).
  Proof. apply Forall_forall. intros v Hv. left. exists v. auto. Qed.
  Lemma keeps_marks e n n' : (forall id, touches e id = false) -> keeps (from n) n n' -> marks e n n'.
  Proof. intros Ht (H & _) v' Hv'. specialize (H (from_self n)). rewrite Forall_forall in H. split; [intros _; now apply H|]. rewrite Ht. discriminate. Qed.
  Lemma keeps_or_marks e n n' id : wf n -> (forall k, touches e k = N.eqb id k) -> creates e = [id] -> ~ contains n id -> keeps (from_or n id) n n' -> marks e n n'.
  Proof.
    intros W Ht Hc Hn (H & _) v' Hv'. specialize (H (from_or_self n id)). rewrite Forall_forall in H. rewrite Ht, Hc. destruct (N.eqb_spec id (v_id v')) as [E|Ne].
    - split; [discriminate|]. intros _. left. split; [now left|]. destruct (H v' Hv') as [(v & Hv & Ei & _)|[_ E0]]; auto. exfalso. apply Hn. rewrite E, <- Ei. apply in_contains; auto. now apply (wf_indexed nm at_ ops sr).
    - split; [|discriminate]. intros _. destruct (H v' Hv') as [Hf|[E _]]; [exact Hf|congruence].
  Qed.
  Ltac easy_f := try (unfold from_or, from; cbn; auto; fail).

  Definition edit_allowed (n : net) (a : action (A := F) (P := P) (U := U)) : Prop :=
    NetSpec.in_range xops n (lift nm ops a) /\ no_loop_back n (lift nm ops a) /\ match a with Tick _ | Process _ _ _ | Set_ _ => False | _ => True end.
  Lemma replace_const (n : net) id u i v : lookup (n_index n) id = Some i -> nth_error (n_vertex n) i = Some v -> replace xops n id (fun x => x_set_unit x u) = replace xops n id (fun _ => x_set_unit (v_unit v) u).
  Proof. intros E1 E2. unfold replace. now rewrite E1, E2. Qed.
  Lemma front_edit_ok n a : wf n -> edit_allowed n a -> exists n', front_edit nm at_ ops sr uping ahash a n = Some n' /\ wf n'.
  Proof.
    intros W (Hr & Hl & Ha). assert (Hg : (forall id u, a <> Replace id u) -> front_edit nm at_ ops sr uping ahash a n = apply zero xops xp ahash (lift nm ops a) n) by (intros Hn; destruct a; auto; exfalso; eapply Hn; reflexivity).
    destruct a; try (rewrite Hg by discriminate; apply (quiet_ok zero xops xp ahash xc); auto; exact I); try (destruct Ha; fail).
    cbn [lift NetSpec.in_range] in Hr. destruct Hr as (Hc & Hi & Ho). destruct (contains_index xops n id W Hc) as (i & v & El & Ev & _). cbn [front_edit]. rewrite (replace_const n id u i v El Ev). apply replace_ok; auto.
  Qed.
  Lemma front_edit_marks n a n' : wf n -> edit_allowed n a -> front_edit nm at_ ops sr uping ahash a n = Some n' ->
    marks (Edit a) n n' /\ n_in n' = n_in n /\ n_out n' = n_out n /\ n_revision n' = n_revision n.
  Proof.
    intros W (Hr & Hl & Ha) H.
    assert (X1 : keeps (from n) n n' -> (forall id, touches (Edit a) id = false) -> marks (Edit a) n n' /\ n_in n' = n_in n /\ n_out n' = n_out n /\ n_revision n' = n_revision n).
    { intros Hk Ht. split; [now apply keeps_marks|apply Hk]. }
    assert (X2 : forall id, keeps (from_or n id) n n' -> (forall k, touches (Edit a) k = N.eqb id k) -> creates (Edit a) = [id] -> ~ contains n id -> marks (Edit a) n n' /\ n_in n' = n_in n /\ n_out n' = n_out n /\ n_revision n' = n_revision n).
    { intros id Hk Ht Hc Hn. split; [now apply (keeps_or_marks (Edit a) n n' id)|apply Hk]. }
    destruct a; cbn [front_edit apply lift NetSpec.in_range] in *; try (destruct Ha; fail).
    - injection H as <-. apply (X2 id); auto. apply keeps_push. right. auto.
    - apply X1; auto. destruct (remove_2 _ _ _) as [[m u]|] eqn:E; [|discriminate]. injection H as <-. eapply keeps_remove; try exact E; easy_f.
    - apply X1; auto. destruct (remove_2 _ _ _) as [[m u]|] eqn:E; [|discriminate]. injection H as <-. eapply keeps_remove; try exact E; easy_f.
    - destruct Hr as (Hc & _). destruct (contains_index xops n id W Hc) as (i & v & El & Ev & Hid & _). unfold replace in H. rewrite El, Ev in H. destruct (_ && _); [|discriminate]. injection H as <-. split; [|auto].
      intros v' Hv'. cbn [n_vertex n_set_vertex] in Hv'. apply In_nth_error in Hv' as (j & Hj). cbn [touches creates]. apply nth_error_upd_inv in Hj as [(-> & -> & _)|(Hne & Hj)].
      + cbn. rewrite Hid, N.eqb_refl. split; [discriminate|]. intros _. right. split; auto. exists v. split; auto. eapply nth_error_In; eauto.
      + assert (Hk : N.eqb id (v_id v') = false). { apply N.eqb_neq. intros E. destruct (wf_indexed nm at_ ops sr n W) as (_ & H2 & _). specialize (H2 j v' Hj). rewrite <- E, El in H2. congruence. }
        rewrite Hk. split; [|discriminate]. intros _. exists v'. split; auto. eapply nth_error_In; eauto.
    - apply X1; auto. eapply keeps_set_source; try exact H; easy_f.
    - apply X1; auto. eapply keeps_set_output; try exact H; easy_f.
    - apply X1; auto. eapply keeps_connect; try exact H; easy_f.
    - apply X1; auto. eapply keeps_disconnect; try exact H; easy_f.
    - apply X1; auto. unfold connect_input, connect_input_index in H. destruct (lookup _ _); [|discriminate]. eapply keeps_plug; try exact H; easy_f.
    - apply X1; auto. eapply keeps_pipe_input; try exact H; easy_f.
    - apply X1; auto. unfold connect_output, connect_output_index in H. destruct (lookup _ _); [|discriminate]. eapply keeps_plug_output; exact H.
    - apply X1; auto. eapply keeps_plug_output; exact H.
    - apply X1; auto. eapply keeps_pipe_output; exact H.
    - apply X1; auto. eapply keeps_plug_output; exact H.
    - apply X1; auto. eapply keeps_pipe_all; try exact H; easy_f.
    - apply (X2 id); auto. eapply keeps_chain; try exact H; easy_f.
    - apply X1; auto. unfold net_error in H. destruct (ordered xp ahash n) as [m|] eqn:E; [|discriminate]. injection H as <-. eapply keeps_ordered; try exact E; easy_f.
    - unfold net_reset in H. set (n0 := n_set_vertex _ _) in H.
      pose (K := fun v' : vertex => (exists v, In v (n_vertex n) /\ v_id v = v_id v') /\ v_changed v' = n_revision n).
      assert (Hk : keeps K n0 n') by (eapply keeps_ordered; try exact H; unfold K; cbn; auto). destruct Hk as (Hk & E1 & E2 & E3). split; [|repeat split; auto].
      assert (H0 : Forall K (n_vertex n0)). { apply Forall_forall. intros x Hx. apply in_map_iff in Hx as (y & <- & Hy). split; [exists y; auto|reflexivity]. }
      specialize (Hk H0). rewrite Forall_forall in Hk. intros v' Hv'. cbn. split; [discriminate|]. intros _. right. now apply Hk.
  Qed.

  (* ---- the parts of the network that playing leaves alone ---- *)
  Definition tin_ok (v : vertex) : Prop := length (v_tin v) = length (v_src v).
  Lemma mapM_length {X Y} (f : X -> option Y) l r : mapM f l = Some r -> length r = length l.
  Proof. revert r. induction l as [|x l IH]; cbn; intros r H; [now injection H as <-|]. destruct (f x); [|discriminate]. destruct (mapM f l) as [l0|]; [|discriminate]. injection H as <-. cbn. now rewrite (IH l0). Qed.
  Lemma run_tick_marks order i : forall vs vs' : list vertex, Forall tin_ok vs -> run_tick zero xops order i vs = Some vs' -> map mark vs' = map mark vs.
  Proof.
    induction order as [|k r IH]; cbn; intros vs vs' Hv H; [congruence|]. destruct (nth_error vs k) as [v|] eqn:E; [|discriminate]. destruct (mapM _ _) as [tin|] eqn:Em; [|discriminate]. apply mapM_length in Em.
    assert (Hk : mark (v_tick xops v tin) = mark v). { rewrite Forall_forall in Hv. specialize (Hv v (nth_error_In _ _ E)). unfold tin_ok in Hv. unfold v_tick. destruct (u_tick _ _ _). unfold mark. cbn. congruence. }
    rewrite (IH (upd vs k (v_tick xops v tin)) vs'); auto.
    - apply (map_upd_same mark _ k _ v); auto.
    - apply Forall_upd; auto. unfold v_tick, tin_ok. destruct (u_tick _ _ _). exact Em.
  Qed.
  Lemma v_process_mark (v : vertex) size a b : mark (v_process xops v size a b) = mark v.
  Proof. unfold v_process. destruct (u_process _ _ _ _ _). reflexivity. Qed.
  Lemma run_process_marks order size inb : forall vs vs' : list vertex, run_process zero xops order size inb vs = Some vs' -> map mark vs' = map mark vs.
  Proof.
    induction order as [|k r IH]; cbn; intros vs vs' H; [congruence|]. destruct (nth_error vs k) as [v|] eqn:E; [|discriminate]. destruct (v_sv v) as [[s p]|].
    - destruct (nth_error vs s); [|discriminate]. destruct (Nat.leb _ _); [|discriminate]. rewrite (IH _ _ H). apply (map_upd_same mark _ k _ v); auto. apply v_process_mark.
    - destruct (gather _ _ _ _ _ _); [|discriminate]. rewrite (IH _ _ H). apply (map_upd_same mark _ k _ v); auto. apply v_process_mark.
  Qed.
  Lemma ping_marks probe : forall (vs : list vertex) h, map mark (fst (ping_vertices xp probe vs h)) = map mark vs.
  Proof. induction vs as [|v r IH]; cbn; intros h; auto. destruct (xp probe (v_unit v) h) as [u h1]. specialize (IH h1). destruct (ping_vertices xp probe r h1). cbn in *. rewrite IH. reflexivity. Qed.
  Lemma ordered_head (n n' : net) : ordered xp ahash n = Some n' -> head n' = head n.
  Proof.
    unfold ordered. intros H. destruct (n_order n) eqn:Eo; [congruence|]. unfold determine_order, net_ping in H.
    destruct (ping_vertices _ true _ _) as [vs1 h1] eqn:E1. destruct (ping_vertices _ false _ _) as [vs2 h2] eqn:E2. destruct (determine_order_in _) as [[o ok]|]; [|discriminate]. injection H as <-. unfold head. cbn.
    replace vs2 with (fst (vs2, h2)) by auto. rewrite <- E2, ping_marks. replace vs1 with (fst (vs1, h1)) by auto. rewrite <- E1, ping_marks, map_map. reflexivity.
  Qed.
  Lemma tick_head (n : net) i (n' : net) o : indexed n -> net_tick zero xops xp ahash n i = Some (n', o) -> head n' = head n.
  Proof.
    unfold net_tick. intros Hn H. destruct (ordered xp ahash n) as [n1|] eqn:E; [|discriminate]. apply ordered_head in E. destruct (n_order n1); [|discriminate]. destruct (run_tick _ _ _ _ _) as [vs|] eqn:Er; [|discriminate]. destruct (mapM _ _); [|discriminate]. injection H as <- _.
    apply run_tick_marks in Er; [|apply (head_indexed n n1 E Hn)]. rewrite <- E. unfold head. cbn. congruence.
  Qed.
  Lemma process_head (n : net) size inb out (n' : net) o : net_process zero xops xp ahash n size inb out = Some (n', o) -> head n' = head n.
  Proof.
    unfold net_process. intros H. destruct (ordered xp ahash n) as [n1|] eqn:E; [|discriminate]. apply ordered_head in E. destruct (n_order n1); [|discriminate]. destruct (run_process _ _ _ _ _ _) as [vs|] eqn:Er; [|discriminate]. destruct (gather _ _ _ _ _ _); [|discriminate]. injection H as <- _.
    rewrite <- E. apply run_process_marks in Er. unfold head. cbn. congruence.
  Qed.
  Lemma reset_head (n n' : net) : net_reset xops xp ahash n = Some n' -> head n' = head n.
  Proof. unfold net_reset. intros H. apply ordered_head in H. rewrite H. unfold head. cbn. rewrite map_map. reflexivity. Qed.

  (* ---- the invariant ---- *)
  Definition newest (s : sys) : net := last (map fst (pending (s_queue s))) (s_back s).
  Record inv (w : watched (F := F) (P := P) (U := U)) : Prop := {
    i_front : wf (s_front (w_sys w));
    i_pend : forall c es, In (c, es) (pending (s_queue (w_sys w))) -> wf c /\ n_in c = n_in (s_back (w_sys w)) /\ n_out c = n_out (s_back (w_sys w)) /\ (forall e, In e es -> lookup (n_index c) (q_id e) = Some (q_index e)) /\ (forall id, contains c id -> In id (w_used w));
    i_back : indexed (s_back (w_sys w));
    i_in : n_in (s_front (w_sys w)) = n_in (s_back (w_sys w));
    i_out : n_out (s_front (w_sys w)) = n_out (s_back (w_sys w));
    i_used : forall id, contains (s_front (w_sys w)) id \/ contains (s_back (w_sys w)) id -> In id (w_used w);
    i_rev : n_revision (s_front (w_sys w)) = (n_revision (newest (w_sys w)) + 1)%N;
    i_le : (n_revision (s_back (w_sys w)) <= n_revision (newest (w_sys w)))%N;
    i_top : forall v, In v (n_vertex (s_front (w_sys w))) -> (v_changed v <= n_revision (s_front (w_sys w)))%N;
    i_new : forall v, In v (n_vertex (s_front (w_sys w))) -> contains (newest (w_sys w)) (v_id v) -> ((v_changed v <= n_revision (newest (w_sys w)))%N <-> w_open w (v_id v) = false);
    i_old : forall v, In v (n_vertex (s_front (w_sys w))) -> contains (s_back (w_sys w)) (v_id v) -> ((v_changed v <= n_revision (s_back (w_sys w)))%N <-> w_done w (v_id v) = false /\ w_open w (v_id v) = false);
    i_mid : pending (s_queue (w_sys w)) <> [] -> forall v, In v (n_vertex (newest (w_sys w))) -> contains (s_back (w_sys w)) (v_id v) -> ((v_changed v <= n_revision (s_back (w_sys w)))%N <-> w_done w (v_id v) = false);
    i_none : pending (s_queue (w_sys w)) = [] -> forall id, w_done w id = false;
    i_last : same_connections (w_last w) (newest (w_sys w))
  }.
  Lemma newest_in s : newest s = s_back s /\ pending (s_queue s) = [] \/ exists es, In (newest s, es) (pending (s_queue s)).
  Proof.
    unfold newest. destruct (pending (s_queue s)) as [|a r] using rev_ind; [auto|]. right. rewrite map_app. cbn. rewrite last_last. destruct a as [c es]. exists es. apply in_or_app. right. now left.
  Qed.
  Lemma newest_indexed w : inv w -> indexed (newest (w_sys w)).
  Proof. intros Hi. destruct (newest_in (w_sys w)) as [[-> _]|(es & H)]; [apply (i_back w Hi)|]. apply (wf_indexed nm at_ ops sr). apply (i_pend w Hi _ _ H). Qed.
  Lemma newest_used w : inv w -> forall id, contains (newest (w_sys w)) id -> In id (w_used w).
  Proof. intros Hi id. destruct (newest_in (w_sys w)) as [[-> _]|(es & H)]; [intros; apply (i_used w Hi); auto|]. apply (i_pend w Hi _ _ H). Qed.

  (* an edit of the frontend *)
  Lemma inv_edit w e n' es : inv w -> (forall k, In k (creates e) -> ~ In k (w_used w)) -> wf n' -> marks e (s_front (w_sys w)) n' -> n_in n' = n_in (s_front (w_sys w)) -> n_out n' = n_out (s_front (w_sys w)) -> n_revision n' = n_revision (s_front (w_sys w)) ->
    inv (mkW (mkSys n' es (s_queue (w_sys w)) (s_back (w_sys w))) (creates e ++ w_used w) (w_done w) (fun id => w_open w id || touches e id) (w_last w)).
  Proof.
    intros Hi Hc W M E1 E2 E3. pose proof (i_rev w Hi) as Rv. pose proof (i_le w Hi) as Le.
    constructor; cbn [w_sys s_front s_queue s_back w_used w_done w_open w_last]; auto; try (now rewrite ?E1, ?E2, ?E3; apply Hi).
    - intros c es' H. destruct (i_pend w Hi c es' H) as (W1 & I1 & I2 & I3 & I4). split; auto. split; auto. split; auto. split; auto. intros id Hid. apply in_or_app. right. auto.
    - intros id Hid. apply in_or_app. destruct Hid as [Hid|Hid]; [|right; apply (i_used w Hi); auto]. destruct (contains_in n' id (wf_indexed nm at_ ops sr n' W) Hid) as (v & Hv & <-). destruct (M v Hv) as [M1 M2].
      destruct (touches e (v_id v)).
      + destruct (M2 eq_refl) as [[Hin _]|[(v0 & Hv0 & <-) _]]; auto. right. apply (i_used w Hi). left. apply in_contains; auto. apply (wf_indexed nm at_ ops sr), (i_front w Hi).
      + destruct (M1 eq_refl) as (v0 & Hv0 & <- & _). right. apply (i_used w Hi). left. apply in_contains; auto. apply (wf_indexed nm at_ ops sr), (i_front w Hi).
    - intros v Hv. rewrite E3. destruct (M v Hv) as [M1 M2]. destruct (touches e (v_id v)).
      + destruct (M2 eq_refl) as [[_ ->]|[_ ->]]; lia.
      + destruct (M1 eq_refl) as (v0 & Hv0 & _ & <-). now apply (i_top w Hi).
    - intros v Hv Hn. change (newest (mkSys n' es (s_queue (w_sys w)) (s_back (w_sys w)))) with (newest (w_sys w)) in *. destruct (M v Hv) as [M1 M2]. destruct (touches e (v_id v)).
      + destruct (M2 eq_refl) as [[Hin _]|[_ ->]]; [exfalso; apply (Hc _ Hin); now apply (newest_used w Hi)|]. rewrite orb_true_r. split; [lia|discriminate].
      + destruct (M1 eq_refl) as (v0 & Hv0 & Ei & <-). rewrite orb_false_r. rewrite <- Ei in *. now apply (i_new w Hi).
    - intros v Hv Hn. destruct (M v Hv) as [M1 M2]. destruct (touches e (v_id v)).
      + destruct (M2 eq_refl) as [[Hin _]|[_ ->]]; [exfalso; apply (Hc _ Hin); apply (i_used w Hi); auto|]. rewrite orb_true_r. split; [lia|intros [_ ?]; discriminate].
      + destruct (M1 eq_refl) as (v0 & Hv0 & Ei & <-). rewrite orb_false_r. rewrite <- Ei in *. now apply (i_old w Hi).
  Qed.
  Lemma pending_app (q q' : list msg) : pending (q ++ q') = pending q ++ pending q'.
  Proof. apply flat_map_app. Qed.
  (* a setting is sent *)
  Lemma inv_setting w p : inv w -> length (s_queue (w_sys w)) < cap -> inv (watch w (Setting p) (front_set cap (w_sys w) p)).
  Proof.
    intros Hi Hc. unfold front_set, send. destruct (Nat.ltb_spec (length (s_queue (w_sys w))) cap) as [_|L]; [|lia].
    assert (Ep : pending (s_queue (w_sys w) ++ [MSet p]) = pending (s_queue (w_sys w))) by (rewrite pending_app; cbn; now rewrite app_nil_r).
    assert (En : newest (mkSys (s_front (w_sys w)) (s_edits (w_sys w)) (s_queue (w_sys w) ++ [MSet p]) (s_back (w_sys w))) = newest (w_sys w)) by (unfold newest; cbn [s_queue s_back]; now rewrite Ep).
    constructor; cbn [watch w_sys s_front s_queue s_back w_used w_done w_open w_last creates touches]; rewrite ?Ep, ?En; cbn [app]; try exact (i_front w Hi); try exact (i_back w Hi); try apply Hi.
    - intros v Hv Hn. rewrite orb_false_r. now apply (i_new w Hi).
    - intros v Hv Hn. rewrite orb_false_r. now apply (i_old w Hi).
  Qed.
  (* a commit *)
  Lemma bump_wf n : wf n -> wf (bump n).
  Proof. intros []. constructor; auto. Qed.
  Lemma bump_indexed (n : net) : indexed n -> indexed (bump n). Proof. auto. Qed.
  Lemma commit_ok w : inv w -> length (s_queue (w_sys w)) < cap -> exists n1, ordered xp ahash (s_front (w_sys w)) = Some n1 /\ wf n1 /\ kept xops (s_front (w_sys w)) n1 /\ n_order n1 <> None /\
    commit uping ahash cap (w_sys w) = Some (mkSys (bump n1) [] (s_queue (w_sys w) ++ [MNet n1 (committed_edits n1 (s_edits (w_sys w)))]) (s_back (w_sys w))).
  Proof.
    intros Hi Hc. unfold commit. rewrite (i_in w Hi), (i_out w Hi), !Nat.eqb_refl. cbn [andb]. destruct (ordered_ok xops xp ahash xc _ (i_front w Hi)) as (n1 & o & E & W & K & Ho). rewrite E. exists n1. split; auto. split; auto. split; auto. split; [congruence|].
    unfold send. destruct (Nat.ltb_spec (length (s_queue (w_sys w))) cap) as [_|L]; [auto|lia].
  Qed.
  Lemma ordered_from n n1 : ordered xp ahash n = Some n1 -> Forall (from n) (n_vertex n1).
  Proof. intros H. eapply keeps_ordered; try exact H; try apply from_self; easy_f. Qed.
  Lemma inv_commit w s : inv w -> length (s_queue (w_sys w)) < cap -> commit uping ahash cap (w_sys w) = Some s -> inv (watch w Commit s).
  Proof.
    intros Hi Hc E. destruct (commit_ok w Hi Hc) as (n1 & Eo & W & K & Ho & E'). rewrite E' in E. injection E as <-. set (q := committed_edits n1 (s_edits (w_sys w))).
    assert (Ep : pending (s_queue (w_sys w) ++ [MNet n1 q]) = pending (s_queue (w_sys w)) ++ [(n1, q)]) by (rewrite pending_app; reflexivity).
    assert (En : newest (mkSys (bump n1) [] (s_queue (w_sys w) ++ [MNet n1 q]) (s_back (w_sys w))) = n1) by (unfold newest; cbn [s_queue]; rewrite Ep, map_app; cbn; apply last_last).
    pose proof (i_rev w Hi) as Rv. pose proof (i_le w Hi) as Le. pose proof (k_rev _ _ _ K) as Kr. pose proof (ordered_from _ _ Eo) as Fr. rewrite Forall_forall in Fr.
    assert (Hused : forall id, contains n1 id -> In id (w_used w)). { intros id Hid. apply (i_used w Hi). left. unfold contains in *. now rewrite <- (k_index _ _ _ K). }
    constructor; cbn [watch w_sys s_front s_queue s_back w_used w_done w_open w_last]; rewrite ?Ep, ?En.
    - now apply bump_wf.
    - intros c es Hin. apply in_app_or in Hin as [Hin|[[= <- <-]|[]]]; [now apply (i_pend w Hi)|]. split; auto. split; [rewrite (k_in _ _ _ K); apply (i_in w Hi)|]. split; [rewrite (k_out _ _ _ K); apply (i_out w Hi)|]. split; auto.
      intros e He. unfold q, committed_edits in He. apply in_flat_map in He as ([id ed] & _ & He). cbn in He. destruct (lookup (n_index n1) id) as [i|] eqn:El; [|destruct He]. destruct He as [<-|[]]. exact El.
    - apply (i_back w Hi).
    - cbn. rewrite (k_in _ _ _ K). apply (i_in w Hi).
    - cbn. rewrite (k_out _ _ _ K). apply (i_out w Hi).
    - intros id [Hid|Hid]; [now apply Hused|]. apply (i_used w Hi). auto.
    - reflexivity.
    - lia.
    - intros v Hv. cbn in *. destruct (Fr v Hv) as (v0 & Hv0 & _ & <-). pose proof (i_top w Hi v0 Hv0). lia.
    - intros v Hv _. cbn in Hv. destruct (Fr v Hv) as (v0 & Hv0 & _ & <-). pose proof (i_top w Hi v0 Hv0). split; auto. intros _. lia.
    - intros v Hv Hb. cbn in Hv. destruct (Fr v Hv) as (v0 & Hv0 & Ei & <-). rewrite <- Ei in *. rewrite (i_old w Hi v0 Hv0 Hb). rewrite orb_false_iff. tauto.
    - intros _ v Hv Hb. destruct (Fr v Hv) as (v0 & Hv0 & Ei & <-). rewrite <- Ei in *. rewrite (i_old w Hi v0 Hv0 Hb). rewrite orb_false_iff. tauto.
    - intros E. destruct (pending (s_queue (w_sys w))); discriminate.
    - apply head_connections. now apply ordered_head.
  Qed.

  (* ---- a poll ---- *)
  Lemma same_conn_trans (a b c : net) : same_connections a b -> same_connections b c -> same_connections a c.
  Proof. intros (A1 & A2 & A3 & A4 & A5) (B1 & B2 & B3 & B4 & B5). split; [intros; now rewrite B1|]. split; [intros; now rewrite B2|]. split; [intros; now rewrite B3|]. split; congruence. Qed.
  Lemma last_default {B} (l : list B) d d' : l <> [] -> last l d = last l d'.
  Proof. induction l as [|a r IH]; intros H; [congruence|]. cbn. destruct r; auto. apply IH. discriminate. Qed.
  Definition with_back' (w : watched (F := F) (P := P) (U := U)) (b : net) := mkW (with_back (w_sys w) b) (w_used w) (w_done w) (w_open w) (w_last w).
  Lemma inv_back w b : inv w -> head b = head (s_back (w_sys w)) -> inv (with_back' w b).
  Proof.
    intros Hi E. assert (Ei : n_in b = n_in (s_back (w_sys w))) by (unfold head in E; congruence). assert (Eo : n_out b = n_out (s_back (w_sys w))) by (unfold head in E; congruence). assert (Er : n_revision b = n_revision (s_back (w_sys w))) by (unfold head in E; congruence).
    pose proof (fun id => head_contains _ b id E) as Ec.
    assert (Ep : pending (s_queue (w_sys w)) <> [] -> newest (w_sys (with_back' w b)) = newest (w_sys w)).
    { unfold newest. cbn. intros Hp. apply last_default. intros E0. apply Hp. destruct (pending (s_queue (w_sys w))); [auto|discriminate]. }
    assert (En : newest (w_sys (with_back' w b)) = newest (w_sys w) \/ newest (w_sys (with_back' w b)) = b /\ newest (w_sys w) = s_back (w_sys w)).
    { destruct (pending (s_queue (w_sys w))) eqn:E0; [right|left; apply Ep; discriminate]. unfold newest, with_back', with_back. cbn [w_sys s_queue s_back]. rewrite E0. auto. }
    assert (Enr : n_revision (newest (w_sys (with_back' w b))) = n_revision (newest (w_sys w))) by (destruct En as [->|[-> ->]]; auto).
    assert (Enc : forall id, contains (newest (w_sys (with_back' w b))) id <-> contains (newest (w_sys w)) id) by (intros id; destruct En as [->|[-> ->]]; [tauto|apply Ec]).
    constructor; rewrite ?Enr; cbn [with_back' with_back w_sys s_front s_queue s_back w_used w_done w_open w_last]; rewrite ?Ei, ?Eo, ?Er.
    - apply (i_front w Hi).
    - apply (i_pend w Hi).
    - apply (head_indexed (s_back (w_sys w))); auto. apply (i_back w Hi).
    - apply (i_in w Hi).
    - apply (i_out w Hi).
    - intros id Hid. apply (i_used w Hi). rewrite <- Ec. exact Hid.
    - apply (i_rev w Hi).
    - apply (i_le w Hi).
    - apply (i_top w Hi).
    - intros v Hv Hn. apply (i_new w Hi); auto. now apply Enc.
    - intros v Hv Hn. apply (i_old w Hi); auto. now apply Ec.
    - intros Hp v Hv Hn. change (In v (n_vertex (newest (w_sys (with_back' w b))))) in Hv. rewrite (Ep Hp) in Hv. apply (i_mid w Hi); auto. now apply Ec.
    - apply (i_none w Hi).
    - destruct En as [E0|[E0 E0']]; [exact (eq_ind_r (same_connections (w_last w)) (i_last w Hi) E0)|]. refine (eq_ind_r (same_connections (w_last w)) _ E0). apply (same_conn_trans _ (s_back (w_sys w))); [rewrite <- E0'; apply (i_last w Hi)|now apply head_connections].
  Qed.

  Lemma take_enqueue (r x : slot) e : enqueue nm (take_over r x) e = take_over (enqueue nm r e) x.
  Proof. unfold enqueue, take_over. cbn. destruct (x_next r); reflexivity. Qed.
  Lemma take_edits id es : forall (r x : slot), fold_left (edit_one nm id) es (take_over r x) = take_over (fold_left (edit_one nm id) es r) x.
  Proof. induction es as [|e t IH]; intros r x; cbn; auto. unfold edit_one at 2 4. destruct (N.eqb _ _); [rewrite take_enqueue|]; apply IH. Qed.
  Lemma snoc_cases {B} (l : list B) : l = [] \/ exists l' x, l = l' ++ [x].
  Proof. destruct l as [|x l'] using rev_ind; eauto. Qed.
  Lemma changed_in (n : net) id : indexed n -> contains n id -> exists v, In v (n_vertex n) /\ v_id v = id /\ changed_of n id = Some (v_changed v).
  Proof.
    intros (H & _) Hc. unfold contains, changed_of in *. destruct (lookup (n_index n) id) as [i|] eqn:E; [|congruence]. destruct (H id i E) as (v & Hv & Hid). rewrite Hv. exists v. split; auto. eapply nth_error_In; eauto.
  Qed.
  Lemma poll_ok w : inv w -> exists b, poll nm at_ ops sr (w_sys w) = Some (mkSys (s_front (w_sys w)) (s_edits (w_sys w)) [] b) /\ head b = head (newest (w_sys w)) /\ polled nm ops w b.
  Proof.
    intros Hi. unfold poll, polled. destruct (drain_ok nm at_ ops sr (s_queue (w_sys w)) (s_back (w_sys w)) None (i_back w Hi)) as (old & Ed & Es & En). rewrite Ed. cbn [opt_list app] in En.
    destruct (snoc_cases (pending (s_queue (w_sys w)))) as [Ep|(before & [c es] & Ep)].
    - rewrite Ep in *. cbn [map last]. exists old. split; auto. split; [unfold newest; rewrite Ep; cbn; now apply shell_head|]. split; [|intros before c es H; now apply app_cons_not_nil in H].
      intros _. split; [now apply shell_wiring|]. exact En.
    - rewrite Ep in *. rewrite map_app. cbn [map]. rewrite last_last. rewrite removelast_last in En.
      assert (Hc : In (c, es) (pending (s_queue (w_sys w)))) by (rewrite Ep; apply in_or_app; right; now left).
      destruct (i_pend w Hi c es Hc) as (Wc & _ & _ & He & _). pose proof (wf_indexed nm at_ ops sr c Wc) as Ic.
      assert (Io : indexed old) by (apply (shell_indexed (s_back (w_sys w))); auto; apply (i_back w Hi)).
      destruct (migrate_ok old c Io Ic) as [Em1 Em2].
      assert (Im : indexed (migrate old c)) by (apply (shell_indexed c); auto).
      rewrite (apply_edits_foreign nm es (migrate old c) Im); [|intros e H; replace (n_index (migrate old c)) with (n_index c) by (unfold shell in Em1; congruence); auto].
      destruct (foreign_all nm es (migrate old c) Im) as [Ef1 Ef2]. eexists. split; [reflexivity|].
      assert (Enew : newest (w_sys w) = c) by (unfold newest; rewrite Ep, map_app; cbn; apply last_last).
      assert (Esh : shell (apply_foreign nm (migrate old c) es) = shell c) by congruence.
      split; [rewrite Enew; now apply shell_head|]. split; [intros H; symmetry in H; now apply app_cons_not_nil in H|].
      intros before' c' es' H. apply app_inj_tail in H as [<- [= <- <-]]. split; [now apply shell_wiring|]. intros id x Hx. rewrite Ef2, Em2. unfold migrated. rewrite Hx, En.
      destruct (node (s_back (w_sys w)) id) as [r|] eqn:Er; cbn [option_map]; [|reflexivity].
      assert (Hcc : contains c id). { destruct (node_inv c id x Hx) as (i & v & El & _). unfold contains. congruence. }
      assert (Hcb : contains (s_back (w_sys w)) id). { destruct (node_inv _ id r Er) as (i & v & El & _). unfold contains. congruence. }
      destruct (changed_in c id Ic Hcc) as (v & Hv & Hid & ->). cbn [option_map].
      assert (Hm : (v_changed v <= n_revision (s_back (w_sys w)))%N <-> w_done w id = false).
      { rewrite <- Hid. apply (i_mid w Hi); [rewrite Ep; intros H; symmetry in H; now apply app_cons_not_nil in H|now rewrite Enew|now rewrite Hid]. }
      replace (n_revision old) with (n_revision (s_back (w_sys w))) by (unfold shell in Es; congruence).
      destruct (N.leb_spec (v_changed v) (n_revision (s_back (w_sys w)))) as [L|L].
      + rewrite (proj1 Hm L). rewrite take_edits. unfold received. now rewrite fold_left_app.
      + destruct (w_done w id) eqn:Edn; [reflexivity|]. exfalso. assert (v_changed v <= n_revision (s_back (w_sys w)))%N by now apply Hm. lia.
  Qed.
  Lemma inv_poll w b : inv w -> head b = head (newest (w_sys w)) -> inv (watch w Poll (mkSys (s_front (w_sys w)) (s_edits (w_sys w)) [] b)).
  Proof.
    intros Hi E. assert (Er : n_revision b = n_revision (newest (w_sys w))) by (unfold head in E; congruence). pose proof (fun id => head_contains _ b id E) as Ec.
    assert (Eio : n_in b = n_in (s_back (w_sys w)) /\ n_out b = n_out (s_back (w_sys w))).
    { destruct (newest_in (w_sys w)) as [[E0 _]|(es & Hin)]; [rewrite E0 in E; unfold head in E; split; congruence|]. destruct (i_pend w Hi _ _ Hin) as (_ & I1 & I2 & _). unfold head in E. split; congruence. }
    destruct Eio as [E1 E2].
    constructor; cbn [watch newest w_sys s_front s_queue s_back w_used w_done w_open w_last pending flat_map map last]; rewrite ?E1, ?E2, ?Er; try apply Hi.
    - intros c es [].
    - apply (head_indexed (newest (w_sys w))); auto. now apply newest_indexed.
    - intros id [H|H]; [apply (i_used w Hi); auto|]. apply (newest_used w Hi). now apply Ec.
    - lia.
    - intros v Hv Hn. apply (i_new w Hi); auto. now apply Ec.
    - intros v Hv Hn. rewrite (i_new w Hi v Hv); [tauto|]. now apply Ec.
    - congruence.
    - reflexivity.
    - apply (same_conn_trans _ (newest (w_sys w))); [apply (i_last w Hi)|now apply head_connections].
  Qed.

  (* ---- every history ---- *)
  Lemma marks_same e (n : net) : (forall id, touches e id = false) -> marks e n n.
  Proof. intros Ht v Hv. rewrite Ht. split; [|discriminate]. exists v. auto. Qed.
  Lemma back_ext (w : watched (F := F) (P := P) (U := U)) e s s1 b : polls e -> s = with_back s1 b -> watch w e s = with_back' (watch w Poll s1) b.
  Proof. destruct e; cbn; intros H ->; try tauto; reflexivity. Qed.
  Lemma push_node (n : net) id u : wf n -> ~ contains n id ->
    exists i v, lookup (n_index (push zero xops n id (x_new nm ops u))) id = Some i /\ nth_error (n_vertex (push zero xops n id (x_new nm ops u))) i = Some v /\ v_inputs v = u_ins ops u /\ v_outputs v = u_outs ops u.
  Proof.
    intros W Hn.
    exists (length (n_vertex n)). unfold push. cbn. eexists. split; [rewrite lookup_iinsert; now rewrite N.eqb_refl|]. split; [rewrite nth_error_app2, Nat.sub_diag by lia; reflexivity|]. unfold v_inputs, v_outputs. cbn. rewrite !repeat_length. auto.
  Qed.
  Lemma start_inv n s : reachable zero xops xp ahash (fun n a => no_loop_back n a /\ match a with Tick _ | Process _ _ _ => False | _ => True end) n ->
    start uping ahash n = Some s -> inv (mkW s (map v_id (n_vertex n)) (fun _ => false) (fun _ => false) n).
  Proof.
    intros Hr Hs. assert (W : wf n).
    { eapply (reachable_wf_gen zero xops xp ahash); [|exact Hr]. intros m a Wm Hm [Hl Ha]. apply (quiet_ok zero xops xp ahash xc); auto; destruct a; auto; exact I. }
    assert (Hu : unmarked n). { eapply reachable_unmarked; [|exact Hr]. intros m a [_ Ha]. destruct a; auto; exact I. }
    unfold start in Hs. destruct (ordered_ok xops xp ahash xc n W) as (n1 & o & E & W1 & K & Ho). rewrite E in Hs. injection Hs as <-. destruct Hu as [Hu0 Hu1]. pose proof (ordered_from n n1 E) as Fr. rewrite Forall_forall in Fr, Hu1.
    assert (H0 : forall v, In v (n_vertex n1) -> v_changed v = 0%N). { intros v Hv. destruct (Fr v Hv) as (v0 & Hv0 & _ & <-). now apply Hu1. }
    pose proof (k_rev _ _ _ K) as Kr. rewrite Hu0 in Kr.
    constructor; cbn [w_sys s_front s_queue s_back w_used w_done w_open w_last newest pending flat_map map last].
    - now apply bump_wf.
    - intros c es [].
    - now apply (wf_indexed nm at_ ops sr).
    - reflexivity.
    - reflexivity.
    - intros id H. assert (Hc : contains n1 id) by (destruct H; auto). unfold contains in Hc. rewrite (k_index _ _ _ K) in Hc. apply ids_contains; auto. now apply (wf_indexed nm at_ ops sr).
    - reflexivity.
    - lia.
    - intros v Hv. rewrite (H0 v Hv). lia.
    - intros v Hv _. rewrite (H0 v Hv). split; auto. lia.
    - intros v Hv _. rewrite (H0 v Hv). split; auto. lia.
    - congruence.
    - reflexivity.
    - apply head_connections. now apply ordered_head.
  Qed.
  Lemma fade_in_ok s id e : wf (s_front s) -> ~ contains (s_front s) id ->
    front_fade_in nm at_ ops sr dummy s id e = Some (mkSys (push zero xops (s_front s) id (x_new nm ops (dummy (u_ins ops (ed_unit e)) (u_outs ops (ed_unit e))))) (s_edits s ++ [(id, e)]) (s_queue s) (s_back s)).
  Proof.
    intros W Hn. unfold front_fade_in, front_crossfade. destruct (push_node (s_front s) id (dummy (u_ins ops (ed_unit e)) (u_outs ops (ed_unit e))) W Hn) as (i & v & El & Ev & E1 & E2).
    cbn [s_front s_edits s_queue s_back]. rewrite El, Ev, E1, E2. destruct (Hdummy (u_ins ops (ed_unit e)) (u_outs ops (ed_unit e))) as [-> ->]. now rewrite !Nat.eqb_refl.
  Qed.
  Lemma step_inv w e s : inv w -> allowed nm at_ ops sr cap (w_used w) (w_sys w) e -> step nm at_ ops sr uping ahash cap dummy e (w_sys w) = Some s -> inv (watch w e s).
  Proof.
    intros Hi (Hc & Ha) Hs. pose proof (i_front w Hi) as W. destruct e; cbn [step] in Hs.
    - destruct (front_edit_ok (s_front (w_sys w)) a W Ha) as (n' & E & W'). rewrite E in Hs. injection Hs as <-. destruct (front_edit_marks _ a n' W Ha E) as (M & E1 & E2 & E3). apply (inv_edit w (Edit a)); auto.
    - unfold front_crossfade in Hs. destruct (lookup _ _); [|discriminate]. destruct (nth_error _ _); [|discriminate]. destruct (_ && _); [|discriminate]. injection Hs as <-. apply (inv_edit w (Crossfade id e)); auto. now apply marks_same.
    - assert (Hn : ~ contains (s_front (w_sys w)) id). { intros H. apply (Hc id); [now left|]. apply (i_used w Hi). auto. }
      rewrite fade_in_ok in Hs by auto. injection Hs as <-. apply (inv_edit w (FadeIn id e)); auto; [apply wf_push; auto; unfold contains in Hn; destruct (lookup _ _); auto; exfalso; apply Hn; discriminate|]. apply (keeps_or_marks _ _ _ id); auto. apply keeps_push. right. auto.
    - injection Hs as <-. now apply inv_setting.
    - now apply inv_commit.
    - destruct (poll_ok w Hi) as (b & E & Eh & _). rewrite E in Hs. injection Hs as <-. now apply inv_poll.
    - unfold back_tick in Hs. destruct (poll_ok w Hi) as (b & E & Eh & _). rewrite E in Hs. destruct (net_tick _ _ _ _ _ _) as [[b' o]|] eqn:Et; [|discriminate]. injection Hs as <-. apply tick_head in Et; [|apply (head_indexed (newest (w_sys w))); auto; now apply newest_indexed].
      eapply eq_ind_r; [|eapply back_ext; [exact I|reflexivity]]. apply inv_back; [now apply inv_poll|exact Et].
    - unfold back_process in Hs. destruct (poll_ok w Hi) as (b & E & Eh & _). rewrite E in Hs. destruct (net_process _ _ _ _ _ _ _ _) as [[b' o]|] eqn:Et; [|discriminate]. injection Hs as <-. apply process_head in Et.
      eapply eq_ind_r; [|eapply back_ext; [exact I|reflexivity]]. apply inv_back; [now apply inv_poll|exact Et].
    - unfold back_reset in Hs. destruct (net_reset _ _ _ _) as [b|] eqn:Eb; [|discriminate]. apply reset_head in Eb. pose proof (inv_back w b Hi Eb) as Hi'. destruct (poll_ok _ Hi') as (b' & E & Eh & _). cbn [with_back' w_sys] in E. rewrite E in Hs. injection Hs as <-. exact (inv_poll _ b' Hi' Eh).
  Qed.
  Theorem happens_inv w : happens nm at_ ops sr uping ahash cap dummy w -> inv w.
  Proof. induction 1; [eapply start_inv; eauto|eapply step_inv; eauto]. Qed.
  (* nothing panics on the side of the frontend, nor in a poll *)
  Lemma step_ok w e : inv w -> allowed nm at_ ops sr cap (w_used w) (w_sys w) e -> match e with BackTick _ | BackProcess _ _ _ | BackReset => False | _ => True end ->
    step nm at_ ops sr uping ahash cap dummy e (w_sys w) <> None.
  Proof.
    intros Hi (Hc & Ha) He. pose proof (i_front w Hi) as W. destruct e; cbn [step]; try tauto; try discriminate.
    - destruct (front_edit_ok (s_front (w_sys w)) a W Ha) as (n' & -> & _). discriminate.
    - destruct Ha as (Hk & E1 & E2). destruct (contains_index xops _ id W Hk) as (i & v & El & Ev & _). unfold front_crossfade. rewrite El, Ev. unfold inputs_in, outputs_in in E1, E2. rewrite (node_lookup _ id i v El Ev) in E1, E2.
      pose proof (w_vertex _ _ W i v Ev) as V. unfold v_inputs, v_outputs. rewrite (vo_tin _ _ _ _ _ _ V), (vo_tout _ _ _ _ _ _ V), E1, E2, !Nat.eqb_refl. discriminate.
    - assert (Hn : ~ contains (s_front (w_sys w)) id). { intros H. apply (Hc id); [now left|]. apply (i_used w Hi). auto. }
      rewrite fade_in_ok by auto. discriminate.
    - destruct (commit_ok w Hi Ha) as (n1 & _ & _ & _ & _ & ->). discriminate.
    - destruct (poll_ok w Hi) as (b & -> & _). discriminate.
  Qed.

  (* ---- the properties ---- *)
  Notation happens := (happens nm at_ ops sr uping ahash cap dummy).
  Theorem playing_is_committed w : happens w -> pending (s_queue (w_sys w)) = [] -> same_connections (w_last w) (s_back (w_sys w)).
  Proof. intros Hw Hp. pose proof (i_last w (happens_inv w Hw)) as H. unfold newest in H. rewrite Hp in H. exact H. Qed.
  Theorem commit_sends w : happens w -> length (s_queue (w_sys w)) < cap -> exists c es s,
    commit uping ahash cap (w_sys w) = Some s /\ s_queue s = s_queue (w_sys w) ++ [MNet c es] /\ s_back s = s_back (w_sys w) /\ s_edits s = [] /\
    same_connections (s_front (w_sys w)) c /\ same_connections (s_front (w_sys w)) (s_front s) /\ n_order c <> None /\
    (forall q, In q es <-> contains (s_front (w_sys w)) (q_id q) /\ In (q_id q, q_edit q) (s_edits (w_sys w)) /\ lookup (n_index (s_front (w_sys w))) (q_id q) = Some (q_index q)) /\
    ((forall b u h, fst (uping b u h) = u) -> forall id, node c id = node (s_front (w_sys w)) id).
  Proof.
    intros Hw Hq. pose proof (happens_inv w Hw) as Hi. destruct (commit_ok w Hi Hq) as (n1 & E & W & K & Ho & Ec). pose proof (head_connections _ _ (ordered_head _ _ E)) as Hc.
    eexists _, _, _. split; [exact Ec|]. cbn [s_queue s_back s_edits s_front]. split; [reflexivity|]. split; [reflexivity|]. split; [reflexivity|]. split; [exact Hc|]. split; [exact Hc|]. split; [exact Ho|]. split.
    - intros q. unfold committed_edits. rewrite in_flat_map. rewrite (k_index _ _ _ K). split.
      + intros ([id e] & Hin & Hq'). cbn [fst snd] in Hq'. destruct (lookup _ id) as [i|] eqn:El; [|destruct Hq']. destruct Hq' as [<-|[]]. cbn. split; [unfold contains; congruence|auto].
      + intros (_ & Hin & El). exists (q_id q, q_edit q). split; auto. cbn [fst snd]. rewrite El. left. now destruct q.
    - intros Hp id. apply (order_keeps_units xops xp ahash (s_front (w_sys w)) n1 (n_error n1)); [|apply (i_front w Hi)|unfold net_error; now rewrite E].
      intros b u h. unfold xping. specialize (Hp b (x_unit u) h). destruct (uping b (x_unit u) h). cbn in *. subst. now destruct u.
  Qed.
  Theorem poll_correct w : happens w -> exists s, poll nm at_ ops sr (w_sys w) = Some s /\ s_front s = s_front (w_sys w) /\ s_edits s = s_edits (w_sys w) /\ s_queue s = [] /\
    same_connections (w_last w) (s_back s) /\ polled nm ops w (s_back s).
  Proof.
    intros Hw. pose proof (happens_inv w Hw) as Hi. destruct (poll_ok w Hi) as (b & E & Eh & Hp). eexists. split; [exact E|]. cbn. split; auto. split; auto. split; auto. split; auto.
    apply (same_conn_trans _ (newest (w_sys w))); [apply (i_last w Hi)|now apply head_connections].
  Qed.
  Lemma edits_unit id es : forall x : slot, x_unit (fold_left (edit_one nm id) es x) = x_unit x.
  Proof. induction es as [|e r IH]; intros x; cbn; auto. rewrite IH. unfold edit_one. destruct (N.eqb _ _); auto. unfold enqueue. destruct (x_next x); auto. Qed.
  Lemma received_unit id ps es (x : slot) : x_unit (received nm ops id ps es x) = heard ops id ps (x_unit x).
  Proof.
    unfold received, heard. rewrite edits_unit. revert x. induction ps as [|p r IH]; intros x; cbn [fold_left]; auto. rewrite IH. f_equal. unfold set_one. destruct (direction p) as [| | | |k]; auto. destruct (N.eqb k id); auto.
  Qed.
  Lemma edits_filter id es : forall x : slot, fold_left (edit_one nm id) es x = fold_left (fun x q => enqueue nm x (q_edit q)) (filter (fun q => N.eqb (q_id q) id) es) x.
  Proof. induction es as [|e r IH]; intros x; cbn [fold_left filter]; auto. rewrite IH. unfold edit_one. destruct (N.eqb _ _); auto. Qed.
  Lemma received_last id ps es e (x : slot) : last_edit id es e -> fades_to (received nm ops id ps es x) e.
  Proof.
    intros (l & q & El & <-). unfold received. rewrite edits_filter, El, fold_left_app. cbn [fold_left]. generalize (fold_left (fun (x : slot) q => enqueue nm x (q_edit q)) l (fold_left (set_one ops id) ps x)). intros y.
    unfold enqueue, fades_to. destruct (x_next y); cbn; auto.
  Qed.
  Lemma node_some (n : net) id : indexed n -> contains n id -> exists x, node n id = Some x.
  Proof. intros H Hc. destruct (node n id) eqn:E; eauto. apply (node_none n id H) in E. contradiction. Qed.
  Lemma stays_received w id s : happens w -> stays w id -> poll nm at_ ops sr (w_sys w) = Some s ->
    exists r y t, node (s_back (w_sys w)) id = Some r /\ node (s_back s) id = Some y /\
      y = take_over (received nm ops id (settings (s_queue (w_sys w))) (flat_map snd (pending (s_queue (w_sys w)))) r) t.
  Proof.
    intros Hw (Hb & Hl & Hd) Hs. pose proof (happens_inv w Hw) as Hi. destruct (poll_ok w Hi) as (b & E & _ & (P1 & P2)). rewrite E in Hs. injection Hs as <-. cbn [s_back].
    destruct (node_some _ id (i_back w Hi) Hb) as (r & Hr). exists r. pose proof (i_last w Hi) as (_ & _ & L3 & _). assert (Hn : contains (newest (w_sys w)) id) by now apply L3.
    destruct (snoc_cases (pending (s_queue (w_sys w)))) as [Ep|(before & [c es] & Ep)].
    - destruct (P1 Ep) as [_ Hnode]. specialize (Hnode id). rewrite Hr in Hnode. cbn in Hnode. rewrite Ep. cbn [flat_map]. set (y := received nm ops id (settings (s_queue (w_sys w))) [] r) in *. exists y, y. split; auto. split; auto. unfold take_over. now destruct y.
    - destruct (P2 before c es Ep) as [_ Hnode]. assert (Ec : newest (w_sys w) = c) by (unfold newest; rewrite Ep, map_app; cbn; apply last_last). rewrite Ec in Hn.
      assert (Ic : indexed c) by (rewrite <- Ec; now apply newest_indexed). destruct (node_some c id Ic Hn) as (x & Hx). specialize (Hnode id x Hx). rewrite Hr, Hd in Hnode. eexists _, x. split; auto. split; [exact Hnode|]. rewrite Ep, flat_map_app. cbn [flat_map snd]. now rewrite app_nil_r.
  Qed.
  Theorem settings_heard w id s : happens w -> stays w id -> poll nm at_ ops sr (w_sys w) = Some s ->
    exists r y, node (s_back (w_sys w)) id = Some r /\ node (s_back s) id = Some y /\ x_unit y = heard ops id (settings (s_queue (w_sys w))) (x_unit r).
  Proof. intros Hw Hst Hs. destruct (stays_received w id s Hw Hst Hs) as (r & y & t & Hr & Hy & ->). exists r. eexists. split; auto. split; [exact Hy|]. cbn [take_over x_unit]. apply received_unit. Qed.
  Theorem edits_kept w id s e : happens w -> stays w id -> last_edit id (flat_map snd (pending (s_queue (w_sys w)))) e -> poll nm at_ ops sr (w_sys w) = Some s ->
    exists y, node (s_back s) id = Some y /\ fades_to y e.
  Proof. intros Hw Hst Hl Hs. destruct (stays_received w id s Hw Hst Hs) as (r & y & t & Hr & Hy & ->). eexists. split; [exact Hy|]. apply (received_last id (settings (s_queue (w_sys w))) _ _ r) in Hl. exact Hl. Qed.
  Theorem edits_new w id s c es e before : happens w -> pending (s_queue (w_sys w)) = before ++ [(c, es)] -> contains c id -> ~ contains (s_back (w_sys w)) id -> last_edit id es e -> poll nm at_ ops sr (w_sys w) = Some s ->
    exists y, node (s_back s) id = Some y /\ fades_to y e.
  Proof.
    intros Hw Ep Hc Hn Hl Hs. pose proof (happens_inv w Hw) as Hi. destruct (poll_ok w Hi) as (b & E & _ & (P1 & P2)). rewrite E in Hs. injection Hs as <-. cbn [s_back]. destruct (P2 before c es Ep) as [_ Hnode].
    assert (Hin : In (c, es) (pending (s_queue (w_sys w)))) by (rewrite Ep; apply in_or_app; right; now left).
    destruct (node_some c id (wf_indexed nm at_ ops sr c (proj1 (i_pend w Hi c es Hin))) Hc) as (x & Hx). specialize (Hnode id x Hx). apply (node_none _ id (i_back w Hi)) in Hn. rewrite Hn in Hnode. eexists. split; [exact Hnode|]. now apply received_last.
  Qed.
End History.
