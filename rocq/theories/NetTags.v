(* Which vertices an operation can produce: any property of vertices that does not depend on their connections is kept. *)
From Verif Require Export NetMore NetEdit.

Section Tags.
  Context {A P U : Type}.
  Variable zero : A.
  Variable ops : unit_ops A P U.
  Variable uping : bool -> U -> N -> U * N.
  Variable ahash : N -> N -> N.
  Notation net := (net A U).
  Notation vertex := (vertex A U).
  Variable K : vertex -> Prop.
  Hypothesis K_src : forall v s, K v -> K (v_set_src v s).

  (* the vertices keep K, the rest of the header is the same *)
  Definition keeps (n n' : net) : Prop :=
    (Forall K (n_vertex n) -> Forall K (n_vertex n')) /\ n_in n' = n_in n /\ n_out n' = n_out n /\ n_revision n' = n_revision n.
  Lemma keeps_refl n : keeps n n. Proof. repeat split; auto. Qed.
  Lemma keeps_trans a b c : keeps a b -> keeps b c -> keeps a c.
  Proof. intros (H1 & H2 & H3 & H4) (G1 & G2 & G3 & G4). split; [auto|]. repeat split; congruence. Qed.
  Lemma Forall_upd (l : list vertex) i v : Forall K l -> K v -> Forall K (upd l i v).
  Proof. intros H Hv. apply Forall_forall. intros x Hx. apply In_upd in Hx as [->|Hx]; auto. rewrite Forall_forall in H. auto. Qed.
  Lemma Forall_nth (l : list vertex) i v : Forall K l -> nth_error l i = Some v -> K v.
  Proof. intros H E. rewrite Forall_forall in H. apply H. eapply nth_error_In; eauto. Qed.
  Lemma Forall_removelast (l : list vertex) : Forall K l -> Forall K (removelast l).
  Proof. intros H. induction H as [|x l Hx Hl IH]; cbn; auto. destruct l; auto. Qed.
  Hint Resolve keeps_refl Forall_upd Forall_nth Forall_removelast : core.

  Ltac step H := match type of H with
    | Some _ = Some _ => injection H as H; try subst
    | None = Some _ => discriminate H
    | (let (_, _) := ?e in _) = Some _ => let E := fresh "E" in destruct e eqn:E
    | match ?e with _ => _ end = Some _ => let E := fresh "E" in destruct e eqn:E; try discriminate H
    end.
  Ltac steps H := repeat step H.

  Lemma keeps_upd (n : net) i v s : nth_error (n_vertex n) i = Some v -> keeps n (invalidate (n_set_vertex n (upd (n_vertex n) i (v_set_src v s)))).
  Proof. intros E. split; [|repeat split]. intros H. cbn. apply Forall_upd; eauto. Qed.
  Lemma keeps_upd' (n : net) i v s : nth_error (n_vertex n) i = Some v -> keeps n (n_set_vertex n (upd (n_vertex n) i (v_set_src v s))).
  Proof. intros E. split; [|repeat split]. intros H. cbn. apply Forall_upd; eauto. Qed.
  Lemma keeps_invalidate (n : net) : keeps n (invalidate n). Proof. repeat split; auto. Qed.
  Lemma keeps_plug (n n' : net) t tp p : plug n t tp p = Some n' -> keeps n n'.
  Proof. unfold plug. intros H. steps H. now apply keeps_upd. Qed.
  Lemma keeps_plug_output (n n' : net) c p : plug_output n c p = Some n' -> keeps n n'.
  Proof. unfold plug_output. intros H. steps H. repeat split; auto. Qed.
  Lemma keeps_plug_all t f chs : forall n n' : net, plug_all n t f chs = Some n' -> keeps n n'.
  Proof. induction chs as [|c r IH]; cbn; intros n n' H; steps H; auto. eapply keeps_trans; [eapply keeps_plug; eauto|auto]. Qed.
  Lemma keeps_plug_outputs f chs : forall n n' : net, plug_outputs n f chs = Some n' -> keeps n n'.
  Proof. induction chs as [|c r IH]; cbn; intros n n' H; steps H; auto. eapply keeps_trans; [eapply keeps_plug_output; eauto|auto]. Qed.
  Hint Resolve keeps_plug keeps_plug_output keeps_plug_all keeps_plug_outputs keeps_invalidate : core.
  Lemma keeps_set_source (n n' : net) id c s : set_source n id c s = Some n' -> keeps n n'.
  Proof. unfold set_source. intros H. steps H. now apply keeps_upd. Qed.
  Lemma keeps_set_output (n n' : net) c s : set_output_source n c s = Some n' -> keeps n n'.
  Proof. unfold set_output_source. intros H. steps H. repeat split; auto. Qed.
  Lemma keeps_connect (n n' : net) s sp t tp : connect n s sp t tp = Some n' -> keeps n n'.
  Proof. unfold connect, connect_index. intros H. steps H. eauto. Qed.
  Lemma keeps_disconnect (n n' : net) id p : disconnect n id p = Some n' -> keeps n n'.
  Proof. unfold disconnect. intros H. steps H. now apply keeps_upd. Qed.
  Lemma keeps_pipe_input (n n' : net) t : pipe_input n t = Some n' -> keeps n n'.
  Proof. unfold pipe_input. intros H. steps H. eapply keeps_trans; [eapply keeps_plug_all; eassumption|auto]. Qed.
  Lemma keeps_pipe_output (n n' : net) t : pipe_output n t = Some n' -> keeps n n'.
  Proof. unfold pipe_output. intros H. steps H. eapply keeps_trans; [eapply keeps_plug_outputs; eassumption|auto]. Qed.
  Lemma keeps_pipe_all (n n' : net) s t : pipe_all n s t = Some n' -> keeps n n'.
  Proof. unfold pipe_all. intros H. steps H; auto. eapply keeps_trans; [eapply keeps_plug_all; eassumption|auto]. Qed.
  Lemma keeps_chain_sources i chs : forall n n' : net, chain_sources n i chs = Some n' -> keeps n n'.
  Proof.
    induction chs as [|c r IH]; intros n n' H; cbn [chain_sources] in H; [steps H; auto|].
    destruct (if Nat.ltb 0 (n_out n) then _ else _); [|discriminate]. destruct (nth_error (n_vertex n) i) as [v|] eqn:Ev; [|discriminate]. destruct (nth_error (v_src v) c); [|discriminate].
    eapply keeps_trans; [apply (keeps_upd' n i v); eauto|]. apply IH. exact H.
  Qed.
  (* pushing adds one vertex *)
  Lemma keeps_push (n : net) id u : K (vertex_new zero ops id (length (n_vertex n)) u) -> keeps n (push zero ops n id u).
  Proof. intros Hk. split; [|repeat split]. intros H. cbn. apply Forall_app. auto. Qed.
  Lemma keeps_chain (n n' : net) id u : K (vertex_new zero ops id (length (n_vertex n)) u) -> chain zero ops n id u = Some n' -> keeps n n'.
  Proof.
    intros Hk H. eapply keeps_trans; [apply keeps_push; exact Hk|]. revert H. unfold chain. generalize (push zero ops n id u). intros m H.
    destruct (lookup (n_index m) id) as [i|]; [|discriminate].
    match type of H with match ?e with _ => _ end = _ => destruct e as [m2|] eqn:E2; [|discriminate] end. destruct (pipe_output m2 id) as [m3|] eqn:E3; [|discriminate]. injection H as <-.
    eapply keeps_trans; [|eapply keeps_trans; [eapply keeps_pipe_output; eauto|auto]].
    destruct (Nat.eqb _ 1); [destruct (Nat.ltb 0 (n_in m)); [eapply keeps_pipe_input; eauto|injection E2 as <-; auto]|]. eapply keeps_chain_sources; eauto.
  Qed.
  (* removal *)
  Lemma keeps_channels ni link w chs : forall vs vs' : list vertex, redirect_channels ni link w chs vs = Some vs' -> Forall K vs -> Forall K vs'.
  Proof. induction chs as [|c r IH]; cbn; intros vs vs' H HK; steps H; auto. eapply IH; [exact H|]. eauto. Qed.
  Lemma keeps_vertices ni link ws : forall vs vs' : list vertex, redirect_vertices ni link ws vs = Some vs' -> Forall K vs -> Forall K vs'.
  Proof. induction ws as [|c r IH]; cbn; intros vs vs' H HK; steps H; auto. eapply IH; [exact H|]. eapply keeps_channels; eauto. Qed.
  Lemma keeps_remove (n n' : net) id link u : remove_2 n id link = Some (n', u) -> keeps n n'.
  Proof.
    unfold remove_2. intros H. destruct (lookup (n_index n) id) as [ni|]; [|discriminate]. destruct (nth_error (n_vertex n) ni) as [v|]; [|discriminate]. destruct (_ && _); [discriminate|].
    destruct (redirect_outputs _ _ _ _) as [oe|]; [|discriminate]. destruct (redirect_vertices _ _ _ _) as [vs|] eqn:Ev; [|discriminate]. destruct (nth_error vs ni) as [v1|]; [|discriminate].
    destruct (Nat.eqb _ ni); [injection H as <- <-; split; [|repeat split]; intros HK; cbn; apply Forall_removelast; eapply keeps_vertices; eauto|].
    destruct (nth_error vs (length vs - 1)) as [vl|] eqn:El; [|discriminate]. destruct (nth_error _ ni) as [w|] eqn:Ew; [|discriminate]. injection H as <- <-. split; [|repeat split]. intros HK. cbn.
    assert (HK1 : Forall K vs) by (eapply keeps_vertices; eauto).
    assert (HK2 : Forall K (map (fun w => v_set_src w (map (rename_edge (length vs - 1) ni) (v_src w))) (upd (removelast vs) ni vl))).
    { apply Forall_forall. intros x Hx. apply in_map_iff in Hx as (y & <- & Hy). apply K_src. assert (G : Forall K (upd (removelast vs) ni vl)) by eauto. rewrite Forall_forall in G. auto. }
    apply Forall_upd; auto. apply K_src. eapply Forall_nth; eauto.
  Qed.
  (* order and playing *)
  Hypothesis K_unit : forall v u, K v -> K (v_set_unit v u).
  Hypothesis K_sv : forall v s, K v -> K (v_set_sv v s).
  Lemma keeps_ping probe : forall (vs : list vertex) h, Forall K vs -> Forall K (fst (ping_vertices uping probe vs h)).
  Proof. induction vs as [|v r IH]; cbn; intros h H; auto. inversion H; subst. destruct (uping probe (v_unit v) h) as [u h1]. specialize (IH h1). destruct (ping_vertices uping probe r h1). cbn. auto. Qed.
  Lemma keeps_ordered (n n' : net) : ordered uping ahash n = Some n' -> keeps n n'.
  Proof.
    unfold ordered. intros H. destruct (n_order n) eqn:Eo; [injection H as <-; auto|]. unfold determine_order, net_ping in H.
    destruct (ping_vertices _ true _ _) as [vs1 h1] eqn:E1. destruct (ping_vertices _ false _ _) as [vs2 h2] eqn:E2. destruct (determine_order_in _) as [[o ok]|]; [|discriminate]. injection H as <-.
    split; [|repeat split]. intros HK. cbn. replace vs2 with (fst (vs2, h2)) by auto. rewrite <- E2. apply keeps_ping. replace vs1 with (fst (vs1, h1)) by auto. rewrite <- E1. apply keeps_ping.
    apply Forall_forall. intros x Hx. apply in_map_iff in Hx as (y & <- & Hy). apply K_sv. rewrite Forall_forall in HK. auto.
  Qed.
  Lemma keeps_set (n : net) s : keeps n (net_set ops n s).
  Proof.
    unfold net_set. destruct (direction s); auto. destruct (lookup _ _) as [i|]; auto. destruct (nth_error _ _) as [v|] eqn:E; auto. split; [|repeat split]. intros H. cbn. eauto.
  Qed.
  Lemma keeps_replace (n n' : net) id f : (forall v u, K v -> v_id v = id -> K (v_set_changed (v_set_unit v u) (n_revision n))) -> Forall (fun v => lookup (n_index n) id = lookup (n_index n) (v_id v) -> v_id v = id) (n_vertex n) ->
    Forall (fun v => lookup (n_index n) (v_id v) <> None) (n_vertex n) -> (forall i v, nth_error (n_vertex n) i = Some v -> lookup (n_index n) (v_id v) = Some i) -> replace ops n id f = Some n' -> keeps n n'.
  Proof.
    intros Hk Hu Hn Hi. unfold replace. intros H. destruct (lookup (n_index n) id) as [i|] eqn:El; [|discriminate]. destruct (nth_error (n_vertex n) i) as [v|] eqn:Ev; [|discriminate]. destruct (_ && _); [|discriminate]. injection H as <-.
    split; [|repeat split]. intros HK. cbn. apply Forall_upd; auto. apply Hk; [eauto|]. rewrite Forall_forall in Hu. apply Hu; [eapply nth_error_In; eauto|]. symmetry. auto.
  Qed.
  Lemma keeps_reset (n n' : net) : (forall v u, K v -> K (v_set_changed (v_set_unit v u) (n_revision n))) -> net_reset ops uping ahash n = Some n' -> keeps n n'.
  Proof.
    intros Hk H. unfold net_reset in H. apply keeps_ordered in H. eapply keeps_trans; [|exact H]. split; [|repeat split]. intros HK. cbn. apply Forall_forall. intros x Hx. apply in_map_iff in Hx as (y & <- & Hy). apply Hk. rewrite Forall_forall in HK. auto.
  Qed.

  (* combination *)
  Hypothesis K_id : forall v i, K v -> K (v_set_id v i).
  Lemma keeps_disambiguate fresh other is : forall n n' : net, disambiguate fresh other is n = Some n' -> keeps n n'.
  Proof.
    induction is as [|i r IH]; cbn [disambiguate]; intros n n' H; [steps H; auto|]. destruct (nth_error (n_vertex n) i) as [v|] eqn:E; [|discriminate]. destruct (lookup other (v_id v)); [|auto].
    eapply keeps_trans; [|apply IH; exact H]. split; [|repeat split]. intros HK. cbn. eauto.
  Qed.
  Lemma keeps_adopt offset f : forall (vs : list vertex) node m vs' m', adopt offset f node vs m = Some (vs', m') -> Forall K vs -> Forall K vs'.
  Proof.
    induction vs as [|v r IH]; cbn; intros node m vs' m' H HK; [injection H as <- <-; auto|]. inversion HK; subst. destruct (mapM _ _) as [ps|]; [|discriminate]. destruct (adopt offset f (S node) r _) as [[r' m1]|] eqn:E; [|discriminate]. injection H as <- <-. constructor; eauto.
  Qed.
  Lemma keeps_binops new b add is : (forall id i, K (vertex_new zero ops id i b)) -> forall n n' : net, push_binops zero ops new b add is n = Some n' -> keeps n n'.
  Proof.
    intros Hk. induction is as [|i r IH]; cbn [push_binops]; intros n n' H; [steps H; auto|]. destruct (connect_output_index _ _ _ _) as [m|] eqn:E; [|discriminate]. unfold connect_output_index in E.
    eapply keeps_trans; [apply keeps_push; auto|]. eapply keeps_trans; [eapply keeps_plug_output; exact E|]. auto.
  Qed.
  Lemma keeps_join add chan ps : forall i (n n' : net), join_outputs add chan i ps n = Some n' -> keeps n n'.
  Proof.
    induction ps as [|p r IH]; cbn [join_outputs]; intros i n n' H; [steps H; auto|]. unfold connect_index, connect_input_index in H. destruct p; [destruct (plug _ _ _ _) eqn:E|destruct (plug _ _ _ _) eqn:E|]; try discriminate; eauto; (eapply keeps_trans; [eapply keeps_plug; eassumption|eauto]).
  Qed.
End Tags.

(* networks without a backend: nothing is marked as changed *)
Section Unmarked.
  Context {A P U : Type}.
  Variable zero : A.
  Variable ops : unit_ops A P U.
  Variable uping : bool -> U -> N -> U * N.
  Variable ahash : N -> N -> N.
  Notation net := (net A U).
  Definition fresh_v (v : vertex A U) : Prop := v_changed v = 0%N.
  Definition unmarked (n : net) : Prop := n_revision n = 0%N /\ Forall fresh_v (n_vertex n).
  Lemma unmarked_keeps n n' : keeps fresh_v n n' -> unmarked n -> unmarked n'.
  Proof. intros (H & _ & _ & R) [Hr Hv]. split; [congruence|auto]. Qed.
  Ltac easy_k := try (unfold fresh_v; cbn; auto; fail).

  Lemma apply_unmarked a n n' : quiet a -> apply zero ops uping ahash a n = Some n' -> unmarked n -> unmarked n'.
  Proof.
    intros Hq H Hu. pose proof Hu as [Hr Hv]. destruct a; cbn [apply] in H;
      try (eapply unmarked_keeps; [|exact Hu]);
      try (injection H as <-; apply keeps_push; easy_k);
      try (destruct (remove_2 _ _ _) as [[m u]|] eqn:E; [|discriminate]; injection H as <-; eapply keeps_remove; try exact E; easy_k).
    - unfold replace in H. destruct (lookup _ _); [|discriminate]. destruct (nth_error _ _) as [v|] eqn:E; [|discriminate]. destruct (_ && _); [|discriminate]. injection H as <-.
      split; [|repeat split]. intros HK. cbn. apply Forall_upd; auto.
    - eapply keeps_set_source; try exact H; easy_k.
    - eapply keeps_set_output; try exact H; easy_k.
    - eapply keeps_connect; try exact H; easy_k.
    - eapply keeps_disconnect; try exact H; easy_k.
    - unfold connect_input, connect_input_index in H. destruct (lookup _ _); [|discriminate]. eapply keeps_plug; try exact H; easy_k.
    - eapply keeps_pipe_input; try exact H; easy_k.
    - unfold connect_output, connect_output_index in H. destruct (lookup _ _); [|discriminate]. eapply keeps_plug_output; exact H.
    - eapply keeps_plug_output; exact H.
    - eapply keeps_pipe_output; exact H.
    - eapply keeps_plug_output; exact H.
    - eapply keeps_pipe_all; try exact H; easy_k.
    - eapply keeps_chain; try exact H; easy_k.
    - unfold net_error in H. destruct (ordered uping ahash n) as [m|] eqn:E; [|discriminate]. injection H as <-. eapply keeps_ordered; try exact E; easy_k.
    - destruct Hq.
    - destruct Hq.
    - injection H as <-. apply keeps_set; easy_k.
    - eapply keeps_reset; try exact H; easy_k.
  Qed.
  Lemma binop_unmarked shared f g b n1 n2 n : combine_binop zero ops shared f g b n1 n2 = Some n -> unmarked n1 -> unmarked n2 -> unmarked n.
  Proof.
    intros H H1 H2. unfold combine_binop in H. destruct (_ && _); [|discriminate]. destruct (disambiguate _ _ _ n2) as [m2|] eqn:Ed; [|discriminate].
    assert (U2 : unmarked m2) by (eapply unmarked_keeps; [eapply keeps_disambiguate; try exact Ed; easy_k|exact H2]).
    destruct (adopt _ _ _ _ _) as [[vs m]|] eqn:Ea; [|discriminate]. set (n0 := mkNet _ _ _ _ _ _ _ _) in H.
    assert (U0 : unmarked n0). { split; [apply H1|]. cbn. apply Forall_app. split; [apply H1|]. eapply keeps_adopt; try exact Ea; try apply U2; easy_k. }
    destruct (push_binops _ _ _ _ _ _ _) as [n3|] eqn:E3; [|discriminate]. destruct (join_outputs _ 0 _ _ _) as [n4|] eqn:E4; [|discriminate]. destruct (mapM _ _) as [ps|]; [|discriminate]. destruct (join_outputs _ 1 _ _ _) as [n5|] eqn:E5; [|discriminate]. injection H as <-.
    eapply unmarked_keeps; [|exact U0]. eapply keeps_trans; [eapply keeps_binops; try exact E3; easy_k|]. eapply keeps_trans; [eapply keeps_join; try exact E4; easy_k|]. eapply keeps_trans; [eapply keeps_join; try exact E5; easy_k|]. apply keeps_invalidate.
  Qed.
  Lemma adopt_unmarked f offset g (n1 n2 m2 : net) vs m oi oo oe e r :
    disambiguate f (n_index n1) (seq 0 (length (n_vertex n2))) n2 = Some m2 -> adopt offset g offset (n_vertex m2) (n_index n1) = Some (vs, m) -> unmarked n1 -> unmarked n2 ->
    unmarked (mkNet oi oo oe (n_vertex n1 ++ vs) r m e (n_revision n1)).
  Proof.
    intros Ed Ea H1 H2. assert (U2 : unmarked m2) by (eapply unmarked_keeps; [eapply keeps_disambiguate; try exact Ed; easy_k|exact H2]). split; [apply H1|]. cbn. apply Forall_app. split; [apply H1|]. eapply keeps_adopt; try exact Ea; try apply U2; easy_k.
  Qed.
  Theorem reachable_unmarked (ok : net -> action -> Prop) n : (forall n a, ok n a -> quiet a) -> reachable zero ops uping ahash ok n -> unmarked n.
  Proof.
    intros Hok. induction 1 as [i o|n a n' Hr IH Hin Ho E|n Hr IH|f n1 n2 n R1 IH1 R2 IH2 Hf E|f n1 n2 n R1 IH1 R2 IH2 Hf E|f n1 n2 n R1 IH1 R2 IH2 Hf E|shared f g b n1 n2 n R1 IH1 R2 IH2 Hf Hg Hfg Hb2 Hb1 E].
    - split; [reflexivity|]. constructor.
    - eapply apply_unmarked; eauto.
    - exact IH.
    - unfold net_pipe in E. destruct (Nat.eqb _ _); [|discriminate]. destruct (disambiguate _ _ _ n2) as [m2|] eqn:Ed; [|discriminate]. destruct (adopt _ _ _ _ _) as [[vs m]|] eqn:Ea; [|discriminate]. destruct (mapM _ _); [|discriminate]. injection E as <-. eapply adopt_unmarked; eauto.
    - unfold net_stack in E. destruct (disambiguate _ _ _ n2) as [m2|] eqn:Ed; [|discriminate]. destruct (mapM _ _); [|discriminate]. destruct (adopt _ _ _ _ _) as [[vs m]|] eqn:Ea; [|discriminate]. injection E as <-. eapply adopt_unmarked; eauto.
    - unfold net_branch in E. destruct (Nat.eqb _ _); [|discriminate]. destruct (disambiguate _ _ _ n2) as [m2|] eqn:Ed; [|discriminate]. destruct (mapM _ _); [|discriminate]. destruct (adopt _ _ _ _ _) as [[vs m]|] eqn:Ea; [|discriminate]. injection E as <-. eapply adopt_unmarked; eauto.
    - eapply binop_unmarked; eauto.
  Qed.
End Unmarked.
