(* Ordering and running a network. *)
From Verif Require Export NetWf.

Lemma Forall2_nth {X Y} (R : X -> Y -> Prop) l m : Forall2 R l m <-> length l = length m /\ forall i x y, nth_error l i = Some x -> nth_error m i = Some y -> R x y.
Proof.
  split.
  - induction 1 as [|x y l m H HF [IH1 IH2]]; cbn; [split; auto; intros [|i] x y Hx; discriminate|]. split; [lia|]. intros [|i] a b Ha Hb; cbn in *; [congruence|eauto].
  - revert m. induction l as [|x l IH]; intros [|y m] [Hl H]; cbn in *; try lia; constructor; [apply (H 0 x y); auto|]. apply IH. split; [lia|]. intros i a b Ha Hb. apply (H (S i)); auto.
Qed.
Lemma Forall2_ex {X Y} (R : X -> Y -> Prop) l m i x : Forall2 R l m -> nth_error l i = Some x -> exists y, nth_error m i = Some y /\ R x y.
Proof. intros H Hx. apply Forall2_nth in H as [Hl H]. destruct (nth_error_ex m i) as [y Hy]; [rewrite <- Hl; eapply nth_error_lt; eauto|]. eauto. Qed.
Lemma Forall2_ex' {X Y} (R : X -> Y -> Prop) l m i y : Forall2 R l m -> nth_error m i = Some y -> exists x, nth_error l i = Some x /\ R x y.
Proof. intros H Hy. apply Forall2_nth in H as [Hl H]. destruct (nth_error_ex l i) as [x Hx]; [rewrite Hl; eapply nth_error_lt; eauto|]. eauto. Qed.
Lemma Forall2_impl {X Y} (R Q : X -> Y -> Prop) l m : (forall x y, R x y -> Q x y) -> Forall2 R l m -> Forall2 Q l m.
Proof. intros H. induction 1; constructor; auto. Qed.

Section Flow.
  Context {A P U : Type}.
  Variable zero : A.
  Variable ops : unit_ops A P U.
  Variable uping : bool -> U -> N -> U * N.
  Variable ahash : N -> N -> N.
  Notation net := (net A U).
  Notation vertex := (vertex A U).
  Notation wf := (wf ops).
  Notation outs_of := (outs_of ops).

  (* changes of a vertex that leave the connections and the arity alone *)
  Record static (v v' : vertex) : Prop := {
    st_src : v_src v' = v_src v;
    st_id : v_id v' = v_id v;
    st_ins : u_ins ops (v_unit v') = u_ins ops (v_unit v);
    st_outs : u_outs ops (v_unit v') = u_outs ops (v_unit v)
  }.
  Record sized (v : vertex) : Prop := {
    sz_in : shaped (u_ins ops (v_unit v)) (v_in v);
    sz_out : shaped (u_outs ops (v_unit v)) (v_out v);
    sz_tin : length (v_tin v) = u_ins ops (v_unit v);
    sz_tout : length (v_tout v) = u_outs ops (v_unit v)
  }.
  Lemma static_refl v : static v v.
  Proof. constructor; auto. Qed.
  Lemma static_trans a b c : static a b -> static b c -> static a c.
  Proof. intros [] []; constructor; congruence. Qed.
  Lemma Forall2_static_refl vs : Forall2 static vs vs.
  Proof. induction vs; constructor; auto using static_refl. Qed.
  Lemma static_outs vs vs' : Forall2 static vs vs' -> outs_of vs' = outs_of vs.
  Proof. induction 1 as [|v v' vs vs' S HF IH]; unfold NetWf.outs_of in *; cbn; auto. rewrite IH. now rewrite (st_outs _ _ S). Qed.
  Lemma static_adj vs vs' : Forall2 static vs vs' -> adjacency vs' = adjacency vs.
  Proof. induction 1 as [|v v' vs vs' S HF IH]; cbn; auto. unfold adjacency in IH. rewrite IH. now rewrite (st_src _ _ S). Qed.
  Lemma static_graph vs vs' : Forall2 static vs vs' -> map sources vs' = map sources vs.
  Proof. induction 1 as [|v v' vs vs' S HF IH]; cbn; auto. rewrite IH. unfold sources. now rewrite (st_src _ _ S). Qed.
  Lemma Forall2_static_trans a b c : Forall2 static a b -> Forall2 static b c -> Forall2 static a c.
  Proof. revert b c. induction a; intros b c H1 H2; inversion H1; subst; inversion H2; subst; constructor; eauto using static_trans. Qed.
  Lemma Forall2_upd vs vs' i v v' : Forall2 static vs vs' -> nth_error vs i = Some v -> static v v' -> Forall2 static vs (upd vs' i v').
  Proof.
    intros H Hi S. apply Forall2_nth in H as [Hl H]. apply Forall2_nth. split; [now rewrite length_upd|]. intros j x y Hx Hy.
    apply nth_error_upd_inv in Hy as [(-> & -> & _)|(_ & Hy)]; eauto. congruence.
  Qed.

  Lemma vertex_ok_sized nin outs m i v : vertex_ok ops nin outs m i v -> sized v.
  Proof. intros []. constructor; auto. Qed.
  Lemma vertex_ok_static nin outs m i v v' : vertex_ok ops nin outs m i v -> static v v' -> sized v' -> vertex_ok ops nin outs m i v'.
  Proof. intros [] [] []. constructor; auto; try congruence; rewrite ?st_src0; auto; congruence. Qed.
  Lemma wf_static n vs : wf n -> Forall2 static (n_vertex n) vs -> Forall sized vs -> Forall2 (fun v v' => v_sv v' = v_sv v) (n_vertex n) vs ->
    wf (n_set_vertex n vs).
  Proof.
    intros H HS Hz Hsv. constructor; cbn [n_set_vertex n_oedge n_out n_in n_vertex n_index n_order n_error].
    - apply (w_out _ n H).
    - apply (w_otgt _ n H).
    - rewrite (static_outs _ _ HS). apply (w_oport _ n H).
    - rewrite (static_outs _ _ HS). intros i v' Hv'. destruct (Forall2_ex' _ _ _ _ _ HS Hv') as (v & Hv & S).
      apply (vertex_ok_static _ _ _ _ v); auto. now apply (w_vertex _ n H). eapply Forall_forall in Hz; eauto. eapply nth_error_In; eauto.
    - intros id i Hl. destruct (w_id _ n H id i Hl) as (v & Hv & Hid). destruct (Forall2_ex _ _ _ _ _ HS Hv) as (v' & Hv' & S). exists v'. split; auto. rewrite (st_id _ _ S). auto.
    - apply (w_keys _ n H).
    - rewrite (static_adj _ _ HS). intros o Ho. destruct (w_order _ n H o Ho) as [O1 O2]. split; auto. intros i v' Hv'.
      destruct (Forall2_ex' _ _ _ _ _ HS Hv') as (v & Hv & S). destruct (Forall2_ex' _ _ _ _ _ Hsv Hv') as (w & Hw & Sv). assert (w = v) by congruence. subst w.
      rewrite Sv, (O2 i v Hv). unfold source_vertex. now rewrite (st_src _ _ S).
  Qed.
  Lemma wf_sized n : wf n -> Forall sized (n_vertex n).
  Proof. intros H. apply Forall_forall. intros v Hv. apply In_nth_error in Hv as (i & Hi). eapply vertex_ok_sized. eapply (w_vertex _ n H); eauto. Qed.

  (* ---- the order ---- *)
  Hypothesis Hctl : control_laws ops uping.

  Lemma ping_vertices_static probe vs : forall h, Forall2 (fun v v' => static v v' /\ v' = v_set_unit v (v_unit v')) vs (fst (ping_vertices uping probe vs h)).
  Proof.
    induction vs as [|v vs IH]; intros h; cbn; [constructor|]. destruct (uping probe (v_unit v) h) as [u h1] eqn:E. specialize (IH h1).
    destruct (ping_vertices uping probe vs h1) as [r h2]. cbn in *. constructor; auto. split; auto.
    constructor; cbn; auto; [rewrite <- (cl_ping_ins _ _ Hctl probe (v_unit v) h)|rewrite <- (cl_ping_outs _ _ Hctl probe (v_unit v) h)]; now rewrite E.
  Qed.

  Lemma adjacency_graph (vs : list vertex) : adjacency vs = map local_sources (map sources vs).
  Proof.
    unfold adjacency. rewrite map_map. apply map_ext. intros v. unfold locals, local_sources, sources. generalize (v_src v). intros l. induction l as [|e l IH]; cbn; auto. now rewrite IH.
  Qed.
  Lemma adjacency_in_range n : wf n -> OrderSpec.in_range (adjacency (n_vertex n)).
  Proof.
    intros H i j Hij. unfold reads in Hij. unfold adjacency in *. rewrite map_length. destruct (nth_error (n_vertex n) i) as [v|] eqn:E.
    - rewrite (nth_error_nth _ _ [] (map_nth_error (fun v => locals (v_src v)) i (n_vertex n) E)) in Hij.
      unfold locals in Hij. apply in_flat_map in Hij as (e & He & Hj). pose proof (vo_port _ _ _ _ _ _ (w_vertex _ n H i v E) e He) as Hp.
      destruct (e_src e) as [k q|q|]; cbn in Hj; try tauto. destruct Hj as [->|[]]. apply port_local_inv in Hp as (w & Hw & _). eapply nth_error_lt; eauto.
    - rewrite nth_overflow in Hij; [destruct Hij|]. rewrite map_length. now apply nth_error_None.
  Qed.

  Definition is_topological (n : net) (o : list nat) : Prop :=
    Permutation o (seq 0 (length (n_vertex n))) /\ (~ has_cycle n -> forall i j, reads (map local_sources (graph n)) i j -> before o j i).

  Lemma order_of_wf n o : wf n -> n_order n = Some o -> is_topological n o /\ (n_error n = true <-> has_cycle n).
  Proof.
    intros H Ho. destruct (w_order _ n H o Ho) as [O1 _]. destruct (order_correct _ (adjacency_in_range n H)) as (o' & ok & E & HP & Hok & HB).
    rewrite O1 in E. inversion E; subst o' ok. unfold is_topological, has_cycle, graph. rewrite <- adjacency_graph. unfold adjacency in HP at 1. rewrite map_length in HP.
    split; [split; auto; intros Hc; apply HB; destruct (n_error n); auto; exfalso; apply Hc, Hok; auto|]. rewrite <- Hok. destruct (n_error n); cbn; split; congruence.
  Qed.
  (* the frame shared by ordering, ticking and processing *)
  Record kept (n n' : net) : Prop := {
    k_in : n_in n' = n_in n; k_out : n_out n' = n_out n; k_oedge : n_oedge n' = n_oedge n;
    k_index : n_index n' = n_index n; k_rev : n_revision n' = n_revision n;
    k_static : Forall2 static (n_vertex n) (n_vertex n')
  }.
  Lemma kept_refl n : kept n n.
  Proof. constructor; auto using Forall2_static_refl. Qed.
  Lemma kept_trans a b c : kept a b -> kept b c -> kept a c.
  Proof. intros [] []. constructor; try congruence. eapply Forall2_static_trans; eauto. Qed.
  Lemma kept_graph n n' : kept n n' -> graph n' = graph n.
  Proof. intros K. apply static_graph, (k_static _ _ K). Qed.
  Lemma kept_cycle n n' : kept n n' -> has_cycle n' <-> has_cycle n.
  Proof. intros K. unfold has_cycle. now rewrite (kept_graph _ _ K). Qed.

  Lemma ping_step probe (vs : list vertex) h : let vs' := fst (net_ping uping ahash probe vs h) in
    Forall2 static vs vs' /\ (Forall sized vs -> Forall sized vs') /\ Forall2 (fun v v' => v_sv v' = v_sv v) vs vs' /\ Forall2 (fun v v' => v' = v_set_unit v (v_unit v')) vs vs'.
  Proof.
    cbn zeta. unfold net_ping. pose proof (ping_vertices_static probe vs (ahash h 63%N)) as H. revert H. generalize (fst (ping_vertices uping probe vs (ahash h 63%N))). intros vs' H.
    split; [|split; [|split]].
    - eapply Forall2_impl; [|exact H]. cbn. tauto.
    - induction H as [|v v' vs vs' [S E] HF IH]; intros Hz; constructor; inversion Hz; subst; auto.
      destruct S as [_ _ Hi Ho]. destruct H1. rewrite E in *. constructor; cbn [v_set_unit v_unit v_in v_out v_tin v_tout] in *; rewrite ?Hi, ?Ho; auto.
    - eapply Forall2_impl; [|exact H]. cbn. intros v v' [_ ->]. auto.
    - eapply Forall2_impl; [|exact H]. cbn. tauto.
  Qed.

  Lemma map_set_sv_static (f : vertex -> option (nat * nat)) vs : Forall2 static vs (map (fun v => v_set_sv v (f v)) vs).
  Proof. induction vs; cbn; constructor; auto. constructor; auto. Qed.

  Lemma determine_order_ok n : wf n -> exists n' o, determine_order uping ahash n = Some n' /\ wf n' /\ kept n n' /\ n_order n' = Some o.
  Proof.
    intros H. unfold determine_order. set (vs := map (fun v => v_set_sv v (source_vertex v)) (n_vertex n)).
    destruct (net_ping uping ahash true vs 63) as [vs1 h] eqn:E1. destruct (net_ping uping ahash false vs1 h) as [vs2 h2] eqn:E2.
    pose proof (ping_step true vs 63%N) as P1. rewrite E1 in P1. cbn [fst] in P1. destruct P1 as (P1 & Z1 & V1 & _).
    pose proof (ping_step false vs1 h) as P2. rewrite E2 in P2. cbn [fst] in P2. destruct P2 as (P2 & Z2 & V2 & _).
    assert (P0 : Forall2 static (n_vertex n) vs) by apply map_set_sv_static.
    assert (PS : Forall2 static (n_vertex n) vs2) by (eapply Forall2_static_trans; [exact P0|]; eapply Forall2_static_trans; eauto).
    assert (Z : Forall sized vs2).
    { apply Z2, Z1. unfold vs. pose proof (wf_sized n H) as Z. clear - Z. induction Z as [|v l [] Z IH]; cbn; constructor; auto. constructor; auto. }
    assert (SV : forall i v, nth_error vs2 i = Some v -> v_sv v = source_vertex v).
    { intros i v Hv. destruct (Forall2_ex' _ _ _ _ _ V2 Hv) as (v1 & Hv1 & Sv1). destruct (Forall2_ex' _ _ _ _ _ V1 Hv1) as (v0 & Hv0 & Sv0).
      unfold vs in Hv0. rewrite nth_error_map in Hv0. destruct (nth_error (n_vertex n) i) as [w|] eqn:Ew; [|discriminate]. cbn in Hv0. inversion Hv0; subst v0.
      rewrite Sv1, Sv0. cbn. destruct (Forall2_ex' _ _ _ _ _ PS Hv) as (w' & Hw' & S). assert (w' = w) by congruence. subst w'. unfold source_vertex. now rewrite (st_src _ _ S). }
    assert (Hadj : adjacency vs2 = adjacency (n_vertex n)) by (now apply static_adj).
    destruct (order_correct _ (adjacency_in_range n H)) as (o & ok & E & HP & _). rewrite Hadj, E. eexists _, o. split; [reflexivity|]. split; [|split; [constructor; auto|auto]].
    constructor; cbn [n_oedge n_out n_in n_vertex n_index n_order n_error].
    - apply (w_out _ n H).
    - apply (w_otgt _ n H).
    - rewrite (static_outs _ _ PS). apply (w_oport _ n H).
    - rewrite (static_outs _ _ PS). intros i v' Hv'. destruct (Forall2_ex' _ _ _ _ _ PS Hv') as (v & Hv & S).
      apply (vertex_ok_static _ _ _ _ v); auto. now apply (w_vertex _ n H). eapply Forall_forall in Z; eauto. eapply nth_error_In; eauto.
    - intros id i Hl. destruct (w_id _ n H id i Hl) as (v & Hv & Hid). destruct (Forall2_ex _ _ _ _ _ PS Hv) as (v' & Hv' & S). exists v'. split; auto. rewrite (st_id _ _ S). auto.
    - apply (w_keys _ n H).
    - intros o' [= <-]. rewrite Hadj, E, Bool.negb_involutive. auto.
  Qed.
  Lemma ordered_ok n : wf n -> exists n' o, ordered uping ahash n = Some n' /\ wf n' /\ kept n n' /\ n_order n' = Some o.
  Proof. intros H. unfold ordered. destruct (n_order n) as [o|] eqn:E; [exists n, o; auto using kept_refl|]. now apply determine_order_ok. Qed.

  (* ---- running ---- *)
  Hypothesis Hlaws : unit_laws zero ops.

  Record dyn (v v' : vertex) : Prop := {
    d_static : static v v'; d_sv : v_sv v' = v_sv v; d_ch : v_changed v' = v_changed v; d_sized : sized v -> sized v'
  }.
  Lemma dyn_refl v : dyn v v.
  Proof. constructor; auto using static_refl. Qed.
  Lemma dyn_trans a b c : dyn a b -> dyn b c -> dyn a c.
  Proof. intros [] []; constructor; try congruence; eauto using static_trans. Qed.
  Lemma Forall2_dyn_refl vs : Forall2 dyn vs vs.
  Proof. induction vs; constructor; auto using dyn_refl. Qed.
  Lemma Forall2_dyn_trans a b c : Forall2 dyn a b -> Forall2 dyn b c -> Forall2 dyn a c.
  Proof. revert b c. induction a; intros b c H1 H2; inversion H1; subst; inversion H2; subst; constructor; eauto using dyn_trans. Qed.
  Lemma dyn_static vs vs' : Forall2 dyn vs vs' -> Forall2 static vs vs'.
  Proof. intros H. eapply Forall2_impl; [|exact H]. now intros a b []. Qed.
  Lemma dyn_upd vs i v v' : nth_error vs i = Some v -> dyn v v' -> Forall2 dyn vs (upd vs i v').
  Proof.
    intros Hi S. apply Forall2_nth. split; [now rewrite length_upd|]. intros j x y Hx Hy.
    apply nth_error_upd_inv in Hy as [(-> & -> & _)|(_ & Hy)]; [congruence|]. assert (x = y) by congruence. subst. apply dyn_refl.
  Qed.
  Lemma wf_dyn n vs : wf n -> Forall2 dyn (n_vertex n) vs -> wf (n_set_vertex n vs).
  Proof.
    intros H D. apply wf_static; auto using dyn_static.
    - apply Forall_forall. intros v' Hv'. apply In_nth_error in Hv' as (i & Hi). destruct (Forall2_ex' _ _ _ _ _ D Hi) as (v & Hv & Dv). apply (d_sized _ _ Dv).
      eapply vertex_ok_sized. eapply (w_vertex _ n H); eauto.
    - eapply Forall2_impl; [|exact D]. now intros a b [].
  Qed.
  (* only vertex contents matter for running: the invariants of wf on a vertex list *)
  Lemma set_vertex_id (n : net) : n_set_vertex n (n_vertex n) = n.
  Proof. now destruct n. Qed.

  Lemma v_tick_dyn v tin : length tin = u_ins ops (v_unit v) -> dyn v (v_tick ops v tin).
  Proof.
    intros Hl. unfold v_tick. destruct (u_tick ops (v_unit v) tin) as [u o] eqn:E.
    pose proof (ul_ins _ _ Hlaws (v_unit v) tin) as Hi. pose proof (ul_outs _ _ Hlaws (v_unit v) tin) as Ho. pose proof (ul_len _ _ Hlaws (v_unit v) tin Hl) as Hn. rewrite E in *. cbn [fst snd] in *.
    constructor; cbn; auto; [constructor; cbn; auto|]. intros []. constructor; cbn [v_unit v_in v_out v_tin v_tout]; rewrite ?Hi, ?Ho; auto.
  Qed.
  Lemma v_process_dyn v size inb vin : size <= MAXB -> shaped (u_ins ops (v_unit v)) inb -> shaped (u_ins ops (v_unit v)) vin -> shaped (u_outs ops (v_unit v)) (v_out v) ->
    dyn v (v_process ops v size inb vin).
  Proof.
    intros Hs Hi Hv Ho. unfold v_process. pose proof (ul_process _ _ Hlaws (v_unit v) size inb (v_out v) Hs Hi Ho) as HP.
    destruct (u_process ops (v_unit v) size inb (v_out v)) as [u o] eqn:E. destruct HP as [HP Hsh].
    assert (Har : u_ins ops u = u_ins ops (v_unit v) /\ u_outs ops u = u_outs ops (v_unit v)).
    { assert (Eu : u = fst (ticks (u_tick ops) (v_unit v) (frames zero inb size))) by (now rewrite <- HP). subst u. clear - Hlaws.
      generalize (frames zero inb size) (v_unit v). intros l. induction l as [|f l IH]; intros w; cbn; auto. pose proof (ul_ins _ _ Hlaws w f). pose proof (ul_outs _ _ Hlaws w f).
      destruct (u_tick ops w f) as [w' o]. cbn in *. specialize (IH w'). destruct (ticks (u_tick ops) w' l). cbn in *. intuition congruence. }
    destruct Har as [Hi' Ho']. constructor; cbn; auto; [constructor; cbn; auto|]. intros []. constructor; cbn [v_unit v_in v_out v_tin v_tout]; rewrite ?Hi', ?Ho'; auto.
  Qed.

  Lemma read_tick_some n input p : wf n -> length input = n_in n -> port_ok (n_in n) (outs_of (n_vertex n)) p -> read_tick zero (n_vertex n) input p <> None.
  Proof.
    intros H Hl Hp. destruct p as [j q|q|]; cbn; try discriminate.
    - apply port_local_inv in Hp as (v & Hv & Hq). rewrite Hv. apply nth_error_Some. rewrite (vo_tout _ _ _ _ _ _ (w_vertex _ n H j v Hv)). auto.
    - cbn in Hp. apply nth_error_Some. lia.
  Qed.
  Lemma read_block_some n inb p : wf n -> length inb = n_in n -> port_ok (n_in n) (outs_of (n_vertex n)) p -> read_block zero (n_vertex n) inb p <> None.
  Proof.
    intros H Hl Hp. destruct p as [j q|q|]; cbn; try discriminate.
    - apply port_local_inv in Hp as (v & Hv & Hq). rewrite Hv. apply nth_error_Some. destruct (vo_out _ _ _ _ _ _ (w_vertex _ n H j v Hv)) as [-> _]. auto.
    - cbn in Hp. apply nth_error_Some. lia.
  Qed.
  Lemma tins_ok n input i v : wf n -> length input = n_in n -> nth_error (n_vertex n) i = Some v ->
    exists tin, mapM (fun e => read_tick zero (n_vertex n) input (e_src e)) (v_src v) = Some tin /\ length tin = u_ins ops (v_unit v).
  Proof.
    intros H Hl Hv. pose proof (w_vertex _ n H i v Hv) as V. destruct (mapM_some (fun e => read_tick zero (n_vertex n) input (e_src e)) (v_src v)) as [tin E].
    { intros e He. apply read_tick_some; auto. apply (vo_port _ _ _ _ _ _ V e He). }
    exists tin. split; auto. rewrite (mapM_length _ _ _ E). apply (vo_src _ _ _ _ _ _ V).
  Qed.

  Lemma run_tick_total order input : forall n, wf n -> length input = n_in n -> (forall i, In i order -> i < length (n_vertex n)) ->
    exists vs, run_tick zero ops order input (n_vertex n) = Some vs /\ Forall2 dyn (n_vertex n) vs.
  Proof.
    induction order as [|i order IH]; intros n H Hl Ho; cbn [run_tick]; [eauto using Forall2_dyn_refl|].
    destruct (nth_error_ex (n_vertex n) i) as [v Hv]; [apply Ho; cbn; auto|]. rewrite Hv. destruct (tins_ok n input i v H Hl Hv) as (tin & -> & Htin).
    pose proof (dyn_upd _ i v _ Hv (v_tick_dyn v tin Htin)) as D.
    destruct (IH (n_set_vertex n (upd (n_vertex n) i (v_tick ops v tin)))) as (vs & E & D'); auto.
    { apply wf_dyn; auto. } { cbn. intros j Hj. rewrite length_upd. apply Ho. cbn; auto. }
    cbn in E, D'. exists vs. split; auto. eapply Forall2_dyn_trans; eauto.
  Qed.

  Lemma contiguous_spec (es : list edge) : forall node port0 i, contiguous node port0 i es = true -> forall c e, nth_error es c = Some e -> e_src e = PLocal node (port0 + i + c).
  Proof.
    induction es as [|e0 es IH]; intros node port0 i H c e He; [destruct c; discriminate|]. cbn in H. destruct (e_src e0) as [j q|q|] eqn:E; try discriminate.
    destruct (Nat.eqb_spec node j); [|discriminate]. destruct (Nat.eqb_spec (port0 + i) q); [|discriminate]. cbn in H. destruct c; cbn in He.
    - inversion He; subst. rewrite E. f_equal. lia.
    - rewrite (IH _ _ _ H c e He). f_equal. lia.
  Qed.
  Lemma source_vertex_spec (v : vertex) s p : source_vertex v = Some (s, p) -> v_src v <> [] /\ forall c e, nth_error (v_src v) c = Some e -> e_src e = PLocal s (p + c).
  Proof.
    unfold source_vertex. destruct (v_src v) as [|e0 es]; [discriminate|]. destruct (e_src e0) as [j q|q|] eqn:E; try discriminate. destruct (contiguous j q 1 es) eqn:C; [|discriminate].
    intros [= -> ->]. split; [discriminate|]. intros [|c] e He; cbn in He. - inversion He; subst. rewrite E. f_equal. lia. - rewrite (contiguous_spec _ _ _ _ C c e He). f_equal. lia.
  Qed.
  (* the channels a vertex reads, and the buffer it is given *)
  Lemma source_vertex_reads n i v s p inb : wf n -> nth_error (n_vertex n) i = Some v -> source_vertex v = Some (s, p) ->
    exists w, nth_error (n_vertex n) s = Some w /\ p + u_ins ops (v_unit v) <= length (v_out w) /\ s <> i /\
      mapM (fun e => read_block zero (n_vertex n) inb (e_src e)) (v_src v) = Some (firstn (u_ins ops (v_unit v)) (skipn p (v_out w))).
  Proof.
    intros H Hv Hs. apply source_vertex_spec in Hs as [Hne Hs]. pose proof (w_vertex _ n H i v Hv) as V. pose proof (vo_src _ _ _ _ _ _ V) as Hsrc.
    destruct (nth_error_ex (v_src v) (length (v_src v) - 1)) as [e He]. { destruct (v_src v); [congruence|cbn; lia]. }
    pose proof (vo_port _ _ _ _ _ _ V e (nth_error_In _ _ He)) as Hp. rewrite (Hs _ _ He) in Hp. apply port_local_inv in Hp as (w & Hw & Hq). exists w. split; auto.
    destruct (vo_out _ _ _ _ _ _ (w_vertex _ n H s w Hw)) as [Hlw _]. rewrite Hlw. assert (v_src v <> [] -> 0 < length (v_src v)) by (destruct (v_src v); [congruence|cbn; lia]).
    split; [specialize (H0 Hne); lia|]. split. { intros ->. apply (vo_self _ _ _ _ _ _ V e (p + (length (v_src v) - 1)) (nth_error_In _ _ He)). rewrite (Hs _ _ He). reflexivity. }
    specialize (H0 Hne). rewrite <- Hsrc. assert (Hb : p + length (v_src v) <= length (v_out w)) by lia. clear - Hs Hw Hb. revert p Hs Hb. induction (v_src v) as [|e es IH]; intros p Hs Hb; cbn [mapM length firstn]; auto.
    rewrite (Hs 0 e eq_refl). cbn [read_block]. rewrite Hw. replace (p + 0) with p by lia. cbn [length] in Hb.
    destruct (skipn p (v_out w)) as [|x r] eqn:Ex. { pose proof (skipn_length p (v_out w)). rewrite Ex in *. cbn in *. lia. }
    assert (Hx : nth_error (v_out w) p = Some x). { rewrite <- (firstn_skipn p (v_out w)), Ex. rewrite nth_error_app2; rewrite firstn_length_le by lia; [|lia]. now rewrite Nat.sub_diag. }
    rewrite Hx. rewrite (IH (S p)); [|intros c e' Hc; rewrite (Hs (S c) e' Hc); f_equal; lia|lia].
    replace r with (skipn (S p) (v_out w)); auto. clear - Ex. revert Ex. generalize (v_out w). induction p as [|p IH]; intros l Ex; destruct l; cbn in *; try discriminate; [congruence|]. now apply IH.
  Qed.
  Lemma chans_ok n inb i v : wf n -> shaped (n_in n) inb -> nth_error (n_vertex n) i = Some v ->
    exists chs, mapM (fun e => read_block zero (n_vertex n) inb (e_src e)) (v_src v) = Some chs /\ shaped (u_ins ops (v_unit v)) chs.
  Proof.
    intros H [Hl Hf] Hv. pose proof (w_vertex _ n H i v Hv) as V. destruct (mapM_some (fun e => read_block zero (n_vertex n) inb (e_src e)) (v_src v)) as [chs E].
    { intros e He. apply read_block_some; auto. apply (vo_port _ _ _ _ _ _ V e He). }
    exists chs. split; auto. split; [rewrite (mapM_length _ _ _ E); apply (vo_src _ _ _ _ _ _ V)|].
    apply Forall_forall. intros ch Hch. apply In_nth_error in Hch as (c & Hc). destruct (mapM_nth' _ _ _ E c ch Hc) as (e & He & Hr).
    destruct (e_src e) as [j q|q|]; cbn [read_block] in Hr.
    - destruct (nth_error (n_vertex n) j) as [w|] eqn:Ew; [|discriminate]. destruct (vo_out _ _ _ _ _ _ (w_vertex _ n H j w Ew)) as [_ Hw]. eapply Forall_forall in Hw; eauto using nth_error_In.
    - eapply Forall_forall in Hf; eauto using nth_error_In.
    - replace ch with (repeat zero MAXB) by congruence. apply repeat_length.
  Qed.
  (* one step of run_process: the unit is given a buffer holding the values of the sources *)
  Lemma process_step n i v size inb order : wf n -> n_order n <> None -> size <= MAXB -> shaped (n_in n) inb -> nth_error (n_vertex n) i = Some v ->
    exists chs ib vin, mapM (fun e => read_block zero (n_vertex n) inb (e_src e)) (v_src v) = Some chs /\ length chs = u_ins ops (v_unit v) /\
      shaped (u_ins ops (v_unit v)) ib /\ shaped (u_ins ops (v_unit v)) vin /\ (forall k, k < size -> frame zero ib k = frame zero chs k) /\
      run_process zero ops (i :: order) size inb (n_vertex n) = run_process zero ops order size inb (upd (n_vertex n) i (v_process ops v size ib vin)).
  Proof.
    intros H Ho Hs Hin Hv. destruct (n_order n) as [o|] eqn:Eo; [|congruence]. destruct (w_order _ n H o Eo) as [_ Hsv]. pose proof (Hsv i v Hv) as Esv.
    destruct (chans_ok n inb i v H Hin Hv) as (chs & E & Hsh). pose proof (w_vertex _ n H i v Hv) as V. pose proof (vo_in _ _ _ _ _ _ V) as Hvin.
    exists chs. cbn [run_process]. rewrite Hv, Esv. destruct (source_vertex v) as [[s p]|] eqn:Es.
    - destruct (source_vertex_reads n i v s p inb H Hv Es) as (w & Hw & Hb & Hne & Er). rewrite Er in E. inversion E. exists chs, (v_in v). subst chs.
      split; auto. split; [apply Hsh|]. split; auto. split; auto. split; auto. rewrite Hw. unfold v_inputs. rewrite (vo_tin _ _ _ _ _ _ V). destruct (Nat.leb_spec (p + u_ins ops (v_unit v)) (length (v_out w))); [auto|lia].
    - unfold gather. rewrite E. exists (copy_simd zero size chs (v_in v)), (copy_simd zero size chs (v_in v)). assert (shaped (u_ins ops (v_unit v)) (copy_simd zero size chs (v_in v))) by (apply copy_simd_shaped; [apply Hsh|apply Hvin]).
      split; auto. split; [apply Hsh|]. split; auto. split; auto. split; auto. intros k Hk. apply frame_copy_simd; auto. destruct Hsh, Hvin. congruence.
  Qed.
  Lemma run_process_total order size inb : forall n, wf n -> n_order n <> None -> size <= MAXB -> shaped (n_in n) inb -> (forall i, In i order -> i < length (n_vertex n)) ->
    exists vs, run_process zero ops order size inb (n_vertex n) = Some vs /\ Forall2 dyn (n_vertex n) vs.
  Proof.
    induction order as [|i order IH]; intros n H Ho Hs Hin Hr; [cbn; eauto using Forall2_dyn_refl|].
    destruct (nth_error_ex (n_vertex n) i) as [v Hv]; [apply Hr; cbn; auto|]. destruct (process_step n i v size inb order H Ho Hs Hin Hv) as (chs & ib & vin & _ & _ & Hib & Hvin & _ & ->).
    assert (D : Forall2 dyn (n_vertex n) (upd (n_vertex n) i (v_process ops v size ib vin))).
    { eapply dyn_upd; eauto. apply v_process_dyn; auto. apply (vo_out _ _ _ _ _ _ (w_vertex _ n H i v Hv)). }
    destruct (IH (n_set_vertex n (upd (n_vertex n) i (v_process ops v size ib vin)))) as (vs & E & D'); auto.
    { apply wf_dyn; auto. } { cbn. intros j Hj. rewrite length_upd. apply Hr. cbn; auto. }
    cbn in E, D'. exists vs. split; auto. eapply Forall2_dyn_trans; eauto.
  Qed.
End Flow.
