(* Proofs about the sample rates of networks. *)
From Coq Require Import Lia.
From Verif Require Export NetRateSpec NetTags.

Section NetRateProofs.
  Context {F P U : Type}.
  Variable nm : num F.
  Variable at_ : fade -> F -> F.
  Variable ops : unit_ops F P U.
  Variable uping : bool -> U -> N -> U * N.
  Variable ahash : N -> N -> N.
  Variable dummy : nat -> nat -> U.
  Variable urate : U -> F -> U.
  Variable narrow : F -> F.
  Variable default_sr : F.
  Variable rate_of : U -> F.
  Hypothesis L : rate_laws ops uping urate rate_of.
  Notation slot := (slotx F U).
  Notation xops := (x_ops nm at_ ops).
  Notation at_rate := (at_rate rate_of).

  (* one vertex *)
  Definition opt_at (r : F) (o : option (nedit F U)) : Prop := match o with Some e => rate_of (ed_unit e) = r | None => True end.
  Lemma at_rate_iff r x : at_rate r x <-> rate_of (x_unit x) = r /\ opt_at r (x_next x) /\ opt_at r (x_latest x).
  Proof.
    unfold NetRateSpec.at_rate, units_of, opt_at. destruct (x_next x) as [e|], (x_latest x) as [d|]; cbn; split.
    all: try (intros H; inversion H as [|a l Ha Hl]; subst).
    all: try (inversion Hl as [|a2 l2 Ha2 Hl2]; subst). all: try (inversion Hl2 as [|a3 l3 Ha3 Hl3]; subst). all: try (now auto).
    all: intros (A & B & C); repeat (constructor; auto).
  Qed.
  Lemma at_rate_phase r x : at_rate r x -> at_rate r (next_phase nm x).
  Proof.
    rewrite !at_rate_iff. unfold next_phase. destruct (x_next x) as [e|] eqn:E; [|intros H; rewrite E; exact H]. cbn. intros (A & B & C). auto.
  Qed.
  Lemma at_rate_tick r sr x i : at_rate r x -> at_rate r (fst (x_tick nm at_ ops sr x i)).
  Proof.
    intros H. pose proof H as G. rewrite at_rate_iff in G. destruct G as (A & B & C). unfold x_tick. pose proof (rl_tick _ _ _ _ L (x_unit x) i) as T. destruct (u_tick ops (x_unit x) i) as [u o]. cbn in T.
    destruct (x_next x) as [e|] eqn:E.
    - pose proof (rl_tick _ _ _ _ L (ed_unit e) i) as T2. destruct (u_tick ops (ed_unit e) i) as [w t]. cbn in T2, B. cbn [fst].
      assert (K : at_rate r (mkX u (Some (ed_set_unit e w)) (x_latest x) (nadd nm (x_phase x) (ndiv nm (n1 nm) (nmul nm (ed_time e) sr))) (x_tmp x))).
      { rewrite at_rate_iff. cbn. split; [congruence|split; [congruence|exact C]]. }
      destruct (nleb _ _ _); [now apply at_rate_phase|exact K].
    - cbn. rewrite at_rate_iff. cbn. split; [congruence|auto].
  Qed.
  Lemma at_rate_process r sr x size inb out : at_rate r x -> at_rate r (fst (x_process nm at_ ops sr x size inb out)).
  Proof.
    intros H. pose proof H as G. rewrite at_rate_iff in G. destruct G as (A & B & C). unfold x_process. pose proof (rl_process _ _ _ _ L (x_unit x) size inb out) as T. destruct (u_process ops (x_unit x) size inb out) as [u o]. cbn in T.
    destruct (x_next x) as [e|] eqn:E.
    - pose proof (rl_process _ _ _ _ L (ed_unit e) size inb (x_tmp x)) as T2. destruct (u_process ops (ed_unit e) size inb (x_tmp x)) as [w t]. cbn in T2, B. cbn [fst].
      match goal with |- at_rate r (if _ then next_phase nm ?y else _) => assert (K : at_rate r y) end.
      { rewrite at_rate_iff. cbn. split; [congruence|split; [congruence|exact C]]. }
      destruct (Nat.leb _ _); [now apply at_rate_phase|exact K].
    - cbn. rewrite at_rate_iff. cbn. split; [congruence|auto].
  Qed.
  Lemma at_rate_unit r x u : at_rate r x -> rate_of u = r -> at_rate r (x_set_unit x u).
  Proof. rewrite !at_rate_iff. cbn. intros (A & B & C) E. auto. Qed.
  Lemma at_rate_new r u : rate_of u = r -> at_rate r (x_new nm ops u).
  Proof. intros E. rewrite at_rate_iff. cbn. auto. Qed.
  Lemma at_rate_enqueue r x e : at_rate r x -> rate_of (ed_unit e) = r -> at_rate r (enqueue nm x e).
  Proof. rewrite !at_rate_iff. unfold enqueue. destruct (x_next x) as [d|]; cbn; intros (A & B & C) E; auto. Qed.
  Lemma at_rate_ping r b x h : at_rate r x -> at_rate r (fst (xping uping b x h)).
  Proof. intros H. unfold xping. pose proof (rl_ping _ _ _ _ L b (x_unit x) h) as T. destruct (uping b (x_unit x) h). cbn in *. apply at_rate_unit; auto. apply at_rate_iff in H as [A _]. congruence. Qed.

  (* a network *)
  Section Rate.
  Variable r : F.
  Notation net := (net F slot).
  Let K (v : vertex F slot) : Prop := at_rate r (v_unit v).
  Lemma K_src v s : K v -> K (v_set_src v s). Proof. exact (fun H => H). Qed.
  Lemma K_sv v s : K v -> K (v_set_sv v s). Proof. exact (fun H => H). Qed.
  Lemma K_id v s : K v -> K (v_set_id v s). Proof. exact (fun H => H). Qed.
  Lemma tune_ping probe : forall vs h, Forall K vs -> Forall K (fst (ping_vertices (xping uping) probe vs h)).
  Proof.
    induction vs as [|v l IH]; cbn; intros h H; auto. inversion H as [|a m Ha Hm]; subst. pose proof (at_rate_ping r probe (v_unit v) h Ha) as T. destruct (xping uping probe (v_unit v) h) as [u h1].
    specialize (IH h1 Hm). destruct (ping_vertices (xping uping) probe l h1). cbn in *. constructor; auto.
  Qed.
  Lemma tune_ordered (n n' : net) : ordered (xping uping) ahash n = Some n' -> Forall K (n_vertex n) -> Forall K (n_vertex n').
  Proof.
    unfold ordered. intros H. destruct (n_order n) eqn:Eo; [injection H as <-; auto|]. unfold determine_order, net_ping in H.
    destruct (ping_vertices _ true _ _) as [vs1 h1] eqn:E1. destruct (ping_vertices _ false _ _) as [vs2 h2] eqn:E2. destruct (determine_order_in _) as [[o ok]|]; [|discriminate]. injection H as <-.
    intros HK. cbn. replace vs2 with (fst (vs2, h2)) by auto. rewrite <- E2. apply tune_ping. replace vs1 with (fst (vs1, h1)) by auto. rewrite <- E1. apply tune_ping.
    apply Forall_forall. intros x Hx. apply in_map_iff in Hx as (y & <- & Hy). apply K_sv. rewrite Forall_forall in HK. auto.
  Qed.
  Lemma tune_upd vs i v u : Forall K vs -> nth_error vs i = Some v -> K u -> Forall K (upd vs i u).
  Proof. intros H E Hu. apply Forall_upd; auto. Qed.
  Lemma K_tick sr v i : K v -> K (v_tick (xops sr) v i).
  Proof. intros H. unfold v_tick. cbn [u_tick x_ops]. pose proof (at_rate_tick r sr (v_unit v) i H) as T. destruct (x_tick nm at_ ops sr (v_unit v) i). exact T. Qed.
  Lemma K_process sr v size inb vin : K v -> K (v_process (xops sr) v size inb vin).
  Proof. intros H. unfold v_process. cbn [u_process x_ops]. pose proof (at_rate_process r sr (v_unit v) size inb (v_out v) H) as T. destruct (x_process nm at_ ops sr (v_unit v) size inb (v_out v)). exact T. Qed.
  Lemma tune_run_tick sr order i : forall vs vs', run_tick (n0 nm) (xops sr) order i vs = Some vs' -> Forall K vs -> Forall K vs'.
  Proof.
    induction order as [|k l IH]; cbn [run_tick]; intros vs vs' H HK; [injection H as <-; auto|]. destruct (nth_error vs k) as [v|] eqn:E; [|discriminate]. destruct (mapM _ _); [|discriminate].
    eapply IH; [exact H|]. apply Forall_upd; auto. apply K_tick. eapply Forall_nth; eauto.
  Qed.
  Lemma tune_run_process sr order size inb : forall vs vs', run_process (n0 nm) (xops sr) order size inb vs = Some vs' -> Forall K vs -> Forall K vs'.
  Proof.
    induction order as [|k l IH]; cbn [run_process]; intros vs vs' H HK; [injection H as <-; auto|]. destruct (nth_error vs k) as [v|] eqn:E; [|discriminate].
    assert (Kv : K v) by (eapply Forall_nth; eauto). destruct (v_sv v) as [[s p]|].
    - destruct (nth_error vs s); [|discriminate]. destruct (Nat.leb _ _); [|discriminate]. eapply IH; [exact H|]. apply Forall_upd; auto. now apply K_process.
    - destruct (gather _ _ _ _ _ _); [|discriminate]. eapply IH; [exact H|]. apply Forall_upd; auto. now apply K_process.
  Qed.
  Lemma tune_tick sr (n n' : net) i o : net_tick (n0 nm) (xops sr) (xping uping) ahash n i = Some (n', o) -> Forall K (n_vertex n) -> Forall K (n_vertex n').
  Proof.
    unfold net_tick. intros H HK. destruct (ordered _ _ n) as [m|] eqn:E; [|discriminate]. destruct (n_order m); [|discriminate]. destruct (run_tick _ _ _ _ _) as [vs|] eqn:E2; [|discriminate]. destruct (mapM _ _); [|discriminate]. injection H as <- <-.
    cbn. eapply tune_run_tick; [exact E2|]. eapply tune_ordered; eauto.
  Qed.
  Lemma tune_process sr (n n' : net) size i o o' : net_process (n0 nm) (xops sr) (xping uping) ahash n size i o = Some (n', o') -> Forall K (n_vertex n) -> Forall K (n_vertex n').
  Proof.
    unfold net_process. intros H HK. destruct (ordered _ _ n) as [m|] eqn:E; [|discriminate]. destruct (n_order m); [|discriminate]. destruct (run_process _ _ _ _ _ _) as [vs|] eqn:E2; [|discriminate]. destruct (gather _ _ _ _ _ _); [|discriminate]. injection H as <- <-.
    cbn. eapply tune_run_process; [exact E2|]. eapply tune_ordered; eauto.
  Qed.
  Lemma keeps_all (n n' : net) : keeps K n n' -> Forall K (n_vertex n) -> Forall K (n_vertex n').
  Proof. intros [H _]. exact H. Qed.
  Lemma tune_edit a (n n' : net) sr : front_edit nm at_ ops sr uping ahash (rated urate r a) n = Some n' -> Forall K (n_vertex n) -> Forall K (n_vertex n').
  Proof.
    intros H HK. assert (N1 : forall u id i, K (vertex_new (n0 nm) (xops sr) id i (x_new nm ops (urate u r)))) by (intros; apply at_rate_new, (rl_rate _ _ _ _ L)).
    destruct a; cbn [front_edit rated lift apply] in H;
      try (injection H as <-; eapply keeps_all; [|exact HK]; apply keeps_push; apply N1);
      try (destruct (remove_2 _ _ _) as [[m u]|] eqn:E; [|discriminate]; injection H as <-; eapply keeps_all; [|exact HK]; eapply keeps_remove; [apply K_src|exact E]).
    - unfold replace in H. destruct (lookup _ _) as [i|]; [|discriminate]. destruct (nth_error _ _) as [v|] eqn:E; [|discriminate]. destruct (_ && _); [|discriminate]. injection H as <-.
      cbn. apply Forall_upd; auto. unfold K. cbn. apply at_rate_unit; [eapply (Forall_nth K); eauto|apply (rl_rate _ _ _ _ L)].
    - eapply keeps_all; [|exact HK]. eapply keeps_set_source; [apply K_src|exact H].
    - eapply keeps_all; [|exact HK]. eapply keeps_set_output; exact H.
    - eapply keeps_all; [|exact HK]. eapply keeps_connect; [apply K_src|exact H].
    - eapply keeps_all; [|exact HK]. eapply keeps_disconnect; [apply K_src|exact H].
    - unfold connect_input, connect_input_index in H. destruct (lookup _ _); [|discriminate]. eapply keeps_all; [|exact HK]. eapply keeps_plug; [apply K_src|exact H].
    - eapply keeps_all; [|exact HK]. eapply keeps_pipe_input; [apply K_src|exact H].
    - unfold connect_output, connect_output_index in H. destruct (lookup _ _); [|discriminate]. eapply keeps_all; [|exact HK]. eapply keeps_plug_output; exact H.
    - eapply keeps_all; [|exact HK]. eapply keeps_plug_output; exact H.
    - eapply keeps_all; [|exact HK]. eapply keeps_pipe_output; exact H.
    - eapply keeps_all; [|exact HK]. eapply keeps_plug_output; exact H.
    - eapply keeps_all; [|exact HK]. eapply keeps_pipe_all; [apply K_src|exact H].
    - eapply keeps_all; [|exact HK]. eapply keeps_chain; [apply K_src| |exact H]. apply N1.
    - unfold net_error in H. destruct (ordered _ _ n) as [m|] eqn:E; [|discriminate]. injection H as <-. eapply tune_ordered; eauto.
    - destruct (net_tick _ _ _ _ _ _) as [[m o]|] eqn:E; [|discriminate]. injection H as <-. eapply tune_tick; eauto.
    - destruct (net_process _ _ _ _ _ _ _ _) as [[m o]|] eqn:E; [|discriminate]. injection H as <-. eapply tune_process; eauto.
    - injection H as <-. unfold net_set. destruct (direction s); auto. destruct (lookup _ _) as [i|]; auto. destruct (nth_error _ _) as [v|] eqn:E; auto. cbn. apply Forall_upd; auto.
      unfold K. cbn. assert (Kv : K v) by (eapply (Forall_nth K); eauto). apply at_rate_unit; auto. rewrite (rl_set _ _ _ _ L). apply at_rate_iff in Kv. apply Kv.
    - unfold net_reset in H. eapply tune_ordered; [exact H|]. cbn. apply Forall_forall. intros x Hx. apply in_map_iff in Hx as (y & <- & Hy). rewrite Forall_forall in HK. specialize (HK y Hy).
      unfold K. cbn. apply at_rate_unit; auto. rewrite (rl_reset _ _ _ _ L). apply at_rate_iff in HK. apply HK.
  Qed.
  Lemma tune_adopt f offset g (n1 n2 m2 : net) vs m :
    disambiguate f (n_index n1) (seq 0 (length (n_vertex n2))) n2 = Some m2 -> adopt offset g offset (n_vertex m2) (n_index n1) = Some (vs, m) -> Forall K (n_vertex n1) -> Forall K (n_vertex n2) -> Forall K (n_vertex n1 ++ vs).
  Proof.
    intros Ed Ea H1 H2. apply Forall_app. split; auto. eapply keeps_adopt; [apply K_src|exact Ea|]. eapply keeps_all; [eapply keeps_disambiguate; [apply K_id|exact Ed]|exact H2].
  Qed.
  Lemma tune_pipe f (n1 n2 n : net) : net_pipe f n1 n2 = Some n -> Forall K (n_vertex n1) -> Forall K (n_vertex n2) -> Forall K (n_vertex n).
  Proof. intros E H1 H2. unfold net_pipe in E. destruct (Nat.eqb _ _); [|discriminate]. destruct (disambiguate _ _ _ n2) as [m2|] eqn:Ed; [|discriminate]. destruct (adopt _ _ _ _ _) as [[vs m]|] eqn:Ea; [|discriminate]. destruct (mapM _ _); [|discriminate]. injection E as <-. eapply tune_adopt; eauto. Qed.
  Lemma tune_stack f (n1 n2 n : net) : net_stack f n1 n2 = Some n -> Forall K (n_vertex n1) -> Forall K (n_vertex n2) -> Forall K (n_vertex n).
  Proof. intros E H1 H2. unfold net_stack in E. destruct (disambiguate _ _ _ n2) as [m2|] eqn:Ed; [|discriminate]. destruct (mapM _ _); [|discriminate]. destruct (adopt _ _ _ _ _) as [[vs m]|] eqn:Ea; [|discriminate]. injection E as <-. eapply tune_adopt; eauto. Qed.
  Lemma tune_branch f (n1 n2 n : net) : net_branch f n1 n2 = Some n -> Forall K (n_vertex n1) -> Forall K (n_vertex n2) -> Forall K (n_vertex n).
  Proof. intros E H1 H2. unfold net_branch in E. destruct (Nat.eqb _ _); [|discriminate]. destruct (disambiguate _ _ _ n2) as [m2|] eqn:Ed; [|discriminate]. destruct (mapM _ _); [|discriminate]. destruct (adopt _ _ _ _ _) as [[vs m]|] eqn:Ea; [|discriminate]. injection E as <-. eapply tune_adopt; eauto. Qed.
  Lemma tune_binop sr s f g b (n1 n2 n : net) : combine_binop (n0 nm) (xops sr) s f g (x_new nm ops (urate b r)) n1 n2 = Some n -> Forall K (n_vertex n1) -> Forall K (n_vertex n2) -> Forall K (n_vertex n).
  Proof.
    intros H H1 H2. unfold combine_binop in H. destruct (_ && _); [|discriminate]. destruct (disambiguate _ _ _ n2) as [m2|] eqn:Ed; [|discriminate]. destruct (adopt _ _ _ _ _) as [[vs m]|] eqn:Ea; [|discriminate]. set (n0 := mkNet _ _ _ _ _ _ _ _) in H.
    assert (U0 : Forall K (n_vertex n0)) by (cbn; eapply tune_adopt; eauto).
    destruct (push_binops _ _ _ _ _ _ _) as [n3|] eqn:E3; [|discriminate]. destruct (join_outputs _ 0 _ _ _) as [n4|] eqn:E4; [|discriminate]. destruct (mapM _ _) as [ps|]; [|discriminate]. destruct (join_outputs _ 1 _ _ _) as [n5|] eqn:E5; [|discriminate]. injection H as <-.
    eapply keeps_all; [|exact U0]. eapply keeps_trans; [eapply keeps_binops; [|exact E3]; intros; apply at_rate_new, (rl_rate _ _ _ _ L)|]. eapply keeps_trans; [eapply keeps_join; [apply K_src|exact E4]|]. eapply keeps_trans; [eapply keeps_join; [apply K_src|exact E5]|]. apply keeps_invalidate.
  Qed.
  End Rate.

  Notation in_tune := (in_tune rate_of).
  Notation made := (made nm at_ ops uping ahash dummy urate narrow default_sr).
  Lemma edit_tune a n n' : rn_edit nm at_ ops uping ahash urate a n = Some n' -> in_tune n -> in_tune n' /\ rn_rate n' = rn_rate n.
  Proof. unfold rn_edit. intros H HT. destruct (front_edit _ _ _ _ _ _ _ _) as [m|] eqn:E; [|discriminate]. injection H as <-. split; auto. red. cbn. eapply tune_edit; eauto. Qed.
  Lemma crossfade_tune id e n n' : rn_crossfade nm ops urate id e n = Some n' -> in_tune n -> in_tune n' /\ rn_rate n' = rn_rate n.
  Proof.
    unfold rn_crossfade. intros H HT. destruct (lookup _ _) as [i|]; [|discriminate]. destruct (nth_error _ _) as [v|] eqn:E; [|discriminate]. destruct (_ && _); [|discriminate]. injection H as <-. split; auto. red. cbn.
    apply (Forall_upd (fun v => at_rate (rn_rate n) (v_unit v))); [exact HT|]. unfold v_enqueue. cbn. apply at_rate_enqueue; [|cbn; apply (rl_rate _ _ _ _ L)]. red in HT. rewrite Forall_forall in HT. apply HT. eapply nth_error_In; eauto.
  Qed.
  Lemma set_rate_current sr n n' : (nleb nm (rn_rate n) (narrow sr) && nleb nm (narrow sr) (rn_rate n) = false) -> rn_set_rate nm uping ahash urate narrow sr n = Some n' ->
    rn_rate n' = narrow sr /\ Forall (fun v => rate_of (x_unit (v_unit v)) = rn_rate n') (n_vertex (rn_net n')).
  Proof.
    unfold rn_set_rate. intros Hr H. rewrite Hr in H. destruct (ordered _ _ _) as [m|] eqn:E; [|discriminate]. injection H as <-. split; auto. cbn.
    clear Hr. unfold ordered in E. destruct (n_order _) eqn:Eo in E.
    - injection E as <-. cbn. apply Forall_forall. intros x Hx. apply in_map_iff in Hx as (y & <- & Hy). cbn. apply (rl_rate _ _ _ _ L).
    - unfold determine_order, net_ping in E. destruct (ping_vertices _ true _ _) as [vs1 h1] eqn:E1. destruct (ping_vertices _ false _ _) as [vs2 h2] eqn:E2. destruct (determine_order_in _) as [[o ok]|]; [|discriminate]. injection E as <-. cbn.
      assert (G : forall probe vs h, Forall (fun v => rate_of (x_unit (v_unit v)) = narrow sr) vs -> Forall (fun v : vertex F slot => rate_of (x_unit (v_unit v)) = narrow sr) (fst (ping_vertices (xping uping) probe vs h))).
      { intros probe. induction vs as [|v l IH]; cbn; intros h H; auto. inversion H as [|a q Ha Hq]; subst. unfold xping at 1. pose proof (rl_ping _ _ _ _ L probe (x_unit (v_unit v)) h) as T. destruct (uping probe (x_unit (v_unit v)) h) as [u h3]. cbn in T.
        specialize (IH h3 Hq). destruct (ping_vertices (xping uping) probe l h3). cbn in *. constructor; auto. cbn. congruence. }
      replace vs2 with (fst (vs2, h2)) by auto. rewrite <- E2. apply G. replace vs1 with (fst (vs1, h1)) by auto. rewrite <- E1. apply G.
      apply Forall_forall. intros x Hx. cbn [n_vertex n_set_vertex] in Hx. rewrite map_map in Hx. apply in_map_iff in Hx as (y & <- & Hy). cbn. apply (rl_rate _ _ _ _ L).
  Qed.
  Lemma set_rate_tune sr n n' : still n -> rn_set_rate nm uping ahash urate narrow sr n = Some n' -> in_tune n -> in_tune n'.
  Proof.
    unfold rn_set_rate. intros Hs H HT. destruct (_ && _); [injection H as <-; exact HT|]. destruct (ordered _ _ _) as [m|] eqn:E; [|discriminate]. injection H as <-. red. cbn [rn_rate rn_net].
    eapply tune_ordered; [exact E|]. cbn. apply Forall_forall. intros x Hx. apply in_map_iff in Hx as (y & <- & Hy). red in Hs. rewrite Forall_forall in Hs. destruct (Hs y Hy) as [S1 S2]. cbn.
    apply at_rate_iff. cbn. rewrite S1, S2. cbn. split; auto. apply (rl_rate _ _ _ _ L).
  Qed.
  Theorem made_tune n : made n -> in_tune n.
  Proof.
    induction 1 as [i o|a n n' _ IH E|id e n n' _ IH E|id e n n' _ IH E|sr n n' _ IH Hs E|n _ IH|f n1 n2 n _ I1 _ I2 Hr E|f n1 n2 n _ I1 _ I2 Hr E|f n1 n2 n _ I1 _ I2 Hr E|s f g b n1 n2 n _ I1 _ I2 Hr E].
    - constructor.
    - eapply edit_tune; eauto.
    - eapply crossfade_tune; eauto.
    - unfold rn_fade_in in E. destruct (rn_edit _ _ _ _ _ _ _ n) as [m|] eqn:Em; [|discriminate]. eapply crossfade_tune; [exact E|]. eapply edit_tune; eauto.
    - eapply set_rate_tune; eauto.
    - exact IH.
    - unfold rn_pipe in E. destruct (net_pipe _ _ _) as [m|] eqn:Em; [|discriminate]. injection E as <-. red. cbn. eapply tune_pipe; [exact Em|exact I1|]. rewrite Hr. exact I2.
    - unfold rn_stack in E. destruct (net_stack _ _ _) as [m|] eqn:Em; [|discriminate]. injection E as <-. red. cbn. eapply tune_stack; [exact Em|exact I1|]. rewrite Hr. exact I2.
    - unfold rn_branch in E. destruct (net_branch _ _ _) as [m|] eqn:Em; [|discriminate]. injection E as <-. red. cbn. eapply tune_branch; [exact Em|exact I1|]. rewrite Hr. exact I2.
    - unfold rn_binop in E. destruct (combine_binop _ _ _ _ _ _ _ _) as [m|] eqn:Em; [|discriminate]. injection E as <-. red. cbn. eapply tune_binop; [exact Em|exact I1|]. rewrite Hr. exact I2.
  Qed.

  (* commits *)
  Lemma K_take r x y : at_rate r x -> at_rate r (take_over x y).
  Proof. rewrite !at_rate_iff. auto. Qed.
  Lemma tune_migrate r (old : net F slot) ids : forall n : net F slot,
    Forall (fun v => at_rate r (v_unit v)) (n_vertex n) -> Forall (fun v => at_rate r (v_unit v)) (n_vertex old) \/ Forall (fun v => (n_revision old < v_changed v)%N) (n_vertex n) ->
    Forall (fun v => at_rate r (v_unit v)) (n_vertex (migrate_loop old ids n)).
  Proof.
    induction ids as [|[id i] l IH]; cbn [migrate_loop]; intros n HT HO; auto. destruct (lookup (n_index n) id) as [j|]; auto. destruct (nth_error (n_vertex old) i) as [w|] eqn:Ew; auto. destruct (nth_error (n_vertex n) j) as [v|] eqn:Ev; auto.
    destruct (N.leb_spec (v_changed v) (n_revision old)) as [Hle|Hlt]; auto. destruct HO as [HO|HO].
    - apply IH; auto. cbn. apply (Forall_upd (fun v => at_rate r (v_unit v))); auto. cbn. apply K_take. rewrite Forall_forall in HO. apply HO. eapply nth_error_In; eauto.
    - exfalso. rewrite Forall_forall in HO. specialize (HO v (nth_error_In _ _ Ev)). apply N.lt_nge in HO. contradiction.
  Qed.
  Lemma tune_edits r es : forall n n' : net F slot, apply_edits nm n es = Some n' -> Forall (fun e => rate_of (ed_unit (q_edit e)) = r) es -> Forall (fun v => at_rate r (v_unit v)) (n_vertex n) -> Forall (fun v => at_rate r (v_unit v)) (n_vertex n').
  Proof.
    induction es as [|e l IH]; cbn [apply_edits]; intros n n' H HE HK; [injection H as <-; auto|]. inversion HE as [|a m Ha Hm]; subst. destruct (nth_error _ _) as [v|] eqn:Ev; [|discriminate]. eapply IH; [exact H|auto|]. cbn.
    apply (Forall_upd (fun v => at_rate (rate_of (ed_unit (q_edit e))) (v_unit v))); auto. unfold v_enqueue. cbn. apply at_rate_enqueue; auto. rewrite Forall_forall in HK. apply HK. eapply nth_error_In; eauto.
  Qed.
  Lemma ordered_changed (k : N) (n n' : net F slot) : ordered (xping uping) ahash n = Some n' -> Forall (fun v => (k < v_changed v)%N) (n_vertex n) -> Forall (fun v => (k < v_changed v)%N) (n_vertex n').
  Proof. intros H. apply (keeps_ordered (xping uping) ahash (fun v : vertex F slot => (k < v_changed v)%N)) in H; auto. apply H. Qed.
  Lemma commit_tune f old b : rf_commit nm uping ahash f old = Some b -> in_tune (rf_net f) -> Forall (fun e => rate_of (ed_unit (snd e)) = rn_rate (rf_net f)) (rf_edits f) ->
    Forall (fun v => at_rate (rn_rate (rf_net f)) (v_unit v)) (n_vertex old) \/ Forall (fun v => (n_revision old < v_changed v)%N) (n_vertex (rn_net (rf_net f))) ->
    in_tune b.
  Proof.
    unfold rf_commit. intros H HT HE HO. destruct (ordered _ _ _) as [m|] eqn:Em; [|discriminate]. destruct (apply_edits _ _ _) as [c|] eqn:Ec; [|discriminate]. injection H as <-. red. cbn [rn_rate rn_net].
    eapply tune_edits; [exact Ec| |].
    - unfold committed_edits. apply Forall_forall. intros q Hq. apply in_flat_map in Hq as ([id e] & Hi & Hq). rewrite Forall_forall in HE. specialize (HE _ Hi). cbn in HE, Hq. destruct (lookup _ _); [|destruct Hq]. destruct Hq as [<-|[]]. exact HE.
    - apply tune_migrate; [eapply tune_ordered; eauto|]. destruct HO as [HO|HO]; [left; exact HO|right; eapply ordered_changed; eauto].
  Qed.
  Lemma set_rate_changed sr n n' k : (nleb nm (rn_rate n) (narrow sr) && nleb nm (narrow sr) (rn_rate n) = false) -> rn_set_rate nm uping ahash urate narrow sr n = Some n' -> (k < n_revision (rn_net n))%N -> Forall (fun v => (k < v_changed v)%N) (n_vertex (rn_net n')).
  Proof.
    unfold rn_set_rate. intros Hr H Hk. rewrite Hr in H. destruct (ordered _ _ _) as [m|] eqn:E; [|discriminate]. injection H as <-. cbn. eapply ordered_changed; [exact E|]. cbn.
    apply Forall_forall. intros x Hx. apply in_map_iff in Hx as (y & <- & Hy). exact Hk.
  Qed.
  Lemma commit_rate f f' sr old b : in_tune (rf_net f) -> still (rf_net f) -> rf_edits f = [] -> (n_revision old < n_revision (rn_net (rf_net f)))%N ->
    (nleb nm (rn_rate (rf_net f)) (narrow sr) && nleb nm (narrow sr) (rn_rate (rf_net f)) = false) ->
    rf_set_rate nm uping ahash urate narrow sr f = Some f' -> rf_commit nm uping ahash f' old = Some b -> in_tune b /\ rn_rate b = narrow sr.
  Proof.
    intros HT HS HE Hk Hr H Hb. unfold rf_set_rate in H. destruct (rn_set_rate _ _ _ _ _ _ _) as [n|] eqn:En; [|discriminate]. injection H as <-.
    assert (R : rn_rate n = narrow sr) by (eapply set_rate_current; eauto). split.
    - eapply commit_tune; [exact Hb|cbn; eapply set_rate_tune; eauto|cbn; rewrite HE; constructor|]. right. cbn. eapply set_rate_changed; eauto.
    - unfold rf_commit in Hb. destruct (ordered _ _ _); [|discriminate]. destruct (apply_edits _ _ _); [|discriminate]. injection Hb as <-. exact R.
  Qed.
End NetRateProofs.
