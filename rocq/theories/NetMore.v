(* Evaluation once per sample, wrapped units, and re-ordering. *)
From Verif Require Export NetEdit.

#[local] Arguments iinsert : simpl never.
#[local] Arguments iremove : simpl never.

Lemma nth_error_seq0 m i : i < m -> nth_error (seq 0 m) i = Some i.
Proof. intros H. destruct (nth_error (seq 0 m) i) eqn:X; [apply (nth_error_nth _ _ 0) in X; rewrite seq_nth in X by auto; cbn in X; congruence|]. apply nth_error_None in X. rewrite seq_length in X. lia. Qed.

Section More.
  Context {A P U : Type}.
  Variable zero : A.
  Variable ops : unit_ops A P U.
  Variable uping : bool -> U -> N -> U * N.
  Variable ahash : N -> N -> N.
  Notation net := (net A U).
  Notation vertex := (vertex A U).
  Notation wf := (wf ops).
  Hypothesis Hctl : control_laws ops uping.
  Hypothesis Hlaws : unit_laws zero ops.

  (* ---- each node once ---- *)
  Lemma v_tick_src (v : vertex) tin : v_src (v_tick ops v tin) = v_src v.
  Proof. unfold v_tick. now destruct (u_tick ops (v_unit v) tin). Qed.
  Lemma v_tick_unit (v : vertex) tin : v_unit (v_tick ops v tin) = fst (u_tick ops (v_unit v) tin).
  Proof. unfold v_tick. now destruct (u_tick ops (v_unit v) tin). Qed.
  Lemma run_tick_once order input : forall (vs vs' : list vertex), NoDup order -> run_tick zero ops order input vs = Some vs' -> length vs' = length vs /\ forall i v, nth_error vs i = Some v -> exists v', nth_error vs' i = Some v' /\
    (In i order -> exists tin, length tin = length (v_src v) /\ v_unit v' = fst (u_tick ops (v_unit v) tin)) /\ (~ In i order -> v_unit v' = v_unit v).
  Proof.
    induction order as [|k order IH]; intros vs vs' Hn; cbn [run_tick].
    - intros [= <-]. split; auto. intros i v Hv. exists v. split; auto. split; [intros []|auto].
    - inversion Hn as [|? ? Hk Hn']; subst. destruct (nth_error vs k) as [w|] eqn:Ew; [|discriminate]. destruct (mapM _ (v_src w)) as [tin|] eqn:Et; [|discriminate]. intros E. destruct (IH _ _ Hn' E) as [Hl Hi]. rewrite length_upd in Hl. split; auto.
      intros i v Hv. destruct (Nat.eq_dec i k) as [->|Hne].
      + destruct (Hi k (v_tick ops w tin)) as (v' & Hv' & _ & H2); [apply nth_error_upd_eq; eapply nth_error_lt; eauto|]. exists v'. split; auto. assert (w = v) by congruence. subst w. split; [|cbn; tauto].
        intros _. exists tin. split; [apply (mapM_length _ _ _ Et)|]. rewrite (H2 Hk). apply v_tick_unit.
      + destruct (Hi i v) as (v' & Hv' & H1 & H2); [now rewrite nth_error_upd_ne by auto|]. exists v'. split; auto. cbn. split; [intros [X|X]; [congruence|auto]|tauto].
  Qed.
  Theorem tick_once n n0 e input n' out : wf n -> net_error uping ahash n = Some (n0, e) -> net_tick zero ops uping ahash n input = Some (n', out) ->
    length (units n') = length (units n0) /\ forall i u, nth_error (units n0) i = Some u -> exists x u' y, length x = u_ins ops u /\ u_tick ops u x = (u', y) /\ nth_error (units n') i = Some u'.
  Proof.
    intros H. unfold net_error, net_tick. destruct (ordered_ok ops uping ahash Hctl n H) as (m & o & -> & W & K & Ho). intros [= -> _]. rewrite Ho. destruct (run_tick zero ops o input (n_vertex n0)) as [vs|] eqn:E; [|discriminate].
    destruct (mapM _ (n_oedge n0)) as [ou|]; [|discriminate]. intros X. inversion X; subst. destruct (order_of_wf ops n0 o W Ho) as [[HP _] _]. assert (Hn : NoDup o) by (eapply Permutation_NoDup; [symmetry; exact HP|apply seq_NoDup]).
    destruct (run_tick_once o input _ _ Hn E) as [Hl Hi]. unfold units. cbn [n_set_vertex n_vertex]. rewrite !map_length. split; auto. intros i u. rewrite nth_error_map. destruct (nth_error (n_vertex n0) i) as [v|] eqn:Ev; [|discriminate]. intros [= <-].
    destruct (Hi i v Ev) as (v' & Hv' & H1 & _). destruct H1 as (x & Hx & Hu). { eapply Permutation_in; [symmetry; exact HP|]. apply in_seq. apply nth_error_lt in Ev. lia. }
    exists x, (v_unit v'), (snd (u_tick ops (v_unit v) x)). rewrite nth_error_map, Hv'. split; [rewrite Hx; apply (vo_src _ _ _ _ _ _ (w_vertex _ n0 W i v Ev))|]. split; auto. rewrite Hu. apply surjective_pairing.
  Qed.

  (* ---- wrapped units ---- *)
  Lemma view_global (n : net) p q : view n p = Some (SGlobal q) -> p = PGlobal q.
  Proof. destruct p as [j r|r|]; cbn; try congruence. destruct (nth_error (n_vertex n) j); discriminate. Qed.
  Lemma mapM_globals vals (x : list A) m : length x = m -> mapM (value zero vals x) (map PGlobal (seq 0 m)) = Some x.
  Proof.
    intros Hl. rewrite mapM_map. cbn [value]. destruct (mapM_some (fun q => nth_error x q) (seq 0 m)) as [y Hy]. { intros q Hq. apply in_seq in Hq. apply nth_error_Some. lia. }
    rewrite Hy. f_equal. pose proof (mapM_length _ _ _ Hy) as Hl'. rewrite seq_length in Hl'. apply nth_error_ext. intros i. destruct (Nat.lt_ge_cases i m) as [L|L].
    - destruct (mapM_nth _ _ _ Hy i i) as (z & Hz & Hz'); [|congruence]. now apply nth_error_seq0.
    - assert (length y <= i) as Ly by lia. assert (length x <= i) as Lx by lia. apply nth_error_None in Ly, Lx. congruence.
  Qed.
  Lemma mapM_const {X Y} (f : X -> option Y) y l : (forall x, In x l -> f x = Some y) -> mapM f l = Some (repeat y (length l)).
  Proof. induction l as [|a l IH]; cbn; intros H; auto. rewrite (H a) by auto. rewrite IH by auto. reflexivity. Qed.
  Lemma mapM_locals (o : list A) x m : length o = m -> mapM (value zero [o] x) (map (PLocal 0) (seq 0 m)) = Some o.
  Proof. intros Hl. rewrite <- (mapM_globals [] o m Hl), !mapM_map. apply mapM_ext. intros q _. reflexivity. Qed.

  (* a network of one node that reads the net inputs *)
  Lemma single_flow n v u0 x u1 o out : n_vertex n = [v] -> sources v = map PGlobal (seq 0 (length x)) -> u_tick ops u0 x = (u1, o) -> mapM (value zero [o] x) (map e_src (n_oedge n)) = Some out -> dataflow zero ops n [u0] x [u1] [o] out.
  Proof.
    intros Hv Hs Ht Ho. split; auto. unfold flow, graph. rewrite Hv. cbn [map length]. split; auto. split; auto. split; auto. intros [|i] ps u u' y; cbn; [|destruct i; discriminate].
    intros [= <-] [= <-] [= <-] [= <-]. exists x. split; auto. rewrite Hs. now apply mapM_globals.
  Qed.
  Lemma single_acyclic (n : net) v m : n_vertex n = [v] -> sources v = map PGlobal (seq 0 m) -> ~ has_cycle n.
  Proof.
    intros Hv Hs (i & Hc). unfold graph in Hc. rewrite Hv in Hc. cbn [map] in Hc. rewrite Hs in Hc.
    assert (E : local_sources (map PGlobal (seq 0 m)) = []) by (clear; generalize 0 as k; induction m as [|m IH]; intros k; cbn; auto). rewrite E in Hc. clear - Hc. assert (X : forall a b, ~ reads [[]] a b) by (intros [|[|a]] b; unfold reads; cbn; auto).
    assert (Y : forall a b, clos_trans nat (reads [[]]) a b -> False) by (induction 1; auto; eapply X; eauto). eapply Y; eauto.
  Qed.
  Lemma sources_eq n id v m (mk : nat -> port) (mk' : nat -> source) : wf n -> lookup (n_index n) id = Some 0 -> n_vertex n = [v] -> u_ins ops (v_unit v) = m ->
    (forall c, c < m -> net_source n id c = Some (mk' c)) -> (forall p c, view n p = Some (mk' c) -> p = mk c) -> sources v = map mk (seq 0 m).
  Proof.
    intros H El Ev Hm Hs Hinj. assert (Ev0 : nth_error (n_vertex n) 0 = Some v) by (now rewrite Ev). pose proof (w_vertex _ n H 0 v Ev0) as V. unfold sources. apply nth_error_ext. intros c. rewrite !nth_error_map.
    destruct (Nat.lt_ge_cases c m) as [L|L].
    - rewrite (nth_error_seq0 m c L). cbn. destruct (nth_error_ex (v_src v) c) as [e He]; [rewrite (vo_src _ _ _ _ _ _ V); lia|]. rewrite He. cbn. f_equal. apply Hinj. rewrite <- (Hs c L), (source_eq ops n id 0 v c H El Ev0), He. reflexivity.
    - assert (X : length (v_src v) <= c) by (rewrite (vo_src _ _ _ _ _ _ V); lia). assert (Y : length (seq 0 m) <= c) by (rewrite seq_length; lia). apply nth_error_None in X, Y. now rewrite X, Y.
  Qed.
  Lemma outputs_eq (n : net) m (mk : nat -> port) (mk' : nat -> source) : wf n -> n_out n = m -> (forall c, c < m -> output_source n c = Some (mk' c)) -> (forall p c, view n p = Some (mk' c) -> p = mk c) -> map e_src (n_oedge n) = map mk (seq 0 m).
  Proof.
    intros H Hm Hs Hinj. apply nth_error_ext. intros c. rewrite !nth_error_map. destruct (Nat.lt_ge_cases c m) as [L|L].
    - rewrite (nth_error_seq0 m c L). cbn. destruct (nth_error_ex (n_oedge n) c) as [e He]; [rewrite (w_out _ n H); lia|]. rewrite He. cbn. f_equal. apply Hinj. rewrite <- (Hs c L), (output_eq ops n c H), He. reflexivity.
    - assert (X : length (n_oedge n) <= c) by (rewrite (w_out _ n H); lia). assert (Y : length (seq 0 m) <= c) by (rewrite seq_length; lia). apply nth_error_None in X, Y. now rewrite X, Y.
  Qed.
  Lemma view_own (n : net) id v p c : n_vertex n = [v] -> view n p = Some (SLocal id c) -> p = PLocal 0 c.
  Proof. intros Ev. destruct p as [j r|r|]; cbn; try discriminate. rewrite Ev. destruct j as [|[|j]]; cbn; try discriminate. congruence. Qed.
  Lemma map_single {X Y} (f : X -> Y) l y : map f l = [y] -> exists x, l = [x] /\ f x = y.
  Proof. destruct l as [|a [|b l]]; cbn; try discriminate. intros [= <-]. eauto. Qed.

  Theorem wrap_ok id u : exists n, wrap zero ops id u = Some n /\ wf n /\ n_in n = u_ins ops u /\ n_out n = u_outs ops u /\ units n = [u] /\ node n id = Some u /\ ~ has_cycle n /\
    forall u0 x u1 o, length x = u_ins ops u -> length o = u_outs ops u -> u_tick ops u0 x = (u1, o) -> dataflow zero ops n [u0] x [u1] [o] o.
  Proof.
    unfold wrap. set (ne := net_new (u_ins ops u) (u_outs ops u)). assert (We : wf ne) by apply wf_new. assert (Hce : ~ contains ne id) by (unfold contains, ne; cbn; auto). pose proof (wf_push zero ops ne id u We (not_contains _ _ Hce)) as W0.
    destruct (push_effect zero ops ahash ne id u We Hce) as (P1 & P2 & P3 & P4 & P5). set (n0 := push zero ops ne id u) in *.
    assert (El0 : lookup (n_index n0) id = Some 0) by (unfold n0; rewrite push_index, N.eqb_refl; reflexivity). assert (Hc0 : contains n0 id) by (unfold contains; congruence). assert (U0 : units n0 = [u]) by reflexivity.
    assert (Hn0 : node n0 id = Some u) by (rewrite P3; cbn [unit_after]; now rewrite N.eqb_refl). change (n_in n0) with (u_ins ops u). clearbody n0. change (n_in ne) with (u_ins ops u) in P4. change (n_out ne) with (u_outs ops u) in P5.
    assert (exists n1, (if Nat.ltb 0 (u_ins ops u) then pipe_input n0 id else Some n0) = Some n1 /\ wf n1 /\ same_shape n0 n1 /\ node n1 id = Some u /\ (forall c, c < u_ins ops u -> net_source n1 id c = Some (SGlobal c))) as (n1 & -> & W1 & S1 & Hn1 & Q1).
    { destruct (Nat.ltb_spec 0 (u_ins ops u)) as [L|L].
      - destruct (pipe_input_ok ops n0 id W0 Hc0) as (n1 & E & W1 & S1 & _). exists n1. split; auto. split; auto. split; auto. destruct (pipe_input_effect ops ahash n0 id n1 W0 Hc0 E) as (X1 & X2 & X3 & _). split; [rewrite X3; exact Hn0|].
        intros c Hc. rewrite X1. cbn [wired]. rewrite N.eqb_refl. unfold inputs_in. rewrite Hn0. apply Nat.ltb_lt in Hc as Hc'. rewrite Hc'. unfold spread. rewrite P4. apply Nat.ltb_lt in L. rewrite L, Nat.mod_small by auto. reflexivity.
      - exists n0. split; auto. split; auto. split; [apply same_shape_refl|]. split; auto. intros c Hc. lia. }
    assert (Hc1 : contains n1 id) by (eapply same_shape_contains; eauto). assert (Eo1 : n_out n1 = u_outs ops u) by (rewrite (ss_out _ _ S1); auto).
    assert (exists n2, (if Nat.ltb 0 (n_out n1) then pipe_output n1 id else Some n1) = Some n2 /\ wf n2 /\ same_shape n1 n2 /\ node n2 id = Some u /\ (forall c, net_source n2 id c = net_source n1 id c) /\ (forall c, c < u_outs ops u -> output_source n2 c = Some (SLocal id c))) as (n2 & -> & W2 & S2 & Hn2 & Q2 & Q3).
    { rewrite Eo1. destruct (Nat.ltb_spec 0 (u_outs ops u)) as [L|L].
      - destruct (pipe_output_ok ops n1 id W1 Hc1) as (n2 & E & W2 & S2 & _). exists n2. split; auto. split; auto. split; auto. destruct (pipe_output_effect ops ahash n1 id n2 W1 Hc1 E) as (X1 & X2 & X3 & _). split; [rewrite X3; exact Hn1|]. split; [intros c; apply X1|].
        intros c Hc. rewrite X2. cbn [out_wired]. unfold outputs_in. rewrite Hn1, Eo1. apply Nat.ltb_lt in Hc as Hc'. rewrite Hc'. unfold spread. apply Nat.ltb_lt in L. rewrite L, Nat.mod_small by auto. reflexivity.
      - exists n1. split; auto. split; auto. split; [apply same_shape_refl|]. split; auto. split; auto. intros c Hc. lia. }
    assert (Ei2 : n_in n2 = u_ins ops u) by (rewrite (ss_in _ _ S2), (ss_in _ _ S1); auto). assert (Eo2 : n_out n2 = u_outs ops u) by (rewrite (ss_out _ _ S2); auto).
    assert (U2 : units n2 = [u]) by (unfold units in *; rewrite (ss_units _ _ S2), (ss_units _ _ S1); auto). destruct (map_single _ _ _ U2) as (v & Ev & Eu).
    assert (El2 : lookup (n_index n2) id = Some 0) by (rewrite (ss_index _ _ S2), (ss_index _ _ S1); auto).
    assert (Hsv : sources v = map PGlobal (seq 0 (u_ins ops u))). { apply (sources_eq n2 id v _ PGlobal SGlobal W2 El2 Ev); [now rewrite Eu|intros c Hc; rewrite Q2; auto|apply view_global]. }
    assert (Hso : map e_src (n_oedge n2) = map (PLocal 0) (seq 0 (u_outs ops u))). { apply (outputs_eq n2 _ (PLocal 0) (SLocal id) W2 Eo2 Q3). intros p c. now apply (view_own n2 id v). }
    exists n2. split; auto. split; auto. split; auto. split; auto. split; auto. split; auto. split; [eapply single_acyclic; eauto|].
    intros u0 x u1 o Hx Ho Ht. apply (single_flow n2 v); auto; [now rewrite Hx|]. rewrite Hso. now apply mapM_locals.
  Qed.

  Lemma connect_outputs_ok id is : forall n, wf n -> contains n id -> 0 < outputs_in ops n id -> (forall i, In i is -> i < n_out n) -> exists n', connect_outputs n id is = Some n' /\ wf n' /\ same_shape n n' /\
    (forall k c, net_source n' k c = net_source n k c) /\ forall c, output_source n' c = if existsb (Nat.eqb c) is then Some (SLocal id 0) else output_source n c.
  Proof.
    induction is as [|i is IH]; intros n H Hc Ho Hi; cbn [connect_outputs].
    - exists n. split; auto. split; auto. split; [apply same_shape_refl|auto].
    - assert (Hr : NetSpec.in_range ops n (ConnectOutput id 0 i)) by (cbn; split; auto; split; auto; apply Hi; cbn; auto). destruct (connect_output_ok ops n id 0 i H Hc Ho (Hi i (or_introl eq_refl))) as (n1 & E & W1 & S1). rewrite E.
      destruct (edit_effect zero ops uping ahash n (ConnectOutput id 0 i) n1 H Hr I E) as (X1 & X2 & X3 & _).
      destruct (IH n1 W1) as (n2 & -> & W2 & S2 & Y1 & Y2). { eapply same_shape_contains; eauto. } { unfold outputs_in. rewrite X3. exact Ho. } { intros j Hj. rewrite (ss_out _ _ S1). apply Hi. cbn; auto. }
      exists n2. split; auto. split; auto. split; [eapply same_shape_trans; eauto|]. split; [intros k c; rewrite Y1; apply X1|]. intros c. rewrite Y2, X2. cbn [existsb out_wired]. destruct (existsb (Nat.eqb c) is); [now rewrite orb_true_r|]. rewrite orb_false_r. reflexivity.
  Qed.
  Theorem scalar_ok id channels u : u_ins ops u = 0 -> u_outs ops u = 1 -> exists n, scalar zero ops id channels u = Some n /\ wf n /\ n_in n = 0 /\ n_out n = channels /\ units n = [u] /\ ~ has_cycle n /\
    forall a, u_tick ops u [] = (u, [a]) -> dataflow zero ops n [u] [] [u] [[a]] (repeat a channels).
  Proof.
    intros Hu0 Hu1. unfold scalar. set (ne := net_new 0 channels). assert (We : wf ne) by apply wf_new. assert (Hce : ~ contains ne id) by (unfold contains, ne; cbn; auto). pose proof (wf_push zero ops ne id u We (not_contains _ _ Hce)) as W0.
    destruct (push_effect zero ops ahash ne id u We Hce) as (P1 & P2 & P3 & P4 & P5). set (n0 := push zero ops ne id u) in *.
    assert (El0 : lookup (n_index n0) id = Some 0) by (unfold n0; rewrite push_index, N.eqb_refl; reflexivity). assert (Hc0 : contains n0 id) by (unfold contains; congruence). assert (U0 : units n0 = [u]) by reflexivity.
    assert (Hn0 : node n0 id = Some u) by (rewrite P3; cbn [unit_after]; now rewrite N.eqb_refl). clearbody n0. change (n_in ne) with 0 in P4. change (n_out ne) with channels in P5.
    destruct (connect_outputs_ok id (seq 0 channels) n0 W0 Hc0) as (n & -> & W & S & X1 & X2). { unfold outputs_in. rewrite Hn0, Hu1. lia. } { intros i Hi. apply in_seq in Hi. lia. }
    assert (U2 : units n = [u]) by (unfold units in *; now rewrite (ss_units _ _ S)). destruct (map_single _ _ _ U2) as (v & Ev & Eu). assert (El : lookup (n_index n) id = Some 0) by (rewrite (ss_index _ _ S); auto).
    assert (Eo : n_out n = channels) by (rewrite (ss_out _ _ S); auto).
    assert (Hsv : sources v = map PGlobal (seq 0 (length (@nil A)))). { apply (sources_eq n id v _ PGlobal SGlobal W El Ev); [now rewrite Eu, Hu0|intros c Hc; inversion Hc|apply view_global]. }
    assert (Hso : map e_src (n_oedge n) = map (fun _ => PLocal 0 0) (seq 0 channels)). { apply (outputs_eq n _ (fun _ => PLocal 0 0) (fun _ => SLocal id 0) W Eo); [|intros p c; now apply (view_own n id v)]. intros c Hc. rewrite X2, existsb_seq. apply Nat.ltb_lt in Hc. now rewrite Hc. }
    exists n. split; auto. split; auto. split; [rewrite (ss_in _ _ S); auto|]. split; auto. split; auto. split; [eapply single_acyclic; eauto|].
    intros a Ht. apply (single_flow n v); auto. rewrite Hso, mapM_map. rewrite (mapM_const _ a); [now rewrite seq_length|]. reflexivity.
  Qed.

  (* ---- ordering with units that ignore pings ---- *)
  Lemma ping_vertices_id probe (vs : list vertex) h : (forall b u h, fst (uping b u h) = u) -> fst (ping_vertices uping probe vs h) = vs.
  Proof.
    intros Hp. revert h. induction vs as [|v vs IH]; intros h; cbn; auto. pose proof (Hp probe (v_unit v) h) as E. destruct (uping probe (v_unit v) h) as [u h1]. cbn in E. subst u. specialize (IH h1). destruct (ping_vertices uping probe vs h1) as [r h2]. cbn in *. rewrite IH. f_equal. now destruct v.
  Qed.
  Theorem order_keeps_units n n' e : (forall b u h, fst (uping b u h) = u) -> wf n -> net_error uping ahash n = Some (n', e) -> forall k, node n' k = node n k.
  Proof.
    intros Hp H. unfold net_error, ordered. destruct (n_order n) eqn:Eo; [intros [= <- _]; auto|]. unfold determine_order. set (vs := map (fun v => v_set_sv v (source_vertex v)) (n_vertex n)).
    destruct (net_ping uping ahash true vs 63) as [vs1 h] eqn:E1. destruct (net_ping uping ahash false vs1 h) as [vs2 h2] eqn:E2. unfold net_ping in *.
    pose proof (ping_vertices_id true vs (ahash 63 63) Hp) as X1. rewrite E1 in X1. cbn in X1. subst vs1. pose proof (ping_vertices_id false vs (ahash h 63) Hp) as X2. rewrite E2 in X2. cbn in X2. subst vs2.
    destruct (determine_order_in (adjacency vs)) as [[order ok]|]; [|discriminate]. intros [= <- _]. intros k. unfold node. cbn [n_index n_vertex]. destruct (lookup (n_index n) k) as [i|]; auto. unfold vs. rewrite nth_error_map. destruct (nth_error (n_vertex n) i); auto.
  Qed.

  (* ---- statements in the form used by the properties ---- *)
  Theorem order_correct_net n : wf n -> exists n' order error, net_error uping ahash n = Some (n', error) /\ n_order n' = Some order /\
    Permutation order (seq 0 (length (graph n))) /\ (error = true <-> has_cycle n) /\ (~ has_cycle n -> forall i j, reads (map local_sources (graph n)) i j -> before order j i).
  Proof.
    intros H. destruct (ordered_ok ops uping ahash Hctl n H) as (n' & o & E & W & K & Ho). exists n', o, (n_error n'). unfold net_error. rewrite E. split; auto. split; auto. destruct (order_of_wf ops n' o W Ho) as [[HP HB] He].
    rewrite (kept_graph ops _ _ K) in HB. rewrite (kept_cycle ops _ _ K) in HB, He. split; [|auto]. rewrite <- (kept_graph ops _ _ K). unfold graph. now rewrite map_length.
  Qed.
  Theorem tick_dataflow n : wf n -> ~ has_cycle n -> forall input, length input = n_in n -> exists n0 n' vals out, net_error uping ahash n = Some (n0, false) /\ (n_order n <> None -> n0 = n) /\
    net_tick zero ops uping ahash n input = Some (n', out) /\ length out = n_out n /\ dataflow zero ops n (units n0) input (units n') vals out /\
    forall us vals' out', dataflow zero ops n (units n0) input us vals' out' -> us = units n' /\ vals' = vals /\ out' = out.
  Proof.
    intros H Hc input Hl. destruct (ordered_ok ops uping ahash Hctl n H) as (n0 & o & E & W & K & Ho). assert (Hc0 : ~ has_cycle n0) by (now rewrite (kept_cycle ops _ _ K)). assert (Ho' : n_order n0 <> None) by congruence.
    destruct (ordered_net_tick zero ops uping ahash Hlaws n0 input W Ho') as (n' & out & Et & _ & L & F); [now rewrite (k_in _ _ _ K)|]. destruct (F Hc0) as [vals [D1 D2]].
    assert (D : dataflow zero ops n (units n0) input (units n') vals out). { unfold dataflow. rewrite <- (kept_graph ops _ _ K), <- (k_oedge _ _ _ K). split; auto. }
    exists n0, n', vals, out. unfold net_error. rewrite E. split. { destruct (n_error n0) eqn:En; auto. exfalso. apply Hc0. now apply (order_of_wf ops n0 o W Ho). }
    split. { intros X. unfold ordered in E. destruct (n_order n); [congruence|contradiction]. }
    split. { rewrite <- Et. unfold net_tick. rewrite E. unfold ordered. rewrite Ho. cbn. rewrite ?Ho. reflexivity. }
    split; [rewrite L; apply (k_out _ _ _ K)|]. split; auto. intros us vals' out' [D1' D2']. pose proof (order_topo ops n0 o W Ho Hc0) as T. rewrite (kept_graph ops _ _ K) in T.
    destruct (flow_unique zero ops _ _ _ _ _ _ _ _ T D1' (proj1 D)) as [-> ->]. split; auto. split; auto. destruct D as [_ D]. congruence.
  Qed.
  Theorem check_accepts n : wf n -> (n_order n <> None -> check n = true) /\ (forall n' e, net_error uping ahash n = Some (n', e) -> check n' = true) /\
    (forall input n' out, length input = n_in n -> net_tick zero ops uping ahash n input = Some (n', out) -> check n' = true).
  Proof.
    intros H. split; [now apply (check_ordered zero ops)|]. split.
    - intros n' e. unfold net_error. destruct (ordered_ok ops uping ahash Hctl n H) as (m & o & -> & W & K & Ho). intros [= -> _]. apply (check_ordered zero ops); auto. congruence.
    - intros input n' out Hl E. destruct (ordered_ok ops uping ahash Hctl n H) as (n0 & o & E0 & W & K & Ho). assert (Ho' : n_order n0 <> None) by congruence.
      destruct (ordered_net_tick zero ops uping ahash Hlaws n0 input W Ho') as (n1 & out1 & Et & Pl & _); [now rewrite (k_in _ _ _ K)|].
      assert (Et' : net_tick zero ops uping ahash n input = Some (n1, out1)). { rewrite <- Et. unfold net_tick. rewrite E0. unfold ordered. rewrite Ho. cbn. rewrite ?Ho. reflexivity. }
      assert (n1 = n') by congruence. subst n1. apply (check_ordered zero ops); [now apply (played_wf ops n0)|]. now rewrite (played_order _ _ _ Pl).
  Qed.
End More.
