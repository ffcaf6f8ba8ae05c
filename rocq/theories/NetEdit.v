(* What each edit does. *)
From Verif Require Export NetHistory.

#[local] Arguments iinsert : simpl never.
#[local] Arguments iremove : simpl never.

Section Edit.
  Context {A P U : Type}.
  Variable zero : A.
  Variable ops : unit_ops A P U.
  Variable uping : bool -> U -> N -> U * N.
  Variable ahash : N -> N -> N.
  Notation net := (net A U).
  Notation vertex := (vertex A U).
  Notation wf := (wf ops).
  Hypothesis Hctl : control_laws ops uping.
  Hypothesis Hlaws : unit_laws zero ops.

  Lemma view_ids (n n' : net) p : map v_id (n_vertex n') = map v_id (n_vertex n) -> view n' p = view n p.
  Proof.
    intros E. destruct p as [j q|q|]; auto. cbn. assert (X : option_map v_id (nth_error (n_vertex n') j) = option_map v_id (nth_error (n_vertex n) j)) by (rewrite <- !nth_error_map; congruence).
    destruct (nth_error (n_vertex n') j), (nth_error (n_vertex n) j); cbn in X; congruence.
  Qed.
  Lemma source_eq n k i v c : wf n -> lookup (n_index n) k = Some i -> nth_error (n_vertex n) i = Some v -> net_source n k c = match nth_error (v_src v) c with Some e => view n (e_src e) | None => None end.
  Proof.
    intros H El Ev. unfold net_source. rewrite El, Ev. pose proof (w_vertex _ n H i v Ev) as V. unfold v_inputs. rewrite (vo_tin _ _ _ _ _ _ V), <- (vo_src _ _ _ _ _ _ V).
    destruct (Nat.ltb_spec c (length (v_src v))) as [|L]; auto. apply nth_error_None in L. now rewrite L.
  Qed.
  Lemma output_eq n c : wf n -> output_source n c = match nth_error (n_oedge n) c with Some e => view n (e_src e) | None => None end.
  Proof. intros H. unfold output_source. rewrite <- (w_out _ n H). destruct (Nat.ltb_spec c (length (n_oedge n))) as [|L]; auto. apply nth_error_None in L. now rewrite L. Qed.
  Lemma index_unique n id k i : wf n -> lookup (n_index n) id = Some i -> lookup (n_index n) k = Some i -> id = k.
  Proof. intros H E1 E2. destruct (w_id _ n H id i E1) as (v & Hv & <-). destruct (w_id _ n H k i E2) as (w & Hw & <-). congruence. Qed.

  (* one input is given a new source *)
  Record rewired (n n' : net) (id : N) (tp : nat) (p : port) : Prop := {
    rw_source : forall k c, net_source n' k c = if N.eqb k id && Nat.eqb c tp then view n p else net_source n k c;
    rw_output : forall c, output_source n' c = output_source n c;
    rw_node : forall k, node n' k = node n k;
    rw_ids : map v_id (n_vertex n') = map v_id (n_vertex n)
  }.
  Lemma rewire n n' id t v tp e : wf n -> lookup (n_index n) id = Some t -> nth_error (n_vertex n) t = Some v -> tp < length (v_src v) ->
    n_vertex n' = upd (n_vertex n) t (v_set_src v (upd (v_src v) tp e)) -> n_index n' = n_index n -> n_oedge n' = n_oedge n -> n_out n' = n_out n -> rewired n n' id tp (e_src e).
  Proof.
    intros H El Ev Ht EV EI EO En. assert (Ei : map v_id (n_vertex n') = map v_id (n_vertex n)) by (rewrite EV; now apply map_upd_same with (v := v)). constructor; auto.
    - intros k c. unfold net_source. rewrite EI, EV. destruct (N.eqb_spec k id) as [Ek|Ek].
      + subst k. rewrite El, nth_error_upd_eq, Ev by (eapply nth_error_lt; eauto). cbn [v_set_src v_src v_inputs v_tin]. unfold v_inputs; cbn [v_set_src v_tin].
        pose proof (w_vertex _ n H t v Ev) as V. rewrite (vo_tin _ _ _ _ _ _ V), <- (vo_src _ _ _ _ _ _ V). destruct (Nat.eqb_spec c tp) as [->|Hne]; cbn [andb].
        * apply Nat.ltb_lt in Ht as Ht'. rewrite Ht', nth_error_upd_eq by auto. now apply view_ids.
        * rewrite nth_error_upd_ne by auto. destruct (Nat.ltb c _); auto. destruct (nth_error (v_src v) c); auto. now apply view_ids.
      + cbn [andb]. destruct (lookup (n_index n) k) as [i|] eqn:Ei'; auto. rewrite nth_error_upd_ne by (intros X; subst i; apply Ek; symmetry; eapply index_unique; eauto).
        destruct (nth_error (n_vertex n) i) as [w|]; auto. destruct (Nat.ltb c _); auto. destruct (nth_error (v_src w) c); auto. now apply view_ids.
    - intros c. unfold output_source. rewrite EO, En. destruct (Nat.ltb c _); auto. destruct (nth_error (n_oedge n) c); auto. now apply view_ids.
    - intros k. unfold node. rewrite EI. destruct (lookup (n_index n) k) as [i|]; auto. rewrite EV, nth_error_upd. destruct (Nat.eqb_spec t i) as [->|]; auto.
      pose proof (nth_error_lt _ _ _ Ev) as L. apply Nat.ltb_lt in L. rewrite L, Ev. reflexivity.
  Qed.
  Lemma plug_rewired n t tp p v id n' : wf n -> lookup (n_index n) id = Some t -> nth_error (n_vertex n) t = Some v -> tp < u_ins ops (v_unit v) -> plug n t tp p = Some n' -> rewired n n' id tp p.
  Proof.
    intros H El Ev Ht. unfold plug, put. rewrite Ev. pose proof (w_vertex _ n H t v Ev) as V. rewrite (vo_src _ _ _ _ _ _ V). apply Nat.ltb_lt in Ht as Ht'. rewrite Ht'. intros E. inversion E; subst n'; clear E.
    apply (rewire n _ id t v tp (mkE p (PLocal t tp))); auto. now rewrite (vo_src _ _ _ _ _ _ V).
  Qed.
  (* one output is given a new source *)
  Record rerouted (n n' : net) (g : nat) (p : port) : Prop := {
    rr_source : forall k c, net_source n' k c = net_source n k c;
    rr_output : forall c, output_source n' c = if Nat.eqb c g then view n p else output_source n c;
    rr_node : forall k, node n' k = node n k;
    rr_ids : map v_id (n_vertex n') = map v_id (n_vertex n)
  }.
  Lemma reroute n n' g e : wf n -> g < n_out n -> n_vertex n' = n_vertex n -> n_index n' = n_index n -> n_oedge n' = upd (n_oedge n) g e -> n_out n' = n_out n -> rerouted n n' g (e_src e).
  Proof.
    intros H Hg EV EI EO En. assert (Ev : forall p, view n' p = view n p) by (intros p; apply view_ids; now rewrite EV). constructor.
    - intros k c. unfold net_source. rewrite EI. destruct (lookup (n_index n) k); auto. rewrite EV. destruct (nth_error (n_vertex n) n0); auto. destruct (Nat.ltb c _); auto. destruct (nth_error (v_src v) c); auto.
    - intros c. unfold output_source. rewrite EO, En. destruct (Nat.eqb_spec c g) as [->|Hne].
      + apply Nat.ltb_lt in Hg as Hg'. rewrite Hg', nth_error_upd_eq by (rewrite (w_out _ n H); auto). auto.
      + rewrite nth_error_upd_ne by auto. destruct (Nat.ltb c _); auto. destruct (nth_error (n_oedge n) c); auto.
    - intros k. unfold node. now rewrite EI, EV.
    - now rewrite EV.
  Qed.
  Lemma plug_output_rerouted n g p n' : wf n -> g < n_out n -> plug_output n g p = Some n' -> rerouted n n' g p.
  Proof.
    intros H Hg. unfold plug_output, put. rewrite (w_out _ n H). apply Nat.ltb_lt in Hg as Hg'. rewrite Hg'. intros E. inversion E; subst n'; clear E. apply (reroute n _ g (mkE p (PGlobal g))); auto.
  Qed.

  (* loops *)
  Lemma plug_all_wired id t f chs : forall n n' v, wf n -> lookup (n_index n) id = Some t -> nth_error (n_vertex n) t = Some v -> (forall c, In c chs -> c < u_ins ops (v_unit v)) ->
    (forall c, In c chs -> port_ok (n_in n) (outs_of ops (n_vertex n)) (f c) /\ forall q, f c <> PLocal t q) -> plug_all n t f chs = Some n' ->
    (forall k c, net_source n' k c = if N.eqb k id && existsb (Nat.eqb c) chs then view n (f c) else net_source n k c) /\ (forall c, output_source n' c = output_source n c) /\ (forall k, node n' k = node n k) /\ map v_id (n_vertex n') = map v_id (n_vertex n).
  Proof.
    induction chs as [|c chs IH]; intros n n' v H El Ev Hc Hf; cbn [plug_all].
    - intros [= <-]. split; [|auto]. intros k c. cbn. now rewrite andb_false_r.
    - destruct (plug_ok ops n t c (f c) v H Ev (Hc c (or_introl eq_refl)) (proj1 (Hf c (or_introl eq_refl))) (proj2 (Hf c (or_introl eq_refl)))) as (n1 & E1 & W1 & S1 & V1 & O1 & _). rewrite E1. intros E.
      pose proof (plug_rewired n t c (f c) v id n1 H El Ev (Hc c (or_introl eq_refl)) E1) as R. destruct (same_shape_unit _ _ _ _ S1 Ev) as (v1 & Ev1 & Eu1).
      destruct (IH n1 n' v1 W1) as (I1 & I2 & I3 & I4); auto.
      + now rewrite (ss_index _ _ S1).
      + intros d Hd. rewrite Eu1. apply Hc. now right.
      + intros d Hd. destruct (Hf d (or_intror Hd)). split; auto. eapply same_shape_port; eauto.
      + split; [|split; [|split]].
        * intros k d. rewrite I1, (rw_source _ _ _ _ _ R), (view_ids n n1 _ (rw_ids _ _ _ _ _ R)). cbn [existsb]. destruct (N.eqb k id); cbn [andb]; auto. destruct (existsb (Nat.eqb d) chs); [now rewrite orb_true_r|]. rewrite orb_false_r. destruct (Nat.eqb_spec d c) as [->|]; auto.
        * intros d. rewrite I2. apply (rw_output _ _ _ _ _ R).
        * intros k. rewrite I3. apply (rw_node _ _ _ _ _ R).
        * rewrite I4. apply (rw_ids _ _ _ _ _ R).
  Qed.
  Lemma plug_outputs_wired f chs : forall n n', wf n -> (forall c, In c chs -> c < n_out n /\ port_ok (n_in n) (outs_of ops (n_vertex n)) (f c)) -> plug_outputs n f chs = Some n' ->
    (forall k c, net_source n' k c = net_source n k c) /\ (forall c, output_source n' c = if existsb (Nat.eqb c) chs then view n (f c) else output_source n c) /\ (forall k, node n' k = node n k) /\ map v_id (n_vertex n') = map v_id (n_vertex n).
  Proof.
    induction chs as [|c chs IH]; intros n n' H Hf; cbn [plug_outputs].
    - intros [= <-]. auto.
    - destruct (Hf c (or_introl eq_refl)) as [Hc Hp]. destruct (plug_output_ok ops n c (f c) H Hc Hp) as (n1 & E1 & W1 & S1 & V1 & O1 & _). rewrite E1. intros E. pose proof (plug_output_rerouted n c (f c) n1 H Hc E1) as R.
      destruct (IH n1 n' W1) as (I1 & I2 & I3 & I4); auto.
      + intros d Hd. destruct (Hf d (or_intror Hd)). split; [now rewrite (ss_out _ _ S1)|]. eapply same_shape_port; eauto.
      + split; [|split; [|split]].
        * intros k d. rewrite I1. apply (rr_source _ _ _ _ R).
        * intros d. rewrite I2, (rr_output _ _ _ _ R), (view_ids n n1 _ (rr_ids _ _ _ _ R)). cbn [existsb]. destruct (existsb (Nat.eqb d) chs); [now rewrite orb_true_r|]. rewrite orb_false_r. destruct (Nat.eqb_spec d c) as [->|]; auto.
        * intros k. rewrite I3. apply (rr_node _ _ _ _ R).
        * rewrite I4. apply (rr_ids _ _ _ _ R).
  Qed.
  Lemma existsb_seq c m : existsb (Nat.eqb c) (seq 0 m) = Nat.ltb c m.
  Proof.
    apply eq_true_iff_eq. rewrite existsb_exists, Nat.ltb_lt. split.
    - intros (x & Hx & E). apply in_seq in Hx. apply Nat.eqb_eq in E. lia.
    - intros Hc. exists c. split; [apply in_seq; lia|apply Nat.eqb_refl].
  Qed.

  Lemma view_local (n : net) id i v q : lookup (n_index n) id = Some i -> nth_error (n_vertex n) i = Some v -> v_id v = id -> view n (PLocal i q) = Some (SLocal id q).
  Proof. intros El Ev <-. cbn. now rewrite Ev. Qed.
  Lemma view_wrapped (n : net) k mk mk' c : (forall q, view n (mk q) = Some (mk' q)) -> view n (wrapped k mk c) = Some (spread k mk' c).
  Proof. intros H. unfold wrapped, spread. destruct (Nat.ltb 0 k); auto. Qed.
  Lemma source_beyond n id c : wf n -> contains n id -> inputs_in ops n id <= c -> net_source n id c = None.
  Proof.
    intros H Hc Hi. destruct (contains_index ops n id H Hc) as (i & v & El & Ev & _ & _ & Ei & _). rewrite (source_eq n id i v c H El Ev). pose proof (w_vertex _ n H i v Ev) as V.
    destruct (nth_error (v_src v) c) eqn:E; auto. apply nth_error_lt in E. rewrite (vo_src _ _ _ _ _ _ V) in E. lia.
  Qed.
  Lemma output_beyond (n : net) c : n_out n <= c -> output_source n c = None.
  Proof. intros H. unfold output_source. destruct (Nat.ltb_spec c (n_out n)); auto. lia. Qed.

  Definition effect (n : net) (a : action) (n' : net) : Prop :=
    (forall k c, net_source n' k c = wired ops n a k c) /\ (forall c, output_source n' c = out_wired ops n a c) /\ (forall k, node n' k = unit_after ops n a k) /\ n_in n' = n_in n /\ n_out n' = n_out n.

  Lemma set_source_effect n id c s n' : wf n -> NetSpec.in_range ops n (SetSource id c s) -> set_source n id c s = Some n' -> effect n (SetSource id c s) n'.
  Proof.
    intros H (Hc & Hi & Hs & Hn). destruct (contains_index ops n id H Hc) as (i & v & El & Ev & _ & _ & Ei & _). pose proof (w_vertex _ n H i v Ev) as V.
    destruct (resolve_ok ops n (Some id) s H Hs Hn) as (p & Er & _ & _ & Evw). unfold set_source. rewrite El, Ev, Er. unfold v_inputs. rewrite (vo_tin _ _ _ _ _ _ V), <- Ei. apply Nat.ltb_lt in Hi as Hi'. rewrite Hi'.
    destruct (nth_error_ex (v_src v) c) as [e He]; [rewrite (vo_src _ _ _ _ _ _ V); lia|]. rewrite He. intros E. inversion E; subst n'; clear E.
    pose proof (rewire n (invalidate (n_set_vertex n (upd (n_vertex n) i (v_set_src v (upd (v_src v) c (mkE p (e_tgt e))))))) id i v c (mkE p (e_tgt e)) H El Ev (nth_error_lt _ _ _ He) eq_refl eq_refl eq_refl eq_refl) as R.
    split; [|split; [apply (rw_output _ _ _ _ _ R)|split; [apply (rw_node _ _ _ _ _ R)|auto]]]. intros k d. rewrite (rw_source _ _ _ _ _ R). cbn [e_src]. rewrite Evw. reflexivity.
  Qed.
  Lemma plug_effect n id t tp p v s n' a : wf n -> lookup (n_index n) id = Some t -> nth_error (n_vertex n) t = Some v -> tp < u_ins ops (v_unit v) -> view n p = Some s -> plug n t tp p = Some n' ->
    (forall k d, wired ops n a k d = if N.eqb k id && Nat.eqb d tp then Some s else net_source n k d) -> (forall c, out_wired ops n a c = output_source n c) -> (forall k, unit_after ops n a k = node n k) -> effect n a n'.
  Proof.
    intros H El Ev Ht Es E E1 E2 E3. pose proof (plug_rewired n t tp p v id n' H El Ev Ht E) as R. unfold plug in E. rewrite Ev in E. destruct (put (v_src v) tp (mkE p (PLocal t tp))); [|discriminate]. inversion E; subst n'.
    split; [|split; [|split; [|split; reflexivity]]]; intros; rewrite ?E1, ?E2, ?E3. + now rewrite (rw_source _ _ _ _ _ R), Es. + apply (rw_output _ _ _ _ _ R). + apply (rw_node _ _ _ _ _ R).
  Qed.
  Lemma plug_output_effect n g p s n' a : wf n -> g < n_out n -> view n p = Some s -> plug_output n g p = Some n' ->
    (forall k d, wired ops n a k d = net_source n k d) -> (forall c, out_wired ops n a c = if Nat.eqb c g then Some s else output_source n c) -> (forall k, unit_after ops n a k = node n k) -> effect n a n'.
  Proof.
    intros H Hg Es E E1 E2 E3. pose proof (plug_output_rerouted n g p n' H Hg E) as R. unfold plug_output in E. destruct (put (n_oedge n) g (mkE p (PGlobal g))); [|discriminate]. inversion E; subst n'.
    split; [|split; [|split; [|split; reflexivity]]]; intros; rewrite ?E1, ?E2, ?E3. + apply (rr_source _ _ _ _ R). + now rewrite (rr_output _ _ _ _ R), Es. + apply (rr_node _ _ _ _ R).
  Qed.
  Lemma plug_all_effect n id t v f g n' a : wf n -> lookup (n_index n) id = Some t -> nth_error (n_vertex n) t = Some v ->
    (forall c, port_ok (n_in n) (outs_of ops (n_vertex n)) (f c) /\ forall q, f c <> PLocal t q) -> (forall c, view n (f c) = Some (g c)) -> plug_all n t f (seq 0 (u_ins ops (v_unit v))) = Some n' ->
    (forall k d, wired ops n a k d = if N.eqb k id then (if Nat.ltb d (inputs_in ops n id) then Some (g d) else None) else net_source n k d) -> (forall c, out_wired ops n a c = output_source n c) -> (forall k, unit_after ops n a k = node n k) -> effect n a (invalidate n').
  Proof.
    intros H El Ev Hf Hg E E1 E2 E3. assert (Hc : contains n id) by (unfold contains; congruence). destruct (contains_index ops n id H Hc) as (i & w & El' & Ev' & _ & _ & Ei & _). assert (i = t) by congruence. subst i. assert (w = v) by congruence. subst w.
    assert (Hin : forall c, In c (seq 0 (u_ins ops (v_unit v))) -> c < u_ins ops (v_unit v)) by (intros c Hin; apply in_seq in Hin; lia).
    destruct (plug_all_wired id t f (seq 0 (u_ins ops (v_unit v))) n n' v H El Ev) as (I1 & I2 & I3 & _); auto.
    destruct (plug_all_ok ops t f (seq 0 (u_ins ops (v_unit v))) n v H Ev) as (n'' & E' & _ & S & _); auto. assert (n'' = n') by congruence. subst n''.
    split; [|split; [|split; [|split; [apply (ss_in _ _ S)|apply (ss_out _ _ S)]]]]; intros; rewrite ?E1, ?E2, ?E3; auto.
    - change (net_source (invalidate n') k c) with (net_source n' k c). rewrite I1, existsb_seq, Ei. destruct (N.eqb_spec k id) as [Ek|]; cbn [andb]; auto. subst k. destruct (Nat.ltb_spec c (u_ins ops (v_unit v))); auto. apply source_beyond; auto. lia.
    - change (output_source (invalidate n') c) with (output_source n' c). auto.
    - change (node (invalidate n') k) with (node n' k). auto.
  Qed.

  Lemma push_index n id u k : lookup (n_index (push zero ops n id u)) k = if N.eqb id k then Some (length (n_vertex n)) else lookup (n_index n) k.
  Proof. unfold push. cbn [n_index invalidate n_set_index]. apply lookup_iinsert. Qed.
  Lemma push_effect n id u : wf n -> ~ contains n id -> effect n (Push id u) (push zero ops n id u).
  Proof.
    intros H Hc. apply not_contains in Hc as Hf. pose proof (wf_push zero ops n id u H Hf) as W. set (n' := push zero ops n id u) in *.
    assert (Ev : n_vertex n' = n_vertex n ++ [vertex_new zero ops id (length (n_vertex n)) u]) by reflexivity.
    assert (Hvw : forall p, port_ok (n_in n) (outs_of ops (n_vertex n)) p -> view n' p = view n p).
    { intros p Hp. destruct p as [j q|q|]; auto. apply port_local_inv in Hp as (v & Hv & _). cbn. rewrite nth_error_app1 by (eapply nth_error_lt; eauto). reflexivity. }
    split; [|split; [|split; [|auto]]].
    - intros k c. cbn [wired]. unfold net_source. unfold n' at 1. rewrite push_index. rewrite (N.eqb_sym id k). destruct (N.eqb_spec k id) as [Ek|Ek].
      + rewrite Ev, nth_error_app2, Nat.sub_diag by lia. cbn [nth_error]. unfold v_inputs. cbn [vertex_new v_tin v_src]. rewrite repeat_length. destruct (Nat.ltb_spec c (u_ins ops u)) as [L|]; auto.
        rewrite nth_error_map. destruct (nth_error_ex (seq 0 (u_ins ops u)) c) as [x ->]; [now rewrite seq_length|]. reflexivity.
      + destruct (lookup (n_index n) k) as [i|] eqn:El; auto. destruct (w_id _ n H k i El) as (v & Hv & _). rewrite Ev, nth_error_app1, Hv by (eapply nth_error_lt; eauto). destruct (Nat.ltb c _); auto. destruct (nth_error (v_src v) c) as [e|] eqn:Ee; auto.
        apply Hvw. apply (vo_port _ _ _ _ _ _ (w_vertex _ n H i v Hv) e (nth_error_In _ _ Ee)).
    - intros c. cbn [out_wired]. rewrite !output_eq by auto. unfold n', push. cbn [n_oedge invalidate n_set_index n_set_vertex]. destruct (nth_error (n_oedge n) c) as [e|] eqn:Ee; auto. apply Hvw. apply (w_oport _ n H e (nth_error_In _ _ Ee)).
    - intros k. cbn [unit_after]. unfold node. unfold n' at 1. rewrite push_index. rewrite (N.eqb_sym id k). destruct (N.eqb_spec k id) as [Ek|Ek].
      + rewrite Ev, nth_error_app2, Nat.sub_diag by lia. reflexivity.
      + destruct (lookup (n_index n) k) as [i|] eqn:El; auto. destruct (w_id _ n H k i El) as (v & Hv & _). rewrite Ev, nth_error_app1, Hv by (eapply nth_error_lt; eauto). reflexivity.
  Qed.
  (* changing a unit leaves the connections alone *)
  Lemma unit_effect (n : net) i v v' : nth_error (n_vertex n) i = Some v -> v_src v' = v_src v -> v_id v' = v_id v -> v_tin v' = v_tin v -> let n' := n_set_vertex n (upd (n_vertex n) i v') in
    (forall k c, net_source n' k c = net_source n k c) /\ (forall c, output_source n' c = output_source n c) /\ forall k, node n' k = if match lookup (n_index n) k with Some j => Nat.eqb i j | None => false end then Some (v_unit v') else node n k.
  Proof.
    intros Ev E1 E2 E3 n'. assert (Ei : map v_id (n_vertex n') = map v_id (n_vertex n)) by (unfold n'; cbn; now apply map_upd_same with (v := v)). pose proof (nth_error_lt _ _ _ Ev) as L. split; [|split].
    - intros k c. unfold net_source. cbn [n' n_set_vertex n_index n_vertex]. destruct (lookup (n_index n) k) as [j|]; auto. rewrite nth_error_upd. destruct (Nat.eqb_spec i j) as [->|].
      + apply Nat.ltb_lt in L. rewrite L, Ev. unfold v_inputs. rewrite E1, E3. destruct (Nat.ltb c _); auto. destruct (nth_error (v_src v) c); auto. now apply view_ids.
      + destruct (nth_error (n_vertex n) j) as [w|]; auto. destruct (Nat.ltb c _); auto. destruct (nth_error (v_src w) c); auto. now apply view_ids.
    - intros c. unfold output_source. cbn [n' n_set_vertex n_out n_oedge]. destruct (Nat.ltb c _); auto. destruct (nth_error (n_oedge n) c); auto. now apply view_ids.
    - intros k. unfold node. cbn [n' n_set_vertex n_index n_vertex]. destruct (lookup (n_index n) k) as [j|]; auto. rewrite nth_error_upd. destruct (Nat.eqb_spec i j) as [->|]; auto. apply Nat.ltb_lt in L. now rewrite L.
  Qed.
  Lemma replace_effect n id u n' : wf n -> contains n id -> replace ops n id (fun _ => u) = Some n' -> effect n (Replace id u) n'.
  Proof.
    intros H Hc. destruct (contains_index ops n id H Hc) as (i & v & El & Ev & _ & En & _). unfold replace. rewrite El, Ev. destruct (_ && _)%bool; [|discriminate]. intros E. inversion E; subst n'; clear E.
    destruct (unit_effect n i v (v_set_changed (v_set_unit v u) (n_revision n)) Ev eq_refl eq_refl eq_refl) as (U1 & U2 & U3). split; [exact U1|split; [exact U2|split; [|split; reflexivity]]].
    intros k. rewrite U3. cbn [unit_after]. destruct (N.eqb_spec k id) as [Ek|Ek]; [subst k; now rewrite El, Nat.eqb_refl|]. destruct (lookup (n_index n) k) as [j|] eqn:Ej; auto. destruct (Nat.eqb_spec i j) as [Eij|]; auto. subst j. exfalso. apply Ek. eapply index_unique; eauto.
  Qed.
  Lemma set_effect n s : wf n -> effect n (Set_ s) (net_set ops n s).
  Proof.
    intros H. unfold effect, net_set. cbn [wired out_wired unit_after]. destruct (direction s) as [| | | |id] eqn:Ed; auto. unfold effect. cbn [wired out_wired unit_after].
    destruct (lookup (n_index n) id) as [i|] eqn:El.
    - destruct (w_id _ n H id i El) as (v & Ev & _). rewrite Ev. destruct (unit_effect n i v (v_set_unit v (u_set ops (v_unit v) (peel s))) Ev eq_refl eq_refl eq_refl) as (U1 & U2 & U3). split; [exact U1|split; [exact U2|split; [|split; reflexivity]]].
      intros k. rewrite U3. destruct (N.eqb_spec k id) as [Ek|Ek]; [subst k; rewrite El, Nat.eqb_refl; unfold node; now rewrite El, Ev|]. destruct (lookup (n_index n) k) as [j|] eqn:Ej; auto. destruct (Nat.eqb_spec i j) as [Eij|]; auto. subst j. exfalso. apply Ek. eapply index_unique; eauto.
    - split; [auto|split; [auto|split; [|auto]]]. intros k. destruct (N.eqb_spec k id) as [Ek|Ek]; auto. subst k. unfold node. now rewrite El.
  Qed.
  Lemma pipe_output_effect n s n' : wf n -> contains n s -> pipe_output n s = Some n' -> effect n (PipeOutput s) n'.
  Proof.
    intros H Hs. destruct (contains_index ops n s H Hs) as (i & v & El & Ev & Eid & _ & _ & Eo). unfold pipe_output. rewrite El, Ev. pose proof (w_vertex _ n H i v Ev) as V. unfold v_outputs. rewrite (vo_tout _ _ _ _ _ _ V).
    assert (Hp : forall c, In c (seq 0 (n_out n)) -> c < n_out n /\ port_ok (n_in n) (outs_of ops (n_vertex n)) (wrapped (u_outs ops (v_unit v)) (PLocal i) c)).
    { intros c Hc. apply in_seq in Hc. split; [lia|]. apply wrapped_ok. intros q Hq. eapply port_local; eauto. }
    destruct (plug_outputs_ok ops (wrapped (u_outs ops (v_unit v)) (PLocal i)) (seq 0 (n_out n)) n H Hp) as (n1 & E & _ & S & _). rewrite E. intros E'. inversion E'; subst n'; clear E'.
    destruct (plug_outputs_wired _ _ n n1 H Hp E) as (I1 & I2 & I3 & _). split; [exact I1|split; [|split; [exact I3|split; [apply (ss_in _ _ S)|apply (ss_out _ _ S)]]]].
    intros c. change (output_source (invalidate n1) c) with (output_source n1 c). rewrite I2, existsb_seq. cbn [out_wired]. rewrite Eo. destruct (Nat.ltb_spec c (n_out n)); [|now apply output_beyond].
    apply view_wrapped. intros q. eapply view_local; eauto.
  Qed.
  Lemma pipe_input_effect n t n' : wf n -> contains n t -> pipe_input n t = Some n' -> effect n (PipeInput t) n'.
  Proof.
    intros H Ht. destruct (contains_index ops n t H Ht) as (i & v & El & Ev & Eid & _ & Ei & _). unfold pipe_input. rewrite El, Ev. pose proof (w_vertex _ n H i v Ev) as V. unfold v_inputs. rewrite (vo_tin _ _ _ _ _ _ V).
    destruct (plug_all n i _ _) as [n1|] eqn:E; [|discriminate]. intros E'. inversion E'; subst n'; clear E'.
    apply (plug_all_effect n t i v (wrapped (n_in n) PGlobal) (spread (n_in n) SGlobal)); auto.
    - intros c. split; [apply wrapped_ok; auto|]. intros q. unfold wrapped. destruct (Nat.ltb 0 (n_in n)); discriminate.
    - intros c. now apply view_wrapped.
  Qed.
  Lemma pipe_all_effect n s t n' : wf n -> contains n s -> contains n t -> pipe_all n s t = Some n' -> effect n (PipeAll s t) n'.
  Proof.
    intros H Hs Ht. unfold pipe_all. destruct (N.eqb_spec s t) as [Est|Hne].
    { intros E. inversion E; subst n'; clear E. unfold effect. cbn [wired out_wired unit_after]. apply N.eqb_eq in Est. rewrite Est. auto. }
    destruct (contains_index ops n s H Hs) as (i & v & El & Ev & Eid & _ & _ & Eo). destruct (contains_index ops n t H Ht) as (j & w & Fl & Fv & Fid & _ & Fi & _). rewrite El, Fl, Ev, Fv.
    pose proof (w_vertex _ n H i v Ev) as V. pose proof (w_vertex _ n H j w Fv) as W. unfold v_inputs, v_outputs. rewrite (vo_tout _ _ _ _ _ _ V), (vo_tin _ _ _ _ _ _ W).
    destruct (plug_all n j _ _) as [n1|] eqn:E; [|discriminate]. intros E'. inversion E'; subst n'; clear E'.
    apply (plug_all_effect n t j w (wrapped (u_outs ops (v_unit v)) (PLocal i)) (spread (u_outs ops (v_unit v)) (SLocal s))); auto.
    - intros c. split; [apply wrapped_ok; intros q Hq; eapply port_local; eauto|]. intros q. unfold wrapped. destruct (Nat.ltb 0 _); [|discriminate]. intros X. inversion X; subst. apply Hne. congruence.
    - intros c. apply view_wrapped. intros q. eapply view_local; eauto.
    - intros k d. cbn [wired]. rewrite Eo. destruct (N.eqb_spec s t); [congruence|]. reflexivity.
  Qed.

  Lemma chain_sources_wired id index is : forall n n' v, wf n -> n_order n = None -> lookup (n_index n) id = Some index -> nth_error (n_vertex n) index = Some v -> (forall i, In i is -> i < u_ins ops (v_unit v)) ->
    (forall e q, In e (n_oedge n) -> e_src e <> PLocal index q) -> chain_sources n index is = Some n' ->
    (forall k c, net_source n' k c = if N.eqb k id && existsb (Nat.eqb c) is then (if Nat.eqb (n_out n) 0 then Some SZero else output_source n (c mod n_out n)) else net_source n k c) /\
    (forall c, output_source n' c = output_source n c) /\ (forall k, node n' k = node n k).
  Proof.
    induction is as [|i is IH]; intros n n' v H Ho El Ev Hi He; cbn [chain_sources].
    - intros [= <-]. split; [|auto]. intros k c. cbn. now rewrite andb_false_r.
    - pose proof (w_vertex _ n H index v Ev) as V.
      assert (exists p, (if Nat.ltb 0 (n_out n) then let? e := nth_error (n_oedge n) (i mod n_out n) in Some (e_src e) else Some PZero) = Some p /\ (forall q, p <> PLocal index q) /\ port_ok (n_in n) (outs_of ops (n_vertex n)) p /\ view n p = if Nat.eqb (n_out n) 0 then Some SZero else output_source n (i mod n_out n)) as (p & -> & Hself & Hp & Hvw).
      { destruct (Nat.ltb_spec 0 (n_out n)) as [L|L].
        - pose proof (Nat.mod_upper_bound i (n_out n) ltac:(lia)) as Hm. destruct (nth_error_ex (n_oedge n) (i mod n_out n)) as [e Ee]; [rewrite (w_out _ n H); auto|]. rewrite Ee. exists (e_src e). pose proof (nth_error_In _ _ Ee) as Hin.
          split; auto. split; [intros q; now apply He|]. split; [now apply (w_oport _ n H)|]. rewrite (output_eq n _ H), Ee. destruct (Nat.eqb_spec (n_out n) 0); [lia|reflexivity].
        - exists PZero. split; auto. split; [discriminate|]. split; [exact I|]. destruct (Nat.eqb_spec (n_out n) 0); [reflexivity|lia]. }
      rewrite Ev. destruct (nth_error_ex (v_src v) i) as [e Ee]; [rewrite (vo_src _ _ _ _ _ _ V); apply Hi; now left|]. rewrite Ee. set (n1 := n_set_vertex n _). intros E.
      pose proof (rewire n n1 id index v i (mkE p (e_tgt e)) H El Ev (nth_error_lt _ _ _ Ee) eq_refl eq_refl eq_refl eq_refl) as R.
      assert (W1 : wf n1).
      { assert (W : wf (invalidate n1)).
        { apply wf_set_vertex with (v := v); auto. apply vertex_ok_src; auto; [apply length_upd|].
          intros d e' Hd. apply nth_error_upd_inv in Hd as [(-> & -> & _)|(_ & Hd)]; cbn.
          + split; [now apply (vo_tgt _ _ _ _ _ _ V)|]. split; auto.
          + split; [now apply (vo_tgt _ _ _ _ _ _ V)|]. apply nth_error_In in Hd. split; [now apply (vo_port _ _ _ _ _ _ V)|]. intros q. now apply (vo_self _ _ _ _ _ _ V). }
        unfold invalidate in W. unfold n1 in *. cbn in *. rewrite <- Ho in W. exact W. }
      destruct (IH n1 n' (v_set_src v (upd (v_src v) i (mkE p (e_tgt e)))) W1) as (I1 & I2 & I3); auto.
      + unfold n1. cbn [n_set_vertex n_vertex]. apply nth_error_upd_eq. eapply nth_error_lt; eauto.
      + intros j Hj. cbn. apply Hi. now right.
      + split; [|split].
        * intros k c. rewrite I1, (rw_source _ _ _ _ _ R), (rw_output _ _ _ _ _ R). change (n_out n1) with (n_out n). cbn [existsb e_src]. destruct (N.eqb k id); cbn [andb]; auto. destruct (existsb (Nat.eqb c) is); [now rewrite orb_true_r|]. rewrite orb_false_r. destruct (Nat.eqb_spec c i) as [->|]; auto.
        * intros c. rewrite I2. apply (rw_output _ _ _ _ _ R).
        * intros k. rewrite I3. apply (rw_node _ _ _ _ _ R).
  Qed.
  Lemma chain_effect n id u n' : wf n -> ~ contains n id -> chain zero ops n id u = Some n' -> effect n (Chain id u) n'.
  Proof.
    intros H Hc. destruct (push_effect n id u H Hc) as (P1 & P2 & P3 & _). apply not_contains in Hc as Hf. pose proof (wf_push zero ops n id u H Hf) as W1. unfold chain.
    assert (El : lookup (n_index (push zero ops n id u)) id = Some (length (n_vertex n))) by (rewrite push_index, N.eqb_refl; auto).
    assert (Ev : nth_error (n_vertex (push zero ops n id u)) (length (n_vertex n)) = Some (vertex_new zero ops id (length (n_vertex n)) u)) by (unfold push; cbn; rewrite nth_error_app2, Nat.sub_diag by lia; reflexivity).
    assert (Ein : n_in (push zero ops n id u) = n_in n) by reflexivity. assert (Eout : n_out (push zero ops n id u) = n_out n) by reflexivity.
    assert (Hord : n_order (push zero ops n id u) = None) by reflexivity. assert (Hlen : length (n_vertex (push zero ops n id u)) = S (length (n_vertex n))) by (unfold push; cbn; rewrite app_length; cbn; lia).
    assert (Hself : forall e q, In e (n_oedge (push zero ops n id u)) -> e_src e <> PLocal (length (n_vertex n)) q).
    { unfold push; cbn. intros e q He E. pose proof (w_oport _ n H e He) as Hp. rewrite E in Hp. apply port_local_inv in Hp as (v & Hv & _). apply nth_error_lt in Hv. lia. }
    set (n1 := push zero ops n id u) in *. clearbody n1. assert (Hin : contains n1 id) by (unfold contains; congruence). rewrite El, Hlen.
    assert (Hn1 : node n1 id = Some u) by (rewrite P3; cbn [unit_after]; now rewrite N.eqb_refl). assert (Hi1 : inputs_in ops n1 id = u_ins ops u) by (unfold inputs_in; now rewrite Hn1). assert (Ho1 : outputs_in ops n1 id = u_outs ops u) by (unfold outputs_in; now rewrite Hn1).
    assert (exists n2, (if Nat.eqb (S (length (n_vertex n))) 1 then (if Nat.ltb 0 (n_in n1) then pipe_input n1 id else Some n1) else chain_sources n1 (length (n_vertex n)) (seq 0 (u_ins ops u))) = Some n2 /\ wf n2 /\ contains n2 id /\
      (forall k c, net_source n2 k c = wired ops n (Chain id u) k c) /\ (forall k, node n2 k = unit_after ops n (Chain id u) k) /\ n_in n2 = n_in n /\ n_out n2 = n_out n) as (n2 & -> & W2 & Hin2 & Q1 & Q3 & Q4 & Q5).
    { cbn [wired unit_after]. destruct (Nat.eqb_spec (S (length (n_vertex n))) 1) as [E1|E1].
      - destruct (Nat.eqb_spec (length (n_vertex n)) 0); [|lia]. destruct (Nat.ltb_spec 0 (n_in n1)) as [L|L].
        + destruct (pipe_input_ok ops n1 id W1 Hin) as (n2 & E & W2 & S2 & _). exists n2. split; auto. split; auto. split; [eapply same_shape_contains; eauto|]. destruct (pipe_input_effect n1 id n2 W1 Hin E) as (X1 & X2 & X3 & X4 & X5).
          split; [|split; [|split; [congruence|congruence]]].
          * intros k c. rewrite X1. cbn [wired]. rewrite Hi1, Ein, P1. cbn [wired]. destruct (N.eqb_spec k id); [|reflexivity]. reflexivity.
          * intros k. rewrite X3. apply P3.
        + exists n1. split; auto. split; auto. split; auto. split; [|split; [exact P3|auto]]. intros k c. rewrite P1. cbn [wired]. destruct (N.eqb k id); auto. unfold spread. destruct (Nat.ltb_spec 0 (n_in n)); [lia|reflexivity].
      - assert (Hr : forall i, In i (seq 0 (u_ins ops u)) -> i < u_ins ops (v_unit (vertex_new zero ops id (length (n_vertex n)) u))) by (intros i Hi; apply in_seq in Hi; cbn; lia).
        destruct (chain_sources_ok ops (length (n_vertex n)) (seq 0 (u_ins ops u)) n1 _ W1 Ev Hr Hself Hord) as (n2 & E & W2 & S2 & _). exists n2. split; auto. split; auto. split; [eapply same_shape_contains; eauto|].
        destruct (chain_sources_wired id (length (n_vertex n)) (seq 0 (u_ins ops u)) n1 n2 _ W1 Hord El Ev Hr Hself E) as (X1 & X2 & X3).
        split; [|split; [|split; [rewrite (ss_in _ _ S2); auto|rewrite (ss_out _ _ S2); auto]]].
        + intros k c. rewrite X1, existsb_seq, Eout, P2, P1. cbn [wired out_wired]. destruct (Nat.eqb_spec (length (n_vertex n)) 0); [lia|]. destruct (N.eqb k id); cbn [andb]; auto. destruct (Nat.ltb c (u_ins ops u)); auto.
        + intros k. rewrite X3. apply P3. }
    destruct (pipe_output_ok ops n2 id W2 Hin2) as (n3 & E3 & _). rewrite E3. intros E. inversion E; subst n'; clear E. destruct (pipe_output_effect n2 id n3 W2 Hin2 E3) as (X1 & X2 & X3 & X4 & X5).
    split; [|split; [|split; [|split; cbn [invalidate n_in n_out]; congruence]]].
    - intros k c. change (net_source (invalidate n3) k c) with (net_source n3 k c). rewrite X1. apply Q1.
    - intros c. change (output_source (invalidate n3) c) with (output_source n3 c). rewrite X2. cbn [out_wired]. rewrite Q5. unfold outputs_in. rewrite Q3. cbn [unit_after]. rewrite N.eqb_refl. reflexivity.
    - intros k. change (node (invalidate n3) k) with (node n3 k). rewrite X3. apply Q3.
  Qed.
  Lemma disconnect_effect n id p n' : wf n -> contains n id -> p < inputs_in ops n id -> disconnect n id p = Some n' -> effect n (Disconnect id p) n'.
  Proof.
    intros H Hc Hi. destruct (contains_index ops n id H Hc) as (i & v & El & Ev & _ & _ & Ei & _). pose proof (w_vertex _ n H i v Ev) as V. unfold disconnect. rewrite El, Ev.
    destruct (nth_error_ex (v_src v) p) as [e He]; [rewrite (vo_src _ _ _ _ _ _ V); lia|]. rewrite He. intros E. inversion E; subst n'; clear E.
    pose proof (rewire n (invalidate (n_set_vertex n (upd (n_vertex n) i (v_set_src v (upd (v_src v) p (mkE PZero (e_tgt e))))))) id i v p (mkE PZero (e_tgt e)) H El Ev (nth_error_lt _ _ _ He) eq_refl eq_refl eq_refl eq_refl) as R.
    split; [|split; [apply (rw_output _ _ _ _ _ R)|split; [apply (rw_node _ _ _ _ _ R)|auto]]]. intros k d. rewrite (rw_source _ _ _ _ _ R). reflexivity.
  Qed.
  Lemma set_output_source_effect n c s n' : wf n -> c < n_out n -> source_ok ops n s -> set_output_source n c s = Some n' -> effect n (SetOutputSource c s) n'.
  Proof.
    intros H Hc Hs. destruct (resolve_ok ops n None s H Hs (fun _ => I)) as (p & Er & _ & _ & Evw). unfold set_output_source. apply Nat.ltb_lt in Hc as Hc'. rewrite Hc', Er.
    destruct (nth_error_ex (n_oedge n) c) as [e He]; [rewrite (w_out _ n H); lia|]. rewrite He. intros E. inversion E; subst n'; clear E.
    pose proof (reroute n (invalidate (n_set_oedge n (upd (n_oedge n) c (mkE p (e_tgt e))))) c (mkE p (e_tgt e)) H Hc eq_refl eq_refl eq_refl eq_refl) as R.
    split; [apply (rr_source _ _ _ _ R)|split; [|split; [apply (rr_node _ _ _ _ R)|auto]]]. intros d. rewrite (rr_output _ _ _ _ R). cbn [e_src out_wired]. now rewrite Evw.
  Qed.

  Theorem edit_effect n a n' : wf n -> NetSpec.in_range ops n a -> edit a -> apply zero ops uping ahash a n = Some n' -> effect n a n'.
  Proof.
    intros H Hr He E. destruct a; cbn [edit] in He; try contradiction; cbn [apply] in E.
    - inversion E; subst n'. now apply push_effect.
    - apply replace_effect; auto. apply Hr.
    - now apply set_source_effect.
    - destruct Hr as [Hc Hs]. now apply set_output_source_effect.
    - destruct Hr as (Hne & Hs & Ht & Hsp & Htp). destruct (contains_index ops n s H Hs) as (i & v & El & Ev & Eid & _ & _ & Eo). destruct (contains_index ops n t H Ht) as (j & w & Fl & Fv & Fid & _ & Fi & _).
      unfold connect, connect_index in E. destruct (N.eqb_spec s t); [congruence|]. rewrite El, Fl in E. eapply (plug_effect n t j tp (PLocal i sp) w (SLocal s sp)); eauto; [lia|eapply view_local; eauto].
    - destruct Hr as [Hc Hp]. now apply disconnect_effect.
    - destruct Hr as (Hg & Ht & Htp). destruct (contains_index ops n t H Ht) as (j & w & Fl & Fv & Fid & _ & Fi & _). unfold connect_input, connect_input_index in E. rewrite Fl in E. eapply (plug_effect n t j tp (PGlobal g) w (SGlobal g)); eauto. lia.
    - now apply pipe_input_effect.
    - destruct Hr as (Hs & Hsp & Hg). destruct (contains_index ops n s H Hs) as (i & v & El & Ev & Eid & _ & _ & Eo). unfold connect_output, connect_output_index in E. rewrite El in E. eapply (plug_output_effect n g (PLocal i sp) (SLocal s sp)); eauto. eapply view_local; eauto.
    - eapply (plug_output_effect n g PZero SZero); eauto.
    - now apply pipe_output_effect.
    - destruct Hr as [Hi Ho]. eapply (plug_output_effect n o (PGlobal i) (SGlobal i)); eauto.
    - destruct Hr as [Hs Ht]. now apply pipe_all_effect.
    - now apply chain_effect.
    - inversion E; subst n'. now apply set_effect.
  Qed.

  (* playing does not change the connections *)
  Lemma kept_wires n n' : wf n -> wf n' -> kept ops n n' -> (forall k c, net_source n' k c = net_source n k c) /\ (forall c, output_source n' c = output_source n c) /\ n_in n' = n_in n /\ n_out n' = n_out n /\ (forall k, contains n' k <-> contains n k).
  Proof.
    intros H H' K. pose proof (k_static _ _ _ K) as Hst. apply Forall2_nth in Hst as [Hl Hst].
    assert (Eids : map v_id (n_vertex n') = map v_id (n_vertex n)).
    { apply nth_error_ext. intros i. rewrite !nth_error_map. destruct (nth_error (n_vertex n) i) as [v|] eqn:Ev.
      - destruct (nth_error_ex (n_vertex n') i) as [w Ew]; [rewrite <- Hl; eapply nth_error_lt; eauto|]. rewrite Ew. cbn. f_equal. apply (st_id _ _ _ (Hst i v w Ev Ew)).
      - apply nth_error_None in Ev. rewrite Hl in Ev. apply nth_error_None in Ev. now rewrite Ev. }
    split; [|split; [|split; [apply (k_in _ _ _ K)|split; [apply (k_out _ _ _ K)|]]]].
    - intros k c. destruct (lookup (n_index n) k) as [i|] eqn:El.
      + destruct (w_id _ n H k i El) as (v & Ev & _). destruct (nth_error_ex (n_vertex n') i) as [w Ew]; [rewrite <- Hl; eapply nth_error_lt; eauto|]. rewrite (source_eq n k i v c H El Ev), (source_eq n' k i w c H'); auto; [|now rewrite (k_index _ _ _ K)].
        rewrite (st_src _ _ _ (Hst i v w Ev Ew)). destruct (nth_error (v_src v) c); auto. now apply view_ids.
      + unfold net_source. now rewrite (k_index _ _ _ K), El.
    - intros c. rewrite !output_eq by auto. rewrite (k_oedge _ _ _ K). destruct (nth_error (n_oedge n) c); auto. now apply view_ids.
    - intros k. unfold contains. now rewrite (k_index _ _ _ K).
  Qed.
  Theorem playing_wires n a n' : wf n -> NetSpec.in_range ops n a -> playing a -> apply zero ops uping ahash a n = Some n' ->
    (forall k c, net_source n' k c = net_source n k c) /\ (forall c, output_source n' c = output_source n c) /\ n_in n' = n_in n /\ n_out n' = n_out n /\ (forall k, contains n' k <-> contains n k).
  Proof.
    intros H Hr Hp E. assert (Hok : no_loop_back n a) by (destruct a; cbn in *; try contradiction; exact I). destruct (action_ok zero ops uping ahash Hctl Hlaws n a H Hr Hok) as (n'' & E' & W). assert (n'' = n') by congruence. subst n''. clear E'.
    apply kept_wires; auto. destruct a; cbn [playing] in Hp; try contradiction; cbn [apply] in E.
    - unfold net_error in E. destruct (ordered_ok ops uping ahash Hctl n H) as (m & o & Eo & _ & K & _). rewrite Eo in E. cbn in E. congruence.
    - destruct (net_tick_ok zero ops uping ahash Hctl Hlaws n i H Hr) as (m & out & Et & _ & K & _). rewrite Et in E. cbn in E. congruence.
    - destruct Hr as (Hs & Hi & Ho). destruct (net_process_ok zero ops uping ahash Hctl Hlaws n size inb out H Hs Hi Ho) as (m & out' & Et & _ & K & _). rewrite Et in E. cbn in E. congruence.
    - unfold net_reset in E. set (n0 := n_set_vertex _ _) in E.
      assert (S0 : Forall2 (static ops) (n_vertex n) (n_vertex n0)). { unfold n0. cbn [n_set_vertex n_vertex]. generalize (n_vertex n) as vs. induction vs as [|w vs IH]; cbn [map]; constructor; [|exact IH]. constructor; cbn; auto; [apply (cl_reset_ins _ _ Hctl)|apply (cl_reset_outs _ _ Hctl)]. }
      assert (W0 : wf n0). { unfold n0. apply wf_units; auto. intros v. assert (S : static ops v (v_set_changed (v_set_unit v (u_reset ops (v_unit v))) (n_revision n))) by (constructor; cbn; auto; [apply (cl_reset_ins _ _ Hctl)|apply (cl_reset_outs _ _ Hctl)]). split; auto. split; auto. now apply sized_unit. }
      destruct (ordered_ok ops uping ahash Hctl n0 W0) as (m & o & Eo & _ & K & _). rewrite Eo in E. inversion E; subst m. apply (kept_trans ops n n0); auto. constructor; auto.
  Qed.
End Edit.
