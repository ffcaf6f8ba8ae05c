(* The invariant of networks, and its preservation by the editing operations other than removal. *)
From Verif Require Export NetSpec BufProofs OrderProofs.

(* ---- lists and maps ---- *)
Lemma upd_app_end {A} (l : list A) x y : upd (l ++ [x]) (length l) y = l ++ [y].
Proof. rewrite upd_app_r by lia. now rewrite Nat.sub_diag. Qed.
Lemma map_upd {X Y} (f : X -> Y) l i x : map f (upd l i x) = upd (map f l) i (f x).
Proof. revert i. induction l as [|a l IH]; intros [|i]; cbn; auto. now rewrite IH. Qed.
Lemma upd_same {X} (l : list X) i x : nth_error l i = Some x -> upd l i x = l.
Proof. revert i. induction l as [|a l IH]; intros [|i] H; cbn in *; try congruence. now rewrite IH. Qed.
Lemma map_upd_same {X Y} (f : X -> Y) l i x v : nth_error l i = Some v -> f x = f v -> map f (upd l i x) = map f l.
Proof. intros H E. rewrite map_upd, E. apply upd_same. now rewrite nth_error_map, H. Qed.
Lemma nth_error_upd_inv {X} (l : list X) i x j y : nth_error (upd l i x) j = Some y ->
  (j = i /\ y = x /\ i < length l) \/ (j <> i /\ nth_error l j = Some y).
Proof.
  rewrite nth_error_upd. destruct (Nat.eqb_spec i j) as [E|E].
  - destruct (Nat.ltb_spec i (length l)); [|discriminate]. intros [= <-]. subst. auto.
  - intros H. right. split; auto.
Qed.
Lemma nth_error_lt {X} (l : list X) i x : nth_error l i = Some x -> i < length l.
Proof. intros H. apply nth_error_Some. congruence. Qed.
Lemma nth_error_ex {X} (l : list X) i : i < length l -> exists x, nth_error l i = Some x.
Proof. intros H. destruct (nth_error l i) eqn:E; eauto. apply nth_error_None in E. lia. Qed.
Lemma In_upd {X} (l : list X) i x y : In y (upd l i x) -> y = x \/ In y l.
Proof. revert i. induction l as [|a l IH]; intros [|i] H; cbn in *; auto; destruct H as [H|H]; auto. destruct (IH _ H); auto. Qed.

Lemma mapM_length {X Y} (f : X -> option Y) l l' : mapM f l = Some l' -> length l' = length l.
Proof. revert l'. induction l as [|a l IH]; cbn; intros l' H; [now inversion H|]. destruct (f a); [|discriminate]. destruct (mapM f l); [|discriminate]. inversion H; subst; cbn. now rewrite IH. Qed.
Lemma mapM_nth {X Y} (f : X -> option Y) l l' : mapM f l = Some l' -> forall i x, nth_error l i = Some x -> exists y, nth_error l' i = Some y /\ f x = Some y.
Proof.
  revert l'. induction l as [|a l IH]; cbn; intros l' H i x Hi; [destruct i; discriminate|].
  destruct (f a) eqn:E; [|discriminate]. destruct (mapM f l) eqn:E2; [|discriminate]. inversion H; subst. destruct i; cbn in *; [inversion Hi; subst; eauto|eauto].
Qed.
Lemma mapM_nth' {X Y} (f : X -> option Y) l l' : mapM f l = Some l' -> forall i y, nth_error l' i = Some y -> exists x, nth_error l i = Some x /\ f x = Some y.
Proof.
  intros H i y Hi. pose proof (mapM_length f l l' H) as Hl. destruct (nth_error_ex l i) as [x Hx]; [rewrite <- Hl; eapply nth_error_lt; eauto|].
  destruct (mapM_nth f l l' H i x Hx) as (y' & Hy & Hf). exists x. split; auto. congruence.
Qed.
Lemma mapM_some {X Y} (f : X -> option Y) l : (forall x, In x l -> f x <> None) -> exists l', mapM f l = Some l'.
Proof.
  induction l as [|a l IH]; cbn; intros H; [eauto|]. destruct (f a) eqn:E; [|exfalso; apply (H a); auto].
  destruct IH as [l' ->]; [intros x Hx; apply H; auto|]. eauto.
Qed.
Lemma mapM_ext {X Y} (f g : X -> option Y) l : (forall x, In x l -> f x = g x) -> mapM f l = mapM g l.
Proof. induction l as [|a l IH]; cbn; intros H; auto. rewrite (H a) by auto. rewrite IH by auto. reflexivity. Qed.
Lemma mapM_map {X Y Z} (f : Y -> option Z) (g : X -> Y) l : mapM f (map g l) = mapM (fun x => f (g x)) l.
Proof. induction l as [|a l IH]; cbn; auto. now rewrite IH. Qed.
Lemma mapM_total {X Y} (f : X -> option Y) (g : X -> Y) l : (forall x, In x l -> f x = Some (g x)) -> mapM f l = Some (map g l).
Proof. induction l as [|a l IH]; cbn; intros H; auto. rewrite (H a) by auto. rewrite IH by auto. reflexivity. Qed.
Lemma mapM_app {X Y} (f : X -> option Y) l m : mapM f (l ++ m) = let? a := mapM f l in let? b := mapM f m in Some (a ++ b).
Proof.
  induction l as [|x l IH]; cbn. { now destruct (mapM f m). }
  destruct (f x); auto. rewrite IH. destruct (mapM f l); auto. destruct (mapM f m); auto.
Qed.

Lemma lookup_iremove m id k : lookup (iremove m id) k = if N.eqb id k then None else lookup m k.
Proof.
  unfold iremove. induction m as [|[a i] m IH]; cbn; [now destruct (N.eqb id k)|]. destruct (N.eqb_spec a id) as [E|E]; cbn.
  - rewrite IH. destruct (N.eqb_spec id k) as [E2|E2]; auto. destruct (N.eqb_spec a k); auto. congruence.
  - destruct (N.eqb_spec a k) as [E2|E2]; auto. destruct (N.eqb_spec id k); auto. congruence.
Qed.
Lemma lookup_iinsert m id i k : lookup (iinsert m id i) k = if N.eqb id k then Some i else lookup m k.
Proof. unfold iinsert. cbn. destruct (N.eqb_spec id k); auto. rewrite lookup_iremove. destruct (N.eqb_spec id k); congruence. Qed.
Lemma in_iremove m id k : In k (map fst (iremove m id)) <-> In k (map fst m) /\ k <> id.
Proof.
  unfold iremove. induction m as [|[a i] m IH]; cbn; [tauto|]. destruct (N.eqb_spec a id) as [E|E]; cbn; rewrite IH; intuition congruence.
Qed.
Lemma keys_iremove m id : NoDup (map fst m) -> NoDup (map fst (iremove m id)).
Proof.
  induction m as [|[a i] m IH]; cbn; intros H; [constructor|]. inversion H; subst.
  destruct (N.eqb_spec a id); cbn; auto. constructor; [|apply IH; auto]. fold (iremove m id). rewrite in_iremove. tauto.
Qed.
Lemma keys_iinsert m id i : NoDup (map fst m) -> NoDup (map fst (iinsert m id i)).
Proof. intros H. unfold iinsert. cbn [map fst]. constructor; [rewrite in_iremove; tauto|now apply keys_iremove]. Qed.
Lemma lookup_key m id : lookup m id <> None <-> In id (map fst m).
Proof. induction m as [|[a i] m IH]; cbn; [tauto|]. destruct (N.eqb_spec a id); [intuition congruence|]. rewrite IH. intuition. Qed.

Section Wf.
  Context {A P U : Type}.
  Variable zero : A.
  Variable ops : unit_ops A P U.
  Notation net := (net A U).
  Notation vertex := (vertex A U).

  Definition outs_of (vs : list vertex) : list nat := map (fun v => u_outs ops (v_unit v)) vs.
  Arguments outs_of : simpl never.
  Definition port_ok (nin : nat) (outs : list nat) (p : port) : Prop :=
    match p with PZero => True | PGlobal q => q < nin | PLocal j q => exists k, nth_error outs j = Some k /\ q < k end.
  Record vertex_ok (nin : nat) (outs : list nat) (m : imap) (i : nat) (v : vertex) : Prop := {
    vo_src : length (v_src v) = u_ins ops (v_unit v);
    vo_in : shaped (u_ins ops (v_unit v)) (v_in v);
    vo_out : shaped (u_outs ops (v_unit v)) (v_out v);
    vo_tin : length (v_tin v) = u_ins ops (v_unit v);
    vo_tout : length (v_tout v) = u_outs ops (v_unit v);
    vo_tgt : forall c e, nth_error (v_src v) c = Some e -> e_tgt e = PLocal i c;
    vo_port : forall e, In e (v_src v) -> port_ok nin outs (e_src e);
    vo_self : forall e q, In e (v_src v) -> e_src e <> PLocal i q;
    vo_index : lookup m (v_id v) = Some i
  }.
  Record wf (n : net) : Prop := {
    w_out : length (n_oedge n) = n_out n;
    w_otgt : forall c e, nth_error (n_oedge n) c = Some e -> e_tgt e = PGlobal c;
    w_oport : forall e, In e (n_oedge n) -> port_ok (n_in n) (outs_of (n_vertex n)) (e_src e);
    w_vertex : forall i v, nth_error (n_vertex n) i = Some v -> vertex_ok (n_in n) (outs_of (n_vertex n)) (n_index n) i v;
    w_id : forall id i, lookup (n_index n) id = Some i -> exists v, nth_error (n_vertex n) i = Some v /\ v_id v = id;
    w_keys : NoDup (map fst (n_index n));
    w_order : forall o, n_order n = Some o ->
      determine_order_in (adjacency (n_vertex n)) = Some (o, negb (n_error n)) /\
      forall i v, nth_error (n_vertex n) i = Some v -> v_sv v = source_vertex v
  }.

  Lemma vertex_ok_src nin outs m i v s : vertex_ok nin outs m i v -> length s = length (v_src v) ->
    (forall c e, nth_error s c = Some e -> e_tgt e = PLocal i c /\ port_ok nin outs (e_src e) /\ forall q, e_src e <> PLocal i q) ->
    vertex_ok nin outs m i (v_set_src v s).
  Proof.
    intros H Hl He. destruct H. constructor; cbn; auto; try congruence.
    - intros c e Hc. apply (He c e Hc).
    - intros e Hin. apply In_nth_error in Hin as (c & Hc). apply (He c e Hc).
    - intros e q Hin. apply In_nth_error in Hin as (c & Hc). apply (He c e Hc).
  Qed.

  Lemma wf_new i o : wf (@net_new A U i o).
  Proof.
    constructor; cbn; auto; try discriminate.
    - now rewrite map_length, seq_length.
    - intros c e H. rewrite nth_error_map in H. destruct (nth_error (seq 0 o) c) eqn:E; [|discriminate]. cbn in H. inversion H; subst. cbn.
      pose proof (nth_error_lt _ _ _ E) as Hc. rewrite seq_length in Hc. rewrite (nth_error_nth' _ c 0) in E by (now rewrite seq_length). rewrite seq_nth in E by auto. now inversion E.
    - intros e H. apply in_map_iff in H as (c & <- & _). exact I.
    - intros [|j] v H; discriminate.
    - constructor.
  Qed.

  Lemma wf_invalidate n : wf n -> wf (invalidate n).
  Proof. intros []. constructor; cbn; auto. discriminate. Qed.

  (* replacing vertex i by one with the same arity and id, and sources in range *)
  Lemma wf_set_vertex n i v v' : wf n -> nth_error (n_vertex n) i = Some v -> v_id v' = v_id v -> u_outs ops (v_unit v') = u_outs ops (v_unit v) ->
    vertex_ok (n_in n) (outs_of (n_vertex n)) (n_index n) i v' ->
    wf (invalidate (n_set_vertex n (upd (n_vertex n) i v'))).
  Proof.
    intros H Hi Hid Ho Hv. assert (E : outs_of (upd (n_vertex n) i v') = outs_of (n_vertex n)) by (eapply map_upd_same; eauto).
    destruct H. constructor; cbn; auto; try rewrite E; auto; try discriminate.
    - intros j w Hj. apply nth_error_upd_inv in Hj as [(-> & -> & _)|(_ & Hj)]; auto.
    - intros id j Hl. destruct (w_id0 id j Hl) as (w & Hw & Hw'). destruct (Nat.eq_dec j i) as [->|Hne].
      + exists v'. rewrite nth_error_upd_eq by (eapply nth_error_lt; eauto). split; auto. congruence.
      + exists w. rewrite nth_error_upd_ne by auto. auto.
  Qed.

  (* ---- push ---- *)
  Lemma lookup_lt n id i : wf n -> lookup (n_index n) id = Some i -> i < length (n_vertex n).
  Proof. intros H Hl. destruct (w_id n H id i Hl) as (v & Hv & _). eapply nth_error_lt; eauto. Qed.
  Lemma port_ok_app nin outs outs' p : port_ok nin outs p -> port_ok nin (outs ++ outs') p.
  Proof. destruct p; cbn; auto. intros (k & Hk & Hq). exists k. split; auto. rewrite nth_error_app1; auto. eapply nth_error_lt; eauto. Qed.
  Lemma port_ok_mono nin nin' outs outs' p : nin <= nin' -> port_ok nin outs p -> port_ok nin' (outs ++ outs') p.
  Proof. intros Hn H. apply port_ok_app. destruct p; cbn in *; auto. lia. Qed.
  Lemma shaped_zero n : shaped n (repeat (repeat zero MAXB) n).
  Proof. split; [apply repeat_length|]. apply Forall_forall. intros x Hx. apply repeat_spec in Hx. subst. apply repeat_length. Qed.
  Lemma nth_error_map_seq' {X} (f : nat -> X) k m c e : nth_error (map f (seq k m)) c = Some e -> c < m /\ e = f (k + c).
  Proof.
    intros H. pose proof (nth_error_lt _ _ _ H) as Hc. rewrite map_length, seq_length in Hc. split; auto.
    rewrite nth_error_map in H. rewrite (nth_error_nth' _ c 0) in H by (now rewrite seq_length). rewrite seq_nth in H by auto. cbn in H. congruence.
  Qed.
  Lemma vertex_ok_new nin outs m id i u : lookup m id = Some i -> vertex_ok nin outs m i (vertex_new zero ops id i u).
  Proof.
    intros H. constructor; cbn; auto; try apply shaped_zero; try apply repeat_length.
    - now rewrite map_length, seq_length.
    - intros c e Hc. apply nth_error_map_seq' in Hc as [_ ->]. reflexivity.
    - intros e Hin. apply in_map_iff in Hin as (c & <- & _). exact I.
    - intros e q Hin. apply in_map_iff in Hin as (c & <- & _). discriminate.
  Qed.
  Lemma wf_push n id u : wf n -> lookup (n_index n) id = None -> wf (push zero ops n id u).
  Proof.
    intros H Hf. unfold push. constructor; cbn [invalidate n_set_index n_set_vertex n_oedge n_out n_in n_vertex n_index n_order n_error].
    - apply (w_out n H).
    - apply (w_otgt n H).
    - intros e He. unfold outs_of. rewrite map_app. apply port_ok_app. now apply (w_oport n H).
    - intros i v Hv. destruct (Nat.lt_ge_cases i (length (n_vertex n))) as [Hi|Hi].
      + rewrite nth_error_app1 in Hv by auto. pose proof (w_vertex n H i v Hv) as V. destruct V. constructor; auto.
        * intros e He. unfold outs_of. rewrite map_app. apply port_ok_app. now apply vo_port0.
        * rewrite lookup_iinsert. destruct (N.eqb_spec id (v_id v)); auto. congruence.
      + rewrite nth_error_app2 in Hv by auto. destruct (i - length (n_vertex n)) as [|[|k]] eqn:E; cbn in Hv; try discriminate. inversion Hv; subst v.
        replace i with (length (n_vertex n)) by lia. apply vertex_ok_new. rewrite lookup_iinsert. now rewrite N.eqb_refl.
    - intros k i Hl. rewrite lookup_iinsert in Hl. destruct (N.eqb_spec id k) as [E|E].
      + inversion Hl; subst. eexists. rewrite nth_error_app2, Nat.sub_diag by lia. cbn. split; eauto.
      + destruct (w_id n H k i Hl) as (v & Hv & Hv'). exists v. split; auto. rewrite nth_error_app1; auto. eapply nth_error_lt; eauto.
    - apply keys_iinsert, (w_keys n H).
    - discriminate.
  Qed.

  (* ---- plugging ---- *)
  (* what editing the connections leaves alone *)
  Record same_shape (n n' : net) : Prop := {
    ss_in : n_in n' = n_in n;
    ss_out : n_out n' = n_out n;
    ss_index : n_index n' = n_index n;
    ss_units : map v_unit (n_vertex n') = map v_unit (n_vertex n);
    ss_rev : n_revision n' = n_revision n;
    ss_err : n_error n' = n_error n
  }.
  Lemma same_shape_refl n : same_shape n n.
  Proof. constructor; auto. Qed.
  Lemma same_shape_trans a b c : same_shape a b -> same_shape b c -> same_shape a c.
  Proof. intros [] []. constructor; congruence. Qed.
  Lemma outs_of_units vs : outs_of vs = map (u_outs ops) (map v_unit vs).
  Proof. unfold outs_of. now rewrite map_map. Qed.
  Lemma same_shape_outs n n' : same_shape n n' -> outs_of (n_vertex n') = outs_of (n_vertex n).
  Proof. intros H. now rewrite !outs_of_units, (ss_units _ _ H). Qed.
  Lemma same_shape_port n n' p : same_shape n n' -> port_ok (n_in n) (outs_of (n_vertex n)) p -> port_ok (n_in n') (outs_of (n_vertex n')) p.
  Proof. intros H. now rewrite (same_shape_outs _ _ H), (ss_in _ _ H). Qed.
  Lemma same_shape_unit n n' i v : same_shape n n' -> nth_error (n_vertex n) i = Some v -> exists v', nth_error (n_vertex n') i = Some v' /\ v_unit v' = v_unit v.
  Proof.
    intros H Hi. pose proof (ss_units _ _ H) as E. assert (Hm : nth_error (map v_unit (n_vertex n')) i = Some (v_unit v)) by (rewrite E, nth_error_map, Hi; auto).
    rewrite nth_error_map in Hm. destruct (nth_error (n_vertex n') i) as [v'|]; [|discriminate]. cbn in Hm. inversion Hm. eauto.
  Qed.

  Lemma plug_ok n t tp p v : wf n -> nth_error (n_vertex n) t = Some v -> tp < u_ins ops (v_unit v) ->
    port_ok (n_in n) (outs_of (n_vertex n)) p -> (forall q, p <> PLocal t q) ->
    exists n', plug n t tp p = Some n' /\ wf n' /\ same_shape n n' /\
      n_vertex n' = upd (n_vertex n) t (v_set_src v (upd (v_src v) tp (mkE p (PLocal t tp)))) /\ n_oedge n' = n_oedge n /\ n_order n' = None.
  Proof.
    intros H Ht Htp Hp Hs. unfold plug, put. rewrite Ht. pose proof (w_vertex n H t v Ht) as V.
    rewrite (vo_src _ _ _ _ _ V). apply Nat.ltb_lt in Htp as Htp'. rewrite Htp'. eexists. split; [reflexivity|]. split; [|split].
    - apply wf_set_vertex with (v := v); auto. apply vertex_ok_src; auto; [apply length_upd|].
      intros c e Hc. apply nth_error_upd_inv in Hc as [(-> & -> & _)|(_ & Hc)]; cbn.
      + repeat split; auto.
      + split; [now apply (vo_tgt _ _ _ _ _ V)|]. apply nth_error_In in Hc. split; [now apply (vo_port _ _ _ _ _ V)|]. intros q. now apply (vo_self _ _ _ _ _ V).
    - constructor; cbn; auto. eapply map_upd_same; eauto.
    - cbn. auto.
  Qed.
  Lemma plug_output_ok n c p : wf n -> c < n_out n -> port_ok (n_in n) (outs_of (n_vertex n)) p ->
    exists n', plug_output n c p = Some n' /\ wf n' /\ same_shape n n' /\ n_vertex n' = n_vertex n /\
      n_oedge n' = upd (n_oedge n) c (mkE p (PGlobal c)) /\ n_order n' = None.
  Proof.
    intros H Hc Hp. unfold plug_output, put. rewrite (w_out n H). apply Nat.ltb_lt in Hc as Hc'. rewrite Hc'. eexists. split; [reflexivity|]. split; [|split].
    - destruct H. constructor; cbn; auto; try discriminate.
      + now rewrite length_upd.
      + intros k e Hk. apply nth_error_upd_inv in Hk as [(-> & -> & _)|(_ & Hk)]; cbn; auto.
      + intros e He. apply In_upd in He as [->|He]; cbn; auto.
    - constructor; cbn; auto.
    - cbn. auto.
  Qed.

  Lemma plug_all_ok t f chs : forall n v, wf n -> nth_error (n_vertex n) t = Some v -> (forall c, In c chs -> c < u_ins ops (v_unit v)) ->
    (forall c, In c chs -> port_ok (n_in n) (outs_of (n_vertex n)) (f c) /\ forall q, f c <> PLocal t q) ->
    exists n', plug_all n t f chs = Some n' /\ wf n' /\ same_shape n n' /\ n_oedge n' = n_oedge n.
  Proof.
    induction chs as [|c chs IH]; intros n v H Ht Hc Hf; cbn.
    - exists n. split; auto. split; auto. split; auto. apply same_shape_refl.
    - destruct (plug_ok n t c (f c) v H Ht (Hc c (or_introl eq_refl)) (proj1 (Hf c (or_introl eq_refl))) (proj2 (Hf c (or_introl eq_refl)))) as (n1 & -> & W1 & S1 & V1 & O1 & _).
      destruct (same_shape_unit _ _ _ _ S1 Ht) as (v1 & Ht1 & E1).
      destruct (IH n1 v1 W1 Ht1) as (n2 & -> & W2 & S2 & O2).
      + intros d Hd. rewrite E1. apply Hc. now right.
      + intros d Hd. destruct (Hf d (or_intror Hd)). split; auto. eapply same_shape_port; eauto.
      + exists n2. split; auto. split; auto. split; [eapply same_shape_trans; eauto|congruence].
  Qed.
  Lemma plug_outputs_ok f chs : forall n, wf n -> (forall c, In c chs -> c < n_out n /\ port_ok (n_in n) (outs_of (n_vertex n)) (f c)) ->
    exists n', plug_outputs n f chs = Some n' /\ wf n' /\ same_shape n n' /\ n_vertex n' = n_vertex n.
  Proof.
    induction chs as [|c chs IH]; intros n H Hf; cbn.
    - exists n. split; auto. split; auto. split; auto. apply same_shape_refl.
    - destruct (plug_output_ok n c (f c) H (proj1 (Hf c (or_introl eq_refl))) (proj2 (Hf c (or_introl eq_refl)))) as (n1 & -> & W1 & S1 & V1 & O1 & _).
      destruct (IH n1 W1) as (n2 & -> & W2 & S2 & V2).
      + intros d Hd. destruct (Hf d (or_intror Hd)). split; [now rewrite (ss_out _ _ S1)|]. eapply same_shape_port; eauto.
      + exists n2. split; auto. split; auto. split; [eapply same_shape_trans; eauto|congruence].
  Qed.

  (* ---- links between the user's view and the invariant ---- *)
  Lemma contains_index n id : wf n -> contains n id -> exists i v, lookup (n_index n) id = Some i /\ nth_error (n_vertex n) i = Some v /\ v_id v = id /\
    node n id = Some (v_unit v) /\ inputs_in ops n id = u_ins ops (v_unit v) /\ outputs_in ops n id = u_outs ops (v_unit v).
  Proof.
    intros H Hc. unfold contains in Hc. destruct (lookup (n_index n) id) as [i|] eqn:E; [|congruence].
    destruct (w_id n H id i E) as (v & Hv & Hi). exists i, v. unfold inputs_in, outputs_in, node. rewrite E, Hv. cbn. repeat split; auto.
  Qed.
  Lemma port_local n i v q : nth_error (n_vertex n) i = Some v -> q < u_outs ops (v_unit v) -> port_ok (n_in n) (outs_of (n_vertex n)) (PLocal i q).
  Proof. intros Hi Hq. cbn. exists (u_outs ops (v_unit v)). unfold outs_of. rewrite nth_error_map, Hi. auto. Qed.
  Lemma port_local_inv n i q : port_ok (n_in n) (outs_of (n_vertex n)) (PLocal i q) -> exists v, nth_error (n_vertex n) i = Some v /\ q < u_outs ops (v_unit v).
  Proof. cbn. intros (k & Hk & Hq). unfold outs_of in Hk. rewrite nth_error_map in Hk. destruct (nth_error (n_vertex n) i) as [v|]; [|discriminate]. cbn in Hk. inversion Hk; subst. eauto. Qed.
  Lemma wrapped_ok n k mk c : (forall q, q < k -> port_ok (n_in n) (outs_of (n_vertex n)) (mk q)) -> port_ok (n_in n) (outs_of (n_vertex n)) (wrapped k mk c).
  Proof. intros H. unfold wrapped. destruct (Nat.ltb_spec 0 k); [|exact I]. apply H. apply Nat.mod_upper_bound. lia. Qed.
  Lemma resolve_ok n node s : wf n -> source_ok ops n s -> (forall q, match node with Some k => s <> SLocal k q | None => True end) ->
    exists p, resolve n node s = Some p /\ port_ok (n_in n) (outs_of (n_vertex n)) p /\ match p with PLocal i _ => match node with Some k => lookup (n_index n) k <> Some i | None => True end | _ => True end /\
      view n p = Some s.
  Proof.
    intros H Hs Hn. destruct s as [id q|q|]; cbn [resolve source_ok] in *.
    - destruct Hs as [Hc Hq]. destruct (contains_index n id H Hc) as (i & v & El & Ev & Eid & _ & _ & Eo).
      assert (match node with Some k => N.eqb id k | None => false end = false) as ->. { destruct node as [k|]; auto. destruct (N.eqb_spec id k); auto. subst k. exfalso. now apply (Hn q). }
      rewrite El, Ev. unfold v_outputs. rewrite (vo_tout _ _ _ _ _ (w_vertex n H i v Ev)). rewrite <- Eo. apply Nat.ltb_lt in Hq as Hq'. rewrite Hq'.
      exists (PLocal i q). split; auto. split; [eapply port_local; eauto; congruence|]. split.
      + destruct node as [k|]; auto. intros E. destruct (w_id n H k i E) as (w & Hw & Hk). assert (w = v) by congruence. subst w. apply (Hn q). congruence.
      + cbn. rewrite Ev. congruence.
    - apply Nat.ltb_lt in Hs as Hs'. rewrite Hs'. exists (PGlobal q). cbn. auto.
    - exists PZero. cbn. auto.
  Qed.

  Lemma set_source_ok n id c s : wf n -> contains n id -> c < inputs_in ops n id -> source_ok ops n s -> (forall q, s <> SLocal id q) ->
    exists n', set_source n id c s = Some n' /\ wf n' /\ same_shape n n'.
  Proof.
    intros H Hc Hi Hs Hn. destruct (contains_index n id H Hc) as (i & v & El & Ev & Eid & _ & Ei & _).
    destruct (resolve_ok n (Some id) s H Hs Hn) as (p & Er & Hp & Hself & _).
    unfold set_source. rewrite El, Ev. pose proof (w_vertex n H i v Ev) as V. unfold v_inputs. rewrite (vo_tin _ _ _ _ _ V), <- Ei.
    apply Nat.ltb_lt in Hi as Hi'. rewrite Hi', Er. destruct (nth_error_ex (v_src v) c) as [e He]; [rewrite (vo_src _ _ _ _ _ V); lia|]. rewrite He.
    eexists. split; [reflexivity|]. split.
    - apply wf_set_vertex with (v := v); auto. apply vertex_ok_src; auto; [apply length_upd|].
      intros d e' Hd. apply nth_error_upd_inv in Hd as [(-> & -> & _)|(_ & Hd)]; cbn.
      + split; [now apply (vo_tgt _ _ _ _ _ V)|]. split; auto. intros q E. subst p. now apply Hself.
      + split; [now apply (vo_tgt _ _ _ _ _ V)|]. apply nth_error_In in Hd. split; [now apply (vo_port _ _ _ _ _ V)|]. intros q. now apply (vo_self _ _ _ _ _ V).
    - constructor; cbn; auto. eapply map_upd_same; eauto.
  Qed.
  Lemma set_output_source_ok n c s : wf n -> c < n_out n -> source_ok ops n s -> exists n', set_output_source n c s = Some n' /\ wf n' /\ same_shape n n'.
  Proof.
    intros H Hc Hs. destruct (resolve_ok n None s H Hs (fun _ => I)) as (p & Er & Hp & _). unfold set_output_source. apply Nat.ltb_lt in Hc as Hc'. rewrite Hc', Er.
    destruct (nth_error_ex (n_oedge n) c) as [e He]; [rewrite (w_out n H); lia|]. rewrite He. eexists. split; [reflexivity|]. split; [|constructor; cbn; auto].
    destruct H. constructor; cbn; auto; try discriminate.
    - now rewrite length_upd.
    - intros k e' Hk. apply nth_error_upd_inv in Hk as [(-> & -> & _)|(_ & Hk)]; cbn; auto.
    - intros e' He'. apply In_upd in He' as [->|He']; cbn; auto.
  Qed.
  Lemma connect_ok n s sp t tp : wf n -> s <> t -> contains n s -> contains n t -> sp < outputs_in ops n s -> tp < inputs_in ops n t ->
    exists n', connect n s sp t tp = Some n' /\ wf n' /\ same_shape n n'.
  Proof.
    intros H Hne Hs Ht Hsp Htp. destruct (contains_index n s H Hs) as (i & v & El & Ev & Eid & _ & _ & Eo).
    destruct (contains_index n t H Ht) as (j & w & Fl & Fv & Fid & _ & Fi & _).
    unfold connect, connect_index. destruct (N.eqb_spec s t); [congruence|]. rewrite El, Fl.
    destruct (plug_ok n j tp (PLocal i sp) w H Fv) as (n' & E & W & S & _); [lia|eapply port_local; eauto; lia| |eauto].
    intros q E. inversion E; subst. apply Hne. congruence.
  Qed.
  Lemma disconnect_ok n id p : wf n -> contains n id -> p < inputs_in ops n id -> exists n', disconnect n id p = Some n' /\ wf n' /\ same_shape n n'.
  Proof.
    intros H Hc Hp. destruct (contains_index n id H Hc) as (i & v & El & Ev & Eid & _ & Ei & _). unfold disconnect. rewrite El, Ev. pose proof (w_vertex n H i v Ev) as V.
    destruct (nth_error_ex (v_src v) p) as [e He]; [rewrite (vo_src _ _ _ _ _ V); lia|]. rewrite He. eexists. split; [reflexivity|]. split.
    - apply wf_set_vertex with (v := v); auto. apply vertex_ok_src; auto; [apply length_upd|].
      intros d e' Hd. apply nth_error_upd_inv in Hd as [(-> & -> & _)|(_ & Hd)]; cbn.
      + split; [now apply (vo_tgt _ _ _ _ _ V)|]. split; auto. discriminate.
      + split; [now apply (vo_tgt _ _ _ _ _ V)|]. apply nth_error_In in Hd. split; [now apply (vo_port _ _ _ _ _ V)|]. intros q. now apply (vo_self _ _ _ _ _ V).
    - constructor; cbn; auto. eapply map_upd_same; eauto.
  Qed.
  Lemma connect_input_ok n g t tp : wf n -> g < n_in n -> contains n t -> tp < inputs_in ops n t -> exists n', connect_input n g t tp = Some n' /\ wf n' /\ same_shape n n'.
  Proof.
    intros H Hg Ht Htp. destruct (contains_index n t H Ht) as (j & w & Fl & Fv & Fid & _ & Fi & _). unfold connect_input, connect_input_index. rewrite Fl.
    destruct (plug_ok n j tp (PGlobal g) w H Fv) as (n' & E & W & S & _); [lia|auto|discriminate|eauto].
  Qed.
  Lemma connect_output_ok n s sp g : wf n -> contains n s -> sp < outputs_in ops n s -> g < n_out n -> exists n', connect_output n s sp g = Some n' /\ wf n' /\ same_shape n n'.
  Proof.
    intros H Hs Hsp Hg. destruct (contains_index n s H Hs) as (i & v & El & Ev & Eid & _ & _ & Eo). unfold connect_output, connect_output_index. rewrite El.
    destruct (plug_output_ok n g (PLocal i sp) H Hg) as (n' & E & W & S & _); [eapply port_local; eauto; lia|eauto].
  Qed.
  Lemma pipe_input_ok n t : wf n -> contains n t -> exists n', pipe_input n t = Some n' /\ wf n' /\ same_shape n n' /\ n_oedge n' = n_oedge n.
  Proof.
    intros H Ht. destruct (contains_index n t H Ht) as (j & w & Fl & Fv & Fid & _ & Fi & _). unfold pipe_input. rewrite Fl, Fv.
    pose proof (w_vertex n H j w Fv) as V. unfold v_inputs. rewrite (vo_tin _ _ _ _ _ V).
    destruct (plug_all_ok j (wrapped (n_in n) PGlobal) (seq 0 (u_ins ops (v_unit w))) n w H Fv) as (n' & -> & W & S & O).
    - intros c Hc. apply in_seq in Hc. lia.
    - intros c Hc. split; [apply wrapped_ok; auto|]. intros q. unfold wrapped. destruct (Nat.ltb 0 (n_in n)); discriminate.
    - eexists. split; [reflexivity|]. split; [now apply wf_invalidate|]. split; [|exact O]. destruct S; constructor; cbn; auto.
  Qed.
  Lemma pipe_output_ok n s : wf n -> contains n s -> exists n', pipe_output n s = Some n' /\ wf n' /\ same_shape n n' /\ n_vertex n' = n_vertex n.
  Proof.
    intros H Hs. destruct (contains_index n s H Hs) as (i & v & El & Ev & Eid & _ & _ & Eo). unfold pipe_output. rewrite El, Ev.
    pose proof (w_vertex n H i v Ev) as V. unfold v_outputs. rewrite (vo_tout _ _ _ _ _ V).
    destruct (plug_outputs_ok (wrapped (u_outs ops (v_unit v)) (PLocal i)) (seq 0 (n_out n)) n H) as (n' & -> & W & S & O).
    - intros c Hc. apply in_seq in Hc. split; [lia|]. apply wrapped_ok. intros q Hq. eapply port_local; eauto.
    - eexists. split; [reflexivity|]. split; [now apply wf_invalidate|]. split; [|exact O]. destruct S; constructor; cbn; auto.
  Qed.
  Lemma pipe_all_ok n s t : wf n -> contains n s -> contains n t -> exists n', pipe_all n s t = Some n' /\ wf n' /\ same_shape n n'.
  Proof.
    intros H Hs Ht. unfold pipe_all. destruct (N.eqb_spec s t) as [E|Hne]; [exists n; split; auto; split; auto; apply same_shape_refl|].
    destruct (contains_index n s H Hs) as (i & v & El & Ev & Eid & _ & _ & Eo). destruct (contains_index n t H Ht) as (j & w & Fl & Fv & Fid & _ & Fi & _). rewrite El, Fl, Ev, Fv.
    pose proof (w_vertex n H i v Ev) as V. pose proof (w_vertex n H j w Fv) as W. unfold v_inputs, v_outputs. rewrite (vo_tout _ _ _ _ _ V), (vo_tin _ _ _ _ _ W).
    destruct (plug_all_ok j (wrapped (u_outs ops (v_unit v)) (PLocal i)) (seq 0 (u_ins ops (v_unit w))) n w H Fv) as (n' & -> & W' & S & O).
    - intros c Hc. apply in_seq in Hc. lia.
    - intros c Hc. split; [apply wrapped_ok; intros q Hq; eapply port_local; eauto|]. intros q. unfold wrapped. destruct (Nat.ltb 0 (u_outs ops (v_unit v))); [|discriminate].
      intros E. inversion E; subst. apply Hne. congruence.
    - eexists. split; [reflexivity|]. split; [now apply wf_invalidate|]. destruct S; constructor; cbn; auto.
  Qed.

  Lemma chain_sources_ok index is : forall n v, wf n -> nth_error (n_vertex n) index = Some v -> (forall i, In i is -> i < u_ins ops (v_unit v)) ->
    (forall e q, In e (n_oedge n) -> e_src e <> PLocal index q) -> n_order n = None ->
    exists n', chain_sources n index is = Some n' /\ wf n' /\ same_shape n n' /\ n_oedge n' = n_oedge n.
  Proof.
    induction is as [|i is IH]; intros n v H Hv Hi He Hord; cbn [chain_sources].
    - exists n. split; auto. split; auto. split; auto. apply same_shape_refl.
    - pose proof (w_vertex n H index v Hv) as V.
      assert (exists p, (if Nat.ltb 0 (n_out n) then let? e := nth_error (n_oedge n) (i mod n_out n) in Some (e_src e) else Some PZero) = Some p /\
                port_ok (n_in n) (outs_of (n_vertex n)) p /\ forall q, p <> PLocal index q) as (p & -> & Hp & Hself).
      { destruct (Nat.ltb_spec 0 (n_out n)) as [Ho|Ho]; [|exists PZero; cbn; repeat split; auto; discriminate].
        destruct (nth_error_ex (n_oedge n) (i mod n_out n)) as [e Ee]; [rewrite (w_out n H); apply Nat.mod_upper_bound; lia|]. rewrite Ee.
        apply nth_error_In in Ee. exists (e_src e). split; auto. split; [now apply (w_oport n H)|]. intros q. now apply He. }
      rewrite Hv. destruct (nth_error_ex (v_src v) i) as [e Ee]; [rewrite (vo_src _ _ _ _ _ V); apply Hi; now left|]. rewrite Ee.
      set (v1 := v_set_src v (upd (v_src v) i (mkE p (e_tgt e)))). set (n1 := n_set_vertex n (upd (n_vertex n) index v1)).
      assert (W1 : wf n1).
      { assert (wf (invalidate n1)) as W.
        { apply wf_set_vertex with (v := v); auto. apply vertex_ok_src; auto; [apply length_upd|].
          intros d e' Hd. apply nth_error_upd_inv in Hd as [(-> & -> & _)|(_ & Hd)]; cbn.
          + split; [now apply (vo_tgt _ _ _ _ _ V)|]. split; auto.
          + split; [now apply (vo_tgt _ _ _ _ _ V)|]. apply nth_error_In in Hd. split; [now apply (vo_port _ _ _ _ _ V)|]. intros q. now apply (vo_self _ _ _ _ _ V). }
        unfold invalidate in W. unfold n1 in *. cbn in *. rewrite <- Hord in W. exact W. }
      assert (S1 : same_shape n n1) by (constructor; cbn; auto; eapply map_upd_same; eauto).
      destruct (IH n1 v1 W1) as (n2 & -> & W2 & S2 & O2); auto.
      + cbn. apply nth_error_upd_eq. eapply nth_error_lt; eauto.
      + intros k Hk. cbn. apply Hi. now right.
      + exists n2. split; auto. split; auto. split; [eapply same_shape_trans; eauto|]. rewrite O2. reflexivity.
  Qed.
  Lemma same_shape_contains n n' id : same_shape n n' -> contains n id -> contains n' id.
  Proof. intros S. unfold contains. now rewrite (ss_index _ _ S). Qed.
  Lemma chain_ok n id u : wf n -> ~ contains n id -> exists n', chain zero ops n id u = Some n' /\ wf n'.
  Proof.
    intros H Hc. assert (Hf : lookup (n_index n) id = None) by (unfold contains in Hc; destruct (lookup (n_index n) id); auto; exfalso; apply Hc; congruence).
    pose proof (wf_push n id u H Hf) as W1. unfold chain. set (n1 := push zero ops n id u) in *.
    assert (El : lookup (n_index n1) id = Some (length (n_vertex n))) by (unfold n1, push; cbn [n_index invalidate n_set_index]; rewrite lookup_iinsert; now rewrite N.eqb_refl).
    assert (Hin : contains n1 id) by (unfold contains; congruence). rewrite El.
    assert (exists n2, (if Nat.eqb (length (n_vertex n1)) 1 then (if Nat.ltb 0 (n_in n1) then pipe_input n1 id else Some n1) else chain_sources n1 (length (n_vertex n)) (seq 0 (u_ins ops u))) = Some n2 /\ wf n2 /\ same_shape n1 n2) as (n2 & -> & W2 & S2).
    { destruct (Nat.eqb (length (n_vertex n1)) 1).
      - destruct (Nat.ltb 0 (n_in n1)); [|exists n1; split; auto; split; auto; apply same_shape_refl].
        destruct (pipe_input_ok n1 id W1 Hin) as (n2 & E & W & S & _). eauto.
      - destruct (chain_sources_ok (length (n_vertex n)) (seq 0 (u_ins ops u)) n1 (vertex_new zero ops id (length (n_vertex n)) u) W1) as (n2 & E & W & S & _); eauto.
        + unfold n1, push; cbn. rewrite nth_error_app2, Nat.sub_diag by lia. reflexivity.
        + intros i Hi. apply in_seq in Hi. cbn. lia.
        + unfold n1, push; cbn. intros e q He E. pose proof (w_oport n H e He) as Hp. rewrite E in Hp. apply port_local_inv in Hp as (v & Hv & _). apply nth_error_lt in Hv. lia. }
    destruct (pipe_output_ok n2 id W2 (same_shape_contains _ _ _ S2 Hin)) as (n3 & -> & W3 & _). eexists. split; [reflexivity|now apply wf_invalidate].
  Qed.
End Wf.
Arguments outs_of : simpl never.
