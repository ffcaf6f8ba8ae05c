(* Proofs about the frontend and the backend. *)
From Verif Require Export RealnetSpec NetTags.

#[local] Arguments iinsert : simpl never.
#[local] Arguments iremove : simpl never.

Section Proofs.
  Context {F P U : Type}.
  Variable nm : num F.
  Variable at_ : fade -> F -> F.
  Variable ops : unit_ops F P U.
  Variable sr : F.
  Variable uping : bool -> U -> N -> U * N.
  Variable ahash : N -> N -> N.
  Variable cap : nat.
  Variable dummy : nat -> nat -> U.
  Notation slot := (slotx F U).
  Notation net := (net F slot).
  Notation vertex := (vertex F slot).
  Notation msg := (msg F P U). Notation sys := (sys F P U). Notation qedit := (qedit F U).
  Notation xops := (x_ops nm at_ ops sr).
  Notation xp := (xping uping).
  Notation zero := (n0 nm).
  Notation wf := (NetWf.wf xops).
  Hypothesis Hctl : control_laws ops uping.
  Hypothesis Hdummy : dummy_laws ops dummy.

  Lemma xctl : control_laws xops xp.
  Proof.
    destruct Hctl as [A B C D E G]. constructor; cbn; intros; auto; unfold xping; specialize (E b (x_unit u) h); specialize (G b (x_unit u) h); destruct (uping b (x_unit u) h); cbn in *; auto.
  Qed.

  (* ---- the parts of a network that playing and control leave alone ---- *)
  Definition indexed (n : net) : Prop :=
    (forall id i, lookup (n_index n) id = Some i -> exists v, nth_error (n_vertex n) i = Some v /\ v_id v = id) /\
    (forall i v, nth_error (n_vertex n) i = Some v -> lookup (n_index n) (v_id v) = Some i) /\ NoDup (map fst (n_index n)) /\
    Forall (fun v : vertex => length (v_tin v) = length (v_src v)) (n_vertex n).
  Lemma wf_indexed n : wf n -> indexed n.
  Proof.
    intros W. split; [exact (w_id _ n W)|]. split; [|split; [exact (w_keys _ n W)|]].
    - intros i v E. exact (vo_index _ _ _ _ _ _ (w_vertex _ n W i v E)).
    - apply Forall_forall. intros v Hv. apply In_nth_error in Hv as (i & E). pose proof (w_vertex _ n W i v E) as V. rewrite (vo_tin _ _ _ _ _ _ V). symmetry. apply (vo_src _ _ _ _ _ _ V).
  Qed.

  Definition mark (v : vertex) := (v_id v, v_src v, length (v_tin v)).
  Definition head (n : net) := (n_index n, n_revision n, n_in n, n_out n, n_oedge n, map mark (n_vertex n)).
  Lemma map_nth {X Y Z} (f : X -> Y) (g : Y -> Z) l l' : map f l = map f l' -> map (fun x => g (f x)) l = map (fun x => g (f x)) l'.
  Proof. intros E. rewrite <- !(map_map f g). now rewrite E. Qed.
  Lemma head_ids n n' : head n' = head n -> map v_id (n_vertex n') = map v_id (n_vertex n).
  Proof. unfold head. intros E. assert (Ev : map mark (n_vertex n') = map mark (n_vertex n)) by congruence. exact (map_nth mark (fun q => fst (fst q)) _ _ Ev). Qed.
  Lemma head_nth n n' i v' : head n' = head n -> nth_error (n_vertex n') i = Some v' -> exists v, nth_error (n_vertex n) i = Some v /\ mark v = mark v'.
  Proof.
    unfold head. intros E Hv. assert (Ev : map mark (n_vertex n') = map mark (n_vertex n)) by congruence. assert (X : nth_error (map mark (n_vertex n)) i = Some (mark v')) by (rewrite <- Ev, nth_error_map, Hv; auto).
    rewrite nth_error_map in X. destruct (nth_error (n_vertex n) i) as [v|]; [|discriminate]. exists v. split; auto. cbn in X. congruence.
  Qed.
  Lemma head_indexed n n' : head n' = head n -> indexed n -> indexed n'.
  Proof.
    intros E (H1 & H2 & H3 & H4). pose proof (head_ids n n' E) as Ev. assert (Ei : n_index n' = n_index n) by (unfold head in E; congruence). unfold indexed. rewrite Ei.
    assert (X : forall i, option_map v_id (nth_error (n_vertex n') i) = option_map v_id (nth_error (n_vertex n) i)) by (intros; rewrite <- !nth_error_map; congruence).
    split; [|split; [|split; auto]].
    - intros id i El. destruct (H1 id i El) as (v & Hv & Hid). specialize (X i). rewrite Hv in X. destruct (nth_error (n_vertex n') i) as [v'|] eqn:E'; cbn in X; [|discriminate]. exists v'. split; auto. congruence.
    - intros i v' E'. specialize (X i). rewrite E' in X. destruct (nth_error (n_vertex n) i) as [v|] eqn:Hv; cbn in X; [|discriminate]. replace (v_id v') with (v_id v) by congruence. auto.
    - apply Forall_forall. intros v' Hv'. apply In_nth_error in Hv' as (i & Hi). destruct (head_nth n n' i v' E Hi) as (v & Hv & Em). rewrite Forall_forall in H4. specialize (H4 v (nth_error_In _ _ Hv)). unfold mark in Em. congruence.
  Qed.
  Lemma head_contains n n' id : head n' = head n -> contains n' id <-> contains n id.
  Proof. intros E. unfold contains. assert (Ei : n_index n' = n_index n) by (unfold head in E; congruence). rewrite Ei. reflexivity. Qed.
  Lemma head_view n n' p : head n' = head n -> view n' p = view n p.
  Proof. intros E. apply view_ids. now apply head_ids. Qed.
  Lemma head_connections n n' : head n' = head n -> same_connections n n'.
  Proof.
    intros E. assert (Ei : n_index n' = n_index n) by (unfold head in E; congruence).
    split; [|split; [|split; [|unfold head in E; split; congruence]]].
    - intros k c. unfold net_source. rewrite Ei. destruct (lookup (n_index n) k) as [i|]; auto. destruct (nth_error (n_vertex n') i) as [v'|] eqn:Ev.
      + destruct (head_nth n n' i v' E Ev) as (v & -> & Ef). unfold mark in Ef. unfold v_inputs. replace (length (v_tin v')) with (length (v_tin v)) by congruence. replace (v_src v') with (v_src v) by congruence.
        destruct (Nat.ltb _ _); auto. destruct (nth_error (v_src v) c); auto. now apply head_view.
      + destruct (nth_error (n_vertex n) i) as [v|] eqn:Hv; auto. symmetry in E. destruct (head_nth n' n i v E Hv) as (w & Hw & _). congruence.
    - intros c. unfold output_source. replace (n_out n') with (n_out n) by (unfold head in E; congruence). replace (n_oedge n') with (n_oedge n) by (unfold head in E; congruence). destruct (Nat.ltb _ _); auto. destruct (nth_error _ _); auto. now apply head_view.
    - intros k. unfold contains. now rewrite Ei.
  Qed.

  (* everything but the units is the same *)
  Definition frame_of (v : vertex) := (v_src v, v_in v, v_out v, v_tin v, v_tout v, v_id v, v_sv v, v_changed v).
  Definition shell (n : net) := (n_in n, n_out n, n_oedge n, n_order n, n_index n, n_revision n, map frame_of (n_vertex n)).
  Lemma shell_head n n' : shell n' = shell n -> head n' = head n.
  Proof.
    unfold shell, head. intros E. assert (Ev : map frame_of (n_vertex n') = map frame_of (n_vertex n)) by congruence.
    apply (map_nth frame_of (fun q => match q with (s, _, _, t, _, i, _, _) => (i, s, length t) end)) in Ev. assert (Ev' : map mark (n_vertex n') = map mark (n_vertex n)) by exact Ev. rewrite Ev'. congruence.
  Qed.
  Lemma shell_nth n n' i v' : shell n' = shell n -> nth_error (n_vertex n') i = Some v' -> exists v, nth_error (n_vertex n) i = Some v /\ frame_of v = frame_of v'.
  Proof.
    unfold shell. intros E Hv. assert (Ev : map frame_of (n_vertex n') = map frame_of (n_vertex n)) by congruence. assert (X : nth_error (map frame_of (n_vertex n)) i = Some (frame_of v')) by (rewrite <- Ev, nth_error_map, Hv; auto).
    rewrite nth_error_map in X. destruct (nth_error (n_vertex n) i) as [v|]; [|discriminate]. exists v. split; auto. cbn in X. congruence.
  Qed.
  Lemma shell_wiring n n' : shell n' = shell n -> same_wiring n n'.
  Proof. intros E. split; [apply head_connections; now apply shell_head|]. unfold shell in E. congruence. Qed.

  (* ---- changing the contents of one node ---- *)
  Definition put_unit (n : net) (i : nat) (v : vertex) (x : slot) : net := n_set_vertex n (upd (n_vertex n) i (v_set_unit v x)).
  Lemma shell_put n i v x : nth_error (n_vertex n) i = Some v -> shell (put_unit n i v x) = shell n.
  Proof. intros E. unfold shell. cbn. rewrite (map_upd_same frame_of _ i _ v); auto. Qed.
  Lemma node_put n i v x id : indexed n -> nth_error (n_vertex n) i = Some v -> node (put_unit n i v x) id = if N.eqb (v_id v) id then Some x else node n id.
  Proof.
    intros (H1 & H2 & _) E. unfold node. cbn. destruct (N.eqb_spec (v_id v) id) as [Ee|Hne].
    - subst id. rewrite (H2 i v E). rewrite nth_error_upd_eq by (eapply nth_error_lt; eauto). reflexivity.
    - destruct (lookup (n_index n) id) as [j|] eqn:El; auto. destruct (H1 id j El) as (w & Hw & Hid). destruct (Nat.eq_dec i j) as [Ej|Nj]; [subst j; congruence|]. now rewrite nth_error_upd_ne by auto.
  Qed.
  Lemma node_lookup (n : net) id i v : lookup (n_index n) id = Some i -> nth_error (n_vertex n) i = Some v -> node n id = Some (v_unit v).
  Proof. intros E1 E2. unfold node. now rewrite E1, E2. Qed.
  Lemma node_inv (n : net) id x : node n id = Some x -> exists i v, lookup (n_index n) id = Some i /\ nth_error (n_vertex n) i = Some v /\ v_unit v = x.
  Proof. unfold node. destruct (lookup (n_index n) id) as [i|]; [|discriminate]. destruct (nth_error (n_vertex n) i) as [v|] eqn:E; [|discriminate]. cbn. intros [= <-]. eauto. Qed.
  Lemma node_none n id : indexed n -> (node n id = None <-> ~ contains n id).
  Proof.
    intros (H1 & _). unfold node, contains. destruct (lookup (n_index n) id) as [i|] eqn:E; [|split; auto]. destruct (H1 id i E) as (v & -> & _). cbn. split; [discriminate|]. intros H. exfalso. apply H. discriminate.
  Qed.

  (* settings *)
  Lemma shell_set n p : shell (net_set xops n p) = shell n.
  Proof. unfold net_set. destruct (direction p); auto. destruct (lookup _ _); auto. destruct (nth_error _ _) eqn:E; auto. now apply shell_put. Qed.
  Lemma node_set n p id : indexed n -> node (net_set xops n p) id = option_map (fun x => set_one ops id x p) (node n id).
  Proof.
    intros H. unfold net_set, set_one. destruct (direction p) as [| | | |k]; try (destruct (node n id); reflexivity). destruct (lookup (n_index n) k) as [i|] eqn:El.
    - destruct H as (H1 & H2 & H3). destruct (H1 k i El) as (v & Hv & Hid). rewrite Hv. change (n_set_vertex _ _) with (put_unit n i v (u_set xops (v_unit v) (peel p))).
      rewrite node_put; [|split; auto|auto]. rewrite Hid. destruct (N.eqb_spec k id) as [Ek|Nk]; [subst id; rewrite (node_lookup n k i v); auto|destruct (node n id); auto].
    - destruct (N.eqb_spec k id) as [Ek|Nk]; [|destruct (node n id); auto]. subst k. unfold node. now rewrite El.
  Qed.
  (* edits *)
  Lemma shell_foreign n e : shell (foreign_edit nm n e) = shell n.
  Proof. unfold foreign_edit. destruct (lookup _ _); auto. destruct (nth_error _ _) eqn:E; auto. now apply shell_put. Qed.
  Lemma node_foreign n e id : indexed n -> node (foreign_edit nm n e) id = option_map (fun x => edit_one nm id x e) (node n id).
  Proof.
    intros H. unfold foreign_edit, edit_one. destruct (lookup (n_index n) (q_id e)) as [i|] eqn:El.
    - destruct H as (H1 & H2 & H3). destruct (H1 _ i El) as (v & Hv & Hid). rewrite Hv. unfold v_enqueue. change (n_set_vertex _ _) with (put_unit n i v (enqueue nm (v_unit v) (q_edit e))).
      rewrite node_put; [|split; auto|auto]. rewrite Hid. destruct (N.eqb_spec (q_id e) id) as [Ek|Nk]; [subst id; rewrite (node_lookup n _ i v); auto|destruct (node n id); auto].
    - destruct (N.eqb_spec (q_id e) id) as [Ek|Nk]; [|destruct (node n id); auto]. subst id. unfold node. now rewrite El.
  Qed.
  Lemma shell_indexed n n' : shell n' = shell n -> indexed n -> indexed n'.
  Proof. intros E. apply head_indexed. now apply shell_head. Qed.
  Lemma foreign_all es : forall n, indexed n -> shell (apply_foreign nm n es) = shell n /\ forall id, node (apply_foreign nm n es) id = option_map (fold_left (edit_one nm id) es) (node n id).
  Proof.
    unfold apply_foreign. induction es as [|e r IH]; intros n H; cbn [fold_left]; [split; auto; intros id; destruct (node n id); auto|].
    assert (H' : indexed (foreign_edit nm n e)) by (apply (shell_indexed n); auto; apply shell_foreign). destruct (IH _ H') as [E1 E2]. split; [rewrite E1; apply shell_foreign|]. intros id. rewrite E2, node_foreign by auto. destruct (node n id); auto.
  Qed.
  Lemma apply_edits_foreign es : forall n, indexed n -> (forall e, In e es -> lookup (n_index n) (q_id e) = Some (q_index e)) -> apply_edits nm n es = Some (apply_foreign nm n es).
  Proof.
    unfold apply_foreign. induction es as [|e r IH]; intros n H He; cbn [apply_edits fold_left]; auto. assert (E0 : lookup (n_index n) (q_id e) = Some (q_index e)) by (apply He; now left).
    destruct H as (H1 & H2 & H3). destruct (H1 _ _ E0) as (v & Hv & Hid). rewrite Hv. unfold foreign_edit. rewrite E0, Hv. apply IH.
    - apply (shell_indexed n); [apply shell_put; auto|]. split; auto.
    - intros e' He'. cbn. apply He. now right.
  Qed.

  (* ---- migration ---- *)
  Definition changed_of (n : net) (id : N) : option N := match lookup (n_index n) id with Some i => option_map v_changed (nth_error (n_vertex n) i) | None => None end.
  Lemma shell_changed n n' id : shell n' = shell n -> changed_of n' id = changed_of n id.
  Proof.
    intros E. unfold changed_of. assert (Ei : n_index n' = n_index n) by (unfold shell in E; congruence). rewrite Ei. destruct (lookup (n_index n) id) as [i|]; auto. destruct (nth_error (n_vertex n') i) as [v'|] eqn:Ev.
    - destruct (shell_nth n n' i v' E Ev) as (v & -> & Ef). cbn. unfold frame_of in Ef. congruence.
    - destruct (nth_error (n_vertex n) i) as [v|] eqn:Hv; auto. symmetry in E. destruct (shell_nth n' n i v E Hv) as (w & Hw & _). congruence.
  Qed.
  Definition migrated (old n : net) (id : N) : option slot :=
    match node n id, node old id, changed_of n id with
    | Some x, Some r, Some c => Some (if N.leb c (n_revision old) then take_over r x else x)
    | x, _, _ => x
    end.
  Lemma migrate_loop_ok old l : NoDup (map fst l) -> (forall id i, In (id, i) l -> lookup (n_index old) id = Some i) -> indexed old -> forall n, indexed n ->
    shell (migrate_loop old l n) = shell n /\ forall id, node (migrate_loop old l n) id = match lookup l id with Some _ => migrated old n id | None => node n id end.
  Proof.
    intros Hl Hin (O1 & O2 & O3). induction l as [|[k i] r IH]; intros n H; cbn [migrate_loop lookup]; [auto|]. cbn [map fst] in Hl. inversion Hl as [|? ? Hk Hr]; subst.
    assert (Hin' : forall id i0, In (id, i0) r -> lookup (n_index old) id = Some i0) by (intros; apply Hin; now right).
    set (n1 := match lookup (n_index n) k with None => n | Some j => _ end).
    assert (HA : shell n1 = shell n /\ forall id, node n1 id = if N.eqb k id then migrated old n id else node n id).
    { assert (El : lookup (n_index old) k = Some i) by (apply Hin; now left). destruct (O1 k i El) as (w & Hw & Hwid). unfold n1. destruct (lookup (n_index n) k) as [j|] eqn:Ej.
      - destruct H as (H1 & H2 & H3). destruct (H1 k j Ej) as (v & Hv & Hvid). rewrite Hw, Hv.
        assert (Em : migrated old n k = Some (if N.leb (v_changed v) (n_revision old) then take_over (v_unit w) (v_unit v) else v_unit v)).
        { unfold migrated, changed_of. rewrite (node_lookup n k j v), (node_lookup old k i w), Ej, Hv; auto. }
        destruct (N.leb (v_changed v) (n_revision old)).
        + change (n_set_vertex _ _) with (put_unit n j v (take_over (v_unit w) (v_unit v))). split; [now apply shell_put|]. intros id. rewrite node_put; [|split; auto|auto]. rewrite Hvid. destruct (N.eqb_spec k id) as [Ek|Nk]; [subst id; auto|auto].
        + split; auto. intros id. destruct (N.eqb_spec k id) as [Ek|Nk]; [subst id|auto]. rewrite Em. now apply (node_lookup n k j v).
      - split; auto. intros id. destruct (N.eqb_spec k id) as [Ek|Nk]; [subst id|auto]. unfold migrated, node. now rewrite Ej. }
    destruct HA as [HA1 HA2]. destruct (IH Hr Hin' n1 (shell_indexed n n1 HA1 H)) as [HB1 HB2]. split; [congruence|]. intros id. rewrite HB2.
    destruct (N.eqb_spec k id) as [Ek|Nk].
    - subst id. destruct (lookup r k) eqn:E; [exfalso; apply Hk; apply (proj1 (lookup_key r k)); congruence|]. now rewrite HA2, N.eqb_refl.
    - destruct (lookup r id); [|rewrite HA2; destruct (N.eqb_spec k id); congruence]. unfold migrated. rewrite HA2, (shell_changed n n1 id HA1). destruct (N.eqb_spec k id); congruence.
  Qed.
  Lemma lookup_in m id i : NoDup (map fst m) -> In (id, i) m -> lookup m id = Some i.
  Proof.
    induction m as [|[k j] r IH]; cbn; [intros _ []|]; intros Hd [E|Hi]; inversion Hd as [|? ? Hk Hr]; subst.
    - injection E as -> ->. now rewrite N.eqb_refl.
    - destruct (N.eqb_spec k id) as [Ek|Nk]; [subst k|auto]. exfalso. apply Hk. apply in_map_iff. exists (id, i). auto.
  Qed.
  Lemma migrate_ok old n : indexed old -> indexed n -> shell (migrate old n) = shell n /\ forall id, node (migrate old n) id = migrated old n id.
  Proof.
    intros Ho Hn. destruct (migrate_loop_ok old (n_index old)) with (n := n) as [E1 E2]; auto; [apply Ho|intros; apply lookup_in; auto; apply Ho|]. split; auto. intros id. unfold migrate. rewrite E2.
    destruct (lookup (n_index old) id) eqn:El; auto. unfold migrated. destruct (node n id); auto. unfold node. now rewrite El.
  Qed.

  (* ---- the loop over the messages ---- *)
  Lemma set_edit id x e p : set_one ops id (edit_one nm id x e) p = edit_one nm id (set_one ops id x p) e.
  Proof. unfold set_one, edit_one. destruct (direction p) as [| | | |k]; auto. destruct (N.eqb (q_id e) id), (N.eqb k id); auto. unfold enqueue, x_set_unit. destruct (x_next x); cbn; auto. Qed.
  Lemma set_edits id es : forall x p, set_one ops id (fold_left (edit_one nm id) es x) p = fold_left (edit_one nm id) es (set_one ops id x p).
  Proof. induction es as [|e r IH]; intros x p; cbn; auto. now rewrite IH, set_edit. Qed.
  Lemma sets_edits id ps : forall es x, fold_left (set_one ops id) ps (fold_left (edit_one nm id) es x) = fold_left (edit_one nm id) es (fold_left (set_one ops id) ps x).
  Proof. induction ps as [|p r IH]; intros es x; cbn; auto. rewrite set_edits. apply IH. Qed.
  Definition opt_list {X} (o : option X) : list X := match o with Some x => [x] | None => [] end.
  Lemma drain_ok q : forall old latest, indexed old -> exists old',
    drain nm at_ ops sr q old latest = (old', last (map Some (pending q)) latest) /\ shell old' = shell old /\
    forall id, node old' id = option_map (received nm ops id (settings q) (flat_map snd (removelast (opt_list latest ++ pending q)))) (node old id).
  Proof.
    unfold received. induction q as [|m r IH]; intros old latest H; cbn [drain].
    - exists old. split; auto. split; auto. intros id. cbn. rewrite app_nil_r. destruct latest; cbn; destruct (node old id); auto.
    - destruct m as [n es|p].
      + set (old1 := match latest with Some _ => _ | None => old end). cbn [pending flat_map app settings].
        assert (HA : shell old1 = shell old /\ forall id, node old1 id = option_map (fold_left (edit_one nm id) (match latest with Some (_, es0) => es0 | None => [] end)) (node old id)).
        { unfold old1. destruct latest as [[n0 es0]|]; [now apply foreign_all|]. split; auto. intros id. cbn. destruct (node old id); auto. }
        destruct HA as [HA1 HA2]. destruct (IH old1 (Some (n, es)) (shell_indexed old old1 HA1 H)) as (old' & E & E1 & E2). exists old'.
        split; [|split; [congruence|]].
        * rewrite E. f_equal. change (pending r) with (flat_map (fun m : msg => match m with MNet n es => [(n, es)] | MSet _ => [] end) r). cbn [map].
          destruct (flat_map _ r) as [|b t] eqn:Ef; cbn [map last]; auto. clear. revert b. induction t as [|c t IH]; intros b; cbn; auto.
        * intros id. rewrite E2, HA2. destruct (node old id) as [x|]; cbn [option_map]; auto. f_equal. rewrite sets_edits, <- fold_left_app. f_equal.
          change (flat_map (fun m : msg => match m with MNet n0 es0 => [(n0, es0)] | MSet _ => [] end) r) with (pending r).
          destruct latest as [[n0 es0]|]; cbn [opt_list app removelast flat_map]; auto.
      + cbn [pending flat_map app settings]. assert (E0 : shell (net_set xops old p) = shell old) by apply shell_set. destruct (IH (net_set xops old p) latest (shell_indexed old _ E0 H)) as (old' & E & E1 & E2). exists old'.
        split; auto. split; [congruence|]. intros id. rewrite E2, node_set by auto. destruct (node old id) as [x|]; cbn [option_map]; auto.
  Qed.
End Proofs.
