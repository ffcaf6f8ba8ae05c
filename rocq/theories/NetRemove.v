(* Removal of a node. *)
From Verif Require Export NetWf.
Arguments retarget : simpl never.

Section Remove.
  Context {A P U : Type}.
  Variable ops : unit_ops A P U.
  Notation net := (net A U).
  Notation vertex := (vertex A U).
  Notation wf := (wf ops).

  (* what a port becomes when the node with sources vsrc at index ni is removed *)
  Definition redir (ni : nat) (link : bool) (vsrc : list edge) (p : port) : port :=
    match p with
    | PLocal j q => if Nat.eqb j ni then if link then e_src (nth q vsrc (mkE PZero PZero)) else PZero else p
    | _ => p
    end.
  Definition redir_edge ni link vsrc (e : edge) : edge := mkE (redir ni link vsrc (e_src e)) (e_tgt e).
  Definition redir_v ni link vsrc (v : vertex) : vertex := v_set_src v (map (redir_edge ni link vsrc) (v_src v)).

  Lemma v_set_src_id (v : vertex) : v_set_src v (v_src v) = v.
  Proof. now destruct v. Qed.
  Lemma set_src_back (v w : vertex) X : w = v_set_src v X -> v_set_src (v_set_src v X) (v_src w) = w.
  Proof. intros ->. reflexivity. Qed.
  Lemma map_redir_self ni link vsrc (l : list edge) : (forall e q, In e l -> e_src e <> PLocal ni q) -> map (redir_edge ni link vsrc) l = l.
  Proof.
    intros H. induction l as [|e l IH]; cbn; auto. rewrite IH by (intros; apply H; now right). f_equal.
    unfold redir_edge, redir. destruct e as [s t]; cbn in *. destruct s as [j q|q|]; auto.
    destruct (Nat.eqb_spec j ni); auto. subst. exfalso. eapply (H (mkE (PLocal ni q) t) q); cbn; auto.
  Qed.

  Section One.
    Variables (ni : nat) (link : bool) (vni : vertex) (nin : nat) (outs : list nat).
    Hypothesis Hself : forall e q, In e (v_src vni) -> e_src e <> PLocal ni q.
    (* ports of the removed node are below the number of its inputs, if they are to be linked *)
    Hypothesis Houts : forall q, port_ok nin outs (PLocal ni q) -> link = true -> q < length (v_src vni).

    Lemma redirect_eq vs p : nth_error vs ni = Some vni -> port_ok nin outs p -> redirect ni link vs p = Some (redir ni link (v_src vni) p).
    Proof.
      intros Hn Hp. unfold redirect, redir. destruct p as [j q|q|]; auto. destruct (Nat.eqb_spec j ni) as [E|E]; auto. subst j.
      destruct link eqn:El; auto. rewrite Hn. rewrite (nth_error_nth' _ q (mkE PZero PZero)); auto.
    Qed.
    Lemma redirect_outputs_eq vs es : nth_error vs ni = Some vni -> (forall e, In e es -> port_ok nin outs (e_src e)) ->
      redirect_outputs ni link vs es = Some (map (redir_edge ni link (v_src vni)) es).
    Proof. intros Hn He. unfold redirect_outputs. apply mapM_total. intros e Hin. rewrite (redirect_eq vs _ Hn (He e Hin)). reflexivity. Qed.
    Lemma redirect_channels_eq w v : forall suf pre vs, nth_error vs w = Some (v_set_src v (map (redir_edge ni link (v_src vni)) pre ++ suf)) ->
      nth_error vs ni = Some vni -> (w = ni -> v_src vni = pre ++ suf) ->
      (forall e, In e suf -> port_ok nin outs (e_src e)) ->
      redirect_channels ni link w (seq (length pre) (length suf)) vs = Some (upd vs w (v_set_src v (map (redir_edge ni link (v_src vni)) (pre ++ suf)))).
    Proof.
      induction suf as [|e suf IH]; intros pre vs Hw Hn Hwn Hp; cbn [length seq redirect_channels].
      - rewrite app_nil_r in *. f_equal. symmetry. now apply upd_same.
      - rewrite Hw. cbn [v_set_src v_src]. rewrite nth_error_app2, map_length, Nat.sub_diag by (rewrite map_length; lia). cbn [nth_error].
        rewrite (redirect_eq vs _ Hn) by (apply Hp; now left).
        assert (Eu : upd (map (redir_edge ni link (v_src vni)) pre ++ e :: suf) (length pre) (mkE (redir ni link (v_src vni) (e_src e)) (e_tgt e)) = map (redir_edge ni link (v_src vni)) (pre ++ [e]) ++ suf).
        { rewrite upd_app_r by (rewrite map_length; lia). rewrite map_length, Nat.sub_diag. cbn. rewrite map_app, <- app_assoc. reflexivity. }
        rewrite Eu. specialize (IH (pre ++ [e])). rewrite app_length in IH. cbn [length] in IH. rewrite Nat.add_1_r in IH.
        replace (pre ++ e :: suf) with ((pre ++ [e]) ++ suf) by (now rewrite <- app_assoc).
        assert (Hlt : w < length vs) by (eapply nth_error_lt; eauto).
        rewrite IH.
        + f_equal. clear. revert w. induction vs as [|a vs IHv]; intros [|w]; cbn; auto. now rewrite IHv.
        + rewrite nth_error_upd_eq by auto. reflexivity.
        + destruct (Nat.eq_dec w ni) as [E|E]; [|now rewrite nth_error_upd_ne by auto]. rewrite E in *. rewrite nth_error_upd_eq by auto.
          rewrite Hn in Hw. specialize (Hwn eq_refl).
          assert (Hid : map (redir_edge ni link (v_src vni)) (pre ++ [e]) ++ suf = v_src vni).
          { transitivity ((pre ++ [e]) ++ suf); [|rewrite <- app_assoc; symmetry; exact Hwn]. f_equal. apply map_redir_self.
            intros x q Hx. apply Hself. rewrite Hwn. apply in_app_iff in Hx as [Hx|[<-|[]]]; rewrite in_app_iff; cbn; auto. }
          rewrite Hid. f_equal. apply set_src_back. congruence.
        + intros E. rewrite <- app_assoc. cbn. auto.
        + intros x Hx. apply Hp. now right.
    Qed.
    Lemma redirect_vertices_eq : forall suf pre vs, vs = map (redir_v ni link (v_src vni)) pre ++ suf ->
      nth_error (pre ++ suf) ni = Some vni -> (forall v, In v suf -> length (v_tin v) = length (v_src v) /\ forall e, In e (v_src v) -> port_ok nin outs (e_src e)) ->
      redirect_vertices ni link (seq (length pre) (length suf)) vs = Some (map (redir_v ni link (v_src vni)) (pre ++ suf)).
    Proof.
      assert (Hfix : redir_v ni link (v_src vni) vni = vni).
      { unfold redir_v. rewrite (map_redir_self ni link (v_src vni) (v_src vni) Hself). apply v_set_src_id. }
      induction suf as [|v suf IH]; intros pre vs Hvs Hn Hv; cbn [length seq redirect_vertices].
      - rewrite app_nil_r in *. congruence.
      - destruct (Hv v (or_introl eq_refl)) as [Hl Hp].
        assert (Hw : nth_error vs (length pre) = Some v) by (rewrite Hvs, nth_error_app2, map_length, Nat.sub_diag by (rewrite map_length; lia); reflexivity).
        rewrite Hw. assert (Hni : nth_error vs ni = Some vni).
        { rewrite Hvs. destruct (Nat.lt_ge_cases ni (length pre)) as [Hlt|Hge].
          - rewrite nth_error_app1 in Hn by auto. rewrite nth_error_app1 by (now rewrite map_length). rewrite nth_error_map, Hn. cbn. now rewrite Hfix.
          - rewrite nth_error_app2 in Hn by auto. rewrite nth_error_app2 by (now rewrite map_length). now rewrite map_length. }
        unfold v_inputs. rewrite Hl.
        pose proof (redirect_channels_eq (length pre) v (v_src v) [] vs) as HC. cbn [length app map] in HC. rewrite v_set_src_id in HC.
        rewrite HC; auto.
        + fold (redir_v ni link (v_src vni) v). rewrite Hvs. rewrite upd_app_r by (rewrite map_length; lia). rewrite map_length, Nat.sub_diag. cbn [upd].
          replace (pre ++ v :: suf) with ((pre ++ [v]) ++ suf) by (now rewrite <- app_assoc).
          specialize (IH (pre ++ [v])). rewrite app_length in IH. cbn [length] in IH. rewrite Nat.add_1_r in IH. apply IH.
          * rewrite map_app, <- app_assoc. reflexivity.
          * now rewrite <- app_assoc.
          * intros x Hx. apply Hv. now right.
        + intros E. rewrite E in Hw. rewrite Hni in Hw. congruence.
    Qed.
  End One.

  (* the new index of a remaining vertex *)
  Definition moved (last ni i : nat) : nat := if Nat.eqb i last then ni else i.
  Definition final_edge (last ni : nat) link vsrc (i c : nat) (e : edge) : edge :=
    mkE (rename last ni (redir ni link vsrc (e_src e))) (PLocal (moved last ni i) c).

  Lemma nth_error_combine_seq {X} (l : list X) k c : nth_error (combine (seq k (length l)) l) c = option_map (fun x => (k + c, x)) (nth_error l c).
  Proof.
    revert k c. induction l as [|a l IH]; intros k [|c]; cbn; auto; [now rewrite Nat.add_0_r|]. rewrite IH. now rewrite Nat.add_succ_r.
  Qed.
  Lemma nth_error_retarget i es c : nth_error (retarget i es) c = option_map (fun e => mkE (e_src e) (PLocal i c)) (nth_error es c).
  Proof. unfold retarget. rewrite nth_error_map, nth_error_combine_seq. destruct (nth_error es c); reflexivity. Qed.
  Lemma nth_error_removelast {X} (l : list X) i : i < length l - 1 -> nth_error (removelast l) i = nth_error l i.
  Proof.
    intros H. destruct l as [|a l'] using rev_ind; [cbn in H; lia|]. rewrite removelast_last. rewrite app_length in H. cbn in H. now rewrite nth_error_app1 by lia.
  Qed.
  Lemma length_removelast {X} (l : list X) : length (removelast l) = length l - 1.
  Proof. destruct l as [|a l'] using rev_ind; auto. rewrite removelast_last, app_length. cbn. lia. Qed.

  Lemma remove_2_eq n id link ni vni : wf n -> lookup (n_index n) id = Some ni -> nth_error (n_vertex n) ni = Some vni ->
    (link = true -> u_ins ops (v_unit vni) = u_outs ops (v_unit vni)) ->
    let last := length (n_vertex n) - 1 in
    exists n', remove_2 n id link = Some (n', v_unit vni) /\ n_in n' = n_in n /\ n_out n' = n_out n /\ n_order n' = None /\
      n_oedge n' = map (rename_edge last ni) (map (redir_edge ni link (v_src vni)) (n_oedge n)) /\
      length (n_vertex n') = last /\
      (forall i v, i <> ni -> nth_error (n_vertex n) i = Some v -> exists v', nth_error (n_vertex n') (moved last ni i) = Some v' /\
         v' = v_set_src v (v_src v') /\ length (v_src v') = length (v_src v) /\
         forall c e, nth_error (v_src v) c = Some e -> nth_error (v_src v') c = Some (final_edge last ni link (v_src vni) i c e)) /\
      NoDup (map fst (n_index n')) /\
      forall k, lookup (n_index n') k = if N.eqb id k then None else option_map (moved last ni) (lookup (n_index n) k).
  Proof.
    intros H Hl Hv Hio last. pose proof (w_vertex _ n H ni vni Hv) as V.
    assert (Hid : v_id vni = id) by (destruct (w_id _ n H id ni Hl) as (w & Hw & Hw'); congruence).
    assert (Hni : ni < length (n_vertex n)) by (eapply nth_error_lt; eauto).
    set (nin := n_in n). set (outs := outs_of ops (n_vertex n)).
    assert (Hself : forall e q, In e (v_src vni) -> e_src e <> PLocal ni q) by (apply (vo_self _ _ _ _ _ _ V)).
    assert (Houts : forall q, port_ok nin outs (PLocal ni q) -> link = true -> q < length (v_src vni)).
    { intros q Hq E. apply port_local_inv in Hq as (w & Hw & Hq). assert (w = vni) by congruence. subst w. rewrite (vo_src _ _ _ _ _ _ V). rewrite (Hio E). auto. }
    unfold remove_2. rewrite Hl, Hv.
    assert (link && negb (Nat.eqb (v_inputs vni) (v_outputs vni)) = false) as ->.
    { destruct link; auto. cbn. unfold v_inputs, v_outputs. rewrite (vo_tin _ _ _ _ _ _ V), (vo_tout _ _ _ _ _ _ V), (Hio eq_refl), Nat.eqb_refl. reflexivity. }
    rewrite (redirect_outputs_eq ni link vni nin outs Houts (n_vertex n) (n_oedge n) Hv (w_oport _ n H)).
    pose proof (redirect_vertices_eq ni link vni nin outs Hself Houts (n_vertex n) [] (n_vertex n) eq_refl Hv) as HR. cbn [length app] in HR. rewrite HR.
    2:{ intros w Hw. apply In_nth_error in Hw as (i & Hi). pose proof (w_vertex _ n H i w Hi) as W. split; [now rewrite (vo_tin _ _ _ _ _ _ W), (vo_src _ _ _ _ _ _ W)|apply (vo_port _ _ _ _ _ _ W)]. }
    clear HR. set (vs := map (redir_v ni link (v_src vni)) (n_vertex n)).
    assert (Hfix : redir_v ni link (v_src vni) vni = vni).
    { unfold redir_v. rewrite (map_redir_self ni link (v_src vni) (v_src vni) Hself). apply v_set_src_id. }
    assert (Hvs : nth_error vs ni = Some vni) by (unfold vs; rewrite nth_error_map, Hv; cbn; now rewrite Hfix).
    rewrite Hvs. assert (Elen : length vs = length (n_vertex n)) by (unfold vs; apply map_length). rewrite Elen. fold last.
    (* ports after redirection are below the number of vertices and differ from the removed one *)
    assert (Hred : forall p, port_ok nin outs p -> forall j q, redir ni link (v_src vni) p = PLocal j q -> j < length (n_vertex n) /\ j <> ni).
    { intros p Hp j q E. unfold redir in E. destruct p as [j' q'|q'|]; try discriminate. destruct (Nat.eqb_spec j' ni) as [Ej|Ej].
      - destruct link; [|discriminate]. assert (Hq' : q' < length (v_src vni)) by (apply Houts; auto; now rewrite <- Ej).
        assert (Hin : In (nth q' (v_src vni) (mkE PZero PZero)) (v_src vni)) by (now apply nth_In).
        pose proof (vo_port _ _ _ _ _ _ V _ Hin) as Hp'. rewrite E in Hp'. apply port_local_inv in Hp' as (w & Hw & _). split; [eapply nth_error_lt; eauto|].
        intros ->. exact (Hself _ _ Hin E).
      - inversion E; subst. apply port_local_inv in Hp as (w & Hw & _). split; auto. eapply nth_error_lt; eauto. }
    rewrite Hid. destruct (Nat.eqb_spec last ni) as [El|El].
    - (* the removed vertex is the last *)
      assert (Hren : forall p, port_ok nin outs p -> rename last ni (redir ni link (v_src vni) p) = redir ni link (v_src vni) p).
      { intros p Hp. destruct (redir ni link (v_src vni) p) as [j q|q|] eqn:E; auto. destruct (Hred p Hp j q E) as [_ Hj]. cbn. destruct (Nat.eqb_spec j last); auto. congruence. }
      eexists. split; [reflexivity|]. cbn [n_in n_out n_order n_oedge n_vertex n_index]. repeat match goal with |- _ /\ _ => split end; auto.
      + rewrite map_map. apply map_ext_in. intros e He. unfold rename_edge, redir_edge; cbn. rewrite Hren; auto. now apply (w_oport _ n H).
      + rewrite length_removelast, Elen. reflexivity.
      + intros i v Hi Ev. assert (Hlt : i < length (n_vertex n)) by (eapply nth_error_lt; eauto). assert (Hil : i <> last) by congruence.
        unfold moved. destruct (Nat.eqb_spec i last); [congruence|]. exists (redir_v ni link (v_src vni) v). split; [|split; [|split]].
        * rewrite nth_error_removelast by (rewrite Elen; unfold last in *; lia). unfold vs. now rewrite nth_error_map, Ev.
        * reflexivity.
        * cbn. apply map_length.
        * intros c e He. cbn. rewrite nth_error_map, He. cbn. unfold redir_edge, final_edge, moved. destruct (Nat.eqb_spec i last); [congruence|].
          pose proof (w_vertex _ n H i v Ev) as W. rewrite Hren by (eapply (vo_port _ _ _ _ _ _ W), nth_error_In; eauto). now rewrite (vo_tgt _ _ _ _ _ _ W c e He).
      + apply keys_iremove, (w_keys _ n H).
      + intros k. rewrite lookup_iremove. destruct (N.eqb_spec id k) as [E|E]; auto. destruct (lookup (n_index n) k) as [i|] eqn:Ek; auto. cbn. unfold moved.
        destruct (Nat.eqb_spec i last) as [E2|E2]; auto. exfalso. destruct (w_id _ n H k i Ek) as (w & Hw & Hk). assert (w = vni) by congruence. congruence.
    - (* the last vertex is moved into the freed slot *)
      assert (Hlast : last < length (n_vertex n)) by (unfold last; lia).
      destruct (nth_error_ex (n_vertex n) last Hlast) as [vl Evl].
      assert (Evl' : nth_error vs last = Some (redir_v ni link (v_src vni) vl)) by (unfold vs; now rewrite nth_error_map, Evl). rewrite Evl'.
      set (rd := redir_v ni link (v_src vni)) in *. set (rn := fun w : vertex => v_set_src w (map (rename_edge last ni) (v_src w))).
      assert (Hnl : ni < length (removelast vs)) by (rewrite length_removelast, Elen; unfold last in *; lia).
      assert (Hw0 : nth_error (map rn (upd (removelast vs) ni (rd vl))) ni = Some (rn (rd vl))) by (rewrite nth_error_map, nth_error_upd_eq by auto; reflexivity).
      fold rn. rewrite Hw0. assert (Hidl : v_id (rd vl) = v_id vl) by reflexivity. rewrite Hidl.
      pose proof (w_vertex _ n H last vl Evl) as VL.
      assert (Hne : v_id vl <> id).
      { intros E. pose proof (vo_index _ _ _ _ _ _ VL) as E2. rewrite E in E2. congruence. }
      eexists. split; [reflexivity|]. cbn [n_in n_out n_order n_oedge n_vertex n_index]. repeat match goal with |- _ /\ _ => split end; auto.
      + rewrite length_upd, map_length, length_upd, length_removelast, Elen. reflexivity.
      + intros i v Hi Ev. assert (Hlt : i < length (n_vertex n)) by (eapply nth_error_lt; eauto).
        pose proof (w_vertex _ n H i v Ev) as W. unfold moved. destruct (Nat.eqb_spec i last) as [E|E].
        * rewrite E in Ev. assert (v = vl) by congruence. subst v. eexists. split; [apply nth_error_upd_eq; now rewrite map_length, length_upd|]. split; [reflexivity|].
          cbn. split; [unfold retarget; rewrite map_length, combine_length, seq_length, !map_length; lia|].
          intros c e He. rewrite nth_error_retarget, nth_error_map, nth_error_map, He. cbn. unfold final_edge, moved. rewrite E, Nat.eqb_refl. reflexivity.
        * exists (rn (rd v)). split; [|split; [|split]].
          -- rewrite nth_error_upd_ne by auto. rewrite nth_error_map, nth_error_upd_ne by auto. rewrite nth_error_removelast by (rewrite Elen; unfold last in *; lia).
             unfold vs. rewrite nth_error_map, Ev. reflexivity.
          -- reflexivity.
          -- cbn. now rewrite !map_length.
          -- intros c e He. cbn. rewrite nth_error_map, nth_error_map, He. cbn. unfold rename_edge, redir_edge, final_edge, moved. destruct (Nat.eqb_spec i last); [congruence|]. cbn.
             now rewrite (vo_tgt _ _ _ _ _ _ W c e He).
      + apply keys_iinsert, keys_iremove, (w_keys _ n H).
      + intros k. rewrite lookup_iinsert, lookup_iremove. destruct (N.eqb_spec (v_id vl) k) as [E|E].
        * destruct (N.eqb_spec id k) as [E2|E2]; [congruence|]. rewrite <- E. rewrite (vo_index _ _ _ _ _ _ VL). cbn. unfold moved. now rewrite Nat.eqb_refl.
        * destruct (N.eqb_spec id k) as [E2|E2]; auto. destruct (lookup (n_index n) k) as [i|] eqn:Ek; auto. cbn. unfold moved.
          destruct (Nat.eqb_spec i last) as [E3|E3]; auto. exfalso. destruct (w_id _ n H k i Ek) as (w & Hw & Hk). apply E. rewrite E3 in Hw. congruence.
  Qed.

  Lemma moved_inj last ni i j : i <> ni -> j <> ni -> moved last ni i = moved last ni j -> i = j.
  Proof. unfold moved. destruct (Nat.eqb_spec i last), (Nat.eqb_spec j last); congruence. Qed.
  Lemma rename_local last ni j q : rename last ni (PLocal j q) = PLocal (moved last ni j) q.
  Proof. unfold rename, moved. now destruct (Nat.eqb j last). Qed.

  Section After.
    Variables (n : net) (id : N) (link : bool) (ni : nat) (vni : vertex) (n' : net).
    Hypothesis H : wf n.
    Hypothesis Hl : lookup (n_index n) id = Some ni.
    Hypothesis Hv : nth_error (n_vertex n) ni = Some vni.
    Hypothesis Hio : link = true -> u_ins ops (v_unit vni) = u_outs ops (v_unit vni).
    Notation last := (length (n_vertex n) - 1).
    Hypothesis Hin : n_in n' = n_in n.
    Hypothesis Hout : n_out n' = n_out n.
    Hypothesis Hoe : n_oedge n' = map (rename_edge last ni) (map (redir_edge ni link (v_src vni)) (n_oedge n)).
    Hypothesis Hlen : length (n_vertex n') = last.
    Hypothesis Hvs : forall i v, i <> ni -> nth_error (n_vertex n) i = Some v -> exists v', nth_error (n_vertex n') (moved last ni i) = Some v' /\
         v' = v_set_src v (v_src v') /\ length (v_src v') = length (v_src v) /\
         forall c e, nth_error (v_src v) c = Some e -> nth_error (v_src v') c = Some (final_edge last ni link (v_src vni) i c e).
    Hypothesis Hlook : forall k, lookup (n_index n') k = if N.eqb id k then None else option_map (moved last ni) (lookup (n_index n) k).

    Lemma redir_cases p : port_ok (n_in n) (outs_of ops (n_vertex n)) p ->
      port_ok (n_in n) (outs_of ops (n_vertex n)) (redir ni link (v_src vni) p) /\ forall q, redir ni link (v_src vni) p <> PLocal ni q.
    Proof.
      intros Hp. pose proof (w_vertex _ n H ni vni Hv) as V. unfold redir. destruct p as [j q|q|]; try (split; [exact Hp|discriminate]).
      destruct (Nat.eqb_spec j ni) as [E|E].
      - destruct link; [|split; [exact I|discriminate]]. subst j.
        assert (Hq : q < length (v_src vni)). { apply port_local_inv in Hp as (w & Hw & Hq). assert (w = vni) by congruence. subst w. rewrite (vo_src _ _ _ _ _ _ V). rewrite (Hio eq_refl). auto. }
        assert (He : In (nth q (v_src vni) (mkE PZero PZero)) (v_src vni)) by (now apply nth_In). split; [now apply (vo_port _ _ _ _ _ _ V)|]. intros q'. now apply (vo_self _ _ _ _ _ _ V).
      - split; [exact Hp|]. intros q' E'. inversion E'. congruence.
    Qed.
    Lemma outs_moved j k : j <> ni -> nth_error (outs_of ops (n_vertex n)) j = Some k -> nth_error (outs_of ops (n_vertex n')) (moved last ni j) = Some k.
    Proof.
      intros Hj. unfold outs_of. rewrite !nth_error_map. destruct (nth_error (n_vertex n) j) as [v|] eqn:E; [|discriminate]. cbn. intros Hk.
      destruct (Hvs j v Hj E) as (v' & -> & -> & _). exact Hk.
    Qed.
    Lemma port_moved p : port_ok (n_in n) (outs_of ops (n_vertex n)) p -> (forall q, p <> PLocal ni q) -> port_ok (n_in n') (outs_of ops (n_vertex n')) (rename last ni p).
    Proof.
      intros Hp Hn. destruct p as [j q|q|]; [|now rewrite Hin|exact I]. rewrite rename_local. destruct Hp as (k & Hk & Hq). exists k. split; auto.
      apply outs_moved; auto. intros ->. now apply (Hn q).
    Qed.
    Lemma unmoved j v' : nth_error (n_vertex n') j = Some v' -> exists i v, i <> ni /\ moved last ni i = j /\ nth_error (n_vertex n) i = Some v.
    Proof.
      intros Hj. pose proof (nth_error_lt _ _ _ Hj) as Hlt. pose proof (nth_error_lt _ _ _ Hv) as Hni. rewrite Hlen in Hlt.
      exists (if Nat.eqb j ni then last else j). destruct (Nat.eqb_spec j ni) as [E|E].
      - destruct (nth_error_ex (n_vertex n) last) as [v E2]; [lia|]. exists v. split; [lia|]. split; auto. unfold moved. rewrite Nat.eqb_refl. auto.
      - destruct (nth_error_ex (n_vertex n) j) as [v E2]; [lia|]. exists v. split; auto. split; auto. unfold moved. destruct (Nat.eqb_spec j last); auto. lia.
    Qed.
    Lemma wf_after : NoDup (map fst (n_index n')) -> n_order n' = None ->
      (link = true -> forall i v e q q' e', nth_error (n_vertex n) i = Some v -> In e (v_src v) -> e_src e = PLocal ni q -> nth_error (v_src vni) q = Some e' -> e_src e' <> PLocal i q') -> wf n'.
    Proof.
      intros Hk Ho Hloop. constructor; auto.
      - rewrite Hoe, !map_length, Hout. apply (w_out _ n H).
      - intros c e He. rewrite Hoe, !nth_error_map in He. destruct (nth_error (n_oedge n) c) as [e0|] eqn:E; [|discriminate]. cbn in He. inversion He; subst. cbn. now apply (w_otgt _ n H).
      - intros e He. rewrite Hoe, map_map in He. apply in_map_iff in He as (e0 & <- & He0). cbn. destruct (redir_cases (e_src e0) (w_oport _ n H e0 He0)). now apply port_moved.
      - intros j v' Hj. destruct (unmoved j v' Hj) as (i & v & Hi & <- & Hiv). destruct (Hvs i v Hi Hiv) as (v'' & Hj' & E & Hsl & Hse).
        assert (v'' = v') by congruence. subst v''. pose proof (w_vertex _ n H i v Hiv) as W.
        assert (Hback : forall c e', nth_error (v_src v') c = Some e' -> exists e, nth_error (v_src v) c = Some e /\ e' = final_edge last ni link (v_src vni) i c e).
        { intros c e' Hc. destruct (nth_error_ex (v_src v) c) as [e He]; [rewrite <- Hsl; eapply nth_error_lt; eauto|]. exists e. split; auto. rewrite (Hse c e He) in Hc. congruence. }
        pose proof (vo_src _ _ _ _ _ _ W) as vo_src0. pose proof (vo_port _ _ _ _ _ _ W) as vo_port0. pose proof (vo_self _ _ _ _ _ _ W) as vo_self0. pose proof (vo_index _ _ _ _ _ _ W) as vo_index0.
        rewrite E. constructor; cbn; auto; try congruence; try apply W.
        + intros c e' Hc. destruct (Hback c e' Hc) as (e & _ & ->). reflexivity.
        + intros e' He'. apply In_nth_error in He' as (c & Hc). destruct (Hback c e' Hc) as (e & He & ->). cbn. apply nth_error_In in He. destruct (redir_cases (e_src e) (vo_port0 e He)). now apply port_moved.
        + intros e' q He'. apply In_nth_error in He' as (c & Hc). destruct (Hback c e' Hc) as (e & He & ->). cbn. apply nth_error_In in He. destruct (redir_cases (e_src e) (vo_port0 e He)) as [R1 R2].
          intros E2. destruct (redir ni link (v_src vni) (e_src e)) as [j2 q2|q2|] eqn:Er; try discriminate. rewrite rename_local in E2. inversion E2 as [[E3 E4]].
          assert (j2 = i). { apply (moved_inj last ni); auto. intros ->. now apply (R2 q2). } subst j2.
          unfold redir in Er. destruct (e_src e) as [j3 q3|q3|] eqn:Es; try discriminate. destruct (Nat.eqb_spec j3 ni) as [E5|E5].
          * destruct link eqn:Elk; [|discriminate]. subst j3. pose proof (w_vertex _ n H ni vni Hv) as V.
            assert (Hq3 : q3 < length (v_src vni)). { pose proof (vo_port0 e He) as Hp. rewrite Es in Hp. apply port_local_inv in Hp as (w & Hw & Hq). assert (w = vni) by congruence. subst w. rewrite (vo_src _ _ _ _ _ _ V). rewrite (Hio eq_refl). auto. }
            apply (Hloop eq_refl i v e q3 q2 (nth q3 (v_src vni) (mkE PZero PZero)) Hiv He Es); auto. now apply nth_error_nth'.
          * inversion Er; subst. eapply vo_self0; eauto.
        + rewrite Hlook. destruct (N.eqb_spec id (v_id v)) as [E2|E2]; [exfalso; apply Hi; rewrite <- E2 in vo_index0; congruence|]. rewrite vo_index0. reflexivity.
      - intros k j Hj. rewrite Hlook in Hj. destruct (N.eqb_spec id k) as [E|E]; [discriminate|]. destruct (lookup (n_index n) k) as [i|] eqn:Ek; [|discriminate]. cbn in Hj. inversion Hj; subst j.
        destruct (w_id _ n H k i Ek) as (v & Hiv & Hid). assert (i <> ni). { intros ->. assert (v = vni) by congruence. subst v. destruct (w_id _ n H id ni Hl) as (w & Hw & Hw'). congruence. }
        destruct (Hvs i v H0 Hiv) as (v' & Hj' & E2 & _). exists v'. split; auto. rewrite E2. auto.
      - rewrite Ho. discriminate.
    Qed.

    (* the user's view *)
    Lemma view_moved p : port_ok (n_in n) (outs_of ops (n_vertex n)) p -> (forall q, p <> PLocal ni q) -> view n' (rename last ni p) = view n p.
    Proof.
      intros Hp Hn. destruct p as [j q|q|]; auto. rewrite rename_local. apply port_local_inv in Hp as (v & Hj & _). cbn.
      destruct (Hvs j v) as (v' & E1 & E2 & _); auto; [intros ->; now apply (Hn q)|]. rewrite E1, Hj, E2. reflexivity.
    Qed.
    Lemma view_redir p s : port_ok (n_in n) (outs_of ops (n_vertex n)) p -> view n p = Some s -> view n (redir ni link (v_src vni) p) = after_removal n id link s.
    Proof.
      intros Hp Hs. pose proof (w_vertex _ n H ni vni Hv) as V. assert (Hid : v_id vni = id) by (destruct (w_id _ n H id ni Hl) as (w & Hw & Hw'); congruence).
      destruct p as [j q|q|]; cbn in Hs; try (inversion Hs; subst; reflexivity).
      apply port_local_inv in Hp as (v & Hj & Hq). rewrite Hj in Hs. inversion Hs; subst s. cbn [redir after_removal]. destruct (Nat.eqb_spec j ni) as [E|E].
      - subst j. assert (v = vni) by congruence. subst v. rewrite Hid, N.eqb_refl. destruct link; [|reflexivity].
        unfold net_source. rewrite Hl, Hv. unfold v_inputs. rewrite (vo_tin _ _ _ _ _ _ V). rewrite (Hio eq_refl). apply Nat.ltb_lt in Hq as Hq'. rewrite Hq'.
        rewrite (nth_error_nth' _ q (mkE PZero PZero)) by (rewrite (vo_src _ _ _ _ _ _ V), (Hio eq_refl); auto). reflexivity.
      - destruct (N.eqb_spec (v_id v) id) as [E2|E2]; [|cbn; now rewrite Hj]. exfalso. pose proof (vo_index _ _ _ _ _ _ (w_vertex _ n H j v Hj)) as E3. rewrite E2 in E3. congruence.
    Qed.
    Lemma source_after k c : k <> id -> net_source n' k c = match net_source n k c with Some s => after_removal n id link s | None => None end.
    Proof.
      intros Hk. unfold net_source. rewrite Hlook. destruct (N.eqb_spec id k); [congruence|]. destruct (lookup (n_index n) k) as [i|] eqn:Ek; auto. cbn [option_map].
      destruct (w_id _ n H k i Ek) as (v & Hiv & Hid). assert (Hi : i <> ni). { intros ->. assert (v = vni) by congruence. subst v. destruct (w_id _ n H id ni Hl) as (w & Hw & Hw'). congruence. }
      destruct (Hvs i v Hi Hiv) as (v' & E1 & E2 & E3 & E4). rewrite E1, Hiv. rewrite E2. unfold v_inputs. cbn [v_set_src v_tin v_src].
      destruct (Nat.ltb c (length (v_tin v))); auto. destruct (nth_error (v_src v) c) as [e|] eqn:Ec.
      - rewrite (E4 c e Ec). cbn [final_edge e_src]. pose proof (w_vertex _ n H i v Hiv) as W. apply nth_error_In in Ec.
        pose proof (vo_port _ _ _ _ _ _ W e Ec) as Hp. destruct (redir_cases (e_src e) Hp) as [R1 R2]. rewrite (view_moved _ R1 R2).
        assert (exists s, view n (e_src e) = Some s) as (s & Es). { destruct (e_src e) as [j q|q|]; cbn; eauto. apply port_local_inv in Hp as (w & -> & _). eauto. }
        rewrite Es. now apply view_redir.
      - assert (nth_error (v_src v') c = None) as ->; auto. apply nth_error_None. rewrite E3. now apply nth_error_None.
    Qed.
    Lemma output_after c : output_source n' c = match output_source n c with Some s => after_removal n id link s | None => None end.
    Proof.
      unfold output_source. rewrite Hout, Hoe, !nth_error_map. destruct (Nat.ltb c (n_out n)); auto. destruct (nth_error (n_oedge n) c) as [e|] eqn:Ec; auto. cbn [option_map rename_edge redir_edge e_src].
      apply nth_error_In in Ec. pose proof (w_oport _ n H e Ec) as Hp. destruct (redir_cases (e_src e) Hp) as [R1 R2]. rewrite (view_moved _ R1 R2).
      assert (exists s, view n (e_src e) = Some s) as (s & Es). { destruct (e_src e) as [j q|q|]; cbn; eauto. apply port_local_inv in Hp as (w & -> & _). eauto. }
      rewrite Es. now apply view_redir.
    Qed.
    Lemma node_after k : k <> id -> node n' k = node n k.
    Proof.
      intros Hk. unfold node. rewrite Hlook. destruct (N.eqb_spec id k); [congruence|]. destruct (lookup (n_index n) k) as [i|] eqn:Ek; auto. cbn [option_map].
      destruct (w_id _ n H k i Ek) as (v & Hiv & Hid). assert (Hi : i <> ni). { intros ->. assert (v = vni) by congruence. subst v. destruct (w_id _ n H id ni Hl) as (w & Hw & Hw'). congruence. }
      destruct (Hvs i v Hi Hiv) as (v' & E1 & E2 & _). rewrite E1, Hiv, E2. reflexivity.
    Qed.
  End After.

  Theorem remove_correct n id link : wf n -> contains n id -> (link = true -> inputs_in ops n id = outputs_in ops n id) ->
    exists n' u, remove_2 n id link = Some (n', u) /\ node n id = Some u /\ n_in n' = n_in n /\ n_out n' = n_out n /\
      (forall k, contains n' k <-> contains n k /\ k <> id) /\
      (forall k, k <> id -> node n' k = node n k) /\
      (forall k c, k <> id -> net_source n' k c = match net_source n k c with Some s => after_removal n id link s | None => None end) /\
      (forall c, output_source n' c = match output_source n c with Some s => after_removal n id link s | None => None end) /\
      ((link = true -> ~ loops_back n id) -> wf n').
  Proof.
    intros H Hc Hio. destruct (contains_index _ n id H Hc) as (ni & vni & Hl & Hv & Hid & Hnode & Hins & Houts).
    assert (Hio' : link = true -> u_ins ops (v_unit vni) = u_outs ops (v_unit vni)) by (intros E; specialize (Hio E); congruence).
    destruct (remove_2_eq n id link ni vni H Hl Hv Hio') as (n' & E & R1 & R2 & R3 & R4 & R5 & R6 & R7 & R8). exists n', (v_unit vni).
    split; auto. split; auto. split; auto. split; auto. split; [|split; [|split; [|split]]].
    - intros k. unfold contains. rewrite R8. destruct (N.eqb_spec id k) as [Ek|Ek]; [intuition congruence|]. destruct (lookup (n_index n) k); cbn; intuition congruence.
    - intros k Hk. eapply node_after; eauto.
    - intros k c Hk. eapply source_after; eauto.
    - intros c. eapply output_after; eauto.
    - intros Hlb. eapply wf_after; eauto. intros El i v e q q' e' Hi He Es Hq Es'. apply (Hlb El).
      pose proof (w_vertex _ n H i v Hi) as W. pose proof (w_vertex _ n H ni vni Hv) as V.
      apply In_nth_error in He as (c & Hcv). exists (v_id v), c, q, q'. unfold net_source. rewrite (vo_index _ _ _ _ _ _ W), Hi. unfold v_inputs. rewrite (vo_tin _ _ _ _ _ _ W), <- (vo_src _ _ _ _ _ _ W).
      pose proof (nth_error_lt _ _ _ Hcv) as Hclt. apply Nat.ltb_lt in Hclt. rewrite Hclt, Hcv, Es. cbn [view]. rewrite Hv, Hid. split; auto.
      rewrite Hl, Hv, (vo_tin _ _ _ _ _ _ V), <- (vo_src _ _ _ _ _ _ V). pose proof (nth_error_lt _ _ _ Hq) as Hqlt. apply Nat.ltb_lt in Hqlt. rewrite Hqlt, Hq, Es'. cbn [view]. now rewrite Hi.
  Qed.
End Remove.
