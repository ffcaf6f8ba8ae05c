(* Editing histories keep a network well formed; what check accepts. *)
From Verif Require Export NetBinop NetRemove.

#[local] Arguments iinsert : simpl never.
#[local] Arguments iremove : simpl never.

Section History.
  Context {A P U : Type}.
  Variable zero : A.
  Variable ops : unit_ops A P U.
  Variable uping : bool -> U -> N -> U * N.
  Variable ahash : N -> N -> N.
  Notation net := (net A U).
  Notation vertex := (vertex A U).
  Notation wf := (wf ops).
  Hypothesis Hctl : control_laws ops uping.
  Hypothesis Hlaws : unit_laws zero ops.

  Lemma not_contains (n : net) id : ~ contains n id -> lookup (n_index n) id = None.
  Proof. unfold contains. destruct (lookup (n_index n) id); auto. intros H. exfalso. apply H. discriminate. Qed.

  (* changing the unit of one vertex, or of all, keeping arities *)
  Lemma set_unit_static (v : vertex) u : u_ins ops u = u_ins ops (v_unit v) -> u_outs ops u = u_outs ops (v_unit v) -> static ops v (v_set_unit v u).
  Proof. intros Hi Ho. constructor; auto. Qed.
  Lemma wf_units n (g : vertex -> vertex) : wf n -> (forall v, static ops v (g v) /\ (sized ops v -> sized ops (g v)) /\ v_sv (g v) = v_sv v) -> wf (n_set_vertex n (map g (n_vertex n))).
  Proof.
    intros H Hg. apply wf_static; auto.
    - induction (n_vertex n); cbn; constructor; auto. apply Hg.
    - pose proof (wf_sized ops n H) as Hz. induction Hz; cbn; constructor; auto. now apply Hg.
    - induction (n_vertex n); cbn; constructor; auto. apply Hg.
  Qed.
  Lemma wf_unit n i v v' : wf n -> nth_error (n_vertex n) i = Some v -> static ops v v' -> (sized ops v -> sized ops v') -> v_sv v' = v_sv v -> wf (n_set_vertex n (upd (n_vertex n) i v')).
  Proof.
    intros H Hv S Z V. apply wf_static; auto.
    - apply Forall2_nth. split; [now rewrite length_upd|]. intros j x y Hx Hy. apply nth_error_upd_inv in Hy as [(-> & -> & _)|(_ & Hy)]; [congruence|]. assert (x = y) by congruence. subst. apply static_refl.
    - apply Forall_forall. intros w Hw. apply In_nth_error in Hw as (j & Hj). pose proof (wf_sized ops n H) as Hz. rewrite Forall_forall in Hz.
      apply nth_error_upd_inv in Hj as [(-> & -> & _)|(_ & Hj)]; [apply Z, Hz; eapply nth_error_In; eauto|apply Hz; eapply nth_error_In; eauto].
    - apply Forall2_nth. split; [now rewrite length_upd|]. intros j x y Hx Hy. apply nth_error_upd_inv in Hy as [(-> & -> & _)|(_ & Hy)]; [congruence|]. congruence.
  Qed.
  Lemma sized_unit (v v' : vertex) : static ops v v' -> v_in v' = v_in v -> v_out v' = v_out v -> v_tin v' = v_tin v -> v_tout v' = v_tout v -> sized ops v -> sized ops v'.
  Proof. intros [_ _ Hi Ho] E1 E2 E3 E4 []. constructor; rewrite ?E1, ?E2, ?E3, ?E4, ?Hi, ?Ho; auto. Qed.

  Lemma net_set_wf n s : wf n -> wf (net_set ops n s).
  Proof.
    intros H. unfold net_set. destruct (direction s) as [| | | |id]; auto. destruct (lookup (n_index n) id) as [i|]; auto. destruct (nth_error (n_vertex n) i) as [v|] eqn:Hv; auto.
    assert (S : static ops v (v_set_unit v (u_set ops (v_unit v) (peel s)))) by (apply set_unit_static; [apply (cl_set_ins _ _ Hctl)|apply (cl_set_outs _ _ Hctl)]).
    apply (wf_unit n i v); auto. now apply sized_unit.
  Qed.
  Lemma net_reset_wf n : wf n -> exists n', net_reset ops uping ahash n = Some n' /\ wf n'.
  Proof.
    intros H. unfold net_reset. set (n0 := n_set_vertex _ _). assert (W : wf n0).
    { apply wf_units; auto. intros v. assert (S : static ops v (v_set_changed (v_set_unit v (u_reset ops (v_unit v))) (n_revision n))) by (constructor; cbn; auto; [apply (cl_reset_ins _ _ Hctl)|apply (cl_reset_outs _ _ Hctl)]).
      split; auto. split; auto. now apply sized_unit. }
    destruct (ordered_ok ops uping ahash Hctl n0 W) as (n' & o & -> & W' & _). eauto.
  Qed.
  Lemma replace_ok n id u : wf n -> contains n id -> u_ins ops u = inputs_in ops n id -> u_outs ops u = outputs_in ops n id -> exists n', replace ops n id (fun _ => u) = Some n' /\ wf n'.
  Proof.
    intros H Hc Hi Ho. destruct (contains_index ops n id H Hc) as (i & v & El & Ev & _ & _ & Ei & Eo). unfold replace. rewrite El, Ev. pose proof (w_vertex _ n H i v Ev) as V. unfold v_inputs, v_outputs.
    rewrite (vo_tin _ _ _ _ _ _ V), (vo_tout _ _ _ _ _ _ V), Hi, Ho, Ei, Eo, !Nat.eqb_refl. cbn [andb]. eexists. split; [reflexivity|].
    assert (S : static ops v (v_set_changed (v_set_unit v u) (n_revision n))) by (constructor; cbn; auto; congruence). apply (wf_unit n i v); auto. now apply sized_unit.
  Qed.
  Lemma net_tick_ok n input : wf n -> length input = n_in n -> exists n' out, net_tick zero ops uping ahash n input = Some (n', out) /\ wf n' /\ kept ops n n' /\ length out = n_out n.
  Proof.
    intros H Hl. destruct (ordered_ok ops uping ahash Hctl n H) as (n0 & o & Eo & W & K & Ho). assert (Ho' : n_order n0 <> None) by congruence.
    destruct (ordered_net_tick zero ops uping ahash Hlaws n0 input W Ho') as (n' & out & E & Pl & L & _); [now rewrite (k_in _ _ _ K)|].
    exists n', out. split. { rewrite <- E. unfold net_tick. rewrite Eo. unfold ordered. rewrite Ho. cbn. rewrite ?Ho. reflexivity. }
    split; [eapply played_wf; eauto|]. split; [eapply kept_trans; eauto; eapply played_kept; eauto|]. rewrite L. apply (k_out _ _ _ K).
  Qed.
  Lemma net_process_ok n size inb out : wf n -> size <= MAXB -> shaped (n_in n) inb -> shaped (n_out n) out ->
    exists n' out', net_process zero ops uping ahash n size inb out = Some (n', out') /\ wf n' /\ kept ops n n' /\ shaped (n_out n) out'.
  Proof.
    intros H Hs Hi Hout. destruct (ordered_ok ops uping ahash Hctl n H) as (n0 & o & Eo & W & K & Ho). assert (Ho' : n_order n0 <> None) by congruence.
    destruct (ordered_net_process zero ops uping ahash Hlaws n0 size inb out W Ho') as (n' & out' & E & Pl & L & _); auto; [now rewrite (k_in _ _ _ K)|now rewrite (k_out _ _ _ K)|].
    exists n', out'. split. { rewrite <- E. unfold net_process. rewrite Eo. unfold ordered. rewrite Ho. cbn. rewrite ?Ho. reflexivity. }
    split; [eapply played_wf; eauto|]. split; [eapply kept_trans; eauto; eapply played_kept; eauto|]. now rewrite (k_out _ _ _ K) in L.
  Qed.

  (* every in-range action succeeds and keeps the network well formed *)
  Definition quiet (a : action (A := A) (P := P) (U := U)) : Prop := match a with Tick _ | Process _ _ _ => False | _ => True end.
  Theorem quiet_ok n a : wf n -> NetSpec.in_range ops n a -> no_loop_back n a -> quiet a -> exists n', apply zero ops uping ahash a n = Some n' /\ wf n'.
  Proof.
    intros H Hr Hl Hq. destruct a; cbn [apply NetSpec.in_range no_loop_back] in *.
    - eexists. split; [reflexivity|]. apply wf_push; auto. now apply not_contains.
    - destruct (remove_correct ops n id false H Hr) as (n' & u & -> & _ & _ & _ & _ & _ & _ & _ & W); [discriminate|]. cbn. exists n'. split; auto. apply W. discriminate.
    - destruct Hr as [Hc Hio]. destruct (remove_correct ops n id true H Hc) as (n' & u & -> & _ & _ & _ & _ & _ & _ & _ & W); [auto|]. cbn. exists n'. split; auto.
    - destruct Hr as (Hc & Hi & Ho). now apply replace_ok.
    - destruct Hr as (Hc & Hi & Hs & Hn). destruct (set_source_ok ops n id c s) as (n' & E & W & _); eauto.
    - destruct Hr as (Hc & Hs). destruct (set_output_source_ok ops n c s) as (n' & E & W & _); eauto.
    - destruct Hr as (Hne & Hs & Ht & Hsp & Htp). destruct (connect_ok ops n s sp t tp) as (n' & E & W & _); eauto.
    - destruct Hr as (Hc & Hp). destruct (disconnect_ok ops n id p) as (n' & E & W & _); eauto.
    - destruct Hr as (Hg & Ht & Htp). destruct (connect_input_ok ops n g t tp) as (n' & E & W & _); eauto.
    - destruct (pipe_input_ok ops n t) as (n' & E & W & _); eauto.
    - destruct Hr as (Hs & Hsp & Hg). destruct (connect_output_ok ops n s sp g) as (n' & E & W & _); eauto.
    - unfold disconnect_output. destruct (plug_output_ok ops n g PZero H Hr I) as (n' & E & W & _); eauto.
    - destruct (pipe_output_ok ops n s) as (n' & E & W & _); eauto.
    - destruct Hr as [Hi Ho]. unfold pass_through. destruct (plug_output_ok ops n o (PGlobal i) H Ho Hi) as (n' & E & W & _); eauto.
    - destruct Hr as [Hs Ht]. destruct (pipe_all_ok ops n s t) as (n' & E & W & _); eauto.
    - apply chain_ok; auto.
    - unfold net_error. destruct (ordered_ok ops uping ahash Hctl n H) as (n' & o & -> & W & _). cbn. eauto.
    - destruct Hq.
    - destruct Hq.
    - eexists. split; [reflexivity|]. now apply net_set_wf.
    - now apply net_reset_wf.
  Qed.
  Theorem action_ok n a : wf n -> NetSpec.in_range ops n a -> no_loop_back n a -> exists n', apply zero ops uping ahash a n = Some n' /\ wf n'.
  Proof.
    intros H Hr Hl. assert (D : quiet a \/ ~ quiet a) by (destruct a; cbn; tauto). destruct D as [D|D]; [now apply quiet_ok|]. destruct a; try (destruct D; exact I).
    - destruct (net_tick_ok n i H Hr) as (n' & out & E & W & _). cbn [apply]. rewrite E. cbn. eauto.
    - destruct Hr as (Hs & Hi & Ho). destruct (net_process_ok n size inb out H Hs Hi Ho) as (n' & out' & E & W & _). cbn [apply]. rewrite E. cbn. eauto.
  Qed.

  Theorem reachable_wf_gen (ok : net -> action -> Prop) n : (forall n a, wf n -> NetSpec.in_range ops n a -> ok n a -> exists n', apply zero ops uping ahash a n = Some n' /\ wf n') ->
    reachable zero ops uping ahash ok n -> wf n.
  Proof.
    intros action_ok. induction 1 as [i o|n a n' Hr IH Hin Hok E|n Hr IH|f n1 n2 n R1 IH1 R2 IH2 Hf E|f n1 n2 n R1 IH1 R2 IH2 Hf E|f n1 n2 n R1 IH1 R2 IH2 Hf E|shared f g b n1 n2 n R1 IH1 R2 IH2 Hf Hg Hfg Hb2 Hb1 E].
    - apply wf_new.
    - destruct (action_ok n a IH Hin Hok) as (n'' & E' & W). congruence.
    - now apply thru_ok.
    - assert (Hio : n_out n1 = n_in n2). { unfold net_pipe in E. destruct (Nat.eqb_spec (n_out n1) (n_in n2)); [auto|discriminate]. }
      destruct (pipe_ok zero ops f n1 n2 IH1 IH2 Hf Hio) as (n' & E' & W & _). congruence.
    - destruct (stack_gen zero ops false f n1 n2 IH1 IH2 Hf) as (n' & E' & W & _); [discriminate|]. congruence.
    - assert (Hio : n_in n1 = n_in n2). { unfold net_branch in E. destruct (Nat.eqb_spec (n_in n1) (n_in n2)); [auto|discriminate]. }
      destruct (stack_gen zero ops true f n1 n2 IH1 IH2 Hf) as (n' & E' & W & _); [auto|]. congruence.
    - assert (Hio : (shared = true -> n_in n1 = n_in n2) /\ n_out n1 = n_out n2).
      { unfold combine_binop in E. destruct shared; cbn [negb orb] in E; destruct (Nat.eqb_spec (n_in n1) (n_in n2)); destruct (Nat.eqb_spec (n_out n1) (n_out n2)); cbn [andb] in E; try discriminate; auto; split; auto; congruence. }
      destruct (binop_ok zero ops shared f g b (fun a _ => a) n1 n2 IH1 IH2 Hf Hg Hfg Hb2 Hb1 (proj1 Hio) (proj2 Hio)) as (n' & E' & W & _). congruence.
  Qed.
  Theorem reachable_wf n : reachable zero ops uping ahash no_loop_back n -> wf n.
  Proof. apply reachable_wf_gen. exact action_ok. Qed.

  (* ---- the user's view of a well-formed network ---- *)
  Lemma view_ok n p : wf n -> port_ok (n_in n) (outs_of ops (n_vertex n)) p -> exists s, view n p = Some s /\ source_ok ops n s.
  Proof.
    intros H Hp. destruct p as [j q|q|]; cbn [view].
    - apply port_local_inv in Hp as (v & Hv & Hq). rewrite Hv. eexists. split; [reflexivity|]. cbn. pose proof (vo_index _ _ _ _ _ _ (w_vertex _ n H j v Hv)) as X. split; [unfold contains; congruence|]. unfold outputs_in, node. rewrite X, Hv. cbn. auto.
    - eexists. split; [reflexivity|]. exact Hp.
    - eexists. split; [reflexivity|]. exact I.
  Qed.
  Theorem wf_consistent n : wf n -> consistent ops n.
  Proof.
    intros H. constructor.
    - intros id Hc. destruct (contains_index ops n id H Hc) as (i & v & _ & _ & _ & E & _). eauto.
    - intros i v Hv. apply (vo_index _ _ _ _ _ _ (w_vertex _ n H i v Hv)).
    - apply (w_id _ n H).
    - intros id c Hc Hi. destruct (contains_index ops n id H Hc) as (i & v & El & Ev & _ & _ & Ei & _). unfold net_source. rewrite El, Ev. pose proof (w_vertex _ n H i v Ev) as V.
      destruct (nth_error_ex (v_src v) c) as [e He]; [rewrite (vo_src _ _ _ _ _ _ V); lia|]. rewrite He. unfold v_inputs. rewrite (vo_tin _ _ _ _ _ _ V), <- Ei. apply Nat.ltb_lt in Hi as Hi'. rewrite Hi'. apply view_ok; auto. apply (vo_port _ _ _ _ _ _ V e (nth_error_In _ _ He)).
    - intros id c q. unfold net_source. destruct (lookup (n_index n) id) as [i|] eqn:El; [|discriminate]. destruct (nth_error (n_vertex n) i) as [v|] eqn:Ev; [|discriminate]. destruct (nth_error (v_src v) c) as [e|] eqn:Ee; [|destruct (Nat.ltb c (v_inputs v)); discriminate]. destruct (Nat.ltb c (v_inputs v)); [|discriminate].
      unfold view. destruct (e_src e) as [j r|r|] eqn:Es; try discriminate. destruct (nth_error (n_vertex n) j) as [w|] eqn:Ew; [|discriminate]. intros [= E ->].
      pose proof (vo_index _ _ _ _ _ _ (w_vertex _ n H j w Ew)) as X. assert (j = i) by congruence. subst j. apply (vo_self _ _ _ _ _ _ (w_vertex _ n H i v Ev) e q (nth_error_In _ _ Ee)). congruence.
    - intros c Hc. unfold output_source. destruct (nth_error_ex (n_oedge n) c) as [e He]; [rewrite (w_out _ n H); auto|]. rewrite He. apply Nat.ltb_lt in Hc as Hc'. rewrite Hc'. apply view_ok; auto. apply (w_oport _ n H e (nth_error_In _ _ He)).
  Qed.

  (* ---- check ---- *)
  Lemma index_length n : wf n -> length (n_index n) = length (n_vertex n).
  Proof.
    intros H. rewrite <- (map_length fst), <- (map_length v_id (n_vertex n)). apply Permutation_length. apply NoDup_Permutation; [apply (w_keys _ n H)|now apply (wf_ids_nodup ops)|].
    intros id. rewrite <- lookup_key. split.
    - intros Hl. destruct (lookup (n_index n) id) as [i|] eqn:E; [|congruence]. destruct (w_id _ n H id i E) as (v & Hv & <-). apply in_map. eapply nth_error_In; eauto.
    - intros Hin. apply in_map_iff in Hin as (v & <- & Hv). apply In_nth_error in Hv as (i & Hi). rewrite (vo_index _ _ _ _ _ _ (w_vertex _ n H i v Hi)). discriminate.
  Qed.
  Lemma check_port_ok n self p : wf n -> port_ok (n_in n) (outs_of ops (n_vertex n)) p -> (forall q, match self with Some k => p <> PLocal k q | None => True end) -> check_port n self p = true.
  Proof.
    intros H Hp Hs. destruct p as [j q|q|]; cbn [check_port]; auto.
    - apply port_local_inv in Hp as (v & Hv & Hq). rewrite Hv. pose proof (nth_error_lt _ _ _ Hv) as Hj. apply Nat.ltb_lt in Hj. rewrite Hj. unfold v_outputs. rewrite (vo_tout _ _ _ _ _ _ (w_vertex _ n H j v Hv)).
      apply Nat.ltb_lt in Hq. rewrite Hq. destruct self as [k|]; auto. destruct (Nat.eqb_spec j k) as [->|]; auto. exfalso. now apply (Hs q).
    - now apply Nat.ltb_lt.
  Qed.
  Lemma check_edges_ok n self es tgt : wf n -> (forall c e, nth_error es c = Some e -> e_tgt e = tgt c /\ port_ok (n_in n) (outs_of ops (n_vertex n)) (e_src e) /\ forall q, match self with Some k => e_src e <> PLocal k q | None => True end) ->
    (forall c, port_eqb (tgt c) (tgt c) = true) -> check_edges n self es tgt = true.
  Proof.
    intros H He Ht. unfold check_edges. apply forallb_forall. intros [c e] Hin. apply In_nth_error in Hin as (k & Hk). apply nth_error_combine_seq0 in Hk as [Hk Ec]. cbn in Hk, Ec. subst k. cbn [fst snd].
    destruct (He c e Hk) as (E1 & E2 & E3). rewrite E1, Ht. cbn [andb]. now apply check_port_ok.
  Qed.
  Theorem check_ordered n : wf n -> n_order n <> None -> check n = true.
  Proof.
    intros H Ho. destruct (n_order n) as [o|] eqn:Eo; [|congruence]. destruct (w_order _ n H o Eo) as [_ Hsv]. unfold check. rewrite (w_out _ n H), (index_length n H), !Nat.eqb_refl. cbn [andb].
    rewrite check_edges_ok; auto; [|intros c e Hc; split; [apply (w_otgt _ n H c e Hc)|split; auto; apply (w_oport _ n H e (nth_error_In _ _ Hc))]|intros c; apply Nat.eqb_refl]. cbn [andb].
    apply forallb_forall. intros [i v] Hin. apply In_nth_error in Hin as (k & Hk). apply nth_error_combine_seq0 in Hk as [Hv Ei]. cbn in Hv, Ei. subst k. cbn [fst snd]. pose proof (w_vertex _ n H i v Hv) as V.
    unfold check_vertex. rewrite (vo_index _ _ _ _ _ _ V), Nat.eqb_refl. unfold v_inputs at 1 2. unfold v_outputs at 1. rewrite (vo_src _ _ _ _ _ _ V), (vo_tin _ _ _ _ _ _ V), (vo_tout _ _ _ _ _ _ V). destruct (vo_in _ _ _ _ _ _ V) as [-> _]. destruct (vo_out _ _ _ _ _ _ V) as [-> _]. rewrite !Nat.eqb_refl. cbn [andb].
    rewrite check_edges_ok; auto.
    - cbn [andb]. rewrite (Hsv i v Hv). destruct (source_vertex v) as [[s p]|] eqn:Es; auto. destruct (source_vertex_reads zero ops n i v s p [] H Hv Es) as (w & Hw & Hb & Hne & _). rewrite Hw.
      pose proof (nth_error_lt _ _ _ Hw) as Hs. apply Nat.ltb_lt in Hs. rewrite Hs. destruct (Nat.eqb_spec s i); [congruence|]. cbn. apply Nat.leb_le. unfold v_inputs, v_outputs. rewrite (vo_tin _ _ _ _ _ _ V), (vo_tout _ _ _ _ _ _ (w_vertex _ n H s w Hw)).
      destruct (vo_out _ _ _ _ _ _ (w_vertex _ n H s w Hw)) as [<- _]. auto.
    - intros c e Hc. split; [apply (vo_tgt _ _ _ _ _ _ V c e Hc)|]. split; [apply (vo_port _ _ _ _ _ _ V e (nth_error_In _ _ Hc))|]. intros q. apply (vo_self _ _ _ _ _ _ V e q (nth_error_In _ _ Hc)).
    - intros c. cbn. now rewrite !Nat.eqb_refl.
  Qed.
End History.
