(* Sums, differences, products and buses of networks. *)
From Verif Require Export NetCombine.

#[local] Arguments iinsert : simpl never.
#[local] Arguments iremove : simpl never.

Section Binop.
  Context {A P U : Type}.
  Variable zero : A.
  Variable ops : unit_ops A P U.
  Notation net := (net A U).
  Notation vertex := (vertex A U).
  Notation wf := (wf ops).
  Notation outs_of := (outs_of ops).
  Notation port_ok := NetWf.port_ok.
  Notation shift := NetModel.shift.
  Notation push := (push zero ops).

  (* an id of the renamed network is a fresh one or one of the original *)
  Lemma disambiguate_id fresh other : forall is (n n' : net) j w, disambiguate fresh other is n = Some n' -> nth_error (n_vertex n') j = Some w ->
    (exists i, v_id w = fresh i) \/ exists v0, nth_error (n_vertex n) j = Some v0 /\ v_id w = v_id v0.
  Proof.
    induction is as [|i is IH]; intros n n' j w E Hw; cbn in E; [inversion E; subst; eauto|]. destruct (nth_error (n_vertex n) i) as [v|] eqn:Hv; [|discriminate].
    destruct (lookup other (v_id v)); [|eapply IH; eauto]. destruct (IH _ _ _ _ E Hw) as [?|(v0 & Hv0 & Ei)]; auto. cbn [n_vertex n_set_index n_set_vertex] in Hv0.
    apply nth_error_upd_inv in Hv0 as [(-> & -> & _)|(Hne & Hv0)]; [left; exists i; exact Ei|eauto].
  Qed.

  Lemma push_binops_ok (new : nat -> N) (b : U) ao : (forall i j, new i = new j -> i = j) -> u_outs ops b = 1 ->
    forall r k n, wf n -> length (n_vertex n) = ao + k -> k + r = n_out n -> (forall i, k <= i -> ~ contains n (new i)) ->
    exists n', push_binops zero ops new b ao (seq k r) n = Some n' /\ wf n' /\ n_in n' = n_in n /\ n_out n' = n_out n /\
      n_vertex n' = n_vertex n ++ map (fun i => vertex_new zero ops (new i) (ao + i) b) (seq k r) /\
      (forall c, c < k -> nth_error (n_oedge n') c = nth_error (n_oedge n) c) /\
      (forall c, k <= c < k + r -> nth_error (n_oedge n') c = Some (mkE (PLocal (ao + c) 0) (PGlobal c))).
  Proof.
    intros Hinj Hb. induction r as [|r IH]; intros k n H Hl Ho Hn; cbn [seq push_binops].
    - exists n. split; auto. split; auto. split; auto. split; auto. split; [now rewrite app_nil_r|]. split; auto. intros; lia.
    - assert (Hf : lookup (n_index n) (new k) = None). { specialize (Hn k (Nat.le_refl k)). unfold contains in Hn. destruct (lookup (n_index n) (new k)); auto. exfalso. apply Hn. discriminate. }
      pose proof (wf_push zero ops n (new k) b H Hf) as W1. set (n1 := push n (new k) b) in *.
      assert (Hv1 : n_vertex n1 = n_vertex n ++ [vertex_new zero ops (new k) (ao + k) b]) by (unfold n1, NetModel.push; cbn; now rewrite Hl).
      assert (Hx : nth_error (n_vertex n1) (ao + k) = Some (vertex_new zero ops (new k) (ao + k) b)) by (rewrite Hv1, nth_error_app2 by lia; rewrite Hl, Nat.sub_diag; auto).
      destruct (plug_output_ok ops n1 k (PLocal (ao + k) 0) W1) as (n2 & E2 & W2 & S2 & V2 & O2 & _). { unfold n1. cbn. lia. } { eapply port_local; eauto. cbn. lia. }
      unfold connect_output_index. rewrite E2. destruct (IH (S k) n2) as (n' & E & W & I1 & I2 & V & O3 & O4); auto.
      + rewrite V2, Hv1, app_length. cbn. lia.
      + rewrite (ss_out _ _ S2). unfold n1. cbn. lia.
      + intros i Hi. unfold contains. rewrite (ss_index _ _ S2). unfold n1, NetModel.push. cbn [n_index invalidate n_set_index]. rewrite lookup_iinsert.
        destruct (N.eqb_spec (new k) (new i)) as [E|_]; [apply Hinj in E; lia|]. apply Hn. lia.
      + assert (Hlo : k < length (n_oedge n1)) by (unfold n1; cbn; rewrite (w_out _ n H); lia).
        exists n'. split; auto. split; auto. split; [rewrite I1, (ss_in _ _ S2); auto|]. split; [rewrite I2, (ss_out _ _ S2); auto|]. split.
        { rewrite V, V2, Hv1, <- app_assoc. reflexivity. }
        split.
        * intros c Hc. rewrite O3 by lia. rewrite O2, nth_error_upd_ne by lia. reflexivity.
        * intros c Hc. destruct (Nat.eq_dec c k) as [->|Hne]; [|apply O4; lia]. rewrite O3 by lia. rewrite O2, nth_error_upd_eq; auto.
  Qed.

  Lemma join_outputs_ok ao chan : forall ps i n, wf n ->
    (forall c v, nth_error (n_vertex n) (ao + i + c) = Some v -> chan < u_ins ops (v_unit v) /\ nth_error (sources v) chan = Some PZero) ->
    ao + i + length ps = length (n_vertex n) ->
    (forall p, In p ps -> port_ok (n_in n) (outs_of (n_vertex n)) p /\ forall j q, p = PLocal j q -> j < ao) ->
    exists n', join_outputs ao chan i ps n = Some n' /\ wf n' /\ same_shape n n' /\ n_oedge n' = n_oedge n /\
      (forall j, j < ao + i -> nth_error (n_vertex n') j = nth_error (n_vertex n) j) /\
      (forall c p v, nth_error ps c = Some p -> nth_error (n_vertex n) (ao + i + c) = Some v -> exists v', nth_error (n_vertex n') (ao + i + c) = Some v' /\ sources v' = upd (sources v) chan p).
  Proof.
    induction ps as [|p ps IH]; intros i n H Hv Hl Hp; cbn [join_outputs].
    - exists n. split; auto. split; auto. split; [apply same_shape_refl|]. split; auto. split; auto. intros [|c] p v; discriminate.
    - destruct (nth_error_ex (n_vertex n) (ao + i)) as [v Ev]; [cbn in Hl; lia|]. destruct (Hv 0 v) as [Hch Hz]; [now rewrite Nat.add_0_r|].
      destruct (Hp p) as [Hpo Hpl]; [cbn; auto|].
      assert (Step : exists n1, match p with PLocal j q => connect_index n j q (ao + i) chan | PGlobal q => connect_input_index n q (ao + i) chan | PZero => Some n end = Some n1 /\
        wf n1 /\ same_shape n n1 /\ n_oedge n1 = n_oedge n /\ (forall j, j <> ao + i -> nth_error (n_vertex n1) j = nth_error (n_vertex n) j) /\
        exists v', nth_error (n_vertex n1) (ao + i) = Some v' /\ sources v' = upd (sources v) chan p).
      { assert (Hplug : exists n1, plug n (ao + i) chan p = Some n1 /\ wf n1 /\ same_shape n n1 /\ n_oedge n1 = n_oedge n /\ (forall j, j <> ao + i -> nth_error (n_vertex n1) j = nth_error (n_vertex n) j) /\
          exists v', nth_error (n_vertex n1) (ao + i) = Some v' /\ sources v' = upd (sources v) chan p).
        { destruct (plug_ok ops n (ao + i) chan p v H Ev Hch Hpo) as (n1 & E1 & W1 & S1 & V1 & O1 & _). { intros q Eq. specialize (Hpl _ _ Eq). lia. }
          exists n1. split; auto. split; auto. split; auto. split; auto. split.
          - intros j Hj. rewrite V1, nth_error_upd_ne; auto.
          - eexists. split; [rewrite V1, nth_error_upd_eq; auto; eapply nth_error_lt; eauto|]. unfold sources. cbn [v_set_src v_src]. now rewrite map_upd. }
        destruct p as [j q|q|]; try exact Hplug. exists n. split; auto. split; auto. split; [apply same_shape_refl|]. split; auto. split; auto. exists v. split; auto. symmetry. apply upd_same. exact Hz. }
      destruct Step as (n1 & -> & W1 & S1 & O1 & D1 & v1 & Ev1 & Sv1).
      assert (HL : length (n_vertex n1) = length (n_vertex n)). { rewrite <- (map_length v_unit), (ss_units _ _ S1), map_length. auto. }
      destruct (IH (S i) n1 W1) as (n' & E & W & SS & O & D & V).
      + intros c w Hw. apply (Hv (S c)). rewrite <- D1 by lia. rewrite <- Hw. f_equal. lia.
      + cbn in Hl. lia.
      + intros p' Hp'. destruct (Hp p') as [Hpo' Hpl']; [cbn; auto|]. split; auto. eapply same_shape_port; eauto.
      + exists n'. split; auto. split; auto. split; [eapply same_shape_trans; eauto|]. split; [congruence|]. split.
        * intros j Hj. rewrite D by lia. apply D1. lia.
        * intros [|c] p' w Hc Hw; cbn in Hc.
          -- rewrite Nat.add_0_r in *. inversion Hc; subst p'. assert (w = v) by congruence. subst w. exists v1. split; auto. rewrite D by lia. auto.
          -- destruct (V c p' w Hc) as (w' & Hw' & Sw'). { replace (ao + S i + c) with (ao + i + S c) by lia. rewrite D1 by lia. auto. } exists w'. split; auto. rewrite <- Hw'. f_equal. lia.
  Qed.

  Lemma zip_nth {X Y Z} (f : X -> Y -> Z) : forall l m c, nth_error (zipw f l m) c = match nth_error l c, nth_error m c with Some a, Some b => Some (f a b) | _, _ => None end.
  Proof. induction l as [|a l IH]; intros [|b m] [|c]; cbn; auto. now destruct (nth_error l c). Qed.

  Lemma binop_ok (shared : bool) fresh new b (op : A -> A -> A) n1 n2 : wf n1 -> wf n2 -> fresh_for n1 n2 fresh -> fresh_for n1 n2 new -> (forall i j, fresh i <> new j) ->
    u_ins ops b = 2 -> u_outs ops b = 1 -> (shared = true -> n_in n1 = n_in n2) -> n_out n1 = n_out n2 ->
    exists n, combine_binop zero ops shared fresh new b n1 n2 = Some n /\ wf n /\ n_in n = (if shared then n_in n1 else n_in n1 + n_in n2) /\ n_out n = n_out n1 /\
      units n = units n1 ++ units n2 ++ repeat b (n_out n1) /\ (~ has_cycle n1 -> ~ has_cycle n2 -> ~ has_cycle n) /\
      ((forall x y, u_tick ops b [x; y] = (b, [op x y])) ->
       forall us1 us2 x1 x2 xr us1' us2' vals1 vals2 y z, length x1 = n_in n1 -> (if shared then x2 = x1 /\ xr = [] else xr = x2) ->
        dataflow zero ops n1 us1 x1 us1' vals1 y -> dataflow zero ops n2 us2 x2 us2' vals2 z ->
        dataflow zero ops n (us1 ++ us2 ++ repeat b (n_out n1)) (x1 ++ xr) (us1' ++ us2' ++ repeat b (n_out n1)) (vals1 ++ vals2 ++ map (fun v => [v]) (zipw op y z)) (zipw op y z)).
  Proof.
    intros H1 H2 Hfr Hnew Hfn Hb2 Hb1 Hio Hout. destruct (side_ok ops shared fresh n1 n2 H1 H2 Hfr Hio) as (n2' & vs2 & m & oe & Ed & W & SB & Ea & F & B & Eo & Hoe & Hoe2 & Hpo). cbv zeta in *.
    set (off := length (n_vertex n1)) in *. set (f := fun q => Some (PGlobal (if shared then q else q + n_in n1))) in *. set (nin := if shared then n_in n1 else n_in n1 + n_in n2) in *.
    set (nb := mkNet nin (n_out n1) (n_oedge n1) (n_vertex n1 ++ vs2) None m (n_error n1) (n_revision n1)).
    assert (Wb : wf nb).
    { unfold nb. eapply both_wf; eauto; [apply (w_out _ n1 H1)|]. intros c e Hc. split; [apply (w_otgt _ n1 H1 c e Hc)|]. eapply port_ok_mono; [apply (fd_nin _ _ _ _ _ F)|]. apply (w_oport _ n1 H1), (nth_error_In _ _ Hc). }
    set (ao := length (n_vertex nb)). assert (Hao : ao = length (n_vertex n1) + length (n_vertex n2)). { unfold ao, nb. cbn. rewrite (units_app _ _ _ _ _ _ _ B). now rewrite (same_but_ids_length _ _ SB). }
    (* ids in m are those of n1 and of n2' *)
    assert (Hnc : forall i, ~ contains nb (new i)).
    { intros i Hc. unfold contains in Hc. unfold nb in Hc. cbn in Hc. destruct (lookup m (new i)) as [k|] eqn:El; [|congruence]. destruct (b_id _ _ _ _ _ _ _ B _ _ El) as (v & Hv & Hid).
      destruct Hnew as [_ Hnew]. destruct (Hnew i) as [N1 N2]. destruct (Nat.lt_ge_cases k off) as [Hk|Hk].
      - rewrite nth_error_app1 in Hv by auto. apply N1. unfold contains. rewrite <- Hid. rewrite (vo_index _ _ _ _ _ _ (w_vertex _ n1 H1 k v Hv)). discriminate.
      - rewrite nth_error_app2 in Hv by auto. fold off in Hv.
        destruct (adopt_spec off f (n_vertex n2') off (n_index n1)) as (vs2' & m' & Ea' & Hl' & Hv' & _).
        { intros w e Hw He. apply In_nth_error in Hw as (j & Hj). eapply shift_some; eauto. apply (vo_port _ _ _ _ _ _ (w_vertex _ n2' W j w Hj) e He). } { now apply (wf_ids_nodup ops). }
        rewrite Ea in Ea'. inversion Ea'; subst vs2' m'. destruct (nth_error_ex (n_vertex n2') (k - off)) as [w Hw]; [rewrite <- Hl'; eapply nth_error_lt; eauto|].
        destruct (Hv' _ _ Hw) as (ps & _ & Es). assert (Eid : v_id v = v_id w) by (rewrite Hv in Es; inversion Es; auto).
        destruct (disambiguate_id fresh (n_index n1) (seq 0 (length (n_vertex n2))) n2 n2' (k - off) w Ed Hw) as [(j & Ej)|(v0 & Hv0 & Ej)].
        + apply (Hfn j i). congruence.
        + apply N2. unfold contains. rewrite <- Hid, Eid, Ej. rewrite (vo_index _ _ _ _ _ _ (w_vertex _ n2 H2 _ v0 Hv0)). discriminate. }
    destruct (push_binops_ok new b ao (proj1 Hnew) Hb1 (n_out n1) 0 nb Wb) as (np & Ep & Wp & Ip & Op & Vp & _ & OEp); auto; try (unfold ao; lia).
    assert (Hoesrc : map e_src (n_oedge np) = map (fun c => PLocal (ao + c) 0) (seq 0 (n_out n1))).
    { apply nth_error_ext. intros c. rewrite !nth_error_map. destruct (Nat.lt_ge_cases c (n_out n1)) as [Hc|Hc].
      - rewrite OEp by lia. rewrite (nth_error_nth' _ c 0) by (now rewrite seq_length). rewrite seq_nth by auto. reflexivity.
      - rewrite !(proj2 (nth_error_None _ _)); auto; [now rewrite seq_length|]. rewrite (w_out _ np Wp), Op. auto. }
    assert (Houtsp : outs_of (n_vertex np) = outs_of (n_vertex n1) ++ outs_of (n_vertex n2') ++ outs_of (map (fun i => vertex_new zero ops (new i) (ao + i) b) (seq 0 (n_out n1)))).
    { rewrite Vp. unfold nb. cbn [n_vertex]. rewrite outs_of_app, (both_outs _ _ _ _ _ _ _ B), <- app_assoc. reflexivity. }
    assert (Hnew_at : forall c v, nth_error (n_vertex np) (ao + 0 + c) = Some v -> v = vertex_new zero ops (new c) (ao + c) b /\ c < n_out n1).
    { intros c v Hv. rewrite Vp, nth_error_app2 in Hv by (unfold ao; lia). fold ao in Hv. replace (ao + 0 + c - ao) with c in Hv by lia. apply nth_error_map_seq' in Hv as [Hc ->]. cbn. auto. }
    assert (Hp1 : forall p, In p (map e_src (n_oedge n1)) -> port_ok (n_in np) (outs_of (n_vertex np)) p /\ forall j q, p = PLocal j q -> j < ao).
    { intros p Hp. apply in_map_iff in Hp as (e & <- & He). pose proof (w_oport _ n1 H1 e He) as Hpp. split.
      - rewrite Houtsp, Ip. eapply port_ok_mono; [|exact Hpp]. apply (fd_nin _ _ _ _ _ F).
      - intros j q Eq. rewrite Eq in Hpp. cbn in Hpp. destruct Hpp as (k & Hk & _). apply nth_error_lt in Hk. unfold NetWf.outs_of in Hk. rewrite map_length in Hk. lia. }
    destruct (join_outputs_ok ao 0 (map e_src (n_oedge n1)) 0 np Wp) as (nq & Eq & Wq & Sq & Oq & Dq & Vq).
    { intros c v Hv. apply Hnew_at in Hv as [-> _]. unfold vertex_new, sources. cbn [v_unit v_src]. rewrite Hb2. split; [lia|reflexivity]. }
    { rewrite map_length, (w_out _ n1 H1), Vp, app_length, map_length, seq_length. fold ao. lia. }
    { exact Hp1. }
    assert (Lq : length (n_vertex nq) = ao + n_out n1). { rewrite <- (map_length v_unit), (ss_units _ _ Sq), map_length, Vp, app_length, map_length, seq_length. reflexivity. }
    assert (Hq_at : forall c v, nth_error (n_vertex nq) (ao + 0 + c) = Some v -> exists e, nth_error (n_oedge n1) c = Some e /\ sources v = [e_src e; PZero] /\ v_unit v = b).
    { intros c v Hv. assert (Hc : c < n_out n1) by (apply nth_error_lt in Hv; lia). destruct (nth_error_ex (n_oedge n1) c) as [e He]; [rewrite (w_out _ n1 H1); auto|]. exists e. split; auto.
      destruct (nth_error_ex (n_vertex np) (ao + 0 + c)) as [v0 Hv0]; [rewrite Vp, app_length, map_length, seq_length; fold ao; lia|].
      destruct (Vq c (e_src e) v0) as (v' & Hv' & Es); auto; [now rewrite nth_error_map, He|]. assert (v' = v) by congruence. subst v'. destruct (same_shape_unit _ _ _ _ Sq Hv0) as (v'' & Hv'' & Eu). assert (v'' = v) by congruence. subst v''.
      destruct (Hnew_at c v0 Hv0) as [-> _]. split; [|rewrite Eu; reflexivity]. rewrite Es. unfold sources, vertex_new. cbn [v_src]. rewrite Hb2. reflexivity. }
    destruct (join_outputs_ok ao 1 oe 0 nq Wq) as (nr & Er & Wr & Sr & Or & Dr & Vr).
    { intros c v Hv. apply Hq_at in Hv as (e & _ & Es & Eu). rewrite Eu, Es, Hb2. split; [lia|reflexivity]. }
    { rewrite Hoe, Lq. lia. }
    { intros p Hp. specialize (Hpo p Hp). split.
      - eapply same_shape_port; eauto. rewrite Houtsp, Ip, app_assoc. eapply port_ok_mono; [|exact Hpo]. reflexivity.
      - intros j q Eq'. rewrite Eq' in Hpo. cbn in Hpo. destruct Hpo as (k & Hk & _). apply nth_error_lt in Hk. rewrite app_length in Hk. unfold NetWf.outs_of in Hk. rewrite !map_length in Hk. rewrite (same_but_ids_length _ _ SB) in Hk. lia. }
    exists (invalidate nr).
    assert (Hr_low : forall j, j < ao -> nth_error (n_vertex nr) j = nth_error (n_vertex n1 ++ vs2) j).
    { intros j Hj. rewrite Dr, Dq by lia. rewrite Vp, nth_error_app1 by (fold ao; lia). reflexivity. }
    assert (Hr_at : forall c v, nth_error (n_vertex nr) (ao + c) = Some v -> exists e p, nth_error (n_oedge n1) c = Some e /\ nth_error oe c = Some p /\ sources v = [e_src e; p] /\ v_unit v = b).
    { intros c v Hv. assert (Lr : length (n_vertex nr) = ao + n_out n1) by (rewrite <- (map_length v_unit), (ss_units _ _ Sr), map_length; auto). assert (Hc : c < n_out n1) by (apply nth_error_lt in Hv; lia).
      destruct (nth_error_ex (n_vertex nq) (ao + 0 + c)) as [v0 Hv0]; [lia|]. destruct (Hq_at c v0 Hv0) as (e & He & Es & Eu). destruct (nth_error_ex oe c) as [p Hp]; [rewrite Hoe; lia|]. exists e, p. split; auto. split; auto.
      destruct (Vr c p v0 Hp Hv0) as (v' & Hv' & Es'). rewrite Nat.add_0_r in *. assert (v' = v) by congruence. subst v'. destruct (same_shape_unit _ _ _ _ Sr Hv0) as (v'' & Hv'' & Eu'). assert (v'' = v) by congruence. subst v''.
      split; [|congruence]. rewrite Es', Es. reflexivity. }
    assert (Lr : length (n_vertex nr) = ao + n_out n1) by (rewrite <- (map_length v_unit), (ss_units _ _ Sr), map_length; auto).
    assert (Hunits : units nr = units n1 ++ units n2 ++ repeat b (n_out n1)).
    { unfold units. rewrite (ss_units _ _ Sr), (ss_units _ _ Sq), Vp, map_app. unfold nb. cbn [n_vertex]. rewrite (b_units _ _ _ _ _ _ _ B). unfold units. rewrite (sb_units _ _ SB), <- app_assoc. do 2 f_equal.
      rewrite map_map. cbn. clear. generalize 0. induction (n_out n1) as [|k IH]; intros s; cbn; auto. now rewrite IH. }
    assert (Eres : combine_binop zero ops shared fresh new b n1 n2 = Some (invalidate nr)).
    { unfold combine_binop. replace (negb shared || Nat.eqb (n_in n1) (n_in n2)) with true by (destruct shared; cbn; auto; rewrite (Hio eq_refl), Nat.eqb_refl; auto). rewrite Hout, Nat.eqb_refl. cbn [andb]. rewrite Ed. fold off. fold f. rewrite Ea.
      replace (if shared then n_in n1 else n_in n1 + n_in n2') with nin by (unfold nin; rewrite (sb_in _ _ SB); auto). rewrite <- Hout. fold nb. cbv zeta. fold ao. change (n_out nb) with (n_out n1). rewrite Ep, Eq.
      rewrite Eo, Er. reflexivity. }
    split; [exact Eres|]. split; [now apply wf_invalidate|]. split; [cbn; rewrite (ss_in _ _ Sr), (ss_in _ _ Sq), Ip; reflexivity|]. split; [cbn; rewrite (ss_out _ _ Sr), (ss_out _ _ Sq), Op; reflexivity|]. split; [exact Hunits|]. split.
    - intros C1 C2. assert (C2' : ~ has_cycle n2') by (now rewrite (same_but_ids_cycle _ _ SB)). destruct (both_ranked ops _ _ _ _ _ _ H1 W F B C1 C2') as (rank & k & Hr & Hk).
      apply (ranked_acyclic _ (fun i => if Nat.ltb i ao then rank i else k)). unfold graph. cbn [invalidate n_vertex]. intros i j Hij. unfold reads in Hij.
      destruct (nth_error (map sources (n_vertex nr)) i) as [ps|] eqn:Hps. 2:{ rewrite nth_overflow in Hij; [destruct Hij|]. rewrite map_length. now apply nth_error_None. }
      rewrite (nth_error_nth _ _ [] (map_nth_error local_sources i _ Hps)) in Hij. rewrite nth_error_map in Hps. destruct (nth_error (n_vertex nr) i) as [v|] eqn:Hv; [|discriminate]. cbn in Hps. inversion Hps; subst ps. clear Hps.
      assert (Hj : j < ao).
      { destruct (Nat.lt_ge_cases i ao) as [Hi|Hi].
        - rewrite Hr_low in Hv by auto. assert (R : OrderSpec.in_range (adjacency (n_vertex nb))) by (now apply (adjacency_in_range ops)). specialize (R i j). unfold adjacency in R. rewrite map_length in R. apply R.
          unfold reads. rewrite (nth_error_nth _ _ [] (map_nth_error (fun v => locals (v_src v)) i (n_vertex nb) Hv)). unfold local_sources, sources in Hij. unfold locals. rewrite flat_map_concat_map, map_map in Hij. rewrite flat_map_concat_map. exact Hij.
        - replace i with (ao + (i - ao)) in Hv by lia. apply Hr_at in Hv as (e & p & He & Hp & Es & _). rewrite Es in Hij. unfold local_sources in Hij. apply in_flat_map in Hij as (pp & Hin & Hjj). destruct pp as [j' q| |]; cbn in Hjj; try tauto. destruct Hjj as [->|[]].
          destruct Hin as [Hin|[Hin|[]]].
          + apply (proj2 (Hp1 (e_src e) (in_map _ _ _ (nth_error_In _ _ He))) j q Hin).
          + specialize (Hpo p (nth_error_In _ _ Hp)). rewrite Hin in Hpo. cbn in Hpo. destruct Hpo as (k' & Hk' & _). apply nth_error_lt in Hk'. rewrite app_length in Hk'. unfold NetWf.outs_of in Hk'. rewrite !map_length in Hk'. rewrite (same_but_ids_length _ _ SB) in Hk'. lia. }
      destruct (Nat.ltb_spec j ao); [|lia]. destruct (Nat.ltb_spec i ao) as [Hi|Hi]; [|apply Hk]. apply Hr. unfold reads. rewrite Hr_low in Hv by auto.
      assert (Hv' : nth_error (map sources (n_vertex n1 ++ vs2)) i = Some (sources v)) by (rewrite nth_error_map, Hv; auto). rewrite (nth_error_nth _ _ [] (map_nth_error local_sources i _ Hv')). auto.
    - intros Hop us1 us2 x1 x2 xr us1' us2' vals1 vals2 y z Hl Hx [F1 O1] D2. apply (same_but_ids_flow zero ops _ _ _ _ _ _ _ SB) in D2 as [F2 O2].
      pose proof (side_value zero shared x1 xr x2 n1 (vals1 ++ vals2) Hl Hx) as Hf. pose proof (both_flow zero ops _ _ _ _ _ _ _ _ _ xr _ _ _ _ _ B F1 F2 Hf) as (FB1 & FB2 & FB3 & FB).
      assert (Hl1 : length vals1 = length (n_vertex n1)). { destruct F1 as (_ & _ & L & _). rewrite L. apply map_length. }
      assert (Hy : length y = n_out n1) by (rewrite (mapM_length _ _ _ O1), map_length; apply (w_out _ n1 H1)).
      assert (Hz : length z = n_out n1) by (rewrite (mapM_length _ _ _ O2), map_length, (w_out _ n2' W), (sb_out _ _ SB); auto).
      rewrite map_length in FB1, FB2, FB3. change (length (n_vertex n1 ++ vs2)) with ao in FB1, FB2, FB3.
      assert (Hzl : length (map (fun v : A => [v]) (zipw op y z)) = n_out n1). { rewrite map_length, zipw_length. lia. }
      assert (Hext : forall p a, value zero (vals1 ++ vals2) (x1 ++ xr) p = Some a -> value zero (vals1 ++ vals2 ++ map (fun v => [v]) (zipw op y z)) (x1 ++ xr) p = Some a).
      { intros p a Hv. rewrite app_assoc, <- (app_nil_r (x1 ++ xr)). now apply value_app. }
      split.
      + unfold flow, graph. cbn [invalidate n_vertex]. rewrite !app_length, repeat_length, map_length, Hzl, Lr. rewrite app_length in FB1, FB2, FB3. split; [lia|]. split; [lia|]. split; [lia|].
        intros i ps u u' o Hps Hu Hu' Ho'. rewrite nth_error_map in Hps. destruct (nth_error (n_vertex nr) i) as [v|] eqn:Hv; [|discriminate]. cbn in Hps. inversion Hps; subst ps. clear Hps.
        rewrite app_assoc in Hu, Hu', Ho'. destruct (Nat.lt_ge_cases i ao) as [Hi|Hi].
        * rewrite nth_error_app1 in Hu, Hu', Ho' by (rewrite app_length; lia). rewrite Hr_low in Hv by auto. destruct (FB i (sources v) u u' o) as (ins & Hm & Ht); auto; [now rewrite nth_error_map, Hv|].
          exists ins. split; auto. eapply mapM_imp; [|exact Hm]. intros p a _. apply Hext.
        * set (c := i - ao). assert (Ei : i = ao + c) by lia. clearbody c. subst i. rewrite nth_error_app2 in Hu, Hu', Ho' by (rewrite app_length; lia). rewrite app_length in Hu, Hu', Ho'.
          rewrite FB1 in Hu. rewrite FB2 in Hu'. rewrite FB3 in Ho'. replace (ao + c - ao) with c in * by lia.
          assert (Hub : u = b) by (apply nth_error_In, repeat_spec in Hu; auto). assert (Hub' : u' = b) by (apply nth_error_In, repeat_spec in Hu'; auto). subst u u'.
          destruct (Hr_at c v Hv) as (e & p & He & Hp & Es & Eu). rewrite nth_error_map, zip_nth in Ho'.
          destruct (mapM_nth _ _ _ O1 c (e_src e)) as (a1 & Ha1 & Hv1); [now rewrite nth_error_map, He|].
          assert (Hoe3 : mapM (value zero (vals1 ++ vals2) (x1 ++ xr)) oe = Some z). { unfold off in Hoe2. rewrite <- Hl1 in Hoe2. apply (mapM_shift zero vals1 vals2 (x1 ++ xr) x2 f (map e_src (n_oedge n2')) oe z); auto. }
          destruct (mapM_nth _ _ _ Hoe3 c p Hp) as (a2 & Ha2 & Hv2).
          rewrite Ha1, Ha2 in Ho'. cbn in Ho'. inversion Ho'; subst o. exists [a1; a2]. split; [|apply Hop]. rewrite Es. cbn [mapM].
          rewrite (Hext _ _ (value_app zero _ _ _ _ _ _ Hv1)), (Hext _ _ Hv2). reflexivity.
      + cbn [invalidate n_oedge]. rewrite Or, Oq, Hoesrc.
        assert (G : forall l pre, length pre = ao -> forall k d, mapM (value zero (pre ++ map (fun v : A => [v]) (d ++ l)) (x1 ++ xr)) (map (fun c => PLocal (ao + c) 0) (seq k (length l))) = if Nat.eqb k (length d) then Some l else mapM (value zero (pre ++ map (fun v : A => [v]) (d ++ l)) (x1 ++ xr)) (map (fun c => PLocal (ao + c) 0) (seq k (length l)))).
        { intros l pre Hpre. induction l as [|a l IHl]; intros k d; destruct (Nat.eqb_spec k (length d)) as [->|]; auto. cbn [length seq map mapM]. cbn [value].
          rewrite nth_error_app2 by lia. replace (ao + length d - length pre) with (length d) by lia. rewrite nth_error_map, nth_error_app2 by lia. rewrite Nat.sub_diag. cbn [nth_error option_map].
          specialize (IHl (S (length d)) (d ++ [a])). rewrite <- app_assoc in IHl. cbn [app] in IHl. rewrite IHl. rewrite app_length. cbn [length]. replace (length d + 1) with (S (length d)) by lia. rewrite Nat.eqb_refl. reflexivity. }
        specialize (G (zipw op y z) (vals1 ++ vals2)). rewrite app_length in FB3. rewrite app_length in G. specialize (G FB3 0 []). cbn [app length Nat.eqb] in G. rewrite zipw_length, Hy, Hz, Nat.min_id in G. rewrite <- app_assoc in G. exact G.
  Qed.
End Binop.
