(* The labels of n1 + n2, n1 - n2, n1 * n2, n1 & n2 and !n. *)
From Coq Require Import Lia.
From Verif Require Import NetRouteSpec.
From Verif Require Export NetRouteProofs NetBinop.

#[local] Arguments iinsert : simpl never.
#[local] Arguments iremove : simpl never.
Local Open Scope nat_scope.

Section Shape.
  Context {A P U : Type}.
  Variable zero : A.
  Variable ops : unit_ops A P U.
  Notation net := (net A U).
  Notation vertex := (vertex A U).
  Notation wf := (NetWf.wf ops).
  Notation outs_of := (NetWf.outs_of ops).
  Notation port_ok := NetWf.port_ok.
  Notation shift := NetModel.shift.
  Notation push := (NetModel.push zero ops).

  (* the vertices of both networks, then one operator for each output that reads the former outputs *)
  Lemma binop_shape (shared : bool) fresh new b n1 n2 : wf n1 -> wf n2 -> fresh_for n1 n2 fresh -> fresh_for n1 n2 new -> (forall i j, fresh i <> new j) ->
    u_ins ops b = 2 -> u_outs ops b = 1 -> (shared = true -> n_in n1 = n_in n2) -> n_out n1 = n_out n2 ->
    let f := fun q => Some (PGlobal (if shared then q else q + n_in n1)) in let nin := if shared then n_in n1 else n_in n1 + n_in n2 in let ao := length (n_vertex n1) + length (n_vertex n2) in
    exists n n2' vs2 m oe, combine_binop zero ops shared fresh new b n1 n2 = Some n /\ wf n2' /\ same_but_ids n2 n2' /\ both ops n1 n2' nin f (n_vertex n1 ++ vs2) m /\ length (n_vertex n1 ++ vs2) = ao /\
      mapM (shift (length (n_vertex n1)) f) (map e_src (n_oedge n2')) = Some oe /\ length (n_vertex n) = ao + n_out n1 /\
      (forall j, j < ao -> nth_error (n_vertex n) j = nth_error (n_vertex n1 ++ vs2) j) /\
      (forall c v, nth_error (n_vertex n) (ao + c) = Some v -> exists e p, nth_error (n_oedge n1) c = Some e /\ nth_error oe c = Some p /\ sources v = [e_src e; p]) /\
      map e_src (n_oedge n) = map (fun c => PLocal (ao + c) 0) (seq 0 (n_out n1)).
  Proof.
    cbv zeta. intros H1 H2 Hfr Hnew Hfn Hb2 Hb1 Hio Hout. destruct (side_ok ops shared fresh n1 n2 H1 H2 Hfr Hio) as (n2' & vs2 & m & oe & Ed & W & SB & Ea & F & B & Eo & Hoe & Hoe2 & Hpo). cbv zeta in *.
    set (off := length (n_vertex n1)) in *. set (f := fun q => Some (PGlobal (if shared then q else q + n_in n1))) in *. set (nin := if shared then n_in n1 else n_in n1 + n_in n2) in *.
    set (nb := mkNet nin (n_out n1) (n_oedge n1) (n_vertex n1 ++ vs2) None m (n_error n1) (n_revision n1)).
    assert (Wb : wf nb).
    { unfold nb. eapply both_wf; eauto; [apply (w_out _ n1 H1)|]. intros c e Hc. split; [apply (w_otgt _ n1 H1 c e Hc)|]. eapply port_ok_mono; [apply (fd_nin _ _ _ _ _ F)|]. apply (w_oport _ n1 H1), (nth_error_In _ _ Hc). }
    set (ao := length (n_vertex nb)). assert (Hao : ao = length (n_vertex n1) + length (n_vertex n2)). { unfold ao, nb. cbn. rewrite (units_app _ _ _ _ _ _ _ B). now rewrite (same_but_ids_length _ _ SB). }
    (* ids in m are those of n1 and of n2' *)
    assert (Hnc : forall i, ~ contains nb (new i)).
    { intros i Hc. unfold contains in Hc. unfold nb in Hc. cbn in Hc. destruct (lookup m (new i)) as [k|] eqn:El; [|congruence]. destruct (b_id _ _ _ _ _ _ _ B _ _ El) as (v & Hv & Hid).
      destruct Hnew as [_ Hnew]. destruct (Hnew i) as [N1 N2]. destruct (Nat.lt_ge_cases k off) as [Hk|Hk].
      - rewrite nth_error_app1 in Hv by auto. apply N1. unfold contains. rewrite <- Hid. rewrite (vo_index _ _ _ _ _ _ (w_vertex _ n1 H1 k v Hv)). discriminate.
      - rewrite nth_error_app2 in Hv by auto. fold off in Hv.
        destruct (adopt_spec off f (n_vertex n2') off (n_index n1)) as (vs2' & m' & Ea' & Hl' & Hv' & _).
        { intros w e Hw He. apply In_nth_error in Hw as (j & Hj). eapply shift_some; eauto. apply (vo_port _ _ _ _ _ _ (w_vertex _ n2' W j w Hj) e He). } { now apply (wf_ids_nodup ops). }
        rewrite Ea in Ea'. inversion Ea'; subst vs2' m'. destruct (nth_error_ex (n_vertex n2') (k - off)) as [w Hw]; [rewrite <- Hl'; eapply nth_error_lt; eauto|].
        destruct (Hv' _ _ Hw) as (ps & _ & Es). assert (Eid : v_id v = v_id w) by (rewrite Hv in Es; inversion Es; auto).
        destruct (disambiguate_id fresh (n_index n1) (seq 0 (length (n_vertex n2))) n2 n2' (k - off) w Ed Hw) as [(j & Ej)|(v0 & Hv0 & Ej)].
        + apply (Hfn j i). congruence.
        + apply N2. unfold contains. rewrite <- Hid, Eid, Ej. rewrite (vo_index _ _ _ _ _ _ (w_vertex _ n2 H2 _ v0 Hv0)). discriminate. }
    destruct (push_binops_ok zero ops new b ao (proj1 Hnew) Hb1 (n_out n1) 0 nb Wb) as (np & Ep & Wp & Ip & Op & Vp & _ & OEp); auto; try (unfold ao; lia).
    assert (Hoesrc : map e_src (n_oedge np) = map (fun c => PLocal (ao + c) 0) (seq 0 (n_out n1))).
    { apply nth_error_ext. intros c. rewrite !nth_error_map. destruct (Nat.lt_ge_cases c (n_out n1)) as [Hc|Hc].
      - rewrite OEp by lia. rewrite (nth_error_nth' _ c 0) by (now rewrite seq_length). rewrite seq_nth by auto. reflexivity.
      - rewrite !(proj2 (nth_error_None _ _)); auto; [now rewrite seq_length|]. rewrite (w_out _ np Wp), Op. auto. }
    assert (Houtsp : outs_of (n_vertex np) = outs_of (n_vertex n1) ++ outs_of (n_vertex n2') ++ outs_of (map (fun i => vertex_new zero ops (new i) (ao + i) b) (seq 0 (n_out n1)))).
    { rewrite Vp. unfold nb. cbn [n_vertex]. rewrite outs_of_app, (both_outs _ _ _ _ _ _ _ B), <- app_assoc. reflexivity. }
    assert (Hnew_at : forall c v, nth_error (n_vertex np) (ao + 0 + c) = Some v -> v = vertex_new zero ops (new c) (ao + c) b /\ c < n_out n1).
    { intros c v Hv. rewrite Vp, nth_error_app2 in Hv by (unfold ao; lia). fold ao in Hv. replace (ao + 0 + c - ao) with c in Hv by lia. apply nth_error_map_seq' in Hv as [Hc ->]. cbn. auto. }
    assert (Hp1 : forall p, In p (map e_src (n_oedge n1)) -> port_ok (n_in np) (outs_of (n_vertex np)) p /\ forall j q, p = PLocal j q -> j < ao).
    { intros p Hp. apply in_map_iff in Hp as (e & <- & He). pose proof (w_oport _ n1 H1 e He) as Hpp. split.
      - rewrite Houtsp, Ip. eapply port_ok_mono; [|exact Hpp]. apply (fd_nin _ _ _ _ _ F).
      - intros j q Eq. rewrite Eq in Hpp. cbn in Hpp. destruct Hpp as (k & Hk & _). apply nth_error_lt in Hk. unfold NetWf.outs_of in Hk. rewrite map_length in Hk. lia. }
    destruct (join_outputs_ok ops ao 0 (map e_src (n_oedge n1)) 0 np Wp) as (nq & Eq & Wq & Sq & Oq & Dq & Vq).
    { intros c v Hv. apply Hnew_at in Hv as [-> _]. unfold vertex_new, sources. cbn [v_unit v_src]. rewrite Hb2. split; [lia|reflexivity]. }
    { rewrite map_length, (w_out _ n1 H1), Vp, app_length, map_length, seq_length. fold ao. lia. }
    { exact Hp1. }
    assert (Lq : length (n_vertex nq) = ao + n_out n1). { rewrite <- (map_length v_unit), (ss_units _ _ Sq), map_length, Vp, app_length, map_length, seq_length. reflexivity. }
    assert (Hq_at : forall c v, nth_error (n_vertex nq) (ao + 0 + c) = Some v -> exists e, nth_error (n_oedge n1) c = Some e /\ sources v = [e_src e; PZero] /\ v_unit v = b).
    { intros c v Hv. assert (Hc : c < n_out n1) by (apply nth_error_lt in Hv; lia). destruct (nth_error_ex (n_oedge n1) c) as [e He]; [rewrite (w_out _ n1 H1); auto|]. exists e. split; auto.
      destruct (nth_error_ex (n_vertex np) (ao + 0 + c)) as [v0 Hv0]; [rewrite Vp, app_length, map_length, seq_length; fold ao; lia|].
      destruct (Vq c (e_src e) v0) as (v' & Hv' & Es); auto; [now rewrite nth_error_map, He|]. assert (v' = v) by congruence. subst v'. destruct (same_shape_unit _ _ _ _ Sq Hv0) as (v'' & Hv'' & Eu). assert (v'' = v) by congruence. subst v''.
      destruct (Hnew_at c v0 Hv0) as [-> _]. split; [|rewrite Eu; reflexivity]. rewrite Es. unfold sources, vertex_new. cbn [v_src]. rewrite Hb2. reflexivity. }
    destruct (join_outputs_ok ops ao 1 oe 0 nq Wq) as (nr & Er & Wr & Sr & Or & Dr & Vr).
    { intros c v Hv. apply Hq_at in Hv as (e & _ & Es & Eu). rewrite Eu, Es, Hb2. split; [lia|reflexivity]. }
    { rewrite Hoe, Lq. lia. }
    { intros p Hp. specialize (Hpo p Hp). split.
      - eapply same_shape_port; eauto. rewrite Houtsp, Ip, app_assoc. eapply port_ok_mono; [|exact Hpo]. reflexivity.
      - intros j q Eq'. rewrite Eq' in Hpo. cbn in Hpo. destruct Hpo as (k & Hk & _). apply nth_error_lt in Hk. rewrite app_length in Hk. unfold NetWf.outs_of in Hk. rewrite !map_length in Hk. rewrite (same_but_ids_length _ _ SB) in Hk. lia. }
    
    assert (Hr_low : forall j, j < ao -> nth_error (n_vertex nr) j = nth_error (n_vertex n1 ++ vs2) j).
    { intros j Hj. rewrite Dr, Dq by lia. rewrite Vp, nth_error_app1 by (fold ao; lia). reflexivity. }
    assert (Hr_at : forall c v, nth_error (n_vertex nr) (ao + c) = Some v -> exists e p, nth_error (n_oedge n1) c = Some e /\ nth_error oe c = Some p /\ sources v = [e_src e; p] /\ v_unit v = b).
    { intros c v Hv. assert (Lr : length (n_vertex nr) = ao + n_out n1) by (rewrite <- (map_length v_unit), (ss_units _ _ Sr), map_length; auto). assert (Hc : c < n_out n1) by (apply nth_error_lt in Hv; lia).
      destruct (nth_error_ex (n_vertex nq) (ao + 0 + c)) as [v0 Hv0]; [lia|]. destruct (Hq_at c v0 Hv0) as (e & He & Es & Eu). destruct (nth_error_ex oe c) as [p Hp]; [rewrite Hoe; lia|]. exists e, p. split; auto. split; auto.
      destruct (Vr c p v0 Hp Hv0) as (v' & Hv' & Es'). rewrite Nat.add_0_r in *. assert (v' = v) by congruence. subst v'. destruct (same_shape_unit _ _ _ _ Sr Hv0) as (v'' & Hv'' & Eu'). assert (v'' = v) by congruence. subst v''.
      split; [|congruence]. rewrite Es', Es. reflexivity. }
    assert (Lr : length (n_vertex nr) = ao + n_out n1) by (rewrite <- (map_length v_unit), (ss_units _ _ Sr), map_length; auto).
    assert (Eres : combine_binop zero ops shared fresh new b n1 n2 = Some (invalidate nr)).
    { unfold combine_binop. replace (negb shared || Nat.eqb (n_in n1) (n_in n2)) with true by (destruct shared; cbn; auto; rewrite (Hio eq_refl), Nat.eqb_refl; auto). rewrite Hout, Nat.eqb_refl. cbn [andb]. rewrite Ed. fold off. fold f. rewrite Ea.
      replace (if shared then n_in n1 else n_in n1 + n_in n2') with nin by (unfold nin; rewrite (sb_in _ _ SB); auto). rewrite <- Hout. fold nb. cbv zeta. fold ao. change (n_out nb) with (n_out n1). rewrite Ep, Eq.
      rewrite Eo, Er. reflexivity. }
    fold off in Hao. rewrite <- Hao. exists (invalidate nr), n2', vs2, m, oe. split; [exact Eres|]. split; [exact W|]. split; [exact SB|]. split; [exact B|]. split; [reflexivity|]. split; [exact Hoe2|]. split; [exact Lr|]. split; [exact Hr_low|]. split.
    - intros c v Hv. destruct (Hr_at c v Hv) as (e & p & E1 & E2 & E3 & _). exists e, p. auto.
    - cbn [invalidate n_oedge]. rewrite Or, Oq. exact Hoesrc.
  Qed.
End Shape.

Section BinopLabels.
  Context {F P U : Type}.
  Variable nm : num F.
  Variable ops : unit_ops F P U.
  Variable u_route : U -> F -> list (signal F) -> option (list (signal F)).
  Variable freq : F.
  Notation net := (net F U).
  Notation wf := (NetWf.wf ops).
  Notation V0 := (Value (n0 nm)).
  Notation NL := (net_labels nm u_route freq).

  Lemma binop_labels (shared : bool) fresh new b lop n1 n2 n : wf n1 -> wf n2 -> fresh_for n1 n2 fresh -> fresh_for n1 n2 new -> (forall i j, fresh i <> new j) ->
    u_ins ops b = 2 -> u_outs ops b = 1 -> (shared = true -> n_in n1 = n_in n2) -> n_out n1 = n_out n2 -> (forall x y, u_route b freq [x; y] = Some [lop x y]) ->
    combine_binop (n0 nm) ops shared fresh new b n1 n2 = Some n ->
    forall us1 us2 x1 x2 xr in1 in2 y z, length x1 = n_in n1 -> (if shared then x2 = x1 /\ xr = [] else xr = x2) -> NL n1 us1 x1 in1 y -> NL n2 us2 x2 in2 z ->
      NL n (us1 ++ us2 ++ repeat b (n_out n1)) (x1 ++ xr) (in1 ++ in2 ++ map (fun v => [v]) (zipw lop y z)) (zipw lop y z).
  Proof.
    intros H1 H2 Hfr Hnew Hfn Hb2 Hb1 Hio Hout Hop En. destruct (binop_shape (n0 nm) ops shared fresh new b n1 n2 H1 H2 Hfr Hnew Hfn Hb2 Hb1 Hio Hout) as (n' & n2' & vs2 & m & oe & En' & W & SB & B & Hao & Hoe2 & Lr & Hr_low & Hr_at & Hoesrc).
    rewrite En in En'. injection En' as <-. set (ao := length (n_vertex n1) + length (n_vertex n2)) in *.
    intros us1 us2 x1 x2 xr in1 in2 y z Hl Hx [F1 O1] D2. apply (same_but_ids_labels nm u_route freq _ _ _ _ _ _ SB) in D2 as [F2 O2].
    pose proof (fun q r b => side_value V0 shared x1 xr x2 (mkNet (n_in n1) 0 [] [] None [] false 0%N : NetModel.net (signal F) U) (in1 ++ in2) Hl Hx q r b) as Hf. cbn [n_in] in Hf.
    pose proof (both_labels nm ops u_route freq n1 n2' _ _ _ m us1 us2 x1 xr x2 in1 in2 B F1 F2 Hf) as (FB1 & FB3 & FB).
    assert (Hl1 : length in1 = length (n_vertex n1)). { destruct F1 as (_ & L & _). rewrite L. apply map_length. }
    assert (Hy : length y = n_out n1) by (rewrite (mapM_length _ _ _ O1), map_length; apply (w_out _ n1 H1)).
    assert (Hz : length z = n_out n1) by (rewrite (mapM_length _ _ _ O2), map_length, (w_out _ n2' W), (sb_out _ _ SB); auto).
    rewrite map_length in FB1, FB3. rewrite Hao in FB1, FB3.
    assert (Hzl : length (map (fun v : signal F => [v]) (zipw lop y z)) = n_out n1). { rewrite map_length, zipw_length. lia. }
    assert (Hext : forall p a, value V0 (in1 ++ in2) (x1 ++ xr) p = Some a -> value V0 (in1 ++ in2 ++ map (fun v => [v]) (zipw lop y z)) (x1 ++ xr) p = Some a).
    { intros p a Hv. rewrite app_assoc, <- (app_nil_r (x1 ++ xr)). now apply value_app. }
    rewrite app_length in FB1, FB3. split.
    - unfold labels_solve, graph. rewrite !app_length, repeat_length, map_length, Hzl, Lr. split; [lia|]. split; [lia|].
      intros i ps u o Hps Hu Ho'. rewrite nth_error_map in Hps. destruct (nth_error (n_vertex n) i) as [v|] eqn:Hv; [|discriminate]. cbn in Hps. inversion Hps; subst ps. clear Hps.
      rewrite app_assoc in Hu, Ho'. destruct (Nat.lt_ge_cases i ao) as [Hi|Hi].
      + rewrite nth_error_app1 in Hu, Ho' by (rewrite app_length; lia). rewrite Hr_low in Hv by auto. destruct (FB i (sources v) u o) as (ins & Hm & Ht); auto; [now rewrite nth_error_map, Hv|].
        exists ins. split; auto. eapply mapM_imp; [|exact Hm]. intros p a _. apply Hext.
      + set (c := i - ao). assert (Ei : i = ao + c) by lia. clearbody c. subst i. rewrite nth_error_app2 in Hu, Ho' by (rewrite app_length; lia). rewrite app_length in Hu, Ho'.
        rewrite FB1 in Hu. rewrite FB3 in Ho'. replace (ao + c - ao) with c in * by lia.
        assert (Hub : u = b) by (apply nth_error_In, repeat_spec in Hu; auto). subst u.
        destruct (Hr_at c v Hv) as (e & p & He & Hp & Es). rewrite nth_error_map, zip_nth in Ho'.
        destruct (mapM_nth _ _ _ O1 c (e_src e)) as (a1 & Ha1 & Hv1); [now rewrite nth_error_map, He|].
        assert (Hoe3 : mapM (value V0 (in1 ++ in2) (x1 ++ xr)) oe = Some z). { rewrite <- Hl1 in Hoe2. apply (mapM_shift V0 in1 in2 (x1 ++ xr) x2 _ (map e_src (n_oedge n2')) oe z Hf Hoe2 O2). }
        destruct (mapM_nth _ _ _ Hoe3 c p Hp) as (a2 & Ha2 & Hv2).
        rewrite Ha1, Ha2 in Ho'. cbn in Ho'. inversion Ho'; subst o. exists [a1; a2]. split; [|apply Hop]. rewrite Es. cbn [mapM].
        rewrite (Hext _ _ (value_app V0 _ _ _ _ _ _ Hv1)), (Hext _ _ Hv2). reflexivity.
    - rewrite Hoesrc.
      assert (G : forall l pre, length pre = ao -> forall k d, k = length d -> mapM (value V0 (pre ++ map (fun v : signal F => [v]) (d ++ l)) (x1 ++ xr)) (map (fun c => PLocal (ao + c) 0) (seq k (length l))) = Some l).
      { intros l pre Hpre. induction l as [|a l IHl]; intros k d ->; [reflexivity|]. cbn [length seq map mapM]. cbn [value].
        rewrite nth_error_app2 by lia. replace (ao + length d - length pre) with (length d) by lia. rewrite nth_error_map, nth_error_app2 by lia. rewrite Nat.sub_diag. cbn [nth_error option_map].
        specialize (IHl (S (length d)) (d ++ [a])). rewrite <- app_assoc in IHl. cbn [app] in IHl. rewrite IHl by (rewrite app_length; cbn [length]; lia). reflexivity. }
      specialize (G (zipw lop y z) (in1 ++ in2)). rewrite app_length in G. specialize (G FB3 0 [] eq_refl). cbn [app] in G. rewrite zipw_length, Hy, Hz, Nat.min_id in G. rewrite <- app_assoc in G. exact G.
  Qed.

  Lemma thru_labels (n : net) : wf n -> forall us x inner y, length x = n_in n -> NL n us x inner y -> NL (net_thru n) us x inner (firstn (n_in n) y ++ skipn (n_out n) x).
  Proof.
    intros H us x vals y Hx [S O]. split; [exact S|]. unfold net_thru. cbn [n_oedge]. rewrite map_app, mapM_app. pose proof (mapM_length _ _ _ O) as Hy. rewrite map_length, (w_out _ n H) in Hy.
    assert (E1 : mapM (value V0 vals x) (map e_src (firstn (n_in n) (n_oedge n))) = Some (firstn (n_in n) y)).
    { revert O. generalize (n_oedge n) (n_in n). clear. intros es. revert y. induction es as [|e es IH]; intros y k O; cbn in *; [inversion O; subst; now rewrite !firstn_nil|].
      destruct (value V0 vals x (e_src e)) as [a|] eqn:Ea; [|discriminate]. destruct (mapM _ (map e_src es)) as [r|] eqn:Er; [|discriminate]. inversion O; subst. destruct k; cbn; auto. rewrite Ea. now rewrite (IH r k eq_refl). }
    rewrite E1. assert (E2 : mapM (value V0 vals x) (map e_src (map (fun i => mkE (PGlobal i) (PGlobal i)) (seq (n_out n) (n_in n - n_out n)))) = Some (skipn (n_out n) x)).
    { rewrite map_map, mapM_map. cbn. rewrite <- Hx. clear. generalize (n_out n). intros k. remember (length x - k) as d eqn:Ed. revert k Ed. induction d as [|d IH]; intros k Ed; cbn.
      - rewrite skipn_all2 by lia. reflexivity.
      - destruct (nth_error_ex x k) as [a Ha]; [lia|]. rewrite Ha. rewrite (IH (S k)) by lia. f_equal. clear - Ha. revert k Ha. induction x as [|b x IH]; intros [|k] Ha; cbn in *; try discriminate; [congruence|]. now apply IH. }
    rewrite E2. reflexivity.
  Qed.
End BinopLabels.
