(* Combining networks. *)
From Verif Require Export NetPlay.

(* ---- acyclicity by rank ---- *)
Definition ranked (adj : list (list nat)) (rank : nat -> nat) : Prop := forall i j, reads adj i j -> rank j < rank i.
Lemma ranked_acyclic adj rank : ranked adj rank -> ~ cyclic adj.
Proof. intros H (i & C). assert (forall x y, clos_trans nat (reads adj) x y -> rank y < rank x) as HT. { induction 1; auto. lia. } specialize (HT _ _ C). lia. Qed.
Fixpoint idx (o : list nat) (i : nat) : nat := match o with [] => 0 | x :: r => if Nat.eqb x i then 0 else S (idx r i) end.
Lemma idx_le o i : idx o i <= length o.
Proof. induction o as [|x o IH]; cbn; auto. destruct (Nat.eqb x i); lia. Qed.
Lemma idx_split a i b : ~ In i a -> idx (a ++ i :: b) i = length a.
Proof. induction a as [|x a IH]; cbn; intros H. - now rewrite Nat.eqb_refl. - destruct (Nat.eqb_spec x i); [exfalso; auto|]. rewrite IH; auto. Qed.
Lemma idx_in a b j : In j a -> idx (a ++ b) j < length a.
Proof. induction a as [|x a IH]; cbn; [tauto|]. intros [->|H]; [rewrite Nat.eqb_refl; lia|]. destruct (Nat.eqb x j); [lia|]. specialize (IH H). lia. Qed.
Lemma acyclic_ranked adj : OrderSpec.in_range adj -> ~ cyclic adj -> exists rank m, ranked adj rank /\ forall i, rank i < m.
Proof.
  intros Hr Hc. destruct (order_correct adj Hr) as (o & ok & _ & HP & Hok & HB). destruct ok; [|exfalso; apply Hc, Hok; auto]. specialize (HB eq_refl).
  exists (idx o), (S (length o)). split; [|intros i; pose proof (idx_le o i); lia]. intros i j Hij. destruct (HB i j Hij) as (a & b & c & E).
  assert (Hn : NoDup o) by (eapply Permutation_NoDup; [symmetry; exact HP|apply seq_NoDup]).
  assert (E2 : o = (a ++ j :: b) ++ i :: c) by (rewrite E, <- app_assoc; auto). rewrite E2. rewrite (idx_split (a ++ j :: b) i c).
  - apply idx_in. rewrite in_app_iff. cbn; auto.
  - rewrite E2 in Hn. apply NoDup_remove_2 in Hn. intros Hi. apply Hn. rewrite in_app_iff. auto.
Qed.

Lemma nth_error_combine_seq0 {X} (l : list X) c x k : nth_error (combine (seq k (length l)) l) c = Some x <-> (nth_error l c = Some (snd x) /\ fst x = k + c).
Proof.
  revert c k. induction l as [|y l IH]; intros [|c] k; cbn.
  - split; [discriminate|intros []; discriminate].
  - split; [discriminate|intros []; discriminate].
  - destruct x as [i x]. cbn. split; [intros [= <- <-]; split; auto; lia|intros [[= <-] ->]; do 2 f_equal; lia].
  - rewrite IH. split; intros [H1 H2]; split; auto; lia.
Qed.

#[local] Arguments iinsert : simpl never.
#[local] Arguments iremove : simpl never.

Section Combine.
  Context {A P U : Type}.
  Variable zero : A.
  Variable ops : unit_ops A P U.
  Notation net := (net A U).
  Notation vertex := (vertex A U).
  Notation wf := (wf ops).
  Notation outs_of := (outs_of ops).
  Notation port_ok := NetWf.port_ok.
  Notation shift := NetModel.shift.

  (* ---- fresh ids ---- *)
  Lemma adjacency_ids (vs vs' : list vertex) : map v_src vs' = map v_src vs -> adjacency vs' = adjacency vs.
  Proof. intros E. unfold adjacency. rewrite <- !(map_map v_src locals). now rewrite E. Qed.
  Lemma wf_rename n i v f : wf n -> nth_error (n_vertex n) i = Some v -> lookup (n_index n) f = None ->
    wf (n_set_index (n_set_vertex n (upd (n_vertex n) i (v_set_id v f))) (iinsert (iremove (n_index n) (v_id v)) f i)).
  Proof.
    intros H Hv Hf. assert (Eo : outs_of (upd (n_vertex n) i (v_set_id v f)) = outs_of (n_vertex n)) by (eapply map_upd_same; eauto).
    pose proof (w_vertex _ n H i v Hv) as V.
    constructor; cbn [n_set_index n_set_vertex n_oedge n_out n_in n_vertex n_index n_order n_error]; rewrite ?Eo.
    - apply (w_out _ n H).
    - apply (w_otgt _ n H).
    - apply (w_oport _ n H).
    - intros j w Hw. apply nth_error_upd_inv in Hw as [(-> & -> & _)|(Hne & Hw)].
      + destruct V. constructor; cbn; auto. rewrite lookup_iinsert, N.eqb_refl. auto.
      + pose proof (vo_index _ _ _ _ _ _ V) as VI. pose proof (w_vertex _ n H j w Hw) as W. destruct W. constructor; auto. rewrite lookup_iinsert, lookup_iremove. destruct (N.eqb_spec f (v_id w)) as [E|_]; [congruence|].
        destruct (N.eqb_spec (v_id v) (v_id w)) as [E|_]; auto. exfalso. apply Hne. congruence.
    - intros id j. rewrite lookup_iinsert, lookup_iremove. destruct (N.eqb_spec f id) as [E|Ne]; [intros [= <-]; subst; exists (v_set_id v id); split; auto; rewrite nth_error_upd_eq; auto; eapply nth_error_lt; eauto|].
      destruct (N.eqb_spec (v_id v) id) as [E|Ne2]; [discriminate|]. intros Hl. destruct (w_id _ n H id j Hl) as (w & Hw & Hid). exists w. split; auto. rewrite nth_error_upd_ne; auto.
      intros ->. assert (v = w) by congruence. subst. congruence.
    - apply keys_iinsert, keys_iremove, (w_keys _ n H).
    - intros o Ho. destruct (w_order _ n H o Ho) as [O1 O2]. split.
      + rewrite <- O1. f_equal. apply adjacency_ids. eapply map_upd_same; eauto.
      + intros j w Hw. apply nth_error_upd_inv in Hw as [(-> & -> & _)|(Hne & Hw)]; [apply (O2 i v Hv)|eauto].
  Qed.
  (* everything but ids *)
  Record same_but_ids (n n' : net) : Prop := {
    sb_in : n_in n' = n_in n; sb_out : n_out n' = n_out n; sb_oedge : n_oedge n' = n_oedge n;
    sb_units : map v_unit (n_vertex n') = map v_unit (n_vertex n); sb_src : map v_src (n_vertex n') = map v_src (n_vertex n)
  }.
  Lemma same_but_ids_graph n n' : same_but_ids n n' -> graph n' = graph n.
  Proof. intros []. unfold graph. change (@sources A U) with (fun v : vertex => map e_src (v_src v)). rewrite <- !(map_map v_src (map e_src)). now rewrite sb_src0. Qed.
  Lemma same_but_ids_length n n' : same_but_ids n n' -> length (n_vertex n') = length (n_vertex n).
  Proof. intros []. rewrite <- (map_length v_unit), sb_units0, map_length. auto. Qed.

  Lemma disambiguate_ok fresh other : (forall i j, fresh i = fresh j -> i = j) -> (forall i, lookup other (fresh i) = None) ->
    forall is n, NoDup is -> (forall i, In i is -> i < length (n_vertex n)) -> (forall i, In i is -> lookup (n_index n) (fresh i) = None) -> wf n ->
    (forall j v, nth_error (n_vertex n) j = Some v -> ~ In j is -> lookup other (v_id v) = None) ->
    exists n', disambiguate fresh other is n = Some n' /\ wf n' /\ same_but_ids n n' /\ (forall j v, nth_error (n_vertex n') j = Some v -> lookup other (v_id v) = None).
  Proof.
    intros Hinj Hfo. induction is as [|i is IH]; intros n Hnd Hr Hf H Hd; cbn.
    - exists n. split; auto. split; auto. split; [constructor; auto|]. intros j v Hj. apply (Hd j v Hj). auto.
    - inversion Hnd; subst. destruct (nth_error_ex (n_vertex n) i) as [v Hv]; [apply Hr; cbn; auto|]. rewrite Hv. destruct (lookup other (v_id v)) eqn:El.
      + set (n1 := n_set_index _ _). destruct (IH n1) as (n' & E & W & S & D); auto.
        * intros j Hj. unfold n1. cbn. rewrite length_upd. apply Hr. cbn; auto.
        * intros j Hj. unfold n1. cbn [n_index n_set_index]. rewrite lookup_iinsert, lookup_iremove. destruct (N.eqb_spec (fresh i) (fresh j)) as [E|_]; [apply Hinj in E; congruence|].
          destruct (N.eqb (v_id v) (fresh j)); auto. apply Hf. cbn; auto.
        * apply wf_rename; auto. apply Hf. cbn; auto.
        * intros j w Hw Hj. unfold n1 in Hw. cbn [n_vertex n_set_index n_set_vertex] in Hw. apply nth_error_upd_inv in Hw as [(-> & -> & _)|(Hne & Hw)]; [apply Hfo|]. apply (Hd j w Hw). cbn. intuition.
        * exists n'. split; auto. split; auto. split; auto. destruct S. constructor; auto.
          -- rewrite sb_units0. unfold n1. cbn. eapply map_upd_same; eauto.
          -- rewrite sb_src0. unfold n1. cbn. eapply map_upd_same; eauto.
      + apply IH; auto. { intros; apply Hr; cbn; auto. } { intros; apply Hf; cbn; auto. }
        intros j w Hw Hj. destruct (Nat.eq_dec j i) as [->|Hne]; [congruence|]. apply (Hd j w Hw). cbn. intuition.
  Qed.
  Lemma disambiguated n1 n2 fresh : wf n2 -> fresh_for n1 n2 fresh ->
    exists n', disambiguate fresh (n_index n1) (seq 0 (length (n_vertex n2))) n2 = Some n' /\ wf n' /\ same_but_ids n2 n' /\ (forall j v, nth_error (n_vertex n') j = Some v -> lookup (n_index n1) (v_id v) = None).
  Proof.
    intros H [Hinj Hf]. apply disambiguate_ok; auto.
    - intros i. destruct (Hf i) as [Hc _]. unfold contains in Hc. destruct (lookup (n_index n1) (fresh i)); auto. exfalso. apply Hc. discriminate.
    - apply seq_NoDup.
    - intros i Hi. apply in_seq in Hi. lia.
    - intros i _. destruct (Hf i) as [_ Hc]. unfold contains in Hc. destruct (lookup (n_index n2) (fresh i)); auto. exfalso. apply Hc. discriminate.
    - intros j v Hj Hn. exfalso. apply Hn, in_seq. apply nth_error_lt in Hj. lia.
  Qed.

  (* ---- adopting the vertices of the second network ---- *)
  Definition edges_at (node : nat) (ps : list port) : list edge := map (fun cp => mkE (snd cp) (PLocal node (fst cp))) (combine (seq 0 (length ps)) ps).
  Lemma nth_error_edges_at node ps c e : nth_error (edges_at node ps) c = Some e <-> exists p, nth_error ps c = Some p /\ e = mkE p (PLocal node c).
  Proof.
    unfold edges_at. rewrite nth_error_map. destruct (nth_error (combine (seq 0 (length ps)) ps) c) as [x|] eqn:E; cbn.
    - apply nth_error_combine_seq0 in E as [E1 E2]. rewrite E2, E1. cbn. split; [intros [= <-]; eauto|intros (p & [= <-] & ->); auto].
    - split; [discriminate|]. intros (p & Hp & _). exfalso. assert (nth_error (combine (seq 0 (length ps)) ps) c = Some (c, p)) by (apply nth_error_combine_seq0; auto). congruence.
  Qed.
  Lemma edges_at_length node ps : length (edges_at node ps) = length ps.
  Proof. unfold edges_at. rewrite map_length, combine_length, seq_length. lia. Qed.
  Lemma edges_at_src node ps : map e_src (edges_at node ps) = ps.
  Proof.
    unfold edges_at. rewrite map_map. cbn. generalize 0. induction ps as [|p ps IH]; intros k; cbn; auto. now rewrite IH.
  Qed.
  Lemma adopt_spec offset f : forall (vs : list vertex) node m, (forall v e, In v vs -> In e (v_src v) -> shift offset f (e_src e) <> None) -> NoDup (map v_id vs) ->
    exists vs' m', adopt offset f node vs m = Some (vs', m') /\ length vs' = length vs /\
      (forall i v, nth_error vs i = Some v -> exists ps, mapM (shift offset f) (sources v) = Some ps /\ nth_error vs' i = Some (v_set_src v (edges_at (node + i) ps))) /\
      (forall i v, nth_error vs i = Some v -> lookup m' (v_id v) = Some (node + i)) /\
      (forall id, ~ In id (map v_id vs) -> lookup m' id = lookup m id) /\ (NoDup (map fst m) -> NoDup (map fst m')).
  Proof.
    induction vs as [|v vs IH]; intros node m Hs Hn; cbn [adopt].
    - exists [], m. split; auto. split; auto. split; [intros [|i]; discriminate|]. split; [intros [|i]; discriminate|]. auto.
    - inversion Hn as [|a l Hnin Hn']; subst a l. destruct (mapM_some (fun e => shift offset f (e_src e)) (v_src v)) as [ps Ep]. { intros e He. apply (Hs v e); cbn; auto. } rewrite Ep.
      destruct (IH (S node) (iinsert m (v_id v) node)) as (vs' & m' & -> & Hl & Hv & Hi & Ho & Hk); auto. { intros w e Hw He. apply (Hs w e); cbn; auto. }
      exists (v_set_src v (edges_at node ps) :: vs'), m'. split; auto. split; [cbn; lia|]. split; [|split; [|split]].
      + intros [|i] w Hw; cbn in Hw.
        * inversion Hw; subst w. exists ps. split; [unfold sources; rewrite mapM_map; auto|]. cbn. now rewrite Nat.add_0_r.
        * destruct (Hv i w Hw) as (qs & E1 & E2). exists qs. split; auto. cbn. now rewrite Nat.add_succ_r.
      + intros [|i] w Hw; cbn in Hw.
        * inversion Hw; subst w. rewrite Ho by auto. rewrite lookup_iinsert, N.eqb_refl. f_equal. lia.
        * rewrite (Hi i w Hw). f_equal. lia.
      + intros id Hid. cbn in Hid. rewrite Ho by auto. rewrite lookup_iinsert. destruct (N.eqb_spec (v_id v) id); auto. exfalso. auto.
      + intros Hm. apply Hk. now apply keys_iinsert.
  Qed.

  Lemma wf_ids_nodup n : wf n -> NoDup (map v_id (n_vertex n)).
  Proof.
    intros H. apply NoDup_nth_error. intros i j Hi E. rewrite map_length in Hi. rewrite !nth_error_map in E. destruct (nth_error_ex (n_vertex n) i Hi) as [v Hv]. rewrite Hv in E. cbn in E.
    destruct (nth_error (n_vertex n) j) as [w|] eqn:Hw; [|discriminate]. cbn in E. inversion E as [E'].
    pose proof (vo_index _ _ _ _ _ _ (w_vertex _ n H i v Hv)) as X. pose proof (vo_index _ _ _ _ _ _ (w_vertex _ n H j w Hw)) as Y. congruence.
  Qed.
  Lemma outs_of_app vs vs' : outs_of (vs ++ vs') = outs_of vs ++ outs_of vs'.
  Proof. apply map_app. Qed.
  Lemma port_ok_mono nin nin' outs outs' p : nin <= nin' -> port_ok nin outs p -> port_ok nin' (outs ++ outs') p.
  Proof. intros Hn. destruct p as [j q|q|]; cbn; auto; [|lia]. intros (k & Hk & Hq). exists k. split; auto. rewrite nth_error_app1; auto. eapply nth_error_lt; eauto. Qed.
  Lemma port_ok_shift nin1 nin2 nin outs1 outs2 f p p' : (forall q r, q < nin2 -> f q = Some r -> port_ok nin outs1 r) ->
    port_ok nin2 outs2 p -> shift (length outs1) f p = Some p' -> nin1 <= nin -> port_ok nin (outs1 ++ outs2) p'.
  Proof.
    intros Hf Hp Es _. destruct p as [j q|q|]; cbn in *.
    - inversion Es; subst. cbn. destruct Hp as (k & Hk & Hq). exists k. split; auto. rewrite nth_error_app2 by lia. now rewrite Nat.add_sub.
    - pose proof (Hf q p' Hp Es) as Hr. eapply (port_ok_mono nin nin); eauto.
    - inversion Es. exact I.
  Qed.

  (* the vertices of both networks: n2 has ids not in n1, its inputs are fed by f *)
  Record fed (n1 n2 : net) (nin : nat) (f : nat -> option port) : Prop := {
    fd_nin : n_in n1 <= nin;
    fd_some : forall q, q < n_in n2 -> exists p, f q = Some p;
    fd_ok : forall q p, q < n_in n2 -> f q = Some p -> port_ok nin (outs_of (n_vertex n1)) p;
    fd_ids : forall j v, nth_error (n_vertex n2) j = Some v -> lookup (n_index n1) (v_id v) = None
  }.
  Record both (n1 n2 : net) (nin : nat) (f : nat -> option port) (vs : list vertex) (m : imap) : Prop := {
    b_units : map v_unit vs = units n1 ++ units n2;
    b_graph1 : forall i ps, nth_error (graph n1) i = Some ps -> nth_error (map sources vs) i = Some ps;
    b_graph2 : forall i ps, nth_error (graph n2) i = Some ps -> exists ps', mapM (shift (length (n_vertex n1)) f) ps = Some ps' /\ nth_error (map sources vs) (length (n_vertex n1) + i) = Some ps';
    b_vertex : forall i v, nth_error vs i = Some v -> vertex_ok ops nin (outs_of vs) m i v;
    b_id : forall id i, lookup m id = Some i -> exists v, nth_error vs i = Some v /\ v_id v = id;
    b_keys : NoDup (map fst m)
  }.
  Lemma units_app n1 n2 nin f vs m : both n1 n2 nin f vs m -> length vs = length (n_vertex n1) + length (n_vertex n2).
  Proof. intros B. rewrite <- (map_length v_unit), (b_units _ _ _ _ _ _ B), app_length. unfold units. now rewrite !map_length. Qed.
  Lemma both_outs n1 n2 nin f vs m : both n1 n2 nin f vs m -> outs_of vs = outs_of (n_vertex n1) ++ outs_of (n_vertex n2).
  Proof. intros B. unfold NetWf.outs_of. rewrite <- !(map_map v_unit (u_outs ops)), (b_units _ _ _ _ _ _ B). now rewrite map_app. Qed.

  Lemma shift_some n2 nin f n1 p : fed n1 n2 nin f -> port_ok (n_in n2) (outs_of (n_vertex n2)) p -> shift (length (n_vertex n1)) f p <> None.
  Proof. intros F Hp. destruct p as [j q|q|]; cbn; try discriminate. destruct (fd_some _ _ _ _ F q Hp) as [r ->]. discriminate. Qed.
  Lemma shift_ok n2 nin f n1 p p' : fed n1 n2 nin f -> port_ok (n_in n2) (outs_of (n_vertex n2)) p -> shift (length (n_vertex n1)) f p = Some p' ->
    port_ok nin (outs_of (n_vertex n1) ++ outs_of (n_vertex n2)) p'.
  Proof.
    intros F Hp Es. eapply (port_ok_shift (n_in n1) (n_in n2) nin (outs_of (n_vertex n1)) _ f p p'); eauto; [apply (fd_ok _ _ _ _ F)| |apply (fd_nin _ _ _ _ F)].
    unfold NetWf.outs_of. now rewrite map_length.
  Qed.

  Lemma both_ok n1 n2 nin f : wf n1 -> wf n2 -> fed n1 n2 nin f ->
    exists vs2 m, adopt (length (n_vertex n1)) f (length (n_vertex n1)) (n_vertex n2) (n_index n1) = Some (vs2, m) /\ both n1 n2 nin f (n_vertex n1 ++ vs2) m.
  Proof.
    intros H1 H2 F. set (off := length (n_vertex n1)).
    destruct (adopt_spec off f (n_vertex n2) off (n_index n1)) as (vs2 & m & E & Hl & Hv & Hi & Ho & Hk).
    { intros v e Hv He. apply In_nth_error in Hv as (i & Hi). eapply shift_some; eauto. apply (vo_port _ _ _ _ _ _ (w_vertex _ n2 H2 i v Hi) e He). }
    { now apply wf_ids_nodup. }
    exists vs2, m. split; auto.
    assert (Hunits : map v_unit (n_vertex n1 ++ vs2) = units n1 ++ units n2).
    { rewrite map_app. f_equal. unfold units. apply nth_error_ext. intros i. rewrite !nth_error_map. destruct (nth_error (n_vertex n2) i) as [v|] eqn:Ev.
      - destruct (Hv i v Ev) as (ps & _ & ->). auto.
      - rewrite (proj2 (nth_error_None vs2 i)); auto. rewrite Hl. now apply nth_error_None. }
    assert (Houts : outs_of (n_vertex n1 ++ vs2) = outs_of (n_vertex n1) ++ outs_of (n_vertex n2)).
    { unfold NetWf.outs_of. rewrite <- !(map_map v_unit (u_outs ops)), Hunits. now rewrite map_app. }
    assert (Hid1 : forall i v, nth_error (n_vertex n1) i = Some v -> lookup m (v_id v) = Some i).
    { intros i v Hvi. pose proof (vo_index _ _ _ _ _ _ (w_vertex _ n1 H1 i v Hvi)) as X. rewrite Ho; auto. intros Hin. apply in_map_iff in Hin as (w & Ew & Hw). apply In_nth_error in Hw as (j & Hj).
      pose proof (fd_ids _ _ _ _ F j w Hj). congruence. }
    constructor; auto.
    - intros i ps Hps. unfold graph in Hps. rewrite map_app, nth_error_app1; auto. eapply nth_error_lt; eauto.
    - intros i ps Hps. unfold graph in Hps. rewrite nth_error_map in Hps. destruct (nth_error (n_vertex n2) i) as [v|] eqn:Ev; [|discriminate]. cbn in Hps. inversion Hps; subst ps.
      destruct (Hv i v Ev) as (ps' & M & Es). exists ps'. split; auto. rewrite map_app, nth_error_app2; rewrite map_length; [|unfold off; lia]. replace (_ + i - _) with i by lia. rewrite nth_error_map, Es. cbn. f_equal. unfold sources. cbn. apply edges_at_src.
    - rewrite Houts. intros i v Hi'. destruct (Nat.lt_ge_cases i off) as [Hlt|Hge].
      + rewrite nth_error_app1 in Hi' by auto. pose proof (w_vertex _ n1 H1 i v Hi') as V. destruct V. constructor; auto. intros e He. eapply port_ok_mono; [apply (fd_nin _ _ _ _ F)|auto].
      + rewrite nth_error_app2 in Hi' by auto. fold off in Hi'. set (j := i - off) in *. assert (Ei : i = off + j) by lia. clearbody j. subst i.
        destruct (nth_error_ex (n_vertex n2) j) as [v2 Hv2]; [rewrite <- Hl; eapply nth_error_lt; eauto|]. destruct (Hv j v2 Hv2) as (ps & M & Es). rewrite Hi' in Es. inversion Es; subst v.
        pose proof (w_vertex _ n2 H2 j v2 Hv2) as V. assert (Lps : length ps = length (v_src v2)) by (rewrite (mapM_length _ _ _ M); apply map_length).
        assert (Hps : forall c e, nth_error (edges_at (off + j) ps) c = Some e -> e_tgt e = PLocal (off + j) c /\ port_ok nin (outs_of (n_vertex n1) ++ outs_of (n_vertex n2)) (e_src e) /\ forall q, e_src e <> PLocal (off + j) q).
        { intros c e Hc. apply nth_error_edges_at in Hc as (p & Hp & ->). cbn. split; auto. destruct (mapM_nth' _ _ _ M c p Hp) as (p0 & Hp0 & Sp). unfold sources in Hp0. rewrite nth_error_map in Hp0.
          destruct (nth_error (v_src v2) c) as [e0|] eqn:He0; [|discriminate]. cbn in Hp0. inversion Hp0; subst p0. pose proof (vo_port _ _ _ _ _ _ V e0 (nth_error_In _ _ He0)) as Hpo.
          split; [eapply shift_ok; eauto|]. intros q Eq. subst p. destruct (e_src e0) as [k r|r|] eqn:Ee0; cbn in Sp.
          - inversion Sp. assert (k = j) by lia. subst k. apply (vo_self _ _ _ _ _ _ V e0 r (nth_error_In _ _ He0)). auto.
          - pose proof (fd_ok _ _ _ _ F r _ Hpo Sp) as Hr. cbn in Hr. destruct Hr as (k & Hk' & _). apply nth_error_lt in Hk'. unfold NetWf.outs_of in Hk'. rewrite map_length in Hk'. fold off in Hk'. lia.
          - discriminate. }
        pose proof (vo_src _ _ _ _ _ _ V) as Vs. destruct V. constructor; cbn [v_set_src v_src v_unit v_in v_out v_tin v_tout v_id]; auto.
        * rewrite edges_at_length. congruence.
        * intros c e Hc. apply (Hps c e Hc).
        * intros e Hin. apply In_nth_error in Hin as (c & Hc). apply (Hps c e Hc).
        * intros e q Hin. apply In_nth_error in Hin as (c & Hc). apply (Hps c e Hc).
    - intros id i Hl'. destruct (in_dec N.eq_dec id (map v_id (n_vertex n2))) as [Hin|Hnin].
      + apply in_map_iff in Hin as (w & Ew & Hw). apply In_nth_error in Hw as (j & Hj). pose proof (Hi j w Hj) as X. rewrite Ew in X. assert (i = off + j) by congruence. subst i.
        destruct (Hv j w Hj) as (ps & _ & Es). eexists. split; [rewrite nth_error_app2 by (unfold off; lia); fold off; replace (off + j - off) with j by lia; exact Es|]. auto.
      + rewrite Ho in Hl' by auto. destruct (w_id _ n1 H1 id i Hl') as (v & Hv1 & Hid). exists v. split; auto. rewrite nth_error_app1; auto. eapply nth_error_lt; eauto.
    - apply Hk, (w_keys _ n1 H1).
  Qed.

  (* ---- dataflow of both ---- *)
  Lemma value_app vals1 vals2 (x1 x2 : list A) p a : value zero vals1 x1 p = Some a -> value zero (vals1 ++ vals2) (x1 ++ x2) p = Some a.
  Proof.
    destruct p as [j q|q|]; cbn; auto.
    - destruct (nth_error vals1 j) as [o|] eqn:E; [|discriminate]. intros H. rewrite nth_error_app1, E; auto. eapply nth_error_lt; eauto.
    - intros H. rewrite nth_error_app1; auto. eapply nth_error_lt; eauto.
  Qed.
  Lemma mapM_imp {X Y} (f g : X -> option Y) l r : (forall x y, In x l -> f x = Some y -> g x = Some y) -> mapM f l = Some r -> mapM g l = Some r.
  Proof.
    revert r. induction l as [|a l IH]; intros r Hfg; cbn; auto. destruct (f a) as [y|] eqn:E; [|discriminate]. rewrite (Hfg a y); cbn; auto. destruct (mapM f l) as [ys|]; [|discriminate].
    rewrite (IH ys); auto. intros x z Hx. apply Hfg. cbn; auto.
  Qed.
  Lemma value_shift (vals1 vals2 : list (list A)) x x2 f p p' a : (forall q r b, f q = Some r -> nth_error x2 q = Some b -> value zero (vals1 ++ vals2) x r = Some b) ->
    shift (length vals1) f p = Some p' -> value zero vals2 x2 p = Some a -> value zero (vals1 ++ vals2) x p' = Some a.
  Proof.
    intros Hf Es Hv. destruct p as [j q|q|]; cbn in Es, Hv.
    - inversion Es; subst. cbn. rewrite nth_error_app2 by lia. now rewrite Nat.add_sub.
    - eapply Hf; eauto.
    - inversion Es; subst. auto.
  Qed.
  Lemma mapM_shift (vals1 vals2 : list (list A)) x x2 f ps ps' ins : (forall q r b, f q = Some r -> nth_error x2 q = Some b -> value zero (vals1 ++ vals2) x r = Some b) ->
    mapM (shift (length vals1) f) ps = Some ps' -> mapM (value zero vals2 x2) ps = Some ins -> mapM (value zero (vals1 ++ vals2) x) ps' = Some ins.
  Proof.
    intros Hf. revert ps' ins. induction ps as [|p ps IH]; intros ps' ins H1 H2; cbn in *; [inversion H1; inversion H2; auto|].
    destruct (shift (length vals1) f p) as [p'|] eqn:Ep; [|discriminate]. destruct (mapM (shift (length vals1) f) ps) as [r'|] eqn:Er; [|discriminate].
    destruct (value zero vals2 x2 p) as [a|] eqn:Ea; [|discriminate]. destruct (mapM (value zero vals2 x2) ps) as [r|] eqn:Ev; [|discriminate]. inversion H1; inversion H2; subst. cbn.
    rewrite (value_shift _ _ _ _ _ _ _ _ Hf Ep Ea). now rewrite (IH r' r eq_refl eq_refl).
  Qed.

  Lemma both_flow n1 n2 nin f vs m us1 us2 x1 xr x2 us1' us2' vals1 vals2 : both n1 n2 nin f vs m ->
    flow zero ops (graph n1) us1 x1 us1' vals1 -> flow zero ops (graph n2) us2 x2 us2' vals2 ->
    (forall q r b, f q = Some r -> nth_error x2 q = Some b -> value zero (vals1 ++ vals2) (x1 ++ xr) r = Some b) ->
    flow zero ops (map sources vs) (us1 ++ us2) (x1 ++ xr) (us1' ++ us2') (vals1 ++ vals2).
  Proof.
    intros B (L1 & L2 & L3 & F1) (M1 & M2 & M3 & F2) Hf. pose proof (units_app _ _ _ _ _ _ B) as Hl. unfold graph in *. rewrite map_length in *.
    unfold flow. rewrite !app_length, map_length. split; [lia|]. split; [lia|]. split; [lia|]. intros i ps u u' o Hps Hu Hu' Ho.
    destruct (Nat.lt_ge_cases i (length (n_vertex n1))) as [Hi|Hi].
    - rewrite nth_error_app1 in Hu, Hu', Ho by lia. destruct (nth_error_ex (graph n1) i) as [ps1 Hp1]; [unfold graph; rewrite map_length; auto|].
      pose proof (b_graph1 _ _ _ _ _ _ B i ps1 Hp1) as X. rewrite Hps in X. inversion X; subst ps1. destruct (F1 i ps u u' o Hp1 Hu Hu' Ho) as (ins & Hm & Ht). exists ins. split; auto.
      eapply mapM_imp; [|exact Hm]. intros p a _. apply value_app.
    - rewrite nth_error_app2 in Hu, Hu', Ho by lia. rewrite L1 in Hu. rewrite L2 in Hu'. rewrite L3 in Ho. set (j := i - length (n_vertex n1)) in *. assert (Ei : i = length (n_vertex n1) + j) by lia. clearbody j. subst i.
      destruct (nth_error_ex (graph n2) j) as [ps2 Hp2]; [unfold graph; rewrite map_length; apply nth_error_lt in Hu; lia|].
      destruct (b_graph2 _ _ _ _ _ _ B j ps2 Hp2) as (ps' & Hm' & X). rewrite Hps in X. inversion X; subst ps'. destruct (F2 j ps2 u u' o Hp2 Hu Hu' Ho) as (ins & Hm & Ht). exists ins. split; auto.
      rewrite <- L3 in Hm'. eapply mapM_shift; eauto.
  Qed.

  (* ---- acyclicity of both ---- *)
  Lemma both_ranked n1 n2 nin f vs m : wf n1 -> wf n2 -> fed n1 n2 nin f -> both n1 n2 nin f vs m -> ~ has_cycle n1 -> ~ has_cycle n2 ->
    exists rank k, ranked (map local_sources (map sources vs)) rank /\ forall i, rank i < k.
  Proof.
    intros H1 H2 F B C1 C2. set (off := length (n_vertex n1)).
    assert (R1 : OrderSpec.in_range (map local_sources (graph n1))) by (unfold graph; rewrite <- adjacency_graph; now apply (adjacency_in_range ops)).
    assert (R2 : OrderSpec.in_range (map local_sources (graph n2))) by (unfold graph; rewrite <- adjacency_graph; now apply (adjacency_in_range ops)).
    destruct (acyclic_ranked _ R1 C1) as (r1 & k1 & HR1 & B1). destruct (acyclic_ranked _ R2 C2) as (r2 & k2 & HR2 & B2).
    exists (fun i => if Nat.ltb i off then r1 i else k1 + r2 (i - off)), (k1 + k2). split; [|intros i; destruct (Nat.ltb i off); [specialize (B1 i); lia|specialize (B2 (i - off)); lia]].
    intros i j Hij. unfold reads in Hij. destruct (nth_error (map sources vs) i) as [ps|] eqn:Hps.
    2:{ rewrite nth_overflow in Hij; [destruct Hij|]. rewrite map_length. now apply nth_error_None. }
    rewrite (nth_error_nth _ _ [] (map_nth_error local_sources i _ Hps)) in Hij. unfold local_sources in Hij. apply in_flat_map in Hij as (p & Hp & Hj). destruct p as [k q|q|]; cbn in Hj; try tauto. destruct Hj as [->|[]].
    destruct (Nat.ltb_spec i off) as [Hi|Hi].
    - destruct (nth_error_ex (graph n1) i) as [ps1 Hp1]; [unfold graph; rewrite map_length; auto|]. pose proof (b_graph1 _ _ _ _ _ _ B i ps1 Hp1) as X. rewrite Hps in X. inversion X; subst ps1.
      assert (Hr : reads (map local_sources (graph n1)) i j) by (eapply reads_graph; eauto). pose proof (R1 i j Hr) as Hjo. unfold graph in Hjo. rewrite !map_length in Hjo. fold off in Hjo.
      destruct (Nat.ltb_spec j off); [|lia]. apply HR1, Hr.
    - set (i2 := i - off). assert (Ei : i = off + i2) by lia. clearbody i2. destruct (nth_error_ex (graph n2) i2) as [ps2 Hp2].
      { unfold graph. rewrite map_length. apply nth_error_lt in Hps. rewrite map_length, (units_app _ _ _ _ _ _ B) in Hps. fold off in Hps. lia. }
      destruct (b_graph2 _ _ _ _ _ _ B i2 ps2 Hp2) as (ps' & Hm & X). fold off in X, Hm. rewrite <- Ei in X. rewrite Hps in X. inversion X; subst ps'.
      apply In_nth_error in Hp as (c & Hc). destruct (mapM_nth' _ _ _ Hm c _ Hc) as (p2 & Hp2' & Sp). destruct p2 as [k2' q2|q2|]; cbn in Sp.
      + inversion Sp; subst j q. destruct (Nat.ltb_spec (k2' + off) off); [lia|]. replace (k2' + off - off) with k2' by lia. apply Nat.add_lt_mono_l. apply HR2. eapply reads_graph; eauto using nth_error_In.
      + assert (Hport : port_ok nin (outs_of (n_vertex n1)) (PLocal j q)).
        { apply (fd_ok _ _ _ _ F q2); auto. unfold graph in Hp2. rewrite nth_error_map in Hp2. destruct (nth_error (n_vertex n2) i2) as [v2|] eqn:Ev2; [|discriminate]. cbn in Hp2. inversion Hp2; subst ps2.
          unfold sources in Hp2'. rewrite nth_error_map in Hp2'. destruct (nth_error (v_src v2) c) as [e|] eqn:Ee; [|discriminate]. cbn in Hp2'. inversion Hp2' as [Es].
          pose proof (vo_port _ _ _ _ _ _ (w_vertex _ n2 H2 i2 v2 Ev2) e (nth_error_In _ _ Ee)) as Hpp. rewrite Es in Hpp. exact Hpp. }
        cbn in Hport. destruct Hport as (k & Hk & _). apply nth_error_lt in Hk. unfold NetWf.outs_of in Hk. rewrite map_length in Hk. fold off in Hk. destruct (Nat.ltb_spec j off); [|lia]. specialize (B1 j). lia.
      + discriminate.
  Qed.

  Lemma out_edges_length k ps : length (out_edges k ps) = length ps.
  Proof. unfold out_edges. rewrite map_length, combine_length, seq_length. lia. Qed.
  Lemma nth_error_out_edges k ps c e : nth_error (out_edges k ps) c = Some e <-> exists p, nth_error ps c = Some p /\ e = mkE p (PGlobal (k + c)).
  Proof.
    unfold out_edges. rewrite nth_error_map. destruct (nth_error (combine (seq k (length ps)) ps) c) as [x|] eqn:E; cbn.
    - apply nth_error_combine_seq0 in E as [E1 E2]. rewrite E2, E1. cbn. split; [intros [= <-]; eauto|intros (p & [= <-] & ->); auto].
    - split; [discriminate|]. intros (p & Hp & _). exfalso. assert (nth_error (combine (seq k (length ps)) ps) c = Some (k + c, p)) by (apply nth_error_combine_seq0; auto). congruence.
  Qed.
  Lemma out_edges_src k ps : map e_src (out_edges k ps) = ps.
  Proof. unfold out_edges. rewrite map_map. cbn. revert k. induction ps as [|p ps IH]; intros k; cbn; auto. now rewrite IH. Qed.

  Lemma shift_outputs n1 n2 nin f : wf n2 -> fed n1 n2 nin f -> exists oe, mapM (fun e => shift (length (n_vertex n1)) f (e_src e)) (n_oedge n2) = Some oe /\ length oe = n_out n2 /\
    mapM (shift (length (n_vertex n1)) f) (map e_src (n_oedge n2)) = Some oe /\ forall p, In p oe -> port_ok nin (outs_of (n_vertex n1) ++ outs_of (n_vertex n2)) p.
  Proof.
    intros H2 F. destruct (mapM_some (fun e => shift (length (n_vertex n1)) f (e_src e)) (n_oedge n2)) as [oe E]. { intros e He. eapply shift_some; eauto. apply (w_oport _ n2 H2 e He). }
    exists oe. split; auto. split; [rewrite (mapM_length _ _ _ E); apply (w_out _ n2 H2)|]. split; [now rewrite mapM_map|].
    intros p Hp. apply In_nth_error in Hp as (c & Hc). destruct (mapM_nth' _ _ _ E c p Hc) as (e & He & Es). eapply shift_ok; eauto. apply (w_oport _ n2 H2 e), (nth_error_In _ _ He).
  Qed.
  Lemma both_wf n1 n2 nin nout f vs m oe err rev : both n1 n2 nin f vs m -> length oe = nout ->
    (forall c e, nth_error oe c = Some e -> e_tgt e = PGlobal c /\ port_ok nin (outs_of (n_vertex n1) ++ outs_of (n_vertex n2)) (e_src e)) ->
    wf (mkNet nin nout oe vs None m err rev).
  Proof.
    intros B Hl He. constructor; cbn [n_oedge n_out n_in n_vertex n_index n_order n_error]; auto; try discriminate.
    - intros c e Hc. apply (He c e Hc).
    - rewrite (both_outs _ _ _ _ _ _ B). intros e Hin. apply In_nth_error in Hin as (c & Hc). apply (He c e Hc).
    - apply (b_vertex _ _ _ _ _ _ B).
    - apply (b_id _ _ _ _ _ _ B).
    - apply (b_keys _ _ _ _ _ _ B).
  Qed.
  (* the net with the vertices of both is acyclic *)
  Lemma both_acyclic n1 n2 nin f vs m : wf n1 -> wf n2 -> fed n1 n2 nin f -> both n1 n2 nin f vs m -> ~ has_cycle n1 -> ~ has_cycle n2 -> ~ cyclic (map local_sources (map sources vs)).
  Proof. intros H1 H2 F B C1 C2. destruct (both_ranked _ _ _ _ _ _ H1 H2 F B C1 C2) as (r & k & Hr & _). eapply ranked_acyclic; eauto. Qed.

  (* n2 with fresh ids has the dataflow of n2 *)
  Lemma same_but_ids_flow n n' us x us' vals out : same_but_ids n n' -> dataflow zero ops n us x us' vals out -> dataflow zero ops n' us x us' vals out.
  Proof. intros S. unfold dataflow. now rewrite (same_but_ids_graph _ _ S), (sb_oedge _ _ S). Qed.
  Lemma same_but_ids_cycle n n' : same_but_ids n n' -> has_cycle n' <-> has_cycle n.
  Proof. intros S. unfold has_cycle. now rewrite (same_but_ids_graph _ _ S). Qed.

  (* ---- pipe ---- *)
  Lemma pipe_ok fresh n1 n2 : wf n1 -> wf n2 -> fresh_for n1 n2 fresh -> n_out n1 = n_in n2 ->
    exists n, net_pipe fresh n1 n2 = Some n /\ wf n /\ n_in n = n_in n1 /\ n_out n = n_out n2 /\ units n = units n1 ++ units n2 /\
      (~ has_cycle n1 -> ~ has_cycle n2 -> ~ has_cycle n) /\
      forall us1 us2 x us1' us2' vals1 vals2 y z, dataflow zero ops n1 us1 x us1' vals1 y -> dataflow zero ops n2 us2 y us2' vals2 z ->
        dataflow zero ops n (us1 ++ us2) x (us1' ++ us2') (vals1 ++ vals2) z.
  Proof.
    intros H1 H2 Hfr Hio. unfold net_pipe. rewrite Hio, Nat.eqb_refl. destruct (disambiguated n1 n2 fresh H2 Hfr) as (n2' & -> & W & S & D).
    set (f := fun q => match nth_error (n_oedge n1) q with Some e => Some (e_src e) | None => None end).
    assert (F : fed n1 n2' (n_in n1) f).
    { constructor; auto.
      - rewrite (sb_in _ _ S), <- Hio. intros q Hq. unfold f. destruct (nth_error_ex (n_oedge n1) q) as [e ->]; [rewrite (w_out _ n1 H1); auto|]. eauto.
      - intros q p _. unfold f. destruct (nth_error (n_oedge n1) q) as [e|] eqn:E; [|discriminate]. intros [= <-]. apply (w_oport _ n1 H1), (nth_error_In _ _ E). }
    destruct (both_ok n1 n2' _ f H1 W F) as (vs2 & m & -> & B). destruct (shift_outputs n1 n2' _ f W F) as (oe & -> & Hoe & Hoe2 & Hpo).
    eexists. split; [reflexivity|]. split; [|split; [auto|split; [apply (sb_out _ _ S)|split; [|split]]]].
    - eapply both_wf; eauto. + now rewrite out_edges_length, Hoe. + intros c e Hc. apply nth_error_out_edges in Hc as (p & Hp & ->). cbn. split; auto. apply Hpo, (nth_error_In _ _ Hp).
    - unfold units at 1. cbn [n_vertex]. rewrite (b_units _ _ _ _ _ _ B). unfold units. now rewrite (sb_units _ _ S).
    - intros C1 C2. unfold has_cycle, graph. cbn [n_vertex]. apply (both_acyclic n1 n2' _ _ _ _ H1 W F B C1). now rewrite (same_but_ids_cycle _ _ S).
    - intros us1 us2 x us1' us2' vals1 vals2 y z [F1 O1] D2. apply (same_but_ids_flow _ _ _ _ _ _ _ S) in D2 as [F2 O2].
      assert (Hl1 : length vals1 = length (n_vertex n1)). { destruct F1 as (_ & _ & L & _). rewrite L. apply map_length. }
      assert (Hf : forall q r b, f q = Some r -> nth_error y q = Some b -> value zero (vals1 ++ vals2) (x ++ []) r = Some b).
      { intros q r b Hq Hb. apply value_app. unfold f in Hq. destruct (nth_error (n_oedge n1) q) as [e|] eqn:Ee; [|discriminate]. inversion Hq; subst r.
        destruct (mapM_nth _ _ _ O1 q (e_src e)) as (b' & Hb' & Hv); [now rewrite nth_error_map, Ee|]. congruence. }
      split.
      + unfold graph. cbn [n_vertex]. rewrite <- (app_nil_r x). eapply both_flow; eauto.
      + cbn [n_oedge]. rewrite out_edges_src. rewrite <- Hl1 in Hoe2. rewrite <- (app_nil_r x). eapply mapM_shift; eauto.
  Qed.

  (* ---- stack and branch ---- *)
  Lemma side_ok (shared : bool) fresh n1 n2 : wf n1 -> wf n2 -> fresh_for n1 n2 fresh -> (shared = true -> n_in n1 = n_in n2) ->
    exists n2' vs2 m oe, let off := length (n_vertex n1) in let f := fun q => Some (PGlobal (if shared then q else q + n_in n1)) in let nin := if shared then n_in n1 else n_in n1 + n_in n2 in
      disambiguate fresh (n_index n1) (seq 0 (length (n_vertex n2))) n2 = Some n2' /\ wf n2' /\ same_but_ids n2 n2' /\
      adopt off f off (n_vertex n2') (n_index n1) = Some (vs2, m) /\ fed n1 n2' nin f /\ both n1 n2' nin f (n_vertex n1 ++ vs2) m /\
      mapM (fun e => shift off f (e_src e)) (n_oedge n2') = Some oe /\ length oe = n_out n2 /\ mapM (shift off f) (map e_src (n_oedge n2')) = Some oe /\
      (forall p, In p oe -> port_ok nin (outs_of (n_vertex n1) ++ outs_of (n_vertex n2')) p).
  Proof.
    intros H1 H2 Hfr Hio. destruct (disambiguated n1 n2 fresh H2 Hfr) as (n2' & E & W & S & D). set (off := length (n_vertex n1)).
    set (f := fun q => Some (PGlobal (if shared then q else q + n_in n1))). set (nin := if shared then n_in n1 else n_in n1 + n_in n2).
    assert (F : fed n1 n2' nin f).
    { constructor; auto.
      - unfold nin. destruct shared; lia.
      - intros q Hq. unfold f. eauto.
      - intros q p Hq [= <-]. rewrite (sb_in _ _ S) in Hq. unfold nin. cbn. destruct shared; [rewrite Hio; auto|lia]. }
    destruct (both_ok n1 n2' _ f H1 W F) as (vs2 & m & Ea & B). destruct (shift_outputs n1 n2' _ f W F) as (oe & Eo & Hoe & Hoe2 & Hpo). rewrite (sb_out _ _ S) in Hoe.
    exists n2', vs2, m, oe. cbn zeta. split; [exact E|]. split; [exact W|]. split; [exact S|]. split; [exact Ea|]. split; [exact F|]. split; [exact B|]. split; [exact Eo|]. split; [exact Hoe|]. split; [exact Hoe2|exact Hpo].
  Qed.
  (* the two operands side by side compute both, the input of the second being x2 *)
  Lemma side_value (shared : bool) (x1 xr x2 : list A) (n1 : net) vals : length x1 = n_in n1 -> (if shared then x2 = x1 /\ xr = [] else xr = x2) ->
    forall q r b, Some (PGlobal (if shared then q else q + n_in n1)) = Some r -> nth_error x2 q = Some b -> value zero vals (x1 ++ xr) r = Some b.
  Proof.
    intros Hl Hs q r b [= <-] Hb. cbn. destruct shared.
    - destruct Hs as [-> ->]. now rewrite app_nil_r.
    - subst xr. rewrite nth_error_app2 by lia. replace (q + n_in n1 - length x1) with q by lia. auto.
  Qed.

  Lemma stack_gen (shared : bool) fresh n1 n2 : wf n1 -> wf n2 -> fresh_for n1 n2 fresh -> (shared = true -> n_in n1 = n_in n2) ->
    exists n, (if shared then net_branch fresh n1 n2 else net_stack fresh n1 n2) = Some n /\ wf n /\ n_in n = (if shared then n_in n1 else n_in n1 + n_in n2) /\ n_out n = n_out n1 + n_out n2 /\
      units n = units n1 ++ units n2 /\ (~ has_cycle n1 -> ~ has_cycle n2 -> ~ has_cycle n) /\
      forall us1 us2 x1 x2 xr us1' us2' vals1 vals2 y z, length x1 = n_in n1 -> (if shared then x2 = x1 /\ xr = [] else xr = x2) ->
        dataflow zero ops n1 us1 x1 us1' vals1 y -> dataflow zero ops n2 us2 x2 us2' vals2 z ->
        dataflow zero ops n (us1 ++ us2) (x1 ++ xr) (us1' ++ us2') (vals1 ++ vals2) (y ++ z).
  Proof.
    intros H1 H2 Hfr Hio. destruct (side_ok shared fresh n1 n2 H1 H2 Hfr Hio) as (n2' & vs2 & m & oe & Ed & W & S & Ea & F & B & Eo & Hoe & Hoe2 & Hpo). cbv zeta in *.
    set (n := mkNet (if shared then n_in n1 else n_in n1 + n_in n2) (n_out n1 + n_out n2) (n_oedge n1 ++ out_edges (n_out n1) oe) (n_vertex n1 ++ vs2) None m (n_error n1) (n_revision n1)).
    exists n. split; [|split; [|split; [auto|split; [auto|split; [|split]]]]].
    - destruct shared.
      + unfold net_branch. rewrite (Hio eq_refl), Nat.eqb_refl, Ed, Eo, Ea. unfold n. rewrite (Hio eq_refl), (sb_out _ _ S). reflexivity.
      + unfold net_stack. rewrite Ed, Eo, Ea. unfold n. rewrite (sb_in _ _ S), (sb_out _ _ S). reflexivity.
    - unfold n. eapply both_wf; eauto.
      + rewrite app_length, out_edges_length, (w_out _ n1 H1). lia.
      + intros c e Hc. destruct (Nat.lt_ge_cases c (n_out n1)) as [Hlt|Hge].
        * rewrite nth_error_app1 in Hc by (now rewrite (w_out _ n1 H1)). split; [apply (w_otgt _ n1 H1 c e Hc)|]. eapply port_ok_mono; [apply (fd_nin _ _ _ _ F)|]. apply (w_oport _ n1 H1), (nth_error_In _ _ Hc).
        * rewrite nth_error_app2 in Hc by (now rewrite (w_out _ n1 H1)). rewrite (w_out _ n1 H1) in Hc. apply nth_error_out_edges in Hc as (p & Hp & ->). cbn. split; [f_equal; lia|]. apply Hpo, (nth_error_In _ _ Hp).
    - unfold units at 1, n. cbn [n_vertex]. rewrite (b_units _ _ _ _ _ _ B). unfold units. now rewrite (sb_units _ _ S).
    - intros C1 C2. unfold has_cycle, graph, n. cbn [n_vertex]. apply (both_acyclic n1 n2' _ _ _ _ H1 W F B C1). now rewrite (same_but_ids_cycle _ _ S).
    - intros us1 us2 x1 x2 xr us1' us2' vals1 vals2 y z Hl Hx [F1 O1] D2. apply (same_but_ids_flow _ _ _ _ _ _ _ S) in D2 as [F2 O2].
      assert (Hl1 : length vals1 = length (n_vertex n1)). { destruct F1 as (_ & _ & L & _). rewrite L. apply map_length. }
      pose proof (side_value shared x1 xr x2 n1 (vals1 ++ vals2) Hl Hx) as Hf. split.
      + unfold graph, n. cbn [n_vertex]. eapply both_flow; eauto.
      + unfold n. cbn [n_oedge]. rewrite map_app, out_edges_src, mapM_app. rewrite (mapM_imp (value zero vals1 x1) _ _ y); auto; [|intros p a _; apply value_app].
        rewrite <- Hl1 in Hoe2. rewrite (mapM_shift vals1 vals2 (x1 ++ xr) x2 _ _ _ z Hf Hoe2 O2). reflexivity.
  Qed.

  (* ---- thru ---- *)
  Lemma thru_ok n : wf n -> wf (net_thru n) /\ n_in (net_thru n) = n_in n /\ n_out (net_thru n) = n_in n /\ units (net_thru n) = units n /\ (has_cycle (net_thru n) <-> has_cycle n) /\
    forall us x us' vals y, length x = n_in n -> dataflow zero ops n us x us' vals y -> dataflow zero ops (net_thru n) us x us' vals (firstn (n_in n) y ++ skipn (n_out n) x).
  Proof.
    intros H. split; [|split; [auto|split; [auto|split; [auto|split; [reflexivity|]]]]].
    - unfold net_thru. constructor; cbn [n_oedge n_out n_in n_vertex n_index n_order n_error]; try discriminate.
      + rewrite app_length, firstn_length, map_length, seq_length, (w_out _ n H). lia.
      + intros c e Hc. destruct (Nat.lt_ge_cases c (length (firstn (n_in n) (n_oedge n)))) as [Hlt|Hge].
        * rewrite nth_error_app1 in Hc by auto. assert (c < n_in n) by (rewrite firstn_length in Hlt; lia). rewrite nth_error_firstn_lt in Hc by auto. apply (w_otgt _ n H c e Hc).
        * rewrite nth_error_app2 in Hc by auto. apply nth_error_map_seq' in Hc as [Hc ->]. cbn. f_equal. rewrite firstn_length, (w_out _ n H) in *. lia.
      + intros e He. apply in_app_iff in He as [He|He]; [apply (w_oport _ n H); rewrite <- (firstn_skipn (n_in n) (n_oedge n)), in_app_iff; auto|]. apply in_map_iff in He as (i & <- & Hi). apply in_seq in Hi. cbn. lia.
      + apply (w_vertex _ n H).
      + apply (w_id _ n H).
      + apply (w_keys _ n H).
    - intros us x us' vals y Hx [F O]. split; auto. unfold net_thru. cbn [n_oedge]. rewrite map_app, mapM_app. pose proof (mapM_length _ _ _ O) as Hy. rewrite map_length, (w_out _ n H) in Hy.
      assert (E1 : mapM (value zero vals x) (map e_src (firstn (n_in n) (n_oedge n))) = Some (firstn (n_in n) y)).
      { revert O. generalize (n_oedge n) (n_in n). clear. intros es. revert y. induction es as [|e es IH]; intros y k O; cbn in *; [inversion O; subst; now rewrite !firstn_nil|].
        destruct (value zero vals x (e_src e)) as [a|] eqn:Ea; [|discriminate]. destruct (mapM _ (map e_src es)) as [r|] eqn:Er; [|discriminate]. inversion O; subst. destruct k; cbn; auto. rewrite Ea. now rewrite (IH r k eq_refl). }
      rewrite E1. assert (E2 : mapM (value zero vals x) (map e_src (map (fun i => mkE (PGlobal i) (PGlobal i)) (seq (n_out n) (n_in n - n_out n)))) = Some (skipn (n_out n) x)).
      { rewrite map_map, mapM_map. cbn. rewrite <- Hx. clear. generalize (n_out n). intros k. remember (length x - k) as d eqn:Ed. revert k Ed. induction d as [|d IH]; intros k Ed; cbn.
        - rewrite skipn_all2 by lia. reflexivity.
        - destruct (nth_error_ex x k) as [a Ha]; [lia|]. rewrite Ha. rewrite (IH (S k)) by lia. f_equal. clear - Ha. revert k Ha. induction x as [|b x IH]; intros [|k] Ha; cbn in *; try discriminate; [congruence|]. now apply IH. }
      rewrite E2. reflexivity.
  Qed.
End Combine.
