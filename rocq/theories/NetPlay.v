(* Playing an acyclic network computes the unique solution of its dataflow equations, sample by sample and in blocks. *)
From Verif Require Export NetFlow.

Section Play.
  Context {A P U : Type}.
  Variable zero : A.
  Variable ops : unit_ops A P U.
  Variable uping : bool -> U -> N -> U * N.
  Variable ahash : N -> N -> N.
  Notation net := (net A U).
  Notation vertex := (vertex A U).
  Notation wf := (wf ops).
  Notation outs_of := (outs_of ops).
  Notation dyn := (dyn ops).
  Notation kept := (kept ops).
  Hypothesis Hctl : control_laws ops uping.
  Hypothesis Hlaws : unit_laws zero ops.

  (* ---- topological orders ---- *)
  Record topo (adj : list (list nat)) (o : list nat) : Prop := {
    t_nodup : NoDup o;
    t_in : forall i, In i o <-> i < length adj;
    t_split : forall a i b, o = a ++ i :: b -> forall j, reads adj i j -> In j a
  }.
  Lemma split_before (o : list nat) : NoDup o -> forall a i b j, o = a ++ i :: b -> before o j i -> In j a.
  Proof.
    intros Hn a i b j E (x & y & z & E2). assert (a = x ++ j :: y).
    { rewrite E2 in E. replace (x ++ j :: y ++ i :: z) with ((x ++ j :: y) ++ i :: z) in E by (now rewrite <- app_assoc).
      rewrite E2 in Hn. replace (x ++ j :: y ++ i :: z) with ((x ++ j :: y) ++ i :: z) in Hn by (now rewrite <- app_assoc). clear E2. revert a E.
      generalize dependent (x ++ j :: y). intros l. induction l as [|c l IH]; intros Hn a E; destruct a as [|d a]; cbn in *; auto.
      - inversion E; subst. inversion Hn; subst. exfalso. apply H1. rewrite in_app_iff. cbn; auto.
      - inversion E; subst. inversion Hn; subst. exfalso. apply H1. rewrite in_app_iff. cbn; auto.
      - inversion E; subst. inversion Hn; subst. f_equal. now apply IH. }
    subst. rewrite in_app_iff. cbn. auto.
  Qed.
  Lemma order_topo n o : wf n -> n_order n = Some o -> ~ has_cycle n -> topo (map local_sources (graph n)) o.
  Proof.
    intros H Ho Hc. destruct (order_of_wf ops n o H Ho) as [[HP HB] _]. assert (Hn : NoDup o) by (eapply Permutation_NoDup; [symmetry; exact HP|apply seq_NoDup]).
    constructor; auto.
    - intros i. unfold graph. rewrite !map_length. split; intros Hi.
      + eapply Permutation_in in Hi; [|exact HP]. apply in_seq in Hi. lia.
      + eapply Permutation_in; [symmetry; exact HP|]. apply in_seq. lia.
    - intros a i b E j Hj. apply (split_before o Hn a i b j E). now apply HB.
  Qed.
  Lemma order_range n o : wf n -> n_order n = Some o -> forall i, In i o -> i < length (n_vertex n).
  Proof. intros H Ho i Hi. destruct (order_of_wf ops n o H Ho) as [[HP _] _]. eapply Permutation_in in Hi; [|exact HP]. apply in_seq in Hi. lia. Qed.
  Lemma reads_graph (g : list (list port)) i ps j q : nth_error g i = Some ps -> In (PLocal j q) ps -> reads (map local_sources g) i j.
  Proof.
    intros Hi Hp. unfold reads. rewrite (nth_error_nth _ _ [] (map_nth_error local_sources i g Hi)). unfold local_sources. apply in_flat_map. exists (PLocal j q). cbn; auto.
  Qed.

  (* ---- the solution of the equations is unique ---- *)
  Lemma value_ext (v1 v2 : list (list A)) x p : (forall j q, p = PLocal j q -> nth_error v1 j = nth_error v2 j) -> value zero v1 x p = value zero v2 x p.
  Proof. destruct p as [j q|q|]; cbn; auto. intros H. now rewrite (H j q eq_refl). Qed.
  Lemma flow_unique g o us x us1 v1 us2 v2 : topo (map local_sources g) o -> flow zero ops g us x us1 v1 -> flow zero ops g us x us2 v2 -> us1 = us2 /\ v1 = v2.
  Proof.
    intros T (L0 & L1 & L2 & F1) (_ & L3 & L4 & F2).
    assert (Step : forall i, i < length g -> (forall j, reads (map local_sources g) i j -> nth_error v1 j = nth_error v2 j) -> nth_error us1 i = nth_error us2 i /\ nth_error v1 i = nth_error v2 i).
    { intros i Hi HR. destruct (nth_error_ex g i Hi) as [ps Hps]. destruct (nth_error_ex us i) as [u Hu]; [lia|]. destruct (nth_error_ex us1 i) as [u1 Hu1]; [lia|]. destruct (nth_error_ex us2 i) as [u2 Hu2]; [lia|].
      destruct (nth_error_ex v1 i) as [o1 Ho1]; [lia|]. destruct (nth_error_ex v2 i) as [o2 Ho2]; [lia|].
      destruct (F1 i ps u u1 o1) as (i1 & M1 & T1); auto. destruct (F2 i ps u u2 o2) as (i2 & M2 & T2); auto.
      assert (E : i1 = i2). { rewrite (mapM_ext _ (value zero v2 x)) in M1; [congruence|]. intros p Hp. apply value_ext. intros j q ->. apply HR. eapply reads_graph; eauto. }
      subst i2. rewrite T1 in T2. inversion T2; subst. rewrite Hu1, Hu2, Ho1, Ho2. auto. }
    assert (Pre : forall a b, o = a ++ b -> forall i, In i a -> nth_error us1 i = nth_error us2 i /\ nth_error v1 i = nth_error v2 i).
    { intros a. induction a as [|k a IH] using rev_ind; intros b E i Hi; [destruct Hi|]. rewrite <- app_assoc in E. cbn in E. apply in_app_iff in Hi as [Hi|[->|[]]]; [eapply IH; eauto|].
      apply Step. { rewrite <- (map_length local_sources g). apply (t_in _ _ T). rewrite E, in_app_iff. cbn; auto. }
      intros j Hj. apply (IH (i :: b) E j). eapply (t_split _ _ T); eauto. }
    assert (All : forall i, nth_error us1 i = nth_error us2 i /\ nth_error v1 i = nth_error v2 i).
    { intros i. destruct (Nat.lt_ge_cases i (length g)) as [Hi|Hi].
      - apply (Pre o []); [now rewrite app_nil_r|]. apply (t_in _ _ T). now rewrite map_length.
      - rewrite !(proj2 (nth_error_None _ _)) by lia. auto. }
    split; apply nth_error_ext; intros i; apply All.
  Qed.

  (* ---- ticking ---- *)
  Lemma read_tick_value (vs : list vertex) input p : read_tick zero vs input p = value zero (map v_tout vs) input p.
  Proof. destruct p as [j q|q|]; cbn; auto. rewrite nth_error_map. destruct (nth_error vs j); auto. Qed.

  Definition tick_inv (input : list A) (vs0 : list vertex) (done : list nat) (vs : list vertex) : Prop :=
    length vs = length vs0 /\ forall i v0, nth_error vs0 i = Some v0 ->
      (~ In i done -> nth_error vs i = Some v0) /\
      (In i done -> exists tin, mapM (fun e => read_tick zero vs input (e_src e)) (v_src v0) = Some tin /\ nth_error vs i = Some (v_tick ops v0 tin)).

  Lemma run_tick_inv input (vs0 : list vertex) o : topo (map local_sources (map sources vs0)) o ->
    forall rest done vs vs', o = done ++ rest -> tick_inv input vs0 done vs -> run_tick zero ops rest input vs = Some vs' -> tick_inv input vs0 o vs'.
  Proof.
    intros T. induction rest as [|i rest IH]; intros done vs vs' E [Hl Inv] Hr; cbn in Hr.
    - inversion Hr; subst. rewrite app_nil_r. split; auto.
    - destruct (nth_error vs i) as [v|] eqn:Hv; [|discriminate]. destruct (mapM _ (v_src v)) as [tin|] eqn:Ht; [|discriminate].
      assert (Hni : ~ In i done). { pose proof (t_nodup _ _ T) as Hn. rewrite E in Hn. apply NoDup_remove_2 in Hn. intros Hi. apply Hn. rewrite in_app_iff. auto. }
      destruct (nth_error_ex vs0 i) as [v0 Hv0]; [rewrite <- Hl; eapply nth_error_lt; eauto|]. pose proof (proj1 (Inv i v0 Hv0) Hni) as Ev. assert (v = v0) by congruence. subst v.
      refine (IH (done ++ [i]) _ vs' _ _ Hr); [now rewrite <- app_assoc|]. split; [now rewrite length_upd|]. intros j w0 Hw0.
      assert (Hsame : In j (done ++ [i]) -> forall e, In e (v_src w0) -> read_tick zero (upd vs i (v_tick ops v0 tin)) input (e_src e) = read_tick zero vs input (e_src e)).
      { intros Hj e He. destruct (e_src e) as [k q|q|] eqn:Ee; cbn; auto. rewrite nth_error_upd_ne; auto. intros Ek. subst k.
        assert (HR : reads (map local_sources (map sources vs0)) j i) by (eapply (reads_graph _ j (sources w0) i q); [rewrite nth_error_map, Hw0; auto|unfold sources; rewrite <- Ee; now apply in_map]).
        apply in_app_iff in Hj as [Hj|[Hj|[]]].
        - apply in_split in Hj as (a & b & Ed). apply Hni. rewrite Ed, in_app_iff. left. eapply (t_split _ _ T a j (b ++ i :: rest)); eauto. rewrite E, Ed, <- app_assoc. reflexivity.
        - subst j. apply Hni. eapply (t_split _ _ T done i rest); eauto. }
      split.
      + intros Hj. assert (j <> i) by (intros ->; apply Hj; rewrite in_app_iff; cbn; auto). rewrite nth_error_upd_ne by auto. apply (Inv j w0 Hw0). intros Hd. apply Hj. rewrite in_app_iff. auto.
      + intros Hj. destruct (Nat.eq_dec j i) as [->|Hne].
        * assert (w0 = v0) by congruence. subst w0. exists tin. split; [|rewrite nth_error_upd_eq; auto; eapply nth_error_lt; eauto]. rewrite <- Ht. apply mapM_ext. intros e He. now apply Hsame.
        * destruct (proj2 (Inv j w0 Hw0)) as (tj & Mj & Ej). { apply in_app_iff in Hj as [?|[?|[]]]; auto; congruence. }
          exists tj. split; [|rewrite nth_error_upd_ne; auto]. rewrite <- Mj. apply mapM_ext. intros e He. now apply Hsame.
  Qed.
  Lemma v_tick_unit (v : vertex) tin : u_tick ops (v_unit v) tin = (v_unit (v_tick ops v tin), v_tout (v_tick ops v tin)).
  Proof. unfold v_tick. destruct (u_tick ops (v_unit v) tin); auto. Qed.
  Lemma run_tick_flow input (vs0 : list vertex) o vs' : topo (map local_sources (map sources vs0)) o -> run_tick zero ops o input vs0 = Some vs' ->
    flow zero ops (map sources vs0) (map v_unit vs0) input (map v_unit vs') (map v_tout vs').
  Proof.
    intros T Hr. destruct (run_tick_inv input vs0 o T o [] vs0 vs' eq_refl) as [Hl Inv]; auto. { split; auto. intros i v0 Hv0. split; auto. intros []. }
    unfold flow. rewrite !map_length. split; auto. split; auto. split; auto. intros i ps u u' ou Hps Hu Hu' Ho. rewrite nth_error_map in Hps, Hu, Hu', Ho.
    destruct (nth_error vs0 i) as [v0|] eqn:Hv0; [|discriminate]. cbn in Hps, Hu. inversion Hps; inversion Hu; subst ps u.
    destruct (proj2 (Inv i v0 Hv0)) as (tin & M & E). { apply (t_in _ _ T). rewrite !map_length. eapply nth_error_lt; eauto. }
    rewrite E in Hu', Ho. cbn in Hu', Ho. inversion Hu'; inversion Ho; subst. exists tin. split; [|apply v_tick_unit].
    unfold sources. rewrite mapM_map. rewrite <- M. apply mapM_ext. intros e _. symmetry. apply read_tick_value.
  Qed.

  (* what a run leaves alone *)
  Definition played (n n' : net) : Prop := exists vs, n' = n_set_vertex n vs /\ Forall2 dyn (n_vertex n) vs.
  Lemma played_refl n : played n n.
  Proof. exists (n_vertex n). split; [now rewrite set_vertex_id|apply Forall2_dyn_refl]. Qed.
  Lemma played_trans a b c : played a b -> played b c -> played a c.
  Proof. intros (v1 & -> & D1) (v2 & -> & D2). exists v2. split; auto. cbn in D2. eapply Forall2_dyn_trans; eauto. Qed.
  Lemma played_wf n n' : wf n -> played n n' -> wf n'.
  Proof. intros H (vs & -> & D). now apply wf_dyn. Qed.
  Lemma played_kept n n' : played n n' -> kept n n'.
  Proof. intros (vs & -> & D). constructor; auto. now apply dyn_static. Qed.
  Lemma played_order n n' : played n n' -> n_order n' = n_order n.
  Proof. intros (vs & -> & D). auto. Qed.

  Lemma outs_ok (n : net) input : wf n -> length input = n_in n -> exists out, mapM (fun e => read_tick zero (n_vertex n) input (e_src e)) (n_oedge n) = Some out /\ length out = n_out n.
  Proof.
    intros H Hl. destruct (mapM_some (fun e => read_tick zero (n_vertex n) input (e_src e)) (n_oedge n)) as [out E].
    { intros e He. apply (read_tick_some zero ops n input); auto. apply (w_oport _ n H e He). }
    exists out. split; auto. rewrite (mapM_length _ _ _ E). apply (w_out _ n H).
  Qed.

  Lemma ordered_net_tick n input : wf n -> n_order n <> None -> length input = n_in n ->
    exists n' out, net_tick zero ops uping ahash n input = Some (n', out) /\ played n n' /\ length out = n_out n /\
      (~ has_cycle n -> exists vals, dataflow zero ops n (units n) input (units n') vals out).
  Proof.
    intros H Ho Hl. unfold net_tick, ordered. destruct (n_order n) as [o|] eqn:Eo; [|congruence]. cbv beta iota. rewrite Eo.
    destruct (run_tick_total zero ops Hlaws o input n H Hl (order_range n o H Eo)) as (vs & Er & D). rewrite Er.
    assert (H' : wf (n_set_vertex n vs)) by (now apply wf_dyn). destruct (outs_ok _ input H' Hl) as (out & Eout & Hlen). cbn in Eout. rewrite Eout.
    eexists _, out. split; [reflexivity|]. split; [exists vs; auto|]. split; auto. intros Hc. exists (map v_tout vs). split.
    - apply (run_tick_flow input (n_vertex n) o vs); auto. apply order_topo; auto.
    - rewrite mapM_map. rewrite <- Eout. apply mapM_ext. intros e _. symmetry. apply read_tick_value.
  Qed.

  (* ---- processing ---- *)
  Lemma nth_error_frame (b : list (list A)) k q : nth_error (frame zero b k) q = option_map (fun ch => nth k ch zero) (nth_error b q).
  Proof. unfold frame. now rewrite nth_error_map. Qed.
  Lemma read_block_value (vs : list vertex) inb k p : k < MAXB ->
    value zero (map (fun v => frame zero (v_out v) k) vs) (frame zero inb k) p = option_map (fun ch => nth k ch zero) (read_block zero vs inb p).
  Proof.
    intros Hk. destruct p as [j q|q|]; cbn [value read_block].
    - rewrite nth_error_map. destruct (nth_error vs j); auto. cbn [option_map]. apply nth_error_frame.
    - apply nth_error_frame.
    - cbn [option_map]. f_equal. symmetry. apply nth_repeat.
  Qed.
  Lemma block_values (vs : list vertex) inb k ps chs : k < MAXB -> mapM (read_block zero vs inb) ps = Some chs ->
    mapM (value zero (map (fun v => frame zero (v_out v) k) vs) (frame zero inb k)) ps = Some (frame zero chs k).
  Proof.
    intros Hk. revert chs. induction ps as [|p ps IH]; intros chs H; cbn [mapM] in *; [now inversion H|]. rewrite read_block_value by auto.
    destruct (read_block zero vs inb p) as [ch|]; [|discriminate]. cbn [option_map]. destruct (mapM (read_block zero vs inb) ps) as [r|]; [|discriminate].
    rewrite (IH r eq_refl). inversion H; subst. reflexivity.
  Qed.

  Definition block_inv (size : nat) (inb : list (list A)) (vs0 : list vertex) (done : list nat) (vs : list vertex) : Prop :=
    length vs = length vs0 /\ forall i v0, nth_error vs0 i = Some v0 ->
      (~ In i done -> nth_error vs i = Some v0) /\
      (In i done -> exists chs ib vin, mapM (fun e => read_block zero vs inb (e_src e)) (v_src v0) = Some chs /\ length chs = u_ins ops (v_unit v0) /\
         shaped (u_ins ops (v_unit v0)) ib /\ (forall k, k < size -> frame zero ib k = frame zero chs k) /\ nth_error vs i = Some (v_process ops v0 size ib vin)).

  Lemma run_process_inv size inb (vs0 : list vertex) o : size <= MAXB -> topo (map local_sources (map sources vs0)) o ->
    forall rest done n vs', wf n -> n_order n <> None -> shaped (n_in n) inb -> o = done ++ rest -> block_inv size inb vs0 done (n_vertex n) ->
      run_process zero ops rest size inb (n_vertex n) = Some vs' -> block_inv size inb vs0 o vs'.
  Proof.
    intros Hs T. induction rest as [|i rest IH]; intros done n vs' H Ho Hin E [Hl Inv] Hr.
    - cbn in Hr. inversion Hr; subst. rewrite app_nil_r. split; auto.
    - assert (Hni : ~ In i done). { pose proof (t_nodup _ _ T) as Hn. rewrite E in Hn. apply NoDup_remove_2 in Hn. intros Hi. apply Hn. rewrite in_app_iff. auto. }
      destruct (nth_error_ex vs0 i) as [v0 Hv0]. { rewrite <- (map_length sources vs0), <- (map_length local_sources). apply (t_in _ _ T). rewrite E, in_app_iff. cbn; auto. }
      pose proof (proj1 (Inv i v0 Hv0) Hni) as Hv.
      destruct (process_step zero ops n i v0 size inb rest H Ho Hs Hin Hv) as (chs & ib & vin & Hm & Hlc & Hib & Hvin & Hf & Es). rewrite Es in Hr.
      set (v1 := v_process ops v0 size ib vin) in *. set (vs1 := upd (n_vertex n) i v1) in *.
      assert (D : Forall2 dyn (n_vertex n) vs1). { eapply dyn_upd; eauto. apply (v_process_dyn zero); auto. apply (vo_out _ _ _ _ _ _ (w_vertex _ n H i v0 Hv)). }
      refine (IH (done ++ [i]) (n_set_vertex n vs1) vs' _ _ _ _ _ Hr); auto; [now apply wf_dyn|now rewrite <- app_assoc|]. cbn [n_set_vertex n_vertex].
      split; [unfold vs1; now rewrite length_upd|]. intros j w0 Hw0.
      assert (Hsame : In j (done ++ [i]) -> forall e, In e (v_src w0) -> read_block zero vs1 inb (e_src e) = read_block zero (n_vertex n) inb (e_src e)).
      { intros Hj e He. destruct (e_src e) as [k q|q|] eqn:Ee; cbn [read_block]; auto. unfold vs1. rewrite nth_error_upd_ne; auto. intros Ek. subst k.
        assert (HR : reads (map local_sources (map sources vs0)) j i) by (eapply (reads_graph _ j (sources w0) i q); [rewrite nth_error_map, Hw0; auto|unfold sources; rewrite <- Ee; now apply in_map]).
        apply in_app_iff in Hj as [Hj|[Hj|[]]].
        - apply in_split in Hj as (a & b & Ed). apply Hni. rewrite Ed, in_app_iff. left. eapply (t_split _ _ T a j (b ++ i :: rest)); eauto. rewrite E, Ed, <- app_assoc. reflexivity.
        - subst j. apply Hni. eapply (t_split _ _ T done i rest); eauto. }
      split.
      + intros Hj. assert (j <> i) by (intros ->; apply Hj; rewrite in_app_iff; cbn; auto). unfold vs1. rewrite nth_error_upd_ne by auto. apply (Inv j w0 Hw0). intros Hd. apply Hj. rewrite in_app_iff. auto.
      + intros Hj. destruct (Nat.eq_dec j i) as [->|Hne].
        * assert (w0 = v0) by congruence. subst w0. exists chs, ib, vin. split; [rewrite <- Hm; apply mapM_ext; intros e He; now apply Hsame|]. split; auto. split; auto. split; auto.
          unfold vs1. rewrite nth_error_upd_eq; auto. eapply nth_error_lt; eauto.
        * destruct (proj2 (Inv j w0 Hw0)) as (cj & bj & nj & Mj & Lj & Sj & Fj & Ej). { apply in_app_iff in Hj as [?|[?|[]]]; auto; congruence. }
          exists cj, bj, nj. split; [rewrite <- Mj; apply mapM_ext; intros e He; now apply Hsame|]. split; auto. split; auto. split; auto. unfold vs1. rewrite nth_error_upd_ne; auto.
  Qed.

  (* sequences of samples *)
  Inductive dataflows (n : net) : list U -> list (list A) -> list U -> list (list A) -> Prop :=
  | df_nil us : dataflows n us [] us []
  | df_cons us x us1 vals o xs us2 os : dataflow zero ops n us x us1 vals o -> dataflows n us1 xs us2 os -> dataflows n us (x :: xs) us2 (o :: os).
  Lemma dataflows_app n us x1 us1 o1 x2 us2 o2 : dataflows n us x1 us1 o1 -> dataflows n us1 x2 us2 o2 -> dataflows n us (x1 ++ x2) us2 (o1 ++ o2).
  Proof. induction 1; cbn; auto. intros. econstructor; eauto. Qed.
  Lemma dataflows_unique n o : topo (map local_sources (graph n)) o -> forall us xs us1 os1, dataflows n us xs us1 os1 -> forall us2 os2, dataflows n us xs us2 os2 -> us1 = us2 /\ os1 = os2.
  Proof.
    intros T us xs us1 os1. induction 1 as [us|us x us1 vals o1 xs us3 os [F Fo] HD IH]; intros us2 os2 H2; inversion H2; subst; auto.
    match goal with [ G : dataflow _ _ _ _ _ _ _ _ |- _ ] => destruct G as [F' Fo'] end.
    destruct (flow_unique _ _ _ _ _ _ _ _ T F F') as [-> ->]. rewrite Fo in Fo'. inversion Fo'; subst. destruct (IH _ _ H6) as [-> ->]. auto.
  Qed.
  Lemma dataflows_same (n n' : net) : graph n' = graph n -> n_oedge n' = n_oedge n -> forall us xs us1 os, dataflows n' us xs us1 os -> dataflows n us xs us1 os.
  Proof. intros G O us xs us1 os. induction 1; econstructor; eauto. unfold dataflow in *. now rewrite <- G, <- O. Qed.
  Lemma dataflows_seq n (us : nat -> list U) (inp : nat -> list A) vals (out : nat -> list A) : forall m a,
    (forall k, a <= k < a + m -> dataflow zero ops n (us k) (inp k) (us (S k)) (vals k) (out k)) ->
    dataflows n (us a) (map inp (seq a m)) (us (a + m)) (map out (seq a m)).
  Proof.
    induction m as [|m IH]; intros a H; cbn.
    - replace (a + 0) with a by lia. constructor.
    - econstructor; [apply H; lia|]. replace (a + S m) with (S a + m) by lia. apply IH. intros k Hk. apply H. lia.
  Qed.

  Lemma ticks_nth (u : U) (f : nat -> list A) size : forall k, k < size ->
    u_tick ops (fst (ticks (u_tick ops) u (map f (seq 0 k)))) (f k) = (fst (ticks (u_tick ops) u (map f (seq 0 (S k)))), nth k (snd (ticks (u_tick ops) u (map f (seq 0 size)))) []).
  Proof.
    intros k Hk. assert (E1 : seq 0 (S k) = seq 0 k ++ [k]) by (now rewrite seq_S).
    assert (E2 : seq 0 size = seq 0 k ++ k :: seq (S k) (size - S k)). { replace size with (k + S (size - S k)) at 1 by lia. now rewrite (seq_app k). }
    rewrite E1, E2, !map_app, !ticks_app. cbn [map].
    pose proof (ticks_length (u_tick ops) u (map f (seq 0 k))) as Hl. rewrite map_length, seq_length in Hl.
    destruct (ticks (u_tick ops) u (map f (seq 0 k))) as [u1 o1]. cbn [fst snd] in *. cbn [ticks]. destruct (u_tick ops u1 (f k)) as [u2 o2].
    destruct (ticks (u_tick ops) u2 (map f (seq (S k) (size - S k)))) as [u3 o3]. cbn. rewrite app_nth2 by lia. rewrite Hl, Nat.sub_diag. reflexivity.
  Qed.

  Lemma run_process_flows n o size inb vs' : wf n -> n_order n = Some o -> ~ has_cycle n -> size <= MAXB -> shaped (n_in n) inb ->
    run_process zero ops o size inb (n_vertex n) = Some vs' ->
    exists us : nat -> list U, us 0 = units n /\ us size = map v_unit vs' /\
      forall k, k < size -> flow zero ops (graph n) (us k) (frame zero inb k) (us (S k)) (map (fun v => frame zero (v_out v) k) vs').
  Proof.
    intros H Ho Hc Hs Hin Hr. pose proof (order_topo n o H Ho Hc) as T. unfold graph in T.
    destruct (run_process_inv size inb (n_vertex n) o Hs T o [] n vs' H) as [Hl Inv]; auto; [congruence| |]. { split; auto. intros i v0 Hv0. split; auto. intros []. }
    set (chs := fun v0 : vertex => match mapM (fun e => read_block zero vs' inb (e_src e)) (v_src v0) with Some c => c | None => [] end).
    assert (Hall : forall i v0, nth_error (n_vertex n) i = Some v0 -> exists ib vin, mapM (fun e => read_block zero vs' inb (e_src e)) (v_src v0) = Some (chs v0) /\
       shaped (u_ins ops (v_unit v0)) ib /\ (forall k, k < size -> frame zero ib k = frame zero (chs v0) k) /\ nth_error vs' i = Some (v_process ops v0 size ib vin)).
    { intros i v0 Hv0. destruct (proj2 (Inv i v0 Hv0)) as (c & ib & vin & M & _ & S & F & E). { apply (t_in _ _ T). rewrite !map_length. eapply nth_error_lt; eauto. }
      exists ib, vin. unfold chs. rewrite M. auto. }
    assert (Hticks : forall i v0 v', nth_error (n_vertex n) i = Some v0 -> nth_error vs' i = Some v' ->
       (v_unit v', frames zero (v_out v') size) = ticks (u_tick ops) (v_unit v0) (frames zero (chs v0) size)).
    { intros i v0 v' Hv0 Hv'. destruct (Hall i v0 Hv0) as (ib & vin & _ & S & F & E). rewrite Hv' in E. inversion E; subst v'.
      pose proof (ul_process _ _ Hlaws (v_unit v0) size ib (v_out v0) Hs S (vo_out _ _ _ _ _ _ (w_vertex _ n H i v0 Hv0))) as HP. unfold v_process.
      destruct (u_process ops (v_unit v0) size ib (v_out v0)) as [u ou]. destruct HP as [HP _]. cbn [v_unit v_out]. rewrite HP. f_equal. apply frames_ext. auto. }
    exists (fun k => map (fun v0 => fst (ticks (u_tick ops) (v_unit v0) (map (frame zero (chs v0)) (seq 0 k)))) (n_vertex n)). split; [|split].
    - apply map_ext. auto.
    - apply nth_error_ext. intros i. rewrite !nth_error_map. destruct (nth_error (n_vertex n) i) as [v0|] eqn:Hv0.
      + destruct (Hall i v0 Hv0) as (ib & vin & _ & _ & _ & E). rewrite E. cbn [option_map]. pose proof (Hticks i v0 _ Hv0 E) as HT. unfold frames in HT at 2. rewrite <- HT. reflexivity.
      + rewrite (proj2 (nth_error_None vs' i)); auto. rewrite Hl. now apply nth_error_None.
    - intros k Hk. unfold flow, graph. rewrite !map_length. split; auto. split; auto. split; auto. intros i ps u u' ou Hps Hu Hu' Hou. rewrite nth_error_map in Hps, Hu, Hu', Hou.
      destruct (nth_error (n_vertex n) i) as [v0|] eqn:Hv0; [|discriminate]. destruct (Hall i v0 Hv0) as (ib & vin & M & _ & _ & E). rewrite E in Hou.
      cbn [option_map] in *. assert (Eps : ps = sources v0) by congruence. assert (Eu : u = fst (ticks (u_tick ops) (v_unit v0) (map (frame zero (chs v0)) (seq 0 k)))) by congruence.
      assert (Eu' : u' = fst (ticks (u_tick ops) (v_unit v0) (map (frame zero (chs v0)) (seq 0 (S k))))) by congruence.
      assert (Eo : ou = frame zero (v_out (v_process ops v0 size ib vin)) k) by congruence. clear Hps Hu Hu' Hou.
      exists (frame zero (chs v0) k). split.
      + subst ps. unfold sources. apply block_values; [lia|]. rewrite mapM_map. auto.
      + pose proof (ticks_nth (v_unit v0) (frame zero (chs v0)) size k Hk) as HT. rewrite Eu, HT, Eu'. f_equal. pose proof (Hticks i v0 _ Hv0 E) as HQ. unfold frames in HQ at 2. rewrite <- HQ.
        cbn [snd]. rewrite Eo. now apply nth_frames.
  Qed.

  Lemma ordered_net_process n size inb out : wf n -> n_order n <> None -> size <= MAXB -> shaped (n_in n) inb -> shaped (n_out n) out ->
    exists n' out', net_process zero ops uping ahash n size inb out = Some (n', out') /\ played n n' /\ shaped (n_out n) out' /\
      (~ has_cycle n -> dataflows n (units n) (frames zero inb size) (units n') (frames zero out' size)).
  Proof.
    intros H Ho Hs Hin Hout. unfold net_process, ordered. destruct (n_order n) as [o|] eqn:Eo; [|congruence]. cbv beta iota. rewrite Eo.
    destruct (run_process_total zero ops Hlaws o size inb n H) as (vs & Er & D); auto; [congruence|apply order_range; auto|]. rewrite Er.
    assert (H' : wf (n_set_vertex n vs)) by (now apply wf_dyn). unfold gather.
    destruct (mapM_some (fun e => read_block zero vs inb (e_src e)) (n_oedge n)) as [chs E].
    { intros e He. apply (read_block_some zero ops (n_set_vertex n vs) inb); auto; [apply Hin|]. apply (w_oport _ _ H' e He). }
    rewrite E. eexists _, _. split; [reflexivity|]. split; [exists vs; auto|]. assert (Hlc : length chs = n_out n) by (rewrite (mapM_length _ _ _ E); apply (w_out _ n H)).
    split; [apply copy_simd_shaped; auto; apply Hout|]. intros Hc. destruct (run_process_flows n o size inb vs H Eo Hc Hs Hin Er) as (us & E0 & E1 & F).
    rewrite <- E0. unfold units at 1. cbn [n_set_vertex n_vertex]. rewrite <- E1. unfold frames. apply (dataflows_seq n us (frame zero inb) (fun k => map (fun v => frame zero (v_out v) k) vs)).
    intros k Hk. split; [apply F; lia|]. rewrite frame_copy_simd; try lia; [|destruct Hout; congruence]. apply block_values; [lia|]. rewrite mapM_map. auto.
  Qed.

  (* ---- histories ---- *)
  Lemma run_ticks_flows : forall ins n, wf n -> n_order n <> None -> Forall (fun x => length x = n_in n) ins ->
    exists n' os, run_ticks zero ops uping ahash n ins = Some (n', os) /\ played n n' /\ Forall (fun x => length x = n_out n) os /\ (~ has_cycle n -> dataflows n (units n) ins (units n') os).
  Proof.
    induction ins as [|x ins IH]; intros n H Ho Hf; cbn.
    - exists n, []. repeat split; auto using played_refl. intros _. constructor.
    - inversion Hf; subst. destruct (ordered_net_tick n x H Ho H2) as (n1 & o & -> & P1 & L1 & F1). pose proof (played_kept _ _ P1) as K1.
      destruct (IH n1) as (n2 & os & -> & P2 & L2 & F2). { now apply (played_wf n). } { now rewrite (played_order _ _ P1). } { now rewrite (k_in _ _ _ K1). }
      exists n2, (o :: os). split; auto. split; [eapply played_trans; eauto|]. rewrite (k_out _ _ _ K1) in L2. split; auto. intros Hc. destruct (F1 Hc) as (vals & F). econstructor; [exact F|].
      eapply dataflows_same; [| |apply F2]; [now apply (kept_graph ops)|apply (k_oedge _ _ _ K1)|]. now rewrite (kept_cycle ops _ _ K1).
  Qed.
  Lemma run_blocks_flows : forall bs n, wf n -> n_order n <> None -> Forall (block_ok n) bs ->
    exists n' os, run_blocks zero ops uping ahash n bs = Some (n', os) /\ played n n' /\ (~ has_cycle n -> dataflows n (units n) (input_frames zero bs) (units n') os).
  Proof.
    induction bs as [|[[size inb] out] bs IH]; intros n H Ho Hf; cbn [run_blocks].
    - exists n, []. repeat split; auto using played_refl. intros _. constructor.
    - inversion Hf as [|b l Hb HF]; subst. destruct Hb as (Hs & Hin & Hout). destruct (ordered_net_process n size inb out H Ho Hs Hin Hout) as (n1 & o & -> & P1 & L1 & F1). pose proof (played_kept _ _ P1) as K1.
      destruct (IH n1) as (n2 & os & -> & P2 & F2). { now apply (played_wf n). } { now rewrite (played_order _ _ P1). }
      { eapply Forall_impl; [|exact HF]. intros [[s i] q]. cbn. now rewrite (k_in _ _ _ K1), (k_out _ _ _ K1). }
      exists n2, (frames zero o size ++ os). split; auto. split; [eapply played_trans; eauto|]. intros Hc. cbn [input_frames flat_map]. eapply dataflows_app; [apply F1; auto|].
      eapply dataflows_same; [| |apply F2]; [now apply (kept_graph ops)|apply (k_oedge _ _ _ K1)|]. now rewrite (kept_cycle ops _ _ K1).
  Qed.
  Lemma ordered_idem (n n1 : net) : ordered uping ahash n = Some n1 -> n_order n1 <> None -> ordered uping ahash n1 = Some n1.
  Proof. intros _ H. unfold ordered. destruct (n_order n1); congruence. Qed.
  Lemma run_ticks_ordered n n1 ins : ordered uping ahash n = Some n1 -> ordered uping ahash n1 = Some n1 -> ins <> [] -> run_ticks zero ops uping ahash n ins = run_ticks zero ops uping ahash n1 ins.
  Proof. intros E E1 Hi. destruct ins as [|x ins]; [congruence|]. cbn. unfold net_tick. now rewrite E, E1. Qed.
  Lemma run_blocks_ordered n n1 bs : ordered uping ahash n = Some n1 -> ordered uping ahash n1 = Some n1 -> bs <> [] -> run_blocks zero ops uping ahash n bs = run_blocks zero ops uping ahash n1 bs.
  Proof. intros E E1 Hi. destruct bs as [|[[size inb] out] bs]; [congruence|]. cbn. unfold net_process. now rewrite E, E1. Qed.

  Lemma input_frames_ok (n : net) bs : Forall (block_ok n) bs -> Forall (fun x => length x = n_in n) (input_frames zero bs).
  Proof.
    induction 1 as [|[[s i] o] bs (_ & Hi & _) HF IH]; cbn; [constructor|]. apply Forall_app. split; auto. destruct Hi as [<- _]. apply frames_each.
  Qed.
  Lemma played_settled n n' : played n n' -> forall n'', played n n'' -> units n' = units n'' -> same_state n' n''.
  Proof.
    intros (v1 & -> & D1) n'' (v2 & -> & D2) E. unfold same_state. cbn [n_set_vertex n_in n_out n_oedge n_order n_index n_error n_revision n_vertex]. repeat (split; [reflexivity|]).
    unfold units in E. cbn in E. apply nth_error_ext. intros i. rewrite !nth_error_map.
    assert (Ei : option_map v_unit (nth_error v1 i) = option_map v_unit (nth_error v2 i)) by (rewrite <- !nth_error_map; congruence).
    destruct (nth_error (n_vertex n) i) as [v|] eqn:Hv.
    - destruct (Forall2_ex _ _ _ _ _ D1 Hv) as (w1 & H1 & [S1 V1 C1 _]). destruct (Forall2_ex _ _ _ _ _ D2 Hv) as (w2 & H2 & [S2 V2 C2 _]). rewrite H1, H2 in *. cbn in *. inversion Ei. unfold settled.
      destruct S1, S2. do 2 f_equal; congruence.
    - apply nth_error_None in Hv. apply Forall2_nth in D1 as [D1 _]. apply Forall2_nth in D2 as [D2 _]. rewrite !(proj2 (nth_error_None _ _)) by lia. reflexivity.
  Qed.

  (* the main theorem on playing: any division into blocks gives the outputs and states of ticking *)
  Theorem blocks_are_ticks n bs : wf n -> ~ has_cycle n -> Forall (block_ok n) bs -> (input_frames zero bs <> [] \/ n_order n <> None) ->
    exists n1 n2 os, run_blocks zero ops uping ahash n bs = Some (n1, os) /\ run_ticks zero ops uping ahash n (input_frames zero bs) = Some (n2, os) /\ same_state n1 n2.
  Proof.
    intros H Hc Hf Hne. destruct (ordered_ok ops uping ahash Hctl n H) as (n0 & o & Eo & H0 & K & Ho).
    assert (Hf0 : Forall (block_ok n0) bs). { eapply Forall_impl; [|exact Hf]. intros [[s i] q]. cbn. now rewrite (k_in _ _ _ K), (k_out _ _ _ K). }
    assert (Hn0 : n_order n0 <> None) by congruence. pose proof (ordered_idem _ _ Eo Hn0) as Ei. assert (Hc0 : ~ has_cycle n0) by (now rewrite (kept_cycle ops _ _ K)).
    destruct (run_blocks_flows bs n0 H0 Hn0 Hf0) as (n1 & os & E1 & P1 & F1). destruct (run_ticks_flows (input_frames zero bs) n0 H0 Hn0 (input_frames_ok n0 bs Hf0)) as (n2 & os2 & E2 & P2 & _ & F2).
    destruct (dataflows_unique n0 o (order_topo n0 o H0 Ho Hc0) _ _ _ _ (F1 Hc0) _ _ (F2 Hc0)) as [Eu Eos]. subst os2.
    exists n1, n2, os. split; [|split; [|eapply played_settled; eauto]].
    - rewrite <- E1. destruct (n_order n) eqn:En; [unfold ordered in Eo; rewrite En in Eo; inversion Eo; subst; auto|].
      apply run_blocks_ordered; auto. destruct Hne as [Hne|]; [|congruence]. intros ->. now apply Hne.
    - rewrite <- E2. destruct (n_order n) eqn:En; [unfold ordered in Eo; rewrite En in Eo; inversion Eo; subst; auto|].
      apply run_ticks_ordered; auto. destruct Hne as [Hne|]; [|congruence]. auto.
  Qed.
End Play.
