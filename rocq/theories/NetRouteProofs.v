(* The labels of a network solve its equations, and they are right about what is heard. *)
From Coq Require Import Reals Lra Lia.
From Verif Require Import NetRouteSpec.
From Verif Require Export FreqSpec ResponseProofs NetMore SignalProofs LatencyProofs NetFlow.
Local Open Scope R_scope.
Local Open Scope nat_scope.

Lemma mapM_seq {X Y} (f : X -> option Y) l : mapM (fun c => match nth_error l c with Some e => f e | None => None end) (seq 0 (length l)) = mapM f l.
Proof.
  induction l as [|a l IH]; [reflexivity|]. cbn [length seq mapM nth_error]. destruct (f a); [|reflexivity].
  rewrite <- seq_shift, mapM_map. cbn [nth_error]. now rewrite IH.
Qed.

Section Labels.
  Context {F P U : Type}.
  Variable nm : num F.
  Variable ops : unit_ops F P U.
  Variable uping : bool -> U -> N -> U * N.
  Variable ahash : N -> N -> N.
  Variable u_route : U -> F -> list (signal F) -> option (list (signal F)).
  Hypothesis Hctl : control_laws ops uping.
  Notation net := (net F U).
  Notation vertex := (vertex F U).
  Notation wf := (NetWf.wf ops).
  Notation V0 := (Value (n0 nm)).
  Notation label := (value V0).

  Lemma port_label_value inner input p : port_label nm inner input p = label inner input p.
  Proof. destruct p; reflexivity. Qed.
  Lemma input_labels_eq inner input (v : vertex) : length (v_src v) = u_ins ops (v_unit v) ->
    input_labels nm ops inner input v = mapM (label inner input) (sources v).
  Proof.
    intros H. unfold input_labels. rewrite <- H, mapM_seq. unfold sources. rewrite mapM_map. apply mapM_ext. intros e _. apply port_label_value.
  Qed.

  (* after the vertices of done, in topological order *)
  Definition route_inv (freq : F) (input : list (signal F)) (vs : list vertex) (done : list nat) (inner : list (list (signal F))) : Prop :=
    length inner = length vs /\ forall i v, nth_error vs i = Some v -> In i done ->
      exists ins o, mapM (label inner input) (sources v) = Some ins /\ u_route (v_unit v) freq ins = Some o /\ nth_error inner i = Some o.

  Lemma route_vertices_inv freq input (vs : list vertex) o : topo (map local_sources (map sources vs)) o -> (forall v, In v vs -> length (v_src v) = u_ins ops (v_unit v)) ->
    forall rest done inner inner', o = done ++ rest -> route_inv freq input vs done inner -> route_vertices nm ops u_route freq vs input rest inner = Some inner' ->
    route_inv freq input vs o inner'.
  Proof.
    intros T Hs. induction rest as [|i rest IH]; intros done inner inner' E [Hl Inv] Hr; cbn in Hr.
    - inversion Hr; subst. rewrite app_nil_r. split; auto.
    - destruct (nth_error vs i) as [v|] eqn:Hv; [|discriminate]. rewrite input_labels_eq in Hr by (apply Hs; eapply nth_error_In; eauto).
      destruct (mapM (label inner input) (sources v)) as [ins|] eqn:Hi; [|discriminate]. destruct (u_route (v_unit v) freq ins) as [ou|] eqn:Hu; [|discriminate].
      assert (Hni : ~ In i done). { pose proof (t_nodup _ _ T) as Hn. rewrite E in Hn. apply NoDup_remove_2 in Hn. intros Hi2. apply Hn. rewrite in_app_iff. auto. }
      refine (IH (done ++ [i]) _ inner' _ _ Hr); [now rewrite <- app_assoc|]. split; [now rewrite length_upd|]. intros j w Hw Hj.
      assert (Hsame : forall p, In p (sources w) -> label (upd inner i ou) input p = label inner input p).
      { intros p Hp. apply value_ext. intros k q ->. apply nth_error_upd_ne. intros ->.
        assert (HR : reads (map local_sources (map sources vs)) j k) by (eapply (reads_graph _ j (sources w) k q); [rewrite nth_error_map, Hw; auto|auto]).
        apply in_app_iff in Hj as [Hj|[Hj|[]]].
        - apply in_split in Hj as (a & b & Ed). apply Hni. rewrite Ed, in_app_iff. left. eapply (t_split _ _ T a j (b ++ k :: rest)); eauto. rewrite E, Ed, <- app_assoc. reflexivity.
        - subst j. apply Hni. eapply (t_split _ _ T done k rest); eauto. }
      destruct (Nat.eq_dec j i) as [->|Hne].
      + assert (w = v) by congruence. subst w. exists ins, ou. split; [rewrite <- Hi; now apply mapM_ext|]. split; auto. apply nth_error_upd_eq. rewrite Hl. eapply nth_error_lt; eauto.
      + destruct (Inv j w Hw) as (ins2 & o2 & H1 & H2 & H3). { apply in_app_iff in Hj as [?|[?|[]]]; auto; congruence. }
        exists ins2, o2. split; [rewrite <- H1; now apply mapM_ext|]. split; auto. rewrite nth_error_upd_ne; auto.
  Qed.

  Lemma wf_srcs (n : net) : wf n -> forall v, In v (n_vertex n) -> length (v_src v) = u_ins ops (v_unit v).
  Proof. intros H v Hv. apply In_nth_error in Hv as [i Hi]. apply (vo_src _ _ _ _ _ _ (w_vertex _ n H i v Hi)). Qed.

  (* ordered networks *)
  Lemma ordered_route freq (n : net) input out n1 : wf n -> n_order n <> None -> ~ has_cycle n -> net_route nm ops uping ahash u_route freq n input = Some (n1, out) ->
    n1 = n /\ exists inner, net_labels nm u_route freq n (units n) input inner out.
  Proof.
    intros H Ho Hc E. unfold net_route, ordered in E. destruct (n_order n) as [o|] eqn:Eo; [|congruence]. cbv beta iota in E. rewrite Eo in E.
    destruct (route_vertices _ _ _ _ _ _ _ _) as [inner|] eqn:Er; [|discriminate].
    destruct (mapM _ (seq 0 (n_out n))) as [out'|] eqn:Em; [|discriminate]. inversion E; subst n1 out'. split; auto. exists inner.
    pose proof (order_topo ops n o H Eo Hc) as T.
    set (start := map (fun v => repeat Unknown (u_outs ops (v_unit v))) (n_vertex n)) in Er.
    assert (I0 : route_inv freq input (n_vertex n) [] start) by (split; [unfold start; now rewrite map_length|intros i v _ []]).
    destruct (route_vertices_inv freq input (n_vertex n) o T (wf_srcs n H) o [] start inner eq_refl I0 Er) as [Hl Inv].
    split.
    - unfold labels_solve, graph, units. rewrite !map_length. split; auto. split; auto. intros i ps u ou Hps Hu Hou. rewrite nth_error_map in Hps, Hu.
      destruct (nth_error (n_vertex n) i) as [v|] eqn:Hv; [|discriminate]. cbn in Hps, Hu. inversion Hps; inversion Hu; subst ps u.
      destruct (Inv i v Hv) as (ins & o2 & H1 & H2 & H3). { apply (t_in _ _ T). unfold graph. rewrite !map_length. eapply nth_error_lt; eauto. }
      exists ins. split; auto. congruence.
    - rewrite <- (w_out _ n H), mapM_seq in Em. rewrite mapM_map, <- Em. apply mapM_ext. intros e _. symmetry. apply port_label_value.
  Qed.

  (* the labels are unique *)
  Lemma labels_unique freq g o us input in1 in2 : topo (map local_sources g) o -> labels_solve nm u_route freq g us input in1 -> labels_solve nm u_route freq g us input in2 -> in1 = in2.
  Proof.
    intros T (L0 & L1 & F1) (_ & L2 & F2).
    assert (Step : forall i, i < length g -> (forall j, reads (map local_sources g) i j -> nth_error in1 j = nth_error in2 j) -> nth_error in1 i = nth_error in2 i).
    { intros i Hi HR. destruct (nth_error_ex g i Hi) as [ps Hps]. destruct (nth_error_ex us i) as [u Hu]; [lia|]. destruct (nth_error_ex in1 i) as [o1 Ho1]; [lia|]. destruct (nth_error_ex in2 i) as [o2 Ho2]; [lia|].
      destruct (F1 i ps u o1) as (i1 & M1 & T1); auto. destruct (F2 i ps u o2) as (i2 & M2 & T2); auto.
      assert (E : i1 = i2). { rewrite (mapM_ext _ (label in2 input)) in M1; [congruence|]. intros p Hp. apply value_ext. intros j q ->. apply HR. eapply reads_graph; eauto. }
      subst i2. congruence. }
    assert (Pre : forall a b, o = a ++ b -> forall i, In i a -> nth_error in1 i = nth_error in2 i).
    { intros a. induction a as [|k a IH] using rev_ind; intros b E i Hi; [destruct Hi|]. rewrite <- app_assoc in E. cbn in E. apply in_app_iff in Hi as [Hi|[->|[]]]; [eapply IH; eauto|].
      apply Step. { rewrite <- (map_length local_sources g). apply (t_in _ _ T). rewrite E, in_app_iff. cbn; auto. }
      intros j Hj. apply (IH (i :: b) E j). eapply (t_split _ _ T); eauto. }
    apply nth_error_ext. intros i. destruct (Nat.lt_ge_cases i (length g)) as [Hi|Hi].
    - apply (Pre o []); [now rewrite app_nil_r|]. apply (t_in _ _ T). now rewrite map_length.
    - rewrite !(proj2 (nth_error_None _ _)) by lia. auto.
  Qed.

  (* no panic, whether or not there are cycles *)
  Lemma label_some (n : net) inner input p : length input = n_in n -> map (@length _) inner = outs_of ops (n_vertex n) -> port_ok (n_in n) (outs_of ops (n_vertex n)) p -> label inner input p <> None.
  Proof.
    intros Hi Ho Hp. destruct p as [j q|q|]; cbn in *; try discriminate.
    - destruct Hp as (k & Hk & Hq). rewrite <- Ho, nth_error_map in Hk. destruct (nth_error inner j) as [s|]; [|discriminate]. cbn in Hk. apply nth_error_Some. congruence.
    - apply nth_error_Some. lia.
  Qed.
  Lemma route_vertices_total freq (n : net) input order : wf n -> length input = n_in n -> Forall (routes u_route ops freq) (units n) -> (forall i, In i order -> i < length (n_vertex n)) ->
    forall inner, map (@length _) inner = outs_of ops (n_vertex n) ->
    exists inner', route_vertices nm ops u_route freq (n_vertex n) input order inner = Some inner' /\ map (@length _) inner' = outs_of ops (n_vertex n).
  Proof.
    intros H Hi Hr. induction order as [|i order IH]; intros Hin inner Hl; cbn; eauto.
    destruct (nth_error_ex (n_vertex n) i) as [v Hv]; [apply Hin; cbn; auto|]. rewrite Hv. pose proof (w_vertex _ n H i v Hv) as Hok.
    rewrite input_labels_eq by apply (vo_src _ _ _ _ _ _ Hok).
    destruct (mapM_some (label inner input) (sources v)) as [ins Eins].
    { intros p Hp. unfold sources in Hp. apply in_map_iff in Hp as (e & <- & He). apply (label_some n); auto. apply (vo_port _ _ _ _ _ _ Hok e He). }
    rewrite Eins. rewrite Forall_forall in Hr. destruct (Hr (v_unit v)) with (ins := ins) as (ou & -> & Hou).
    { unfold units. apply in_map. eapply nth_error_In; eauto. }
    { rewrite (mapM_length _ _ _ Eins). unfold sources. rewrite map_length. apply (vo_src _ _ _ _ _ _ Hok). }
    apply IH; [intros; apply Hin; cbn; auto|]. rewrite map_upd. rewrite Hl. unfold outs_of. rewrite Hou. apply upd_same. rewrite nth_error_map, Hv. reflexivity.
  Qed.
  Lemma route_total freq (n n0 : net) e input : wf n -> net_error uping ahash n = Some (n0, e) -> length input = n_in n -> Forall (routes u_route ops freq) (units n0) ->
    exists out, net_route nm ops uping ahash u_route freq n input = Some (n0, out) /\ length out = n_out n.
  Proof.
    intros H E Hi Hr. destruct (ordered_ok ops uping ahash Hctl n H) as (n0' & o & Eo & H0 & K & Ho). unfold net_error in E. rewrite Eo in E. inversion E; subst n0' e.
    unfold net_route. rewrite Eo. cbv beta iota. rewrite Ho.
    destruct (route_vertices_total freq n0 input o H0 ltac:(rewrite (k_in _ _ _ K); auto) Hr (order_range ops n0 o H0 Ho) (map (fun v => repeat Unknown (u_outs ops (v_unit v))) (n_vertex n0))) as (inner & -> & Hl).
    { unfold outs_of. rewrite map_map. apply map_ext. intros v. apply repeat_length. }
    rewrite <- (w_out _ n0 H0), mapM_seq.
    destruct (mapM_some (fun e => port_label nm inner input (e_src e)) (n_oedge n0)) as [out Eout].
    { intros e He. rewrite port_label_value. apply (label_some n0); auto; [rewrite (k_in _ _ _ K); auto|]. apply (w_oport _ n0 H0 e He). }
    rewrite Eout. exists out. split; auto. rewrite (mapM_length _ _ _ Eout), (w_out _ n0 H0). apply (k_out _ _ _ K).
  Qed.

  Theorem route_equations freq (n n0 : net) input : wf n -> ~ has_cycle n -> net_error uping ahash n = Some (n0, false) -> length input = n_in n -> Forall (routes u_route ops freq) (units n0) ->
    exists inner out, net_route nm ops uping ahash u_route freq n input = Some (n0, out) /\ length out = n_out n /\ net_labels nm u_route freq n (units n0) input inner out /\
      forall inner' out', net_labels nm u_route freq n (units n0) input inner' out' -> inner' = inner /\ out' = out.
  Proof.
    intros H Hc E Hi Hr. destruct (route_total freq n n0 false input H E Hi Hr) as (out & Eo & Hl).
    destruct (ordered_ok ops uping ahash Hctl n H) as (n0' & o & Eord & H0 & K & Ho). unfold net_error in E. rewrite Eord in E. inversion E; subst n0'.
    assert (Hc0 : ~ has_cycle n0) by (now rewrite (kept_cycle ops _ _ K)). assert (Hn : n_order n0 <> None) by congruence.
    assert (E0 : net_route nm ops uping ahash u_route freq n0 input = Some (n0, out)).
    { rewrite <- Eo. unfold net_route. rewrite Eord, (ordered_idem uping ahash n n0 Eord Hn). reflexivity. }
    destruct (ordered_route freq n0 input out n0 H0 Hn Hc0 E0) as [_ [inner [S1 S2]]].
    rewrite (kept_graph ops _ _ K) in S1. rewrite (k_oedge _ _ _ K) in S2.
    exists inner, out. split; auto. split; auto. split; [split; auto|]. intros inner' out' [S1' S2'].
    pose proof (order_topo ops n0 o H0 Ho Hc0) as T. rewrite (kept_graph ops _ _ K) in T.
    assert (inner' = inner) as -> by (eapply labels_unique; eauto). split; auto. congruence.
  Qed.
End Labels.

(* ---- streams ---- *)
Section NetStream.
  Context {P U : Type}.
  Variable ops : unit_ops R P U.
  Variable uping : bool -> U -> N -> U * N.
  Variable ahash : N -> N -> N.
  Hypothesis Hctl : control_laws ops uping.
  Hypothesis Hlaws : unit_laws 0%R ops.
  Notation net := (net R U).
  Notation wf := (NetWf.wf ops).
  Notation ntick := (net_tick 0%R ops uping ahash).
  Notation nstate := (net_state 0%R ops uping ahash).
  Notation noutput := (net_output 0%R ops uping ahash).
  Notation val := (value 0%R).

  Lemma ordered_tick_vals (n : net) input : wf n -> n_order n <> None -> ~ has_cycle n -> length input = n_in n ->
    exists n' out, ntick n input = Some (n', out) /\ played ops n n' /\ length out = n_out n /\ dataflow 0%R ops n (units n) input (units n') (map v_tout (n_vertex n')) out.
  Proof.
    intros H Ho Hc Hl. unfold net_tick, ordered. destruct (n_order n) as [o|] eqn:Eo; [|congruence]. cbv beta iota. rewrite Eo.
    destruct (run_tick_total 0%R ops Hlaws o input n H Hl (order_range ops n o H Eo)) as (vs & Er & D). rewrite Er.
    assert (H' : wf (n_set_vertex n vs)) by (now apply wf_dyn). destruct (outs_ok 0%R ops _ input H' Hl) as (out & Eout & Hlen). cbn in Eout. rewrite Eout.
    eexists _, out. split; [reflexivity|]. split; [exists vs; auto|]. split; auto. split.
    - apply (run_tick_flow 0%R ops input (n_vertex n) o vs); auto. apply (order_topo ops n o); auto.
    - rewrite mapM_map. rewrite <- Eout. apply mapM_ext. intros e _. symmetry. apply read_tick_value.
  Qed.

  Variable n : net.
  Hypothesis Hwf : wf n.
  Hypothesis Hord : n_order n <> None.
  Hypothesis Hac : ~ has_cycle n.

  (* the network at each time, the outputs of all nodes, and the outputs of the network *)
  Definition at_time (X : nat -> list R) (t : nat) : net := match nstate n X t with Some m => m | None => n end.
  Definition vals_at (X : nat -> list R) (t : nat) : list (list R) := map v_tout (n_vertex (at_time X (S t))).
  Definition out_at (X : nat -> list R) (t : nat) : list R := match noutput n X t with Some o => o | None => [] end.

  Lemma stream_step X : width (n_in n) X -> forall t, nstate n X t = Some (at_time X t) /\ played ops n (at_time X t).
  Proof.
    intros HX. induction t as [|t [IH1 IH2]]; [split; [reflexivity|apply played_refl]|].
    pose proof (played_wf ops _ _ Hwf IH2) as W. pose proof (played_kept ops _ _ IH2) as K.
    destruct (ordered_tick_vals (at_time X t) (X t)) as (n' & out & E & Pl & _); auto.
    { now rewrite (played_order ops _ _ IH2). } { now rewrite (kept_cycle ops _ _ K). } { rewrite HX. symmetry. apply (k_in _ _ _ K). }
    assert (Es : nstate n X (S t) = Some n') by (cbn [net_state]; rewrite IH1, E; reflexivity).
    assert (Ea : at_time X (S t) = n') by (unfold at_time; rewrite Es; reflexivity). rewrite Ea. split; auto. eapply played_trans; eauto.
  Qed.
  Lemma stream_flow X : width (n_in n) X -> forall t, noutput n X t = Some (out_at X t) /\ length (out_at X t) = n_out n /\
    dataflow 0%R ops n (units (at_time X t)) (X t) (units (at_time X (S t))) (vals_at X t) (out_at X t).
  Proof.
    intros HX t. destruct (stream_step X HX t) as [IH1 IH2]. pose proof (played_wf ops _ _ Hwf IH2) as W. pose proof (played_kept ops _ _ IH2) as K.
    destruct (ordered_tick_vals (at_time X t) (X t)) as (n' & out & E & Pl & Hl & D); auto.
    { now rewrite (played_order ops _ _ IH2). } { now rewrite (kept_cycle ops _ _ K). } { rewrite HX. symmetry. apply (k_in _ _ _ K). }
    assert (Es : nstate n X (S t) = Some n') by (cbn [net_state]; rewrite IH1, E; reflexivity).
    assert (Ea : at_time X (S t) = n') by (unfold at_time; rewrite Es; reflexivity).
    assert (Eo : noutput n X t = Some out) by (unfold net_output; rewrite IH1, E; reflexivity).
    assert (Eu : out_at X t = out) by (unfold out_at; rewrite Eo; reflexivity).
    unfold vals_at. rewrite Ea, Eu. split; auto. split; [rewrite Hl; apply (k_out _ _ _ K)|].
    destruct D as [D1 D2]. rewrite (kept_graph ops _ _ K) in D1. rewrite (k_oedge _ _ _ K) in D2. split; auto.
  Qed.

  (* what a port carries, what node i is fed, and what it outputs *)
  Definition port_at X (p : port) (t : nat) : R := match val (vals_at X t) (X t) p with Some a => a | None => 0%R end.
  Definition fed_at X (ps : list port) (t : nat) : list R := map (fun p => port_at X p t) ps.
  Definition node_at X (i t : nat) : list R := nth i (vals_at X t) [].

  Lemma mapM_default {X Y} (f : X -> option Y) d l r : mapM f l = Some r -> r = map (fun x => match f x with Some y => y | None => d end) l.
  Proof.
    revert r. induction l as [|a l IH]; intros r E; cbn in *; [congruence|]. destruct (f a); [|discriminate]. destruct (mapM f l) as [r'|]; [|discriminate]. inversion E. f_equal. now apply IH.
  Qed.
  Lemma node_stream X : width (n_in n) X -> forall i ps u, nth_error (graph n) i = Some ps -> nth_error (units n) i = Some u ->
    forall t, (exists ut, nth_error (units (at_time X t)) i = Some ut /\ state R_arith ops (Leaf u) (fed_at X ps) t = Leaf ut) /\
              output R_arith ops (Leaf u) (fed_at X ps) t = node_at X i t.
  Proof.
    intros HX i ps u Hps Hu.
    assert (Step : forall t ut, nth_error (units (at_time X t)) i = Some ut ->
      exists u' , nth_error (units (at_time X (S t))) i = Some u' /\ u_tick ops ut (fed_at X ps t) = (u', node_at X i t)).
    { intros t ut Hut. destruct (stream_flow X HX t) as (_ & _ & ((L1 & L2 & L3 & Fl) & _)).
      assert (Hi : i < length (graph n)) by (eapply nth_error_lt; eauto).
      destruct (nth_error_ex (units (at_time X (S t))) i) as [u' Hu']; [lia|]. destruct (nth_error_ex (vals_at X t) i) as [o Ho]; [lia|].
      destruct (Fl i ps ut u' o Hps Hut Hu' Ho) as (ins & Em & Et). exists u'. split; auto.
      replace (node_at X i t) with o by (unfold node_at; symmetry; now apply nth_error_nth).
      rewrite (mapM_default _ 0%R _ _ Em) in Et. exact Et. }
    assert (St : forall t, exists ut, nth_error (units (at_time X t)) i = Some ut /\ state R_arith ops (Leaf u) (fed_at X ps) t = Leaf ut).
    { induction t as [|t (ut & H1 & H2)]; [exists u; auto|]. destruct (Step t ut H1) as (u' & H3 & H4). exists u'. split; auto.
      cbn [state]. rewrite H2. cbn [tick]. rewrite H4. reflexivity. }
    intros t. split; [apply St|]. destruct (St t) as (ut & H1 & H2). destruct (Step t ut H1) as (u' & H3 & H4). unfold output. rewrite H2. cbn [tick]. rewrite H4. reflexivity.
  Qed.
  Lemma out_stream X : width (n_in n) X -> forall t, out_at X t = fed_at X (map e_src (n_oedge n)) t.
  Proof. intros HX t. destruct (stream_flow X HX t) as (_ & _ & (_ & E)). apply (mapM_default _ 0%R) in E. exact E. Qed.

  (* ---- labels are right ---- *)
  Context {W : Type}.
  Variable M : meaning W.
  Hypothesis HM : respected M.
  Variable u_route : U -> R -> list (signal R) -> option (list (signal R)).
  Variable freq : R.
  Hypothesis Hsound : Forall (leaf_sound ops u_route (fun _ => false) M freq) (units n).
  Variables (S : list (signal R)) (X : W -> nat -> list R).
  Hypothesis HS : length S = n_in n.
  Hypothesis HL : labelled M (n_in n) S X.

  Lemma X_width w : width (n_in n) (X w).
  Proof. destruct HL as (_ & H & _). apply H. Qed.

  Lemma ports_labelled inner ps ls : mapM (value (Value (n0 Rnum_ops)) inner S) ps = Some ls ->
    (forall j q, In (PLocal j q) ps -> exists u o, nth_error (units n) j = Some u /\ nth_error inner j = Some o /\ length o = u_outs ops u /\ labelled M (u_outs ops u) o (fun w => node_at (X w) j)) ->
    labelled M (length ps) ls (fun w => fed_at (X w) ps).
  Proof.
    intros E Hp. pose proof (mapM_length _ _ _ E) as Hl. split; [lia|]. split; [intros w t; unfold fed_at; apply map_length|]. intros c Hc.
    destruct (nth_error_ex ps c Hc) as [p Ep]. destruct (mapM_nth _ _ _ E c p Ep) as (s & Es & Ev). rewrite (nth_error_nth _ _ Unknown Es).
    apply (mc_ext _ HM _ (fun w t => port_at (X w) p t)).
    { intros w t. unfold fed_at. rewrite (nth_indep _ 0%R (port_at (X w) PZero t)) by (rewrite map_length; auto). rewrite (map_nth (fun p => port_at (X w) p t)). now rewrite (nth_error_nth _ _ PZero Ep). }
    destruct p as [j q|q|]; cbn [value] in Ev.
    - destruct (Hp j q) as (u & o & Hu & Ho & Hlo & (L1 & L2 & L3)); [eapply nth_error_In; eauto|]. rewrite Ho in Ev.
      assert (Hq : q < u_outs ops u) by (rewrite <- Hlo; eapply nth_error_lt; eauto). specialize (L3 q Hq). rewrite (nth_error_nth _ _ Unknown Ev) in L3.
      eapply (mc_ext _ HM); [|exact L3]. intros w t. cbn beta. unfold port_at. cbn [value]. specialize (L2 w t). unfold node_at in *.
      destruct (nth_error (vals_at (X w) t) j) as [l|] eqn:El.
      + rewrite (nth_error_nth _ _ [] El) in *. destruct (nth_error_ex l q) as [a Ea]; [lia|]. rewrite Ea. now apply nth_error_nth.
      + apply nth_error_None in El. rewrite nth_overflow in L2 by lia. cbn in L2. lia.
    - destruct HL as (L1 & L2 & L3). assert (Hq : q < n_in n) by (rewrite <- HS; eapply nth_error_lt; eauto). specialize (L3 q Hq). rewrite (nth_error_nth _ _ Unknown Ev) in L3.
      eapply (mc_ext _ HM); [|exact L3]. intros w t. cbn beta. unfold port_at. cbn [value]. specialize (L2 w t).
      destruct (nth_error_ex (X w t) q) as [a Ea]; [lia|]. rewrite Ea. now apply nth_error_nth.
    - inversion Ev; subst s. eapply (mc_ext _ HM); [|apply (mc_value _ HM)]. reflexivity.
  Qed.

  Theorem net_sound n1 out : net_route Rnum_ops ops uping ahash u_route freq n S = Some (n1, out) ->
    length out = n_out n /\ labelled M (n_out n) out (fun w => out_at (X w)).
  Proof.
    intros E. destruct (ordered_route Rnum_ops ops uping ahash u_route freq n S out n1 Hwf Hord Hac E) as [_ [inner [(L1 & L2 & Fl) Eout]]].
    assert (Ho : exists o, n_order n = Some o) by (destruct (n_order n) as [o|]; [now exists o|congruence]). destruct Ho as [o Eo]. pose proof (order_topo ops n o Hwf Eo Hac) as T.
    assert (Step : forall i, i < length (graph n) -> (forall j, reads (map local_sources (graph n)) i j ->
        exists u o, nth_error (units n) j = Some u /\ nth_error inner j = Some o /\ length o = u_outs ops u /\ labelled M (u_outs ops u) o (fun w => node_at (X w) j)) ->
        exists u o, nth_error (units n) i = Some u /\ nth_error inner i = Some o /\ length o = u_outs ops u /\ labelled M (u_outs ops u) o (fun w => node_at (X w) i)).
    { intros i Hi HR. destruct (nth_error_ex (graph n) i Hi) as [ps Hps]. destruct (nth_error_ex (units n) i) as [u Hu]; [lia|]. destruct (nth_error_ex inner i) as [ou Hou]; [lia|].
      destruct (Fl i ps u ou Hps Hu Hou) as (ls & Els & Er). exists u, ou. split; auto. split; auto.
      assert (Hins : length ps = u_ins ops u).
      { unfold graph, units in Hps, Hu. rewrite nth_error_map in Hps, Hu. destruct (nth_error (n_vertex n) i) as [v|] eqn:Hv; [|discriminate]. cbn in Hps, Hu. inversion Hps; inversion Hu; subst.
        unfold sources. rewrite map_length. apply (vo_src _ _ _ _ _ _ (w_vertex _ n Hwf i v Hv)). }
      assert (Lab : labelled M (u_ins ops u) ls (fun w => fed_at (X w) ps)).
      { rewrite <- Hins. apply (ports_labelled inner ps ls Els). intros j q Hj. apply HR. eapply reads_graph; eauto. }
      destruct (proj1 (Forall_forall _ _) Hsound u (nth_error_In _ _ Hu) ls ou _ Lab) as [H1 (H2 & H3 & H4)]; auto.
      { left. rewrite (mapM_length _ _ _ Els). exact Hins. }
      split; auto. split; auto. split.
      - intros w t. rewrite <- (proj2 (node_stream (X w) (X_width w) i ps u Hps Hu t)). apply H3.
      - intros c Hc. eapply (mc_ext _ HM); [|apply (H4 c Hc)]. intros w t. cbn beta. now rewrite (proj2 (node_stream (X w) (X_width w) i ps u Hps Hu t)). }
    assert (Pre : forall a b, o = a ++ b -> forall i, In i a -> exists u ou, nth_error (units n) i = Some u /\ nth_error inner i = Some ou /\ length ou = u_outs ops u /\ labelled M (u_outs ops u) ou (fun w => node_at (X w) i)).
    { intros a. induction a as [|k a IH] using rev_ind; intros b Eab i Hi; [destruct Hi|]. rewrite <- app_assoc in Eab. cbn in Eab. apply in_app_iff in Hi as [Hi|[->|[]]]; [eapply IH; eauto|].
      apply Step. { rewrite <- (map_length local_sources (graph n)). apply (t_in _ _ T). rewrite Eab, in_app_iff. cbn; auto. }
      intros j Hj. apply (IH (i :: b) Eab j). eapply (t_split _ _ T); eauto. }
    pose proof (mapM_length _ _ _ Eout) as Hlo. rewrite map_length in Hlo. split; [rewrite Hlo; apply (w_out _ n Hwf)|].
    rewrite <- (w_out _ n Hwf), <- (map_length e_src).
    assert (Lab : labelled M (length (map e_src (n_oedge n))) out (fun w => fed_at (X w) (map e_src (n_oedge n)))).
    { apply (ports_labelled inner _ out Eout). intros j q Hj. apply (Pre o []); [now rewrite app_nil_r|]. apply (t_in _ _ T).
      apply in_map_iff in Hj as (e & Ee & He). pose proof (w_oport _ n Hwf e He) as Hpo. rewrite Ee in Hpo. cbn in Hpo. destruct Hpo as (k & Hk & _).
      unfold graph. rewrite !map_length. apply nth_error_lt in Hk. unfold outs_of in Hk. now rewrite map_length in Hk. }
    destruct Lab as (A1 & A2 & A3). split; auto. split.
    - intros w t. rewrite out_stream by apply X_width. apply A2.
    - intros c Hc. eapply (mc_ext _ HM); [|apply (A3 c Hc)]. intros w t. cbn beta. now rewrite out_stream by apply X_width.
  Qed.
End NetStream.

Lemma no_error_acyclic {A P U} zero (ops : unit_ops A P U) uping ahash : control_laws ops uping -> unit_laws zero ops -> forall n, reachable zero ops uping ahash no_loop_back n ->
  forall m, net_error uping ahash n = Some (m, false) -> NetWf.wf ops n /\ ~ has_cycle n.
Proof.
  intros Hc Hu n R m E. pose proof (reachable_wf zero ops uping ahash Hc Hu n R) as W. split; auto.
  destruct (order_correct_net ops uping ahash Hc n W) as (n' & o & e & E' & _ & _ & He & _). rewrite E in E'. inversion E'; subst. intros Hcy. apply He in Hcy. discriminate.
Qed.
(* ---- combined networks ---- *)
Section CombineLabels.
  Context {F P U : Type}.
  Variable nm : num F.
  Variable ops : unit_ops F P U.
  Variable u_route : U -> F -> list (signal F) -> option (list (signal F)).
  Variable freq : F.
  Notation net := (net F U).
  Notation wf := (NetWf.wf ops).
  Notation V0 := (Value (n0 nm)).
  Notation NL := (net_labels nm u_route freq).

  Lemma both_labels n1 n2 nin f vs m us1 us2 x1 xr x2 in1 in2 : both ops n1 n2 nin f vs m ->
    labels_solve nm u_route freq (graph n1) us1 x1 in1 -> labels_solve nm u_route freq (graph n2) us2 x2 in2 ->
    (forall q r b, f q = Some r -> nth_error x2 q = Some b -> value V0 (in1 ++ in2) (x1 ++ xr) r = Some b) ->
    labels_solve nm u_route freq (map sources vs) (us1 ++ us2) (x1 ++ xr) (in1 ++ in2).
  Proof.
    intros B (L1 & L3 & F1) (M1 & M3 & F2) Hf. pose proof (units_app ops _ _ _ _ _ _ B) as Hl. unfold graph in *. rewrite map_length in *.
    unfold labels_solve. rewrite !app_length, map_length. split; [lia|]. split; [lia|]. intros i ps u o Hps Hu Ho.
    destruct (Nat.lt_ge_cases i (length (n_vertex n1))) as [Hi|Hi].
    - rewrite nth_error_app1 in Hu, Ho by lia. destruct (nth_error_ex (graph n1) i) as [ps1 Hp1]; [unfold graph; rewrite map_length; auto|].
      pose proof (b_graph1 _ _ _ _ _ _ _ B i ps1 Hp1) as X. rewrite Hps in X. inversion X; subst ps1. destruct (F1 i ps u o Hp1 Hu Ho) as (ins & Hm & Ht). exists ins. split; auto.
      eapply mapM_imp; [|exact Hm]. intros p a _. apply value_app.
    - rewrite nth_error_app2 in Hu, Ho by lia. rewrite L1 in Hu. rewrite L3 in Ho. set (j := i - length (n_vertex n1)) in *. assert (Ei : i = length (n_vertex n1) + j) by lia. clearbody j. subst i.
      destruct (nth_error_ex (graph n2) j) as [ps2 Hp2]; [unfold graph; rewrite map_length; apply nth_error_lt in Hu; lia|].
      destruct (b_graph2 _ _ _ _ _ _ _ B j ps2 Hp2) as (ps' & Hm' & X). rewrite Hps in X. inversion X; subst ps'. destruct (F2 j ps2 u o Hp2 Hu Ho) as (ins & Hm & Ht). exists ins. split; auto.
      rewrite <- L3 in Hm'. eapply mapM_shift; eauto.
  Qed.
  Lemma same_but_ids_labels (n n' : net) us x inner out : same_but_ids n n' -> NL n us x inner out -> NL n' us x inner out.
  Proof. intros S. unfold net_labels. now rewrite (same_but_ids_graph _ _ S), (sb_oedge _ _ S). Qed.

  Lemma pipe_labels fresh n1 n2 n : wf n1 -> wf n2 -> fresh_for n1 n2 fresh -> n_out n1 = n_in n2 -> net_pipe fresh n1 n2 = Some n ->
    forall us1 us2 x in1 in2 y z, NL n1 us1 x in1 y -> NL n2 us2 y in2 z -> NL n (us1 ++ us2) x (in1 ++ in2) z.
  Proof.
    intros H1 H2 Hfr Hio E. unfold net_pipe in E. rewrite Hio, Nat.eqb_refl in E. destruct (disambiguated ops n1 n2 fresh H2 Hfr) as (n2' & E2 & W & S & D). rewrite E2 in E.
    set (f := fun q => match nth_error (n_oedge n1) q with Some e => Some (e_src e) | None => None end) in *.
    assert (Fd : fed ops n1 n2' (n_in n1) f).
    { constructor; auto.
      - rewrite (sb_in _ _ S), <- Hio. intros q Hq. unfold f. destruct (nth_error_ex (n_oedge n1) q) as [e ->]; [rewrite (w_out _ n1 H1); auto|]. eauto.
      - intros q p _. unfold f. destruct (nth_error (n_oedge n1) q) as [e|] eqn:Eq; [|discriminate]. intros [= <-]. apply (w_oport _ n1 H1), (nth_error_In _ _ Eq). }
    destruct (both_ok ops n1 n2' _ f H1 W Fd) as (vs2 & m & E3 & B). rewrite E3 in E. destruct (shift_outputs ops n1 n2' _ f W Fd) as (oe & E4 & Hoe & Hoe2 & Hpo). rewrite E4 in E.
    inversion E; subst n; clear E.
    intros us1 us2 x in1 in2 y z [F1 O1] D2. apply (same_but_ids_labels _ _ _ _ _ _ S) in D2 as [F2 O2].
    assert (Hl1 : length in1 = length (n_vertex n1)). { destruct F1 as (_ & L & _). rewrite L. apply map_length. }
    assert (Hf : forall q r b, f q = Some r -> nth_error y q = Some b -> value V0 (in1 ++ in2) (x ++ []) r = Some b).
    { intros q r b Hq Hb. apply value_app. unfold f in Hq. destruct (nth_error (n_oedge n1) q) as [e|] eqn:Ee; [|discriminate]. inversion Hq; subst r.
      destruct (mapM_nth _ _ _ O1 q (e_src e)) as (b' & Hb' & Hv); [now rewrite nth_error_map, Ee|]. congruence. }
    split.
    - unfold graph. cbn [n_vertex]. rewrite <- (app_nil_r x). eapply both_labels; eauto.
    - cbn [n_oedge]. rewrite out_edges_src. rewrite <- Hl1 in Hoe2. rewrite <- (app_nil_r x). eapply mapM_shift; eauto.
  Qed.

  Lemma side_labels (shared : bool) fresh n1 n2 n : wf n1 -> wf n2 -> fresh_for n1 n2 fresh -> (shared = true -> n_in n1 = n_in n2) ->
    (if shared then net_branch fresh n1 n2 else net_stack fresh n1 n2) = Some n ->
    forall us1 us2 x1 x2 xr in1 in2 y z, length x1 = n_in n1 -> (if shared then x2 = x1 /\ xr = [] else xr = x2) ->
      NL n1 us1 x1 in1 y -> NL n2 us2 x2 in2 z -> NL n (us1 ++ us2) (x1 ++ xr) (in1 ++ in2) (y ++ z).
  Proof.
    intros H1 H2 Hfr Hio E. destruct (side_ok ops shared fresh n1 n2 H1 H2 Hfr Hio) as (n2' & vs2 & m & oe & Ed & W & S & Ea & Fd & B & Eo & Hoe & Hoe2 & Hpo). cbv zeta in *.
    assert (En : n = mkNet (if shared then n_in n1 else n_in n1 + n_in n2) (n_out n1 + n_out n2) (n_oedge n1 ++ out_edges (n_out n1) oe) (n_vertex n1 ++ vs2) None m (n_error n1) (n_revision n1)).
    { destruct shared.
      - unfold net_branch in E. rewrite (Hio eq_refl), Nat.eqb_refl, Ed, Eo, Ea in E. inversion E. rewrite (Hio eq_refl), (sb_out _ _ S). reflexivity.
      - unfold net_stack in E. rewrite Ed, Eo, Ea in E. inversion E. rewrite (sb_in _ _ S), (sb_out _ _ S). reflexivity. }
    subst n. intros us1 us2 x1 x2 xr in1 in2 y z Hl Hx [F1 O1] D2. apply (same_but_ids_labels _ _ _ _ _ _ S) in D2 as [F2 O2].
    assert (Hl1 : length in1 = length (n_vertex n1)). { destruct F1 as (_ & L & _). rewrite L. apply map_length. }
    pose proof (fun q r b => side_value V0 shared x1 xr x2 (mkNet (n_in n1) 0 [] [] None [] false 0%N : NetModel.net (signal F) U) (in1 ++ in2) Hl Hx q r b) as Hf. cbn [n_in] in Hf. split.
    - unfold graph. cbn [n_vertex]. eapply both_labels; eauto.
    - cbn [n_oedge]. rewrite map_app, out_edges_src, mapM_app. rewrite (mapM_imp (value V0 in1 x1) _ _ y); auto; [|intros p a _; apply value_app].
      rewrite <- Hl1 in Hoe2. rewrite (mapM_shift V0 in1 in2 (x1 ++ xr) x2 _ _ _ z Hf Hoe2 O2). reflexivity.
  Qed.
End CombineLabels.

(* ---- what the reports of a reachable network mean ---- *)
Section Reports.
  Context {P U : Type}.
  Variable ops : unit_ops R P U.
  Variable uping : bool -> U -> N -> U * N.
  Variable ahash : N -> N -> N.
  Hypothesis Hctl : control_laws ops uping.
  Hypothesis Hlaws : unit_laws 0%R ops.
  Variable u_route : U -> R -> list (signal R) -> option (list (signal R)).
  Notation net := (net R U).
  Notation wf := (NetWf.wf ops).
  Notation noutput := (net_output 0%R ops uping ahash).
  Notation nroute := (net_route Rnum_ops ops uping ahash u_route).

  Lemma net_state_ordered (n m : net) X : ordered uping ahash n = Some m -> n_order m <> None -> forall t, noutput n X t = noutput m X t.
  Proof.
    intros E Hm. pose proof (ordered_idem uping ahash n m E Hm) as Ei.
    assert (Tk : forall x, net_tick 0%R ops uping ahash n x = net_tick 0%R ops uping ahash m x) by (intros x; unfold net_tick; now rewrite E, Ei).
    assert (St : forall t, net_state 0%R ops uping ahash n X (Datatypes.S t) = net_state 0%R ops uping ahash m X (Datatypes.S t)).
    { induction t as [|t IH]; [cbn [net_state]; now rewrite Tk|]. change (net_state 0%R ops uping ahash n X (Datatypes.S (Datatypes.S t))) with
        (match net_state 0%R ops uping ahash n X (Datatypes.S t) with Some k => option_map fst (net_tick 0%R ops uping ahash k (X (Datatypes.S t))) | None => None end). rewrite IH. reflexivity. }
    intros [|t]; unfold net_output; [cbn [net_state]; now rewrite Tk|now rewrite St].
  Qed.

  Theorem reports_sound {W} (M : meaning W) freq (n m : net) (L L' : list (signal R)) (X : W -> nat -> list R) :
    respected M -> wf n -> ~ has_cycle n -> net_error uping ahash n = Some (m, false) -> Forall (leaf_sound ops u_route (fun _ => false) M freq) (units m) ->
    length L = n_in n -> labelled M (n_in n) L X -> nroute freq n L = Some (m, L') ->
    length L' = n_out n /\ (forall w t, noutput n (X w) t = Some (out_at ops uping ahash m (X w) t) /\ length (out_at ops uping ahash m (X w) t) = n_out n) /\
    labelled M (n_out n) L' (fun w => out_at ops uping ahash m (X w)).
  Proof.
    intros HM H Hc E Hs Hl HL Er. destruct (ordered_ok ops uping ahash Hctl n H) as (m' & o & Eo & H0 & K & Ho). unfold net_error in E. rewrite Eo in E. inversion E; subst m'.
    assert (Hc0 : ~ has_cycle m) by (now rewrite (kept_cycle ops _ _ K)). assert (Hn : n_order m <> None) by congruence.
    assert (Er0 : nroute freq m L = Some (m, L')) by (rewrite <- Er; unfold net_route; rewrite Eo, (ordered_idem uping ahash n m Eo Hn); reflexivity).
    rewrite <- (k_in _ _ _ K) in Hl, HL. rewrite <- (k_out _ _ _ K).
    destruct (net_sound ops uping ahash Hlaws m H0 Hn Hc0 M HM u_route freq Hs L X Hl HL m L' Er0) as [A1 A2].
    split; auto. split; auto. intros w t. rewrite (net_state_ordered n m (X w) Eo Hn t).
    destruct (stream_flow ops uping ahash Hlaws m H0 Hn Hc0 (X w) (proj1 (proj2 HL) w) t) as (B1 & B2 & _). auto.
  Qed.

  Theorem net_latency_sound (n m : net) r : wf n -> ~ has_cycle n -> net_error uping ahash n = Some (m, false) ->
    Forall (fun u => forall T, leaf_sound ops u_route (fun _ => false) (same_before T) 1%R u) (units m) -> net_latency Rnum_ops ops uping ahash u_route n = Some r ->
    forall T X Y, width (n_in n) X -> width (n_in n) Y -> (forall t, (INR t < T)%R -> X t = Y t) ->
    forall t, match r with Some l => (INR t < T + l)%R | None => True end -> exists y, noutput n X t = Some y /\ noutput n Y t = Some y.
  Proof.
    intros H Hc E Hs Er T X Y HX HY HT t Ht. unfold net_latency in Er.
    assert (Hs' : Forall (leaf_sound ops u_route (fun _ => false) (same_before T) 1%R) (units m)) by (eapply Forall_impl; [|exact Hs]; auto).
    destruct (ordered_ok ops uping ahash Hctl n H) as (m' & o & Eo & H0 & K & Ho). pose proof E as E'. unfold net_error in E. rewrite Eo in E. inversion E; subst m'. clear E.
    assert (Hc0 : ~ has_cycle m) by (now rewrite (kept_cycle ops _ _ K)). assert (Hn : n_order m <> None) by congruence.
    destruct (Nat.eqb_spec (n_out n) 0) as [Hz|Hz].
    { exists []. rewrite !(net_state_ordered n m _ Eo Hn t). rewrite <- (k_in _ _ _ K) in HX, HY.
      destruct (stream_flow ops uping ahash Hlaws m H0 Hn Hc0 X HX t) as (-> & B2 & _). destruct (stream_flow ops uping ahash Hlaws m H0 Hn Hc0 Y HY t) as (-> & C2 & _).
      rewrite (k_out _ _ _ K), Hz in B2, C2. destruct (out_at ops uping ahash m X t); [|discriminate]. destruct (out_at ops uping ahash m Y t); [|discriminate]. auto. }
    destruct (nroute (n1 Rnum_ops) n (repeat (Latency (n0 Rnum_ops)) (n_in n))) as [[m1 o1]|] eqn:En; [|discriminate].
    assert (m1 = m) as -> by (unfold net_route in En; rewrite Eo in En; rewrite Ho in En; destruct (route_vertices _ _ _ _ _ _ _ _); [|discriminate]; destruct (mapM _ _); [|discriminate]; congruence).
    destruct (at_all o1 (n_out n)) as [c|] eqn:Ec; [|discriminate]. apply at_all_some in Ec as [Ec ->].
    pose proof (lab_latency T (n_in n) X Y HX HY HT) as Lab.
    destruct (reports_sound (same_before T) 1%R n m _ o1 _ (same_before_respected T) H Hc E' Hs' (repeat_length _ _) Lab En) as (A1 & A2 & A3 & A4 & A5).
    rewrite firstn_all2 in Er by lia.
    destruct (A2 true t) as [B1 B2]. destruct (A2 false t) as [C1 C2]. cbn beta iota in B1, B2, C1, C2.
    exists (out_at ops uping ahash m X t). split; auto. rewrite C1. f_equal. apply nth_eq_list; [congruence|]. rewrite C2. intros i Hi.
    specialize (A5 i Hi) as A5i. apply same_before_alt in A5i as [_ A5i]. symmetry. apply (A5i t).
    assert (Er' : r = fold_left (fun a s => omin a (lat s)) o1 None).
    { rewrite <- fold_least; [congruence|]. apply Forall_forall. intros s Hin. apply (In_nth _ _ Unknown) in Hin as (j & Hj & <-). eapply same_before_nr. apply (A5 j). lia. }
    assert (Hb : below r (nth i o1 Unknown)) by (rewrite Er'; apply fold_lat_below; left; apply nth_In; lia).
    unfold below in Hb. destruct (lat (nth i o1 Unknown)) as [l|]; auto. destruct Hb as (k & -> & Hk). lra.
  Qed.

  Theorem net_constants_sound freq (n m : net) (L L' : list (signal R)) (X : nat -> list R) : wf n -> ~ has_cycle n -> net_error uping ahash n = Some (m, false) ->
    Forall (leaf_sound ops u_route (fun _ => false) constant_if_value freq) (units m) -> width (n_in n) X -> length L = n_in n ->
    (forall i v, nth_error L i = Some (Value v) -> forall t, nth i (X t) 0%R = v) -> nroute freq n L = Some (m, L') ->
    forall i v, nth_error L' i = Some (Value v) -> forall t, exists y, noutput n X t = Some y /\ nth_error y i = Some v.
  Proof.
    intros H Hc E Hs HX Hl HL Er i v Hi t.
    assert (Lab : labelled constant_if_value (n_in n) L (fun _ : unit => X)).
    { split; [lia|]. split; [intros _; exact HX|]. intros j Hj. destruct (nth j L Unknown) eqn:Ej; try exact I. intros ? ?. apply (HL j). rewrite <- Ej. apply nth_error_nth'. lia. }
    destruct (reports_sound constant_if_value freq n m L L' _ constant_respected H Hc E Hs Hl Lab Er) as (A1 & A2 & A3 & A4 & A5).
    destruct (A2 tt t) as [B1 B2]. exists (out_at ops uping ahash m X t). split; auto. pose proof (nth_error_lt _ _ _ Hi) as Hlt. rewrite A1 in Hlt. specialize (A5 i Hlt).
    rewrite (nth_error_nth _ _ Unknown Hi) in A5. specialize (A5 tt t). cbn beta in A5. rewrite <- A5. apply nth_error_nth'. lia.
  Qed.
End Reports.

Theorem net_response_sound (uping : bool -> lunit R -> N -> lunit R * N) ahash sr freq (n m : net R (lunit R)) i r : control_laws (lu_ops Rnum_ops) uping ->
  NetWf.wf (lu_ops Rnum_ops) n -> ~ has_cycle n -> net_error uping ahash n = Some (m, false) -> Forall (lu_stable sr) (units m) ->
  net_response Rnum_ops (lu_ops Rnum_ops) uping ahash (lu_route Rnum_ops R_elem sr) n freq i = Some (Some r) ->
  settles (radians sr freq) r (fun t => match net_output 0%R (lu_ops Rnum_ops) uping ahash n (fun t => repeat (cos (radians sr freq * INR t)) (n_in n)) t with Some y => nth i y 0%R | None => 0%R end).
Proof.
  intros Hctl H Hc E Hs Er. unfold net_response in Er. destruct (Nat.ltb_spec i (n_out n)) as [Hi|]; [|discriminate]. set (w := radians sr freq) in *.
  destruct (net_route Rnum_ops (lu_ops Rnum_ops) uping ahash (lu_route Rnum_ops R_elem sr) freq n (repeat (Response (c1 Rnum_ops) (n0 Rnum_ops)) (n_in n))) as [[m1 o]|] eqn:En; [|discriminate].
  destruct (ordered_ok (lu_ops Rnum_ops) uping ahash Hctl n H) as (m' & od & Eo & H0 & K & Ho). pose proof E as E'. unfold net_error in E. rewrite Eo in E. inversion E; subst m'. clear E.
  assert (m1 = m) as -> by (unfold net_route in En; rewrite Eo in En; rewrite Ho in En; destruct (route_vertices _ _ _ _ _ _ _ _); [|discriminate]; destruct (mapM _ _); [|discriminate]; congruence).
  destruct (nth_error o i) as [s|] eqn:Es; [|discriminate]. set (X := fun (_ : unit) (t : nat) => repeat (cos (w * INR t)) (n_in n)).
  assert (HL : labelled (responds w) (n_in n) (repeat (Response (c1 Rnum_ops) (n0 Rnum_ops)) (n_in n)) X).
  { split; [rewrite repeat_length; auto|split]. { intros v t. apply repeat_length. } intros j Hj.
    rewrite (nth_indep _ Unknown (Response (c1 Rnum_ops) (n0 Rnum_ops))) by (rewrite repeat_length; auto). rewrite nth_repeat. cbn [responds].
    apply (settles_ext w _ (fun t => cos (w * INR t))); [|exact (settles_cos w)]. intros t. unfold X.
    rewrite (nth_indep _ 0%R (cos (w * INR t))) by (rewrite repeat_length; auto). now rewrite nth_repeat. }
  assert (Hs' : Forall (leaf_sound (lu_ops Rnum_ops) (lu_route Rnum_ops R_elem sr) (fun _ => false) (responds w) freq) (units m)).
  { eapply Forall_impl; [|exact Hs]. intros u Hu L L' Y A B C. apply (lu_sound sr freq u Hu L L' Y A); [destruct B as [B|B]; [auto|discriminate]|exact C]. }
  destruct (reports_sound (lu_ops Rnum_ops) uping ahash Hctl lu_laws (lu_route Rnum_ops R_elem sr) (responds w) freq n m _ o X (responds_respected w) H Hc E' Hs' (repeat_length _ _) HL En) as (A1 & A2 & A3 & A4 & A5).
  specialize (A5 i Hi). rewrite (nth_error_nth _ _ Unknown Es) in A5. destruct s; try discriminate. assert (r0 = r) as -> by congruence. cbn [responds] in A5.
  eapply settles_ext; [|exact A5]. intros t. cbn beta. destruct (A2 tt t) as [B1 _]. unfold X in B1. rewrite B1. reflexivity.
Qed.

(* filters, mixers and panners report latencies correctly *)
Lemma filt_at_causal f x y t : (forall s, s < t -> x s = y s :> R) -> filt_at f x t = filt_at f y t.
Proof. induction t as [|t IH]; intros H; [reflexivity|]. cbn [filt_at]. rewrite IH by (intros; apply H; lia). rewrite (H t) by lia. reflexivity. Qed.
Lemma filt_out_causal f x y t : (forall s, s <= t -> x s = y s :> R) -> filt_out f x t = filt_out f y t.
Proof. intros H. unfold filt_out. rewrite (filt_at_causal f x y t) by (intros; apply H; lia). rewrite (H t) by lia. reflexivity. Qed.
Lemma lu_latency_sound sr freq T u : lu_shaped u -> leaf_sound (lu_ops Rnum_ops) (lu_route Rnum_ops R_elem sr) lu_copes (same_before T) freq u.
Proof.
  intros Hs S S' X (H1 & H2 & H3) _ E.
  assert (HW : forall v, width (u_outs (lu_ops nmR) u) (output R_arith (lu_ops nmR) (Leaf u) (X v))) by (intros v; apply (output_width R_arith (lu_ops nmR) lu_laws (Leaf u)); [exact I|apply H2]).
  pose proof (same_before_respected T) as HM.
  destruct u as [fs|n m|l r]; cbn [lu_shaped] in Hs; cbn [u_ins u_outs lu_ops lu_ins lu_outs] in *.
  - cbn [lu_route] in E. destruct (Nat.leb_spec (length fs) (length S)); [|lia].
    assert (S' = map (fun p => sig_filter nmR (snd p) (n0 nmR) (fun r => cmul nmR r (filt_response nmR R_elem (fst p) sr freq))) (combine fs S)) as -> by congruence.
    assert (L : length (map (fun p => sig_filter nmR (snd p) (n0 nmR) (fun r => cmul nmR r (filt_response nmR R_elem (fst p) sr freq))) (combine fs S)) = length fs) by (rewrite map_length, combine_length; lia).
    split; auto. split; [lia|split; auto]. intros i Hi.
    rewrite (nth_indep _ Unknown (sig_filter nmR Unknown (n0 nmR) (fun r => cmul nmR r (filt_response nmR R_elem (FTick 0%R) sr freq)))) by lia.
    rewrite (map_nth (fun p => sig_filter nmR (snd p) (n0 nmR) (fun r => cmul nmR r (filt_response nmR R_elem (fst p) sr freq))) (combine fs S) (FTick 0%R, Unknown)).
    rewrite nth_combine by lia. cbn [fst snd]. specialize (H3 i Hi).
    apply (mc_ext _ HM _ (fun w => filt_out (nth i fs (FTick 0%R)) (fun t => nth i (X w t) 0%R))).
    { intros w t. symmetry. apply bank_output; auto. }
    assert (G : forall t, (forall s, s <= t -> nth i (X true s) 0%R = nth i (X false s) 0%R) ->
      filt_out (nth i fs (FTick 0%R)) (fun t => nth i (X true t) 0%R) t = filt_out (nth i fs (FTick 0%R)) (fun t => nth i (X false t) 0%R) t) by (intros t Ht; now apply filt_out_causal).
    destruct (nth i S Unknown); cbn in H3 |- *; try tauto; auto; intros t Ht; apply G; intros s Hst; apply H3. apply le_INR in Hst. lra.
  - cbn [lu_route] in E. destruct (Nat.ltb_spec 0 n) as [Hn|Hn]; [|discriminate]. destruct (Nat.leb_spec n (length S)); [|lia]. cbn [andb] in E.
    set (label := fun row => fold_left (fun acc j => combine_sum nmR acc (sig_scale nmR (nth j S Unknown) (nth j row (n0 nmR)))) (seq 1 (n - 1)) (sig_scale nmR (nth 0 S Unknown) (nth 0 row (n0 nmR)))) in *.
    assert (S' = map label m) as -> by congruence. split; [apply map_length|]. split; [rewrite map_length; auto|split; auto]. intros i Hi.
    rewrite (nth_indep _ Unknown (label [])) by (rewrite map_length; auto). rewrite map_nth. set (row := nth i m []).
    assert (Hr : length row = n). { rewrite Forall_forall in Hs. apply Hs. apply nth_In. auto. }
    apply (mc_ext _ HM _ (fun v t => sigma n (fun j => nth j (X v t) 0 * nth j row 0)%R)).
    { intros v t. rewrite (still_output (Mix n m) (fun i => map (fun row => dot nmR i row) m)) by reflexivity.
      rewrite (nth_indep _ 0%R (dot nmR (X v t) [])) by (rewrite map_length; auto). rewrite (map_nth (fun row => dot nmR (X v t) row)). fold row.
      rewrite dot_sigma, Hr, H2, Nat.min_id. reflexivity. }
    assert (F : forall k, (k < n)%nat -> same_before T (fold_left (fun acc j => combine_sum nmR acc (sig_scale nmR (nth j S Unknown) (nth j row (n0 nmR)))) (seq 1 k) (sig_scale nmR (nth 0 S Unknown) (nth 0 row (n0 nmR))))
      (fun v t => sigma (k + 1) (fun j => nth j (X v t) 0 * nth j row 0)%R)).
    { induction k as [|k IH]; intros Hk.
      - cbn [seq fold_left]. apply (mc_ext _ HM _ (fun v t => nth 0 (X v t) 0 * nth 0 row 0)%R); [intros; cbn; ring|]. apply (mc_scale _ HM (nth 0 row 0%R)). apply H3. auto.
      - rewrite seq_S, fold_left_app. cbn [fold_left Nat.add]. rewrite combine_sum_bin.
        assert (HB := mc_bin _ HM KAdd _ _ _ _ (IH ltac:(lia)) (mc_scale _ HM (nth (Datatypes.S k) row 0%R) _ _ (H3 (Datatypes.S k) Hk))).
        eapply (mc_ext _ HM); [|exact HB]. intros v t. cbn [bin_op nadd nmR sigma]. replace (k + 1)%nat with (Datatypes.S k) by lia. reflexivity. }
    specialize (F (n - 1)%nat ltac:(lia)). replace (n - 1 + 1)%nat with n in F by lia. exact F.
  - cbn [lu_route] in E. destruct S as [|a S]; [discriminate|]. assert (S' = [sig_scale nmR a l; sig_scale nmR a r]) as -> by congruence.
    split; auto. split; [cbn; lia|split; auto]. specialize (H3 0%nat ltac:(lia)). cbn [nth] in H3. intros i Hi.
    assert (HO : forall v t, output R_arith (lu_ops nmR) (Leaf (Pan l r)) (X v) t = [l * nth 0 (X v t) 0; r * nth 0 (X v t) 0]%R) by (intros; apply (still_output (Pan l r) (fun i => [l * nth 0 i 0; r * nth 0 i 0]%R)); reflexivity).
    destruct i as [|[|i]]; [| |lia]; cbn [nth]; (eapply (mc_ext _ HM); [|apply (mc_scale _ HM); exact H3]); intros v t; cbv beta; rewrite HO; cbn [nth]; ring.
Qed.
