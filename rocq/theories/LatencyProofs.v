(* Latencies and constants: the analysis is right about what the expression does, and adds up as documented. *)
From Coq Require Import Reals Lra Lia.
From Verif Require Import SignalSpec.
From Verif Require Export SignalProofs.
Local Open Scope R_scope.
Local Open Scope nat_scope.

Notation shift := SignalSpec.shift.
Lemma map_repeat {X Y} (f : X -> Y) v n : map f (repeat v n) = repeat (f v) n.
Proof. induction n; cbn; congruence. Qed.
(* ---- the meaning "same before" is respected ---- *)
Lemma Rplus0 : forall a, (a + n0 nmR = a)%R.
Proof. intros. apply Rplus_0_r. Qed.
Definition lat (s : sig) : option R := match s with Latency l => Some l | _ => None end.

Lemma lat_distort s : no_response s -> distort nmR s (n0 nmR) = match s with Latency l => Latency l | _ => Unknown end.
Proof. destruct s; cbn; try tauto. intros _. f_equal. apply Rplus0. Qed.
Lemma combine_nonlinear_lat s t : no_response s -> no_response t ->
  combine_nonlinear nmR s t (n0 nmR) = match omin (lat s) (lat t) with Some l => Latency l | None => Unknown end.
Proof.
  intros Hs Ht. unfold combine_nonlinear. rewrite !lat_distort by auto.
  destruct s, t; cbn in *; try tauto; rewrite ?Rplus_0_r; reflexivity.
Qed.
Definition label_of (o : option R) : sig := match o with Some l => Latency l | None => Unknown end.
Lemma arb_label_lat S : Forall no_response S -> arb_label S = label_of (fold_left (fun a s => omin a (lat s)) S None).
Proof.
  destruct S as [|a r]; [reflexivity|]. intros H. apply Forall_cons_iff in H as [Ha Hr]. unfold arb_label.
  assert (E : distort nmR a (n0 nmR) = label_of (lat a)) by (rewrite lat_distort by auto; destruct a; reflexivity).
  rewrite E. cbn [fold_left omin]. change (omin None (lat a)) with (lat a). generalize (lat a) as o. clear - Hr.
  induction Hr as [|s r Hs Hr IH]; intros o; cbn [fold_left]; auto.
  rewrite combine_nonlinear_lat; [|destruct o; exact I|auto]. replace (lat (label_of o)) with o by (destruct o; reflexivity).
  rewrite <- IH. reflexivity.
Qed.
Lemma omin_None_l o : omin None o = o.
Proof. reflexivity. Qed.
Lemma omin_comm a b : omin a b = omin b a.
Proof. destruct a, b; cbn; auto. f_equal. apply Rmin_comm. Qed.
Lemma omin_assoc a b c : omin a (omin b c) = omin (omin a b) c.
Proof. destruct a, b, c; cbn; auto. f_equal. apply Rmin_assoc. Qed.
(* o is a bound for every latency *)
Definition below (o : option R) (s : sig) : Prop :=
  match lat s with Some l => exists m, o = Some m /\ (m <= l)%R | None => True end.
Lemma below_omin a b s : below a s -> below (omin a b) s.
Proof.
  unfold below. destruct (lat s); auto. intros (m & -> & Hm). destruct b; cbn; eexists; split; eauto. eapply Rle_trans; [apply Rmin_l|auto].
Qed.
Lemma fold_lat_below S : forall o s, In s S \/ below o s -> below (fold_left (fun a s => omin a (lat s)) S o) s.
Proof.
  induction S as [|a r IH]; intros o s [H|H]; cbn [fold_left]; try contradiction; auto.
  - apply IH. destruct H as [->|H]; auto. right. unfold below. destruct (lat s) as [l|]; auto.
    destruct o as [m|]; cbn; eexists; split; eauto; [apply Rmin_r|apply Rle_refl].
  - apply IH. right. apply below_omin. auto.
Qed.

Lemma nth_eq_list (l m : list R) : length l = length m -> (forall i, i < length l -> nth i l 0%R = nth i m 0%R) -> l = m.
Proof. intros. apply (nth_ext_len _ _ 0%R); auto. Qed.

Lemma bin_nr k s t : no_response s -> no_response t -> lat (bin_route nmR k s t) = omin (lat s) (lat t) /\ no_response (bin_route nmR k s t).
Proof. destruct k, s, t; cbn; try tauto; intros; rewrite ?Rplus_0_r; auto. Qed.

Lemma same_before_nr T s f : same_before T s f -> no_response s.
Proof. destruct s; cbn; tauto. Qed.
Lemma same_before_alt T s f : same_before T s f <->
  no_response s /\ forall t, match lat s with Some l => (INR t < T + l)%R | None => True end -> f true t = f false t.
Proof. destruct s; cbn; intuition. Qed.
Lemma same_before_respected T : respected (same_before T).
Proof.
  constructor.
  - intros s f g E H. apply same_before_alt in H as [H1 H2]. apply same_before_alt. split; auto. intros t Ht. rewrite <- !E. auto.
  - intros v t. reflexivity.
  - intros k s t f g Hs Ht. apply same_before_alt in Hs as [Hs1 Hs2], Ht as [Ht1 Ht2]. apply same_before_alt.
    destruct (bin_nr k s t Hs1 Ht1) as [E H]. split; auto. rewrite E. intros n Hn. rewrite Hs2, Ht2; auto.
    + destruct (lat s), (lat t); cbn in *; auto. eapply Rlt_le_trans; [exact Hn|]. apply Rplus_le_compat_l. apply Rmin_r.
    + destruct (lat s), (lat t); cbn in *; auto. eapply Rlt_le_trans; [exact Hn|]. apply Rplus_le_compat_l. apply Rmin_l.
  - intros k s f Hs. apply same_before_alt in Hs as [Hs1 Hs2]. apply same_before_alt.
    assert (E : lat (un_route nmR k s) = lat s /\ no_response (un_route nmR k s)) by (destruct k, s; cbn in *; auto).
    destruct E as [E H]. split; auto. rewrite E. intros t Ht. now rewrite Hs2.
  - intros c s f Hs. apply same_before_alt in Hs as [Hs1 Hs2]. apply same_before_alt.
    assert (E : lat (sig_scale nmR s c) = lat s /\ no_response (sig_scale nmR s c)) by (destruct s; cbn in *; auto).
    destruct E as [E H]. split; auto. rewrite E. intros t Ht. now rewrite Hs2.
  - intros S X g (H1 & H2 & H3) Hc.
    assert (Hn : Forall no_response S).
    { apply Forall_forall. intros s Hs. apply (In_nth _ _ Unknown) in Hs as (i & Hi & <-). eapply same_before_nr. apply H3. auto. }
    rewrite arb_label_lat by auto. set (o := fold_left (fun a s => omin a (lat s)) S None).
    apply same_before_alt. split; [destruct o; exact I|]. intros t Ht. replace (lat (label_of o)) with o in Ht by (destruct o; reflexivity).
    apply Hc. intros s Hs. apply nth_eq_list; [now rewrite !H2|]. rewrite H2. intros i Hi.
    assert (Hm := H3 i Hi). apply same_before_alt in Hm as [_ Hm]. apply Hm.
    assert (Hb : below o (nth i S Unknown)) by (apply fold_lat_below; left; apply nth_In; auto). unfold below in Hb.
    destruct (lat (nth i S Unknown)) as [l|]; auto. destruct Hb as (m & -> & Hm'). cbn in Ht.
    apply le_INR in Hs. lra.
Qed.
Lemma constant_respected : respected constant_if_value.
Proof.
  constructor.
  - intros s f g E H. destruct s; cbn in *; auto. intros. now rewrite <- E.
  - intros v w t. reflexivity.
  - intros k s t f g Hs Ht. destruct k, s, t; cbn in *; auto; intros; now rewrite Hs, Ht.
  - intros k s f Hs. destruct k, s; cbn in *; auto; intros; now rewrite Hs.
  - intros c s f Hs. destruct s; cbn in *; auto. intros; now rewrite Hs.
  - intros S X g _ _. destruct S as [|a r]; [exact I|]. unfold arb_label.
    assert (H : forall b, match b with Value _ => False | _ => True end ->
       match fold_left (fun c s => combine_nonlinear nmR c s (n0 nmR)) r b with Value _ => False | _ => True end).
    { clear. induction r as [|s r IH]; intros b Hb; cbn [fold_left]; auto. apply IH. unfold combine_nonlinear.
      destruct (distort nmR b (n0 nmR)), (distort nmR s (n0 nmR)); exact I. }
    specialize (H (distort nmR a (n0 nmR)) ltac:(destruct a; exact I)).
    destruct (fold_left _ r (distort nmR a (n0 nmR))); cbn; auto. contradiction.
Qed.
(* labels only *)
Definition plain_meaning : meaning unit := fun s _ => no_response s.
Lemma plain_respected : respected plain_meaning.
Proof.
  constructor; unfold plain_meaning; auto.
  - intros; exact I.
  - intros k s t _ _ Hs Ht. apply bin_nr; auto.
  - intros k s _ Hs. destruct k, s; cbn in *; auto.
  - intros c s _ Hs. destruct s; cbn in *; auto.
  - intros S X _ (H1 & H2 & H3) _. rewrite arb_label_lat.
    + destruct (fold_left _ S None); exact I.
    + apply Forall_forall. intros s Hs. apply (In_nth _ _ Unknown) in Hs as (i & Hi & <-). apply (H3 i Hi).
Qed.
Definition any_meaning : meaning unit := fun _ _ => True.
Lemma any_respected : respected any_meaning.
Proof. constructor; intros; exact I. Qed.

Section Latency.
  Context {P U : Type}.
  Variable ops : unit_ops R P U.
  Hypothesis Hu : unit_laws 0%R ops.
  Variable u_route : U -> R -> list sig -> option (list sig).
  Variable u_copes : U -> bool.
  Notation ar := R_arith.
  Notation output := (output ar ops).
  Notation node_of := (node_of nmR).
  Notation xins := (xins nmR ops).
  Notation xouts := (xouts nmR ops).
  Notation route := (route nmR ops u_route).
  Notation latency := (latency nmR ops u_route).
  Notation regular := (leaf_regular ops u_route u_copes).

  Lemma lab_latency T n (X Y : nat -> list R) : width n X -> width n Y -> (forall t, (INR t < T)%R -> X t = Y t) ->
    labelled (same_before T) n (repeat (Latency (n0 nmR)) n) (fun w : bool => if w then X else Y).
  Proof.
    intros HX HY H. split; [rewrite repeat_length; auto|split; [intros []; auto|]].
    intros i Hi. rewrite (nth_indep _ Unknown (Latency (n0 nmR))) by (rewrite repeat_length; auto). rewrite nth_repeat.
    intros t Ht. cbn beta iota. rewrite H; auto. rewrite Rplus0 in Ht. auto.
  Qed.
  Lemma fold_least S acc : Forall no_response S -> fold_left (least nmR) S acc = fold_left (fun a s => omin a (lat s)) S acc.
  Proof.
    intros H. revert acc; induction H as [|s S Hs HS IH]; intros acc; cbn [fold_left]; auto. rewrite IH. f_equal.
    destruct acc, s; cbn in *; auto; tauto.
  Qed.
  Lemma latency_sound x : wf ops (node_of x) -> safe u_copes true x = true ->
    over (fun u => forall T, leaf_sound ops u_route u_copes (same_before T) 1%R u) nmR x ->
    forall r, latency x = Some r ->
    forall T X Y, width (xins x) X -> width (xins x) Y -> (forall t, (INR t < T)%R -> X t = Y t) ->
    forall t, match r with Some l => (INR t < T + l)%R | None => True end -> output (node_of x) X t = output (node_of x) Y t.
  Proof.
    intros Hw Hs Ho r E T X Y HX HY HT t Ht. unfold SignalModel.latency in E.
    assert (WX : length (output (node_of x) X t) = xouts x) by (apply (output_width ar ops Hu); auto).
    assert (WY : length (output (node_of x) Y t) = xouts x) by (apply (output_width ar ops Hu); auto).
    destruct (Nat.eqb_spec (xouts x) 0) as [H0|Hn].
    { rewrite H0 in *. destruct (output (node_of x) X t), (output (node_of x) Y t); auto; discriminate. }
    destruct (route (n1 nmR) x (repeat (Latency (n0 nmR)) (xins x))) as [o|] eqn:Eo; [|discriminate].
    destruct (at_all o (xouts x)) as [c|] eqn:Ec; [|discriminate]. apply at_all_some in Ec as [Ec ->].
    assert (Er : r = fold_left (least nmR) (firstn (xouts x) o) None) by congruence. clear E.
    assert (HL := all_good (same_before T) (same_before_respected T) ops Hu u_route u_copes 1%R
      (fun u => forall T, leaf_sound ops u_route u_copes (same_before T) 1%R u) (fun u H => H T) x true Hw Hs Ho
      (repeat (Latency (n0 nmR)) (xins x)) o _ (fun _ => repeat_length _ _) (lab_latency T (xins x) X Y HX HY HT) Eo).
    destruct HL as [(L1 & L2 & L3) _].
    apply nth_eq_list; [congruence|]. rewrite WX. intros i Hi. specialize (L3 i Hi). apply same_before_alt in L3 as [_ L3].
    apply (L3 t). rewrite fold_least in Er.
    2:{ apply Forall_forall. intros s Hin. apply (In_nth _ _ Unknown) in Hin as (j & Hj & <-). rewrite firstn_length in Hj.
        rewrite nth_firstn_lt by lia. destruct (all_good (same_before T) (same_before_respected T) ops Hu u_route u_copes 1%R
      (fun u => forall T, leaf_sound ops u_route u_copes (same_before T) 1%R u) (fun u H => H T) x true Hw Hs Ho
      (repeat (Latency (n0 nmR)) (xins x)) o _ (fun _ => repeat_length _ _) (lab_latency T (xins x) X Y HX HY HT) Eo) as [(_ & _ & L4) _].
        eapply same_before_nr. apply (L4 j). lia. }
    assert (Hb : below r (nth i o Unknown)).
    { rewrite Er. apply fold_lat_below. left. rewrite <- (nth_firstn_lt o (xouts x)) by auto. apply nth_In. rewrite firstn_length. lia. }
    unfold below in Hb. destruct (lat (nth i o Unknown)) as [l|]; auto. destruct Hb as (m & -> & Hm). lra.
  Qed.

  Lemma constants_sound freq x S S' X : wf ops (node_of x) -> safe u_copes true x = true ->
    over (leaf_sound ops u_route u_copes constant_if_value freq) nmR x ->
    length S = xins x -> labelled constant_if_value (xins x) S (fun _ => X) -> route freq x S = Some S' ->
    forall i v t, i < xouts x -> nth i S' Unknown = Value v -> nth i (output (node_of x) X t) 0%R = v.
  Proof.
    intros Hw Hs Ho Hl HL E i v t Hi Hv.
    destruct (all_good _ constant_respected ops Hu u_route u_copes freq _ (fun u H => H) x true Hw Hs Ho S S' _ (fun _ => Hl) HL E) as [(_ & _ & L3) _].
    specialize (L3 i Hi). rewrite Hv in L3. apply (L3 tt).
  Qed.

  (* ---- numbers of labels ---- *)
  Lemma leaf_any freq u : regular u -> leaf_sound ops u_route u_copes any_meaning freq u.
  Proof.
    intros H S S' X (H1 & H2 & H3) Hc E. destruct (lr_outs _ _ _ _ H freq S S' H1 Hc E) as [H4 _]. split; auto.
    split; [lia|split; [|intros; exact I]]. intros w. apply (output_width ar ops Hu (Leaf u)); [exact I|auto].
  Qed.
  Lemma leaf_plain freq u : regular u -> leaf_sound ops u_route u_copes plain_meaning freq u.
  Proof.
    intros H S S' X (H1 & H2 & H3) Hc E. destruct (lr_outs _ _ _ _ H freq S S' H1 Hc E) as [H4 H5]. split; auto.
    split; [lia|split]. { intros w. apply (output_width ar ops Hu (Leaf u)); [exact I|auto]. }
    intros i Hi. unfold plain_meaning in *. assert (Hn : Forall no_response S').
    { apply H5. apply Forall_forall. intros s Hs. apply (In_nth _ _ Unknown) in Hs as (j & Hj & <-). rewrite firstn_length in Hj.
      rewrite nth_firstn_lt by lia. apply (H3 j). lia. }
    rewrite Forall_forall in Hn. apply Hn. apply nth_In. lia.
  Qed.
  Lemma over_impl (p q : U -> Prop) : (forall u, p u -> q u) -> forall x, over p nmR x -> over q nmR x.
  Proof.
    intros H. induction x using expr_ind'; cbn [over]; auto; try (intros [Ha Hb]; auto; fail).
    all: intros Hp; apply plain_list; apply plain_list in Hp; rewrite Forall_forall in *; auto.
  Qed.
  Lemma route_len freq x e S S' : wf ops (node_of x) -> safe u_copes e x = true -> over regular nmR x ->
    (e = true -> length S = xins x) -> xins x <= length S -> route freq x S = Some S' ->
    xouts x <= length S' /\ (tight e x = true -> length S' = xouts x).
  Proof.
    intros Hw Hs Ho He Hl E.
    destruct (all_good _ any_respected ops Hu u_route u_copes freq regular (leaf_any freq) x e Hw Hs Ho S S' (fun _ _ => repeat 0%R (xins x)) He) as [(H1 & _) H2]; auto.
    split; [auto|split; [intros w t; apply repeat_length|intros; exact I]].
  Qed.
  Lemma route_nr freq x S S' : wf ops (node_of x) -> safe u_copes true x = true -> over regular nmR x ->
    length S = xins x -> Forall no_response S -> route freq x S = Some S' -> Forall no_response (firstn (xouts x) S').
  Proof.
    intros Hw Hs Ho Hl Hn E.
    destruct (all_good _ plain_respected ops Hu u_route u_copes freq regular (leaf_plain freq) x true Hw Hs Ho S S' (fun _ _ => repeat 0%R (xins x)) (fun _ => Hl)) as [(H1 & H2 & H3) _]; auto.
    - split; [lia|split; [intros w t; apply repeat_length|]]. intros i Hi. unfold plain_meaning. rewrite Forall_forall in Hn. apply Hn. apply nth_In. lia.
    - apply Forall_forall. intros s Hin. apply (In_nth _ _ Unknown) in Hin as (j & Hj & <-). rewrite firstn_length in Hj.
      rewrite nth_firstn_lt by lia. apply (H3 j). lia.
  Qed.

  (* ---- latencies of compositions ---- *)
  Definition lat_min (S : list sig) : option R := fold_left (fun a s => omin a (lat s)) S None.
  Lemma fold_min_acc S a : fold_left (fun a s => omin a (lat s)) S a = omin a (lat_min S).
  Proof.
    unfold lat_min. revert a; induction S as [|s S IH]; intros a; cbn [fold_left]; [destruct a; reflexivity|].
    rewrite IH, (IH (omin None (lat s))). now rewrite omin_assoc.
  Qed.
  Lemma lat_min_cons s S : lat_min (s :: S) = omin (lat s) (lat_min S).
  Proof. unfold lat_min at 1. cbn [fold_left]. rewrite fold_min_acc. reflexivity. Qed.
  Lemma lat_min_app S S' : lat_min (S ++ S') = omin (lat_min S) (lat_min S').
  Proof. unfold lat_min at 1. rewrite fold_left_app. rewrite fold_min_acc. reflexivity. Qed.
  Lemma lat_min_zip k S S' : length S = length S' -> Forall no_response S -> Forall no_response S' ->
    lat_min (zipw (bin_route nmR k) S S') = omin (lat_min S) (lat_min S').
  Proof.
    revert S'; induction S as [|s S IH]; intros [|s' S'] Hl H H'; cbn [zipw length] in *; try discriminate; auto.
    apply Forall_cons_iff in H as [Ha Hb]. apply Forall_cons_iff in H' as [Ha' Hb'].
    rewrite !lat_min_cons, IH by (auto; lia). destruct (bin_nr k s s' Ha Ha') as [-> _].
    rewrite <- !omin_assoc. f_equal. rewrite !omin_assoc. f_equal. apply omin_comm.
  Qed.
  Definition zeros n := repeat (Latency (n0 nmR)) n.
  Lemma zeros_nr n : Forall no_response (zeros n).
  Proof. apply Forall_forall. intros s Hs. apply repeat_spec in Hs. subst. exact I. Qed.
  Lemma Forall_firstn' {X} (p : X -> Prop) n l : Forall p l -> Forall p (firstn n l).
  Proof. intros H. revert n; induction H; intros [|n]; cbn; auto. Qed.
  (* latency() in terms of the labels *)
  Lemma latency_labels x r : wf ops (node_of x) -> safe u_copes true x = true -> over regular nmR x -> latency x = Some r -> xouts x <> 0 ->
    exists o, route (n1 nmR) x (zeros (xins x)) = Some o /\ xouts x <= length o /\ Forall no_response (firstn (xouts x) o) /\ r = lat_min (firstn (xouts x) o).
  Proof.
    intros Hw Hs Ho E Hn. unfold SignalModel.latency in E. apply Nat.eqb_neq in Hn. rewrite Hn in E. fold (zeros (xins x)) in E.
    destruct (route (n1 nmR) x (zeros (xins x))) as [o|] eqn:Eo; [|discriminate].
    destruct (at_all o (xouts x)) as [c|] eqn:Ec; [|discriminate]. apply at_all_some in Ec as [Ec ->].
    assert (Hnr := route_nr (n1 nmR) x _ _ Hw Hs Ho (repeat_length _ _) (zeros_nr _) Eo).
    exists o. split; auto. split; auto. split; auto. rewrite fold_least in E by auto. unfold lat_min. congruence.
  Qed.
  Lemma latency_of x o : wf ops (node_of x) -> safe u_copes true x = true -> over regular nmR x ->
    route (n1 nmR) x (zeros (xins x)) = Some o -> latency x = Some (lat_min (firstn (xouts x) o)).
  Proof.
    intros Hw Hs Ho E. unfold SignalModel.latency. fold (zeros (xins x)). rewrite E. destruct (Nat.eqb_spec (xouts x) 0) as [H0|Hn]; [rewrite H0; reflexivity|].
    assert (Hl := route_len (n1 nmR) x true _ _ Hw Hs Ho (fun _ => repeat_length _ _) ltac:(unfold zeros; rewrite repeat_length; auto) E).
    unfold at_all. destruct (Nat.leb_spec (xouts x) (length o)); [|lia]. f_equal. apply fold_least.
    apply (route_nr (n1 nmR) x _ _ Hw Hs Ho (repeat_length _ _) (zeros_nr _) E).
  Qed.
  Lemma latency_zero x r : xouts x = 0 -> latency x = Some r -> r = None.
  Proof. intros H E. unfold SignalModel.latency in E. rewrite H in E. cbn in E. congruence. Qed.

  Lemma latency_Bus x y a b : wf ops (node_of (XBus x y)) -> safe u_copes true (XBus x y) = true -> over regular nmR (XBus x y) ->
    latency x = Some a -> latency y = Some b -> latency (XBus x y) = Some (omin a b).
  Proof.
    intros Hw Hs Ho Ea Eb. pose proof Hw as (H1 & H2 & H3 & H4). pose proof Hs as Hs'. apply andb_prop in Hs' as [Hs1 Hs2]. pose proof Ho as [Ho1 Ho2].
    change (xins x = xins y) in H3. change (xouts x = xouts y) in H4.
    destruct (Nat.eq_dec (xouts x) 0) as [H0|Hn].
    { rewrite (latency_zero x a), (latency_zero y b) by (auto; lia). unfold SignalModel.latency. change (xouts (XBus x y)) with (xouts x). rewrite H0. reflexivity. }
    destruct (latency_labels x a) as (o1 & E1 & L1 & N1 & ->); auto. destruct (latency_labels y b) as (o2 & E2 & L2 & N2 & ->); auto; [lia|].
    rewrite <- H3 in E2. rewrite <- H4 in *.
    rewrite (latency_of (XBus x y) (zipw (bin_route nmR KAdd) (firstn (xouts x) o1) (firstn (xouts x) o2) ++ skipn (xouts x) o1)); auto.
    - f_equal. change (xouts (XBus x y)) with (xouts x). rewrite firstn_app.
      assert (El : length (zipw (bin_route nmR KAdd) (firstn (xouts x) o1) (firstn (xouts x) o2)) = xouts x) by (rewrite zipw_length, !firstn_length; lia).
      rewrite El, Nat.sub_diag, firstn_O, app_nil_r, firstn_all2 by lia. apply lat_min_zip; auto. rewrite !firstn_length. lia.
    - change (xins (XBus x y)) with (xins x). cbn [SignalModel.route]. rewrite E1, E2. unfold merge, at_all.
      destruct (Nat.leb_spec (xouts x) (length o1)); [|lia]. destruct (Nat.leb_spec (xouts x) (length o2)); [|lia]. reflexivity.
  Qed.
  Lemma latency_Branch x y a b : wf ops (node_of (XBranch x y)) -> safe u_copes true (XBranch x y) = true -> over regular nmR (XBranch x y) ->
    xouts x <> 0 -> xouts y <> 0 ->
    latency x = Some a -> latency y = Some b -> latency (XBranch x y) = Some (omin a b).
  Proof.
    intros Hw Hs Ho Hnx Hny Ea Eb. pose proof Hw as (H1 & H2 & H3). pose proof Hs as Hs'. apply andb_prop in Hs' as [Hs1 Hs2]. pose proof Ho as [Ho1 Ho2].
    change (xins x = xins y) in H3.
    destruct (latency_labels x a) as (o1 & E1 & L1 & N1 & ->); auto. destruct (latency_labels y b) as (o2 & E2 & L2 & N2 & ->); auto.
    rewrite <- H3 in E2.
    rewrite (latency_of (XBranch x y) (firstn (xouts x) o1 ++ firstn (xouts y) o2)); auto.
    - f_equal. change (xouts (XBranch x y)) with (xouts x + xouts y). rewrite firstn_all2 by (rewrite app_length, !firstn_length; lia). apply lat_min_app.
    - change (xins (XBranch x y)) with (xins x). cbn [SignalModel.route]. rewrite E1, E2. unfold append, at_all.
      destruct (Nat.leb_spec (xouts y) (length o2)); [|lia]. rewrite resize_eq by auto. reflexivity.
  Qed.
  Lemma copy_zeros i n m : i + n <= m -> copy (zeros m) i n = Some (zeros n).
  Proof.
    intros H. unfold copy, zeros. rewrite repeat_length. destruct (Nat.leb_spec (i + n) m); [|lia]. f_equal.
    apply (nth_ext_len _ _ (Latency (n0 nmR))); rewrite firstn_length, skipn_length, !repeat_length; [lia|].
    intros j Hj. rewrite nth_firstn_lt by lia. rewrite nth_skipn_add. rewrite !nth_repeat. reflexivity.
  Qed.
  Lemma latency_Stack x y a b : wf ops (node_of (XStack x y)) -> safe u_copes true (XStack x y) = true -> over regular nmR (XStack x y) ->
    xouts x <> 0 -> xouts y <> 0 ->
    latency x = Some a -> latency y = Some b -> latency (XStack x y) = Some (omin a b).
  Proof.
    intros Hw Hs Ho Hnx Hny Ea Eb. pose proof Hw as (H1 & H2). pose proof Hs as Hs'. apply andb_prop in Hs' as [Hs1 Hs2]. pose proof Ho as [Ho1 Ho2].
    destruct (latency_labels x a) as (o1 & E1 & L1 & N1 & ->); auto. destruct (latency_labels y b) as (o2 & E2 & L2 & N2 & ->); auto.
    rewrite (latency_of (XStack x y) (firstn (xouts x) o1 ++ firstn (xouts y) o2)); auto.
    - f_equal. change (xouts (XStack x y)) with (xouts x + xouts y). rewrite firstn_all2 by (rewrite app_length, !firstn_length; lia). apply lat_min_app.
    - change (xins (XStack x y)) with (xins x + xins y). cbn [SignalModel.route]. rewrite !copy_zeros, E1, E2 by lia. unfold append, at_all.
      destruct (Nat.leb_spec (xouts y) (length o2)); [|lia]. rewrite resize_eq by auto. reflexivity.
  Qed.
  Lemma latency_Binop k x y a b : wf ops (node_of (XBinop k x y)) -> safe u_copes true (XBinop k x y) = true -> over regular nmR (XBinop k x y) ->
    latency x = Some a -> latency y = Some b -> latency (XBinop k x y) = Some (omin a b).
  Proof.
    intros Hw Hs Ho Ea Eb. pose proof Hw as (H1 & H2 & H4). pose proof Hs as Hs'. apply andb_prop in Hs' as [Hs1 Hs2]. pose proof Ho as [Ho1 Ho2].
    change (xouts x = xouts y) in H4.
    destruct (Nat.eq_dec (xouts x) 0) as [H0|Hn].
    { rewrite (latency_zero x a), (latency_zero y b) by (auto; lia). unfold SignalModel.latency. change (xouts (XBinop k x y)) with (xouts x). rewrite H0. reflexivity. }
    destruct (latency_labels x a) as (o1 & E1 & L1 & N1 & ->); auto. destruct (latency_labels y b) as (o2 & E2 & L2 & N2 & ->); auto; [lia|].
    rewrite <- H4 in *.
    rewrite (latency_of (XBinop k x y) (zipw (bin_route nmR k) (firstn (xouts x) o1) (firstn (xouts x) o2) ++ skipn (xouts x) o1)); auto.
    - f_equal. change (xouts (XBinop k x y)) with (xouts x). rewrite firstn_app.
      assert (El : length (zipw (bin_route nmR k) (firstn (xouts x) o1) (firstn (xouts x) o2)) = xouts x) by (rewrite zipw_length, !firstn_length; lia).
      rewrite El, Nat.sub_diag, firstn_O, app_nil_r, firstn_all2 by lia. apply lat_min_zip; auto. rewrite !firstn_length. lia.
    - change (xins (XBinop k x y)) with (xins x + xins y). cbn [SignalModel.route]. rewrite !copy_zeros, E1, E2 by lia. unfold merge, at_all.
      destruct (Nat.leb_spec (xouts x) (length o1)); [|lia]. destruct (Nat.leb_spec (xouts x) (length o2)); [|lia]. reflexivity.
  Qed.

  (* ---- moving all latencies ---- *)
  Notation sd d := (fun s => sig_delay nmR s d).
  Lemma at_all_shift d S n : at_all (shift d S) n = option_map (shift d) (at_all S n).
  Proof. unfold at_all, shift. rewrite map_length. destruct (Nat.leb n (length S)); cbn; auto. now rewrite firstn_map. Qed.
  Lemma copy_shift d S i n : copy (shift d S) i n = option_map (shift d) (copy S i n).
  Proof. unfold copy, shift. rewrite map_length. destruct (Nat.leb (i + n) (length S)); cbn; auto. now rewrite skipn_map, firstn_map. Qed.
  Lemma resize_shift d S n : resize (shift d S) n = shift d (resize S n).
  Proof. unfold resize, shift. rewrite <- firstn_map, map_app. do 2 f_equal. now rewrite map_repeat. Qed.
  Lemma Rmin_plus a b d : Rmin (a + d) (b + d) = (Rmin a b + d)%R.
  Proof. unfold Rmin. destruct (Rle_dec a b), (Rle_dec (a + d) (b + d)); lra. Qed.
  Lemma bin_shift k d s t : bin_route nmR k (sig_delay nmR s d) (sig_delay nmR t d) = sig_delay nmR (bin_route nmR k s t) d.
  Proof. destruct k, s, t; cbn; rewrite ?Rplus_0_r, ?Rmin_plus; reflexivity. Qed.
  Lemma un_shift k d s : un_route nmR k (sig_delay nmR s d) = sig_delay nmR (un_route nmR k s) d.
  Proof. destruct k, s; cbn; reflexivity. Qed.
  Lemma scale_shift c d s : sig_scale nmR (sig_delay nmR s d) c = sig_delay nmR (sig_scale nmR s c) d.
  Proof. destruct s; reflexivity. Qed.
  Lemma cn_shift d s t : combine_nonlinear nmR (sig_delay nmR s d) (sig_delay nmR t d) (n0 nmR) = sig_delay nmR (combine_nonlinear nmR s t (n0 nmR)) d.
  Proof. destruct s, t; cbn; rewrite ?Rplus_0_r, ?Rmin_plus; reflexivity. Qed.
  Lemma distort_shift d s : distort nmR (sig_delay nmR s d) (n0 nmR) = sig_delay nmR (distort nmR s (n0 nmR)) d.
  Proof. destruct s; cbn; rewrite ?Rplus_0_r; reflexivity. Qed.
  Lemma arb_shift d S : arb_label (shift d S) = sig_delay nmR (arb_label S) d.
  Proof.
    destruct S as [|a r]; [reflexivity|]. unfold arb_label, shift. cbn [map]. rewrite distort_shift. generalize (distort nmR a (n0 nmR)) as c.
    induction r as [|s r IH]; intros c; cbn [map fold_left]; auto. rewrite cn_shift. apply IH.
  Qed.
  Lemma nth_shift d S i : nth i (shift d S) Unknown = sig_delay nmR (nth i S Unknown) d.
  Proof. exact (map_nth (fun s => sig_delay nmR s d) S Unknown i). Qed.
  Lemma shift_length d S : length (shift d S) = length S.
  Proof. apply map_length. Qed.
  Lemma routing_shift r d S n : match r with Arbitrary l => l = n0 nmR | Generator _ => S = [] | _ => True end ->
    routing_route nmR r (shift d S) n = option_map (shift d) (routing_route nmR r S n).
  Proof.
    intros Hr. destruct S as [|a S']; [cbn [routing_route shift map option_map]; f_equal; unfold shift; now rewrite map_repeat|].
    set (S := a :: S') in *. destruct r.
    - subst. change (routing_route nmR (Arbitrary (n0 nmR)) (shift d S) n) with (Some (repeat (arb_label (shift d S)) n)).
      change (routing_route nmR (Arbitrary (n0 nmR)) S n) with (Some (repeat (arb_label S) n)). cbn [option_map]. rewrite arb_shift. unfold shift. now rewrite map_repeat.
    - change (routing_route nmR RSplit (shift d S) n) with (Some (map (fun i => nth (i mod length (shift d S)) (shift d S) Unknown) (seq 0 n))).
      change (routing_route nmR RSplit S n) with (Some (map (fun i => nth (i mod length S) S Unknown) (seq 0 n))). cbn [option_map]. f_equal.
      rewrite shift_length. unfold shift at 2. rewrite map_map. apply map_ext. intros i. apply nth_shift.
    - change (routing_route nmR RJoin (shift d S) n) with
        (if Nat.eqb n 0 then None else if Nat.ltb (length (shift d S)) n then None else
              Some (map (fun i =>
                let combo := fold_left (fun combo j => combine_sum nmR combo (nth (i + j * n) (shift d S) Unknown)) (seq 1 (length (shift d S) / n - 1)) (nth i (shift d S) Unknown) in
                sig_scale nmR combo (ndiv nmR (ofnat nmR n) (ofnat nmR (length (shift d S))))) (seq 0 n))).
      change (routing_route nmR RJoin S n) with
        (if Nat.eqb n 0 then None else if Nat.ltb (length S) n then None else
              Some (map (fun i =>
                let combo := fold_left (fun combo j => combine_sum nmR combo (nth (i + j * n) S Unknown)) (seq 1 (length S / n - 1)) (nth i S Unknown) in
                sig_scale nmR combo (ndiv nmR (ofnat nmR n) (ofnat nmR (length S)))) (seq 0 n))).
      rewrite shift_length. destruct (Nat.eqb n 0); auto. destruct (Nat.ltb (length S) n); auto. cbn [option_map]. f_equal.
      unfold shift at 3. rewrite map_map. apply map_ext. intros i. cbv zeta. rewrite <- scale_shift. f_equal. rewrite nth_shift.
      generalize (nth i S Unknown) as c. generalize (seq 1 (length S / n - 1)) as js. clear.
      induction js as [|j js IH]; intros c; cbn [fold_left]; auto. rewrite nth_shift. change (combine_sum nmR) with (bin_route nmR KAdd) in *. rewrite bin_shift. apply IH.
    - change (routing_route nmR RReverse (shift d S) n) with (if Nat.eqb (length (shift d S)) n then Some (map (fun i => nth (length (shift d S) - 1 - i) (shift d S) Unknown) (seq 0 n)) else None).
      change (routing_route nmR RReverse S n) with (if Nat.eqb (length S) n then Some (map (fun i => nth (length S - 1 - i) S Unknown) (seq 0 n)) else None).
      rewrite shift_length. destruct (Nat.eqb (length S) n); auto. cbn [option_map]. f_equal. unfold shift at 2. rewrite map_map. apply map_ext. intros i. apply nth_shift.
    - discriminate.
  Qed.
  Lemma merge_shift k d n a b : merge (bin_route nmR k) n (shift d a) (shift d b) = option_map (shift d) (merge (bin_route nmR k) n a b).
  Proof.
    unfold merge. rewrite !at_all_shift. destruct (at_all a n) as [a'|]; auto. destruct (at_all b n) as [b'|]; auto. cbn [option_map]. f_equal.
    unfold shift. rewrite map_app, skipn_map. f_equal. revert b'; induction a' as [|x a' IH]; intros [|y b']; cbn; auto. rewrite bin_shift. f_equal. apply IH.
  Qed.
  Lemma append_shift d a b n m : append (shift d a) (shift d b) n m = option_map (shift d) (append a b n m).
  Proof.
    unfold append. rewrite at_all_shift. destruct (at_all b m); auto. cbn [option_map]. rewrite resize_shift. unfold shift. now rewrite map_app.
  Qed.

  Definition shifts freq d (x : expr R U) : Prop := forall e S, wf ops (node_of x) -> safe u_copes e x = true -> over regular nmR x ->
    (e = true -> length S = xins x) -> xins x <= length S -> route freq x (shift d S) = option_map (shift d) (route freq x S).
  Lemma fold_shift freq d k n xs : forall is acc,
    Forall2 (fun x i => (match option_map (shift d) i with Some i => route freq x i | None => None end) =
      option_map (shift d) (match i with Some i => route freq x i | None => None end)) xs is ->
    route_fold (route freq) (bin_route nmR k) n xs (map (option_map (shift d)) is) (shift d acc) =
    option_map (shift d) (route_fold (route freq) (bin_route nmR k) n xs is acc).
  Proof.
    intros is acc H. revert acc. induction H as [|x i xs is Hx Hxs IH]; intros acc; cbn [route_fold map]; auto.
    destruct i as [i|]; cbn [option_map] in *; auto. rewrite Hx. destruct (route freq x i) as [o|]; cbn [option_map]; auto.
    rewrite merge_shift. destruct (merge (bin_route nmR k) n acc o); cbn [option_map]; auto.
  Qed.
  Lemma cat_shift freq d n xs : forall is,
    Forall2 (fun x i => (match option_map (shift d) i with Some i => route freq x i | None => None end) =
      option_map (shift d) (match i with Some i => route freq x i | None => None end)) xs is ->
    route_cat (route freq) n xs (map (option_map (shift d)) is) = option_map (shift d) (route_cat (route freq) n xs is).
  Proof.
    intros is H. induction H as [|x i xs is Hx Hxs IH]; cbn [route_cat map]; auto.
    destruct i as [i|]; cbn [option_map] in *; auto. rewrite Hx. destruct (route freq x i) as [o|]; cbn [option_map]; auto.
    rewrite at_all_shift. destruct (at_all o n); cbn [option_map]; auto. rewrite IH.
    destruct (route_cat (route freq) n xs is); cbn [option_map]; auto. unfold shift. now rewrite map_app.
  Qed.
  Lemma same_shift freq d e n S xs : Forall (shifts freq d) xs -> (e = true -> length S = n) -> n <= length S ->
    Forall (fun x => wf ops (node_of x)) xs -> Forall (over regular nmR) xs -> forallb (safe u_copes e) xs = true ->
    Forall (fun x => xins x = n) xs ->
    Forall2 (fun x i => (match option_map (shift d) i with Some i => route freq x i | None => None end) =
      option_map (shift d) (match i with Some i => route freq x i | None => None end)) xs (map (fun _ => Some S) xs).
  Proof.
    intros H He Hl. induction H as [|x xs Hx Hxs IH]; intros Hw Ho Hs Hn; cbn [map]; constructor.
    - apply Forall_cons_iff in Hw as [Hw _], Ho as [Ho _], Hn as [Hn _]. apply andb_prop in Hs as [Hs _]. cbn [option_map].
      apply (Hx e); auto; rewrite Hn; auto.
    - apply Forall_cons_iff in Hw as [_ Hw], Ho as [_ Ho], Hn as [_ Hn]. apply andb_prop in Hs as [_ Hs]. apply IH; auto.
  Qed.
  Lemma part_shift freq d n S xs : Forall (shifts freq d) xs -> forall i0,
    Forall (fun x => wf ops (node_of x)) xs -> Forall (over regular nmR) xs -> forallb (safe u_copes true) xs = true ->
    Forall (fun x => xins x = n) xs ->
    Forall2 (fun x i => (match option_map (shift d) i with Some i => route freq x i | None => None end) =
      option_map (shift d) (match i with Some i => route freq x i | None => None end)) xs (map (fun i => copy S (i * n) n) (seq i0 (length xs))).
  Proof.
    intros H. induction H as [|x xs Hx Hxs IH]; intros i0 Hw Ho Hs Hn; cbn [map length seq]; constructor.
    - apply Forall_cons_iff in Hw as [Hw _], Ho as [Ho _], Hn as [Hn _]. apply andb_prop in Hs as [Hs _].
      destruct (copy S (i0 * n) n) as [c|] eqn:Ec; auto. cbn [option_map]. unfold copy in Ec.
      destruct (Nat.leb_spec (i0 * n + n) (length S)); [|discriminate]. assert (c = firstn n (skipn (i0 * n) S)) as -> by congruence.
      apply (Hx true); auto; rewrite firstn_length, skipn_length, Hn; lia.
    - apply Forall_cons_iff in Hw as [_ Hw], Ho as [_ Ho], Hn as [_ Hn]. apply andb_prop in Hs as [_ Hs]. apply IH; auto.
  Qed.
  Lemma chain_shift freq d xs : Forall (shifts freq d) xs -> forall e n S, Forall (fun x => wf ops (node_of x)) xs -> Forall (over regular nmR) xs ->
    (fix go (e : bool) (xs : list (expr R U)) : bool := match xs with [] => true | a :: r => safe u_copes e a && go (tight e a) r end) e xs = true ->
    Forall (fun x => xins x = n /\ xouts x = n) xs -> (e = true -> length S = n) -> n <= length S ->
    route_chain (route freq) xs (shift d S) = option_map (shift d) (route_chain (route freq) xs S).
  Proof.
    induction 1 as [|x xs Hx Hxs IH]; intros e n S Hw Ho Hs Hc He Hl; cbn [route_chain]; auto.
    apply Forall_cons_iff in Hw as [W1 W2]; apply Forall_cons_iff in Hc as [[N1 N1'] N2]; apply Forall_cons_iff in Ho as [P1 P2].
    apply andb_prop in Hs as [Hs1 Hs2].
    assert (He' : e = true -> length S = xins x) by (intros; rewrite N1; auto). assert (Hl' : xins x <= length S) by (rewrite N1; auto).
    rewrite (Hx e S W1 Hs1 P1 He' Hl'). destruct (route freq x S) as [o|] eqn:Eo; auto. cbn [option_map].
    destruct (route_len freq x e S o W1 Hs1 P1 He' Hl' Eo) as [T1 T2].
    apply (IH (tight e x) n); auto; rewrite <- N1'; auto.
  Qed.
  Lemma shift_good freq d x : shifts freq d x.
  Proof.
    induction x using expr_ind'; intros e S Hw Hs Ho He Hl; cbn [SignalModel.route].
    - apply (lr_shift _ _ _ _ Ho); auto. apply orb_prop in Hs as [->|Hs]; auto.
    - destruct p; cbn [prim_route safe] in *; auto; try (apply routing_shift; auto; fail).
      + cbn [option_map]. f_equal. unfold shift. rewrite map_map. reflexivity.
      + apply routing_shift. specialize (He Hs). cbn in He. destruct S; auto; discriminate.
      + apply routing_shift. cbn in Ho. subst. reflexivity.
    - destruct Hw as (H1 & H2 & H3). apply andb_prop in Hs as [Hs1 Hs2]. destruct Ho as [Ho1 Ho2].
      rewrite !copy_shift. destruct (copy S 0 (xins x1)) as [c1|] eqn:E1; auto. destruct (copy S (xins x1) (xins x2)) as [c2|] eqn:E2; auto. cbn [option_map].
      assert (L1 : length c1 = xins x1). { unfold copy in E1. destruct (Nat.leb_spec (0 + xins x1) (length S)); [|discriminate]. assert (c1 = firstn (xins x1) (skipn 0 S)) as -> by congruence. rewrite firstn_length, skipn_length. lia. }
      assert (L2 : length c2 = xins x2). { unfold copy in E2. destruct (Nat.leb_spec (xins x1 + xins x2) (length S)); [|discriminate]. assert (c2 = firstn (xins x2) (skipn (xins x1) S)) as -> by congruence. rewrite firstn_length, skipn_length. lia. }
      rewrite (IHx1 true c1) by (auto; lia). destruct (route freq x1 c1); auto. cbn [option_map]. rewrite (IHx2 true c2) by (auto; lia).
      destruct (route freq x2 c2); auto. cbn [option_map]. apply merge_shift.
    - rewrite (IHx e S) by auto. destruct (route freq x S) as [o|]; auto. cbn [option_map]. rewrite at_all_shift. destruct (at_all o (xouts x)) as [c|]; auto. cbn [option_map]. f_equal.
      unfold shift. rewrite map_app, skipn_map, !map_map. f_equal. apply map_ext. intros s. apply un_shift.
    - destruct Hw as (H1 & H2 & H3). apply andb_prop in Hs as [Hs1 Hs2]. destruct Ho as [Ho1 Ho2]. change (xouts x1 = xins x2) in H3.
      rewrite (IHx1 e S) by auto. destruct (route freq x1 S) as [o|] eqn:Eo; auto. cbn [option_map].
      destruct (route_len freq x1 e S o H1 Hs1 Ho1 He Hl Eo) as [T1 T2]. apply (IHx2 (tight e x1)); auto; rewrite <- H3; auto.
    - destruct Hw as (H1 & H2). apply andb_prop in Hs as [Hs1 Hs2]. destruct Ho as [Ho1 Ho2].
      rewrite !copy_shift. destruct (copy S 0 (xins x1)) as [c1|] eqn:E1; auto. destruct (copy S (xins x1) (xins x2)) as [c2|] eqn:E2; auto. cbn [option_map].
      assert (L1 : length c1 = xins x1). { unfold copy in E1. destruct (Nat.leb_spec (0 + xins x1) (length S)); [|discriminate]. assert (c1 = firstn (xins x1) (skipn 0 S)) as -> by congruence. rewrite firstn_length, skipn_length. lia. }
      assert (L2 : length c2 = xins x2). { unfold copy in E2. destruct (Nat.leb_spec (xins x1 + xins x2) (length S)); [|discriminate]. assert (c2 = firstn (xins x2) (skipn (xins x1) S)) as -> by congruence. rewrite firstn_length, skipn_length. lia. }
      rewrite (IHx1 true c1) by (auto; lia). destruct (route freq x1 c1); auto. cbn [option_map]. rewrite (IHx2 true c2) by (auto; lia).
      destruct (route freq x2 c2); auto. cbn [option_map]. apply append_shift.
    - destruct Hw as (H1 & H2 & H3). apply andb_prop in Hs as [Hs1 Hs2]. destruct Ho as [Ho1 Ho2]. change (xins x1 = xins x2) in H3.
      change (xins (XBranch x1 x2)) with (xins x1) in *.
      rewrite (IHx1 e S) by auto. destruct (route freq x1 S) as [o1|]; auto. cbn [option_map].
      rewrite (IHx2 e S) by (auto; rewrite <- H3; auto). destruct (route freq x2 S) as [o2|]; auto. cbn [option_map]. apply append_shift.
    - destruct Hw as (H1 & H2 & H3 & H4). apply andb_prop in Hs as [Hs1 Hs2]. destruct Ho as [Ho1 Ho2]. change (xins x1 = xins x2) in H3.
      change (xins (XBus x1 x2)) with (xins x1) in *.
      rewrite (IHx1 e S) by auto. destruct (route freq x1 S) as [o1|]; auto. cbn [option_map].
      rewrite (IHx2 e S) by (auto; rewrite <- H3; auto). destruct (route freq x2 S) as [o2|]; auto. cbn [option_map]. apply (merge_shift KAdd).
    - change (xins (XThru x)) with (xins x) in *. rewrite (IHx e S) by auto. destruct (route freq x S) as [o|]; auto. cbn [option_map].
      rewrite copy_shift, !resize_shift. destruct (Nat.leb (xouts x) (xins x)); auto.
      destruct (copy S (xouts x) (xins x - xouts x)); auto. cbn [option_map]. unfold shift. now rewrite map_app.
    - destruct xs as [|a r]; auto. destruct Hw as (Hw & Hn). apply all_map in Hw. apply (uniform_of ops) in Hn. apply (proj1 (plain_list regular (a :: r))) in Ho.
      change (xins (XMultiBus (a :: r))) with (xins a) in *. change (hd_ins ops (map node_of (a :: r))) with (xins a) in *.
      apply Forall_cons_iff in H as [G1 G2]; apply Forall_cons_iff in Hw as [W1 W2]; apply Forall_cons_iff in Hn as [N1 N2]; apply Forall_cons_iff in Ho as [P1 P2].
      cbn [safe forallb] in Hs. apply andb_prop in Hs as [Hs1 Hs2].
      rewrite (G1 e S) by auto. destruct (route freq a S) as [o|]; auto. cbn [option_map].
      change (combine_sum nmR) with (bin_route nmR KAdd).
      rewrite <- (fold_shift freq d KAdd (xouts a) r (map (fun _ => Some S) r) o).
      + rewrite map_map. reflexivity.
      + apply (same_shift freq d e (xins a)); auto. eapply Forall_impl; [|exact N2]. cbn. tauto.
    - destruct xs as [|a r]; [destruct Hw as [_ []]|]. destruct Hw as (Hw & Hn). apply all_map in Hw. apply (uniform_of ops) in Hn. apply (proj1 (plain_list regular (a :: r))) in Ho.
      change (hd_ins ops (map node_of (a :: r))) with (xins a) in *.
      assert (Ei : xins (XMultiStack (a :: r)) = length (a :: r) * xins a) by (unfold SignalModel.xins; cbn [SignalModel.node_of]; rewrite ins_MultiStack, map_length; reflexivity).
      rewrite Ei in *. clear Ei.
      apply Forall_cons_iff in H as [G1 G2]; apply Forall_cons_iff in Hw as [W1 W2]; apply Forall_cons_iff in Hn as [N1 N2]; apply Forall_cons_iff in Ho as [P1 P2].
      cbn [safe forallb] in Hs. apply andb_prop in Hs as [Hs1 Hs2].
      rewrite (G1 (e && match r with [] => true | _ => false end) S); auto.
      2:{ intros Hb; apply andb_prop in Hb as [He1 He2]; rewrite (He He1); destruct r; [cbn; lia|discriminate]. }
      2:{ cbn in Hl. lia. }
      destruct (route freq a S) as [o|]; auto. cbn [option_map].
      replace (map (fun i : nat => copy (shift d S) (i * xins a) (xins a)) (seq 1 (length r))) with (map (option_map (shift d)) (map (fun i : nat => copy S (i * xins a) (xins a)) (seq 1 (length r)))).
      2:{ rewrite map_map. apply map_ext. intros i. now rewrite copy_shift. }
      rewrite cat_shift. 2:{ apply part_shift; auto. eapply Forall_impl; [|exact N2]. cbn. tauto. }
      destruct (route_cat (route freq) (xouts a) r _); auto. cbn [option_map]. rewrite resize_shift. unfold shift. now rewrite map_app.
    - destruct xs as [|a r]; auto. destruct Hw as (Hw & Hn). apply all_map in Hw. apply (uniform_of ops) in Hn. apply (proj1 (plain_list regular (a :: r))) in Ho.
      change (hd_ins ops (map node_of (a :: r))) with (xins a) in *.
      assert (Ei : xins (XReduce k (a :: r)) = length (a :: r) * xins a) by (unfold SignalModel.xins; cbn [SignalModel.node_of]; rewrite ins_Reduce, map_length; reflexivity).
      rewrite Ei in *. clear Ei.
      apply Forall_cons_iff in H as [G1 G2]; apply Forall_cons_iff in Hw as [W1 W2]; apply Forall_cons_iff in Hn as [N1 N2]; apply Forall_cons_iff in Ho as [P1 P2].
      cbn [safe forallb] in Hs. apply andb_prop in Hs as [Hs1 Hs2].
      rewrite (G1 (e && match r with [] => true | _ => false end) S); auto.
      2:{ intros Hb; apply andb_prop in Hb as [He1 He2]; rewrite (He He1); destruct r; [cbn; lia|discriminate]. }
      2:{ cbn in Hl. lia. }
      destruct (route freq a S) as [o|]; auto. cbn [option_map].
      replace (map (fun i : nat => copy (shift d S) (i * xins a) (xins a)) (seq 1 (length r))) with (map (option_map (shift d)) (map (fun i : nat => copy S (i * xins a) (xins a)) (seq 1 (length r)))).
      2:{ rewrite map_map. apply map_ext. intros i. now rewrite copy_shift. }
      apply fold_shift. apply part_shift; auto. eapply Forall_impl; [|exact N2]. cbn. tauto.
    - destruct xs as [|a r]; [destruct Hw as [_ []]|]. destruct Hw as (Hw & Hn). apply all_map in Hw. apply (uniform_of ops) in Hn. apply (proj1 (plain_list regular (a :: r))) in Ho.
      change (xins (XMultiBranch (a :: r))) with (xins a) in *. change (hd_ins ops (map node_of (a :: r))) with (xins a) in *.
      apply Forall_cons_iff in H as [G1 G2]; apply Forall_cons_iff in Hw as [W1 W2]; apply Forall_cons_iff in Hn as [N1 N2]; apply Forall_cons_iff in Ho as [P1 P2].
      cbn [safe forallb] in Hs. apply andb_prop in Hs as [Hs1 Hs2].
      rewrite (G1 e S) by auto. destruct (route freq a S) as [o|]; auto. cbn [option_map].
      replace (map (fun _ : expr R U => Some (shift d S)) r) with (map (option_map (shift d)) (map (fun _ : expr R U => Some S) r)) by (rewrite map_map; reflexivity).
      rewrite cat_shift. 2:{ apply (same_shift freq d e (xins a)); auto. eapply Forall_impl; [|exact N2]. cbn. tauto. }
      destruct (route_cat (route freq) (xouts a) r _); auto. cbn [option_map]. rewrite resize_shift. unfold shift. now rewrite map_app.
    - destruct xs as [|a r]; auto. destruct Hw as (Hw & Hn & Hio). pose proof (chain_uniform ops _ Hn Hio) as Hc. rewrite Forall_map in Hc. apply all_map in Hw. apply (proj1 (plain_list regular (a :: r))) in Ho.
      change (xins (XChain (a :: r))) with (xins a) in *. change (hd_ins ops (map node_of (a :: r))) with (xins a) in Hc.
      exact (chain_shift freq d (a :: r) H e (xins a) S Hw Ho Hs Hc He Hl).
    - apply routing_shift. reflexivity.
    - apply routing_shift. reflexivity.
  Qed.

  Lemma lat_min_shift d S : lat_min (shift d S) = osum (Some d) (lat_min S).
  Proof.
    induction S as [|s S IH]; [reflexivity|]. unfold shift in *. cbn [map]. rewrite !lat_min_cons, IH.
    destruct s; cbn [sig_delay lat]; auto; destruct (lat_min S); cbn; auto. f_equal. rewrite <- (Rplus_comm r d), Rmin_plus. ring. f_equal. ring.
  Qed.
  Lemma latency_Pipe x y a b : wf ops (node_of (XPipe x y)) -> safe u_copes true x = true -> safe u_copes true y = true -> tight true x = true ->
    over regular nmR (XPipe x y) -> xouts x = 1 -> latency x = Some (Some a) -> latency y = Some b ->
    latency (XPipe x y) = Some (osum (Some a) b).
  Proof.
    intros Hw Hs1 Hs2 Ht Ho H1 Ea Eb. pose proof Hw as (W1 & W2 & W3). pose proof Ho as [O1 O2]. change (xouts x = xins y) in W3.
    destruct (latency_labels x (Some a)) as (o1 & E1 & L1 & N1 & Er); auto; [lia|].
    destruct (route_len (n1 nmR) x true _ _ W1 Hs1 O1 (fun _ => repeat_length _ _) ltac:(unfold zeros; rewrite repeat_length; auto) E1) as [_ T]. specialize (T Ht).
    rewrite H1 in *. destruct o1 as [|s [|s' o1]]; try discriminate. cbn in Er.
    assert (Es : s = Latency a). { destruct s; cbn in Er; try discriminate. congruence. }
    subst s. destruct (Nat.eq_dec (xouts y) 0) as [H0|Hn].
    { rewrite (latency_zero y b) by auto. unfold SignalModel.latency. change (xouts (XPipe x y)) with (xouts y). rewrite H0. reflexivity. }
    destruct (latency_labels y b) as (o2 & E2 & L2 & N2 & ->); auto. rewrite <- W3 in E2.
    assert (Ez : [Latency a] = shift a (zeros 1)) by (cbn; f_equal; f_equal; symmetry; apply Rplus_0_l).
    assert (Hsp : safe u_copes true (XPipe x y) = true) by (cbn [safe]; now rewrite Hs1, Ht, Hs2).
    rewrite (latency_of (XPipe x y) (shift a o2)); auto.
    - f_equal. change (xouts (XPipe x y)) with (xouts y). unfold shift. rewrite firstn_map. apply lat_min_shift.
    - change (xins (XPipe x y)) with (xins x). cbn [SignalModel.route]. rewrite E1, Ez.
      assert (Z1 : length (zeros 1) = xins y) by (rewrite <- W3; reflexivity).
      assert (Z2 : xins y <= length (zeros 1)) by (rewrite Z1; auto).
      rewrite (shift_good (n1 nmR) a y true (zeros 1) W2 Hs2 O2 (fun _ => Z1) Z2).
      rewrite E2. reflexivity.
  Qed.
End Latency.
