(* Correctness of the node ordering. *)
From Verif Require Export OrderModel OrderSpec.

Lemma nth_upd_lt {A} (l : list A) i j x d : i < length l -> nth j (upd l i x) d = if Nat.eqb i j then x else nth j l d.
Proof. intros H. rewrite nth_upd. apply Nat.ltb_lt in H. rewrite H. now rewrite andb_true_r. Qed.

Section Proofs.
  Variable adj : list (list nat).
  Notation nv := (length adj).
  Hypothesis Hr : in_range adj.
  Notation occ := (count_occ Nat.eq_dec).

  (* sources of the vertices in a list *)
  Definition inputs_of (l : list nat) : list nat := flat_map (fun i => nth i adj []) l.
  Definition unordered (ord : list nat) : list nat := filter (fun i => if in_dec Nat.eq_dec i ord then false else true) (seq 0 nv).

  (* pending: inputs still to be processed on the recursion stack *)
  Record inv (s : ostate) (pending : list nat) : Prop := {
    i_len1 : length (o_unplugged s) = nv;
    i_len2 : length (o_ordered s) = nv;
    i_cnt : forall j, j < nv -> nth j (o_unplugged s) 0 = occ (inputs_of (unordered (o_order s))) j + occ pending j;
    i_ord : forall j, j < nv -> (nth j (o_ordered s) false = true <-> In j (o_order s));
    i_rng : forall j, In j (o_order s) -> j < nv;
    i_zero : forall j, In j (o_order s) -> nth j (o_unplugged s) 0 = 0;
    i_nodup : NoDup (o_order s);
    i_pend : forall j, In j pending -> j < nv;
    i_first : forall a j b, o_order s = a ++ j :: b -> forall i, reads adj i j -> In i a
  }.

  Lemma occ_app l m j : occ (l ++ m) j = occ l j + occ m j.
  Proof. apply count_occ_app. Qed.
  Lemma inputs_app l m : inputs_of (l ++ m) = inputs_of l ++ inputs_of m.
  Proof. unfold inputs_of. apply flat_map_app. Qed.
  Lemma in_unordered ord i : In i (unordered ord) <-> i < nv /\ ~ In i ord.
  Proof.
    unfold unordered. rewrite filter_In, in_seq. destruct (in_dec Nat.eq_dec i ord); split; intros [H1 H2]; try discriminate; try tauto; split; auto; lia.
  Qed.
  Lemma occ_inputs_perm l m j : Permutation l m -> occ (inputs_of l) j = occ (inputs_of m) j.
  Proof.
    induction 1; cbn [inputs_of flat_map]; auto.
    - rewrite !occ_app. now f_equal.
    - rewrite !occ_app. lia.
    - congruence.
  Qed.
  Lemma unordered_push ord j : j < nv -> ~ In j ord -> Permutation (unordered ord) (j :: unordered (ord ++ [j])).
  Proof.
    intros Hj Hn. apply NoDup_Permutation.
    - apply NoDup_filter, seq_NoDup.
    - constructor; [|apply NoDup_filter, seq_NoDup]. rewrite in_unordered, in_app_iff. cbn. tauto.
    - intros x. cbn. rewrite !in_unordered, in_app_iff. cbn. destruct (Nat.eq_dec x j); [subst; tauto|]. intuition.
  Qed.
  Lemma unordered_length_push ord j : j < nv -> ~ In j ord -> length (unordered ord) = S (length (unordered (ord ++ [j]))).
  Proof. intros Hj Hn. rewrite (Permutation_length (unordered_push ord j Hj Hn)). reflexivity. Qed.

  (* pushing a vertex whose counter is 0 moves its inputs to pending *)
  Lemma inv_push s pending j : inv s pending -> j < nv -> ~ In j (o_order s) -> nth j (o_unplugged s) 0 = 0 -> inv (o_push s j) (nth j adj [] ++ pending).
  Proof.
    intros H Hj Hn H0. destruct H. constructor; cbn [o_push o_unplugged o_ordered o_order]; auto.
    - now rewrite length_upd.
    - intros k Hk. rewrite i_cnt0 by auto. rewrite (occ_inputs_perm _ _ k (unordered_push _ _ Hj Hn)). cbn [inputs_of flat_map]. rewrite !occ_app. unfold inputs_of. lia.
    - intros k Hk. rewrite nth_upd_lt by lia. rewrite in_app_iff. cbn. destruct (Nat.eqb_spec j k).
      + split; intros _; [right; left; assumption|reflexivity].
      + rewrite i_ord0 by auto. intuition.
    - intros k Hk. apply in_app_iff in Hk as [Hk|[<-|[]]]; auto.
    - intros k Hk. apply in_app_iff in Hk as [Hk|[<-|[]]]; auto.
    - rewrite <- (rev_involutive (o_order s ++ [j])). apply NoDup_rev. rewrite rev_unit. constructor; [rewrite <- in_rev; auto|]. now apply NoDup_rev.
    - intros k Hk. apply in_app_iff in Hk as [Hk|Hk]; auto. eapply Hr; eauto.
    - intros a k b E i Hi. destruct b as [|b0 b] using rev_ind.
      + apply app_inj_tail in E as [E1 E2]. subst k. subst a. destruct (in_dec Nat.eq_dec i (o_order s)) as [|Hni]; auto. exfalso.
        assert (Hi_n : i < nv). { destruct (Nat.lt_ge_cases i nv); auto. unfold reads in Hi. rewrite nth_overflow in Hi by auto. destruct Hi. }
        rewrite i_cnt0 in H0 by auto. assert (occ (inputs_of (unordered (o_order s))) j > 0); [|lia].
        apply count_occ_In. unfold inputs_of. apply in_flat_map. exists i. split; auto. now apply in_unordered.
      + clear IHb. replace (a ++ k :: b ++ [b0]) with ((a ++ k :: b) ++ [b0]) in E by (now rewrite <- app_assoc). apply app_inj_tail in E as [E1 E2]. subst b0. eapply i_first0; eauto.
  Qed.
  Lemma inv_take s j pending c : inv s (j :: pending) -> nth_error (o_unplugged s) j = Some (S c) ->
    inv (mkO (upd (o_unplugged s) j c) (o_ordered s) (o_order s)) pending.
  Proof.
    intros H Hc. destruct H. assert (Hj : j < nv) by (apply i_pend0; left; auto).
    assert (Hc' : nth j (o_unplugged s) 0 = S c) by (now apply nth_error_nth).
    constructor; cbn [o_unplugged o_ordered o_order]; auto.
    - now rewrite length_upd.
    - intros k Hk. rewrite nth_upd_lt by lia. specialize (i_cnt0 k Hk). cbn [count_occ] in i_cnt0. destruct (Nat.eqb_spec j k).
      + subst k. destruct (Nat.eq_dec j j); [lia|congruence].
      + destruct (Nat.eq_dec j k); [congruence|]. auto.
    - intros k Hk. rewrite nth_upd_lt by (specialize (i_rng0 k Hk); lia). destruct (Nat.eqb_spec j k); auto. subst k. specialize (i_zero0 j Hk). lia.
    - intros k Hk. apply i_pend0. now right.
  Qed.

  (* order grows, counters of unordered vertices hit zero only when ordered *)
  Definition grows (s s' : ostate) : Prop := exists l, o_order s' = o_order s ++ l.
  Lemma grows_trans a b c : grows a b -> grows b c -> grows a c.
  Proof. intros [l Hl] [m Hm]. exists (l ++ m). now rewrite Hm, Hl, app_assoc. Qed.
  (* every vertex that is zero afterwards and was positive before is ordered *)
  Definition zeros (s s' : ostate) : Prop := forall j, j < nv -> nth j (o_unplugged s') 0 = 0 -> In j (o_order s') \/ nth j (o_unplugged s) 0 = 0.

  Lemma propagate_ok fuel : forall js s rest, inv s (js ++ rest) -> length (unordered (o_order s)) <= fuel ->
    exists s', propagate adj fuel js s = Some s' /\ inv s' rest /\ grows s s' /\ zeros s s'.
  Proof.
    induction fuel as [|fuel IHf]; intros js; induction js as [|j js IHj]; intros s rest H Hf.
    - exists s. cbn. split; [reflexivity|]. split; [exact H|]. split; [exists []; now rewrite app_nil_r|intros k Hk; auto].
    - exfalso. assert (Hj : j < nv) by (apply (i_pend _ _ H); cbn; auto).
      pose proof (i_cnt _ _ H j Hj) as Hc. cbn in Hc. destruct (Nat.eq_dec j j) as [_|]; [|congruence].
      assert (unordered (o_order s) = []) as Hu by (destruct (unordered (o_order s)); cbn in Hf; [auto|lia]).
      assert (In j (o_order s)) as Hin. { destruct (in_dec Nat.eq_dec j (o_order s)); auto. assert (In j (unordered (o_order s))) by (now apply in_unordered). rewrite Hu in H0. destruct H0. }
      apply (i_zero _ _ H) in Hin. lia.
    - exists s. cbn. split; [reflexivity|]. split; [exact H|]. split; [exists []; now rewrite app_nil_r|intros k Hk; auto].
    - assert (Hj : j < nv) by (apply (i_pend _ _ H); cbn; auto).
      pose proof (i_cnt _ _ H j Hj) as Hc. cbn in Hc. destruct (Nat.eq_dec j j) as [_|]; [|congruence].
      destruct (nth_error (o_unplugged s) j) as [c0|] eqn:Ec; [|apply nth_error_None in Ec; rewrite (i_len1 _ _ H) in Ec; lia].
      assert (Hc' : nth j (o_unplugged s) 0 = c0) by (now apply nth_error_nth). destruct c0 as [|c]; [lia|].
      pose proof (inv_take s j (js ++ rest) c H Ec) as H1. cbn [propagate]. rewrite Ec.
      set (s1 := mkO (upd (o_unplugged s) j c) (o_ordered s) (o_order s)) in *.
      assert (Hnot : ~ In j (o_order s)). { intros Hin. apply (i_zero _ _ H) in Hin. lia. }
      destruct (Nat.eqb_spec c 0) as [->|Hc0].
      + assert (H2 : inv (o_push s1 j) (nth j adj [] ++ js ++ rest)).
        { apply inv_push; auto. unfold s1; cbn. rewrite nth_upd_lt by (rewrite (i_len1 _ _ H); auto). now rewrite Nat.eqb_refl. }
        destruct (IHf (nth j adj []) (o_push s1 j) (js ++ rest) H2) as (s2 & E2 & I2 & G2 & Z2).
        { cbn [o_push o_order s1]. pose proof (unordered_length_push (o_order s) j Hj Hnot). lia. }
        fold (propagate adj fuel). rewrite E2.
        assert (Hl2 : length (unordered (o_order s2)) <= S fuel).
        { destruct G2 as [l Hl]. rewrite Hl. cbn [o_push o_order s1]. eapply Nat.le_trans; [|exact Hf].
          apply NoDup_incl_length; [apply NoDup_filter, seq_NoDup|]. intros x Hx. apply in_unordered in Hx as [Hx1 Hx2]. apply in_unordered. split; auto. intros Hx3; apply Hx2. rewrite !in_app_iff. auto. }
        destruct (IHj s2 rest I2 Hl2) as (s3 & E3 & I3 & G3 & Z3).
        exists s3. cbn [propagate] in E3. split; [exact E3|]. split; [exact I3|]. split.
        * eapply grows_trans; [|exact G3]. destruct G2 as [l Hl]. exists (j :: l). rewrite Hl. cbn [o_push o_order s1]. now rewrite <- app_assoc.
        * intros k Hk Hz. destruct (Z3 k Hk Hz) as [Z|Z]; auto. destruct (Z2 k Hk Z) as [Z'|Z'].
          { left. destruct G3 as [l Hl]. rewrite Hl, in_app_iff. auto. }
          { cbn [o_push o_unplugged s1] in Z'. rewrite nth_upd_lt in Z' by (rewrite (i_len1 _ _ H); auto). destruct (Nat.eqb_spec j k); auto.
            subst k. left. destruct G2 as [l Hl], G3 as [m Hm]. rewrite Hm, Hl. cbn [o_push o_order s1]. rewrite !in_app_iff. cbn. auto. }
      + destruct (IHj s1 rest H1) as (s3 & E3 & I3 & G3 & Z3); [exact Hf|].
        exists s3. cbn [propagate] in E3. split; [exact E3|]. split; [exact I3|]. split.
        * destruct G3 as [l Hl]. exists l. rewrite Hl. reflexivity.
        * intros k Hk Hz. destruct (Z3 k Hk Hz) as [Z|Z]; auto. cbn [o_unplugged s1] in Z. rewrite nth_upd_lt in Z by (rewrite (i_len1 _ _ H); auto).
          destruct (Nat.eqb_spec j k); auto. congruence.
  Qed.

  Lemma unordered_le ord : length (unordered ord) <= nv.
  Proof. rewrite <- (seq_length nv 0). apply NoDup_incl_length; [apply NoDup_filter, seq_NoDup|]. intros x Hx. apply filter_In in Hx. tauto. Qed.

  (* vertices below k are ordered or have a positive counter *)
  Lemma order_loop_ok : forall m k s, inv s [] -> k + m = nv ->
    (forall j, j < k -> In j (o_order s) \/ nth j (o_unplugged s) 0 <> 0) ->
    exists s', order_loop adj (seq k m) s = Some s' /\ inv s' [] /\ forall j, j < nv -> In j (o_order s') \/ nth j (o_unplugged s') 0 <> 0.
  Proof.
    induction m as [|m IH]; intros k s H Hk Hd; cbn [seq order_loop].
    - exists s. split; [reflexivity|]. split; [exact H|]. intros j Hj. apply Hd. lia.
    - assert (Hkn : k < nv) by lia. destruct (nth k (o_ordered s) false) eqn:Eo.
      + apply IH; auto; [lia|]. intros j Hj. destruct (Nat.eq_dec j k) as [E|E]; [|apply Hd; lia]. left. subst. now apply (i_ord _ _ H).
      + destruct (Nat.eqb_spec (nth k (o_unplugged s) 0) 0) as [E0|E0].
        * assert (Hnot : ~ In k (o_order s)). { intros Hin. apply (i_ord _ _ H) in Hin; auto. congruence. }
          pose proof (inv_push s [] k H Hkn Hnot E0) as H1.
          destruct (propagate_ok nv (nth k adj []) (o_push s k) [] H1 (unordered_le _)) as (s2 & E2 & I2 & G2 & Z2).
          rewrite E2. apply IH; auto; [lia|]. intros j Hj. destruct G2 as [l Hl].
          destruct (Nat.eq_dec (nth j (o_unplugged s2) 0) 0) as [Ez|Ez]; auto. left.
          destruct (Z2 j ltac:(lia) Ez) as [Z|Z]; auto. cbn [o_push o_unplugged] in Z.
          rewrite Hl. cbn [o_push o_order]. rewrite !in_app_iff. cbn. destruct (Nat.eq_dec j k); [subst; auto|]. destruct (Hd j ltac:(lia)); [auto|congruence].
        * apply IH; auto; [lia|]. intros j Hj. destruct (Nat.eq_dec j k) as [E|E]; [subst; auto|apply Hd; lia].
  Qed.

  Lemma count_edges_ok js : forall cnt, length cnt = nv -> (forall j, In j js -> j < nv) ->
    exists c, count_edges js cnt = Some c /\ length c = nv /\ forall j, j < nv -> nth j c 0 = nth j cnt 0 + occ js j.
  Proof.
    induction js as [|j js IH]; intros cnt Hl Hj; cbn.
    - exists cnt. repeat split; auto.
    - destruct (nth_error cnt j) as [c|] eqn:E; [|apply nth_error_None in E; specialize (Hj j (or_introl eq_refl)); lia].
      destruct (IH (upd cnt j (S c))) as (c' & E' & L' & N'); [now rewrite length_upd|intros k Hk; apply Hj; now right|].
      exists c'. repeat split; auto. intros k Hk. rewrite N' by auto. apply nth_error_nth with (d := 0) in E.
      rewrite nth_upd_lt by (rewrite Hl; apply Hj; now left). destruct (Nat.eqb_spec j k), (Nat.eq_dec j k); subst; try congruence; lia.
  Qed.
  Lemma unordered_nil : unordered [] = seq 0 nv.
  Proof. unfold unordered. cbn. induction (seq 0 nv); cbn; congruence. Qed.
  Lemma inputs_all : inputs_of (seq 0 nv) = concat adj.
  Proof.
    unfold inputs_of. rewrite flat_map_concat_map. f_equal. symmetry. apply nth_ext_len with (d := []).
    - now rewrite map_length, seq_length.
    - intros i Hi. rewrite nth_map_seq; auto.
  Qed.

  (* a finite set of vertices each of which has a consumer in the set contains a cycle *)
  Lemma path_snoc i j k : clos_trans nat (reads adj) i j -> reads adj j k -> clos_trans nat (reads adj) i k.
  Proof. intros H1 H2. eapply t_trans; [exact H1|]. now apply t_step. Qed.
  Lemma cycle_or_chain (S : nat -> Prop) : (forall j, S j -> exists i, S i /\ reads adj i j) -> forall m j, S j ->
    cyclic adj \/ exists l, length l = m /\ NoDup (l ++ [j]) /\ (forall x, In x l -> S x) /\ forall x, In x l -> clos_trans nat (reads adj) x j.
  Proof.
    intros HS. induction m as [|m IH]; intros j Hj.
    - right. exists []. cbn. repeat split; try tauto. constructor; auto. constructor.
    - destruct (HS j Hj) as (i & Hi & Hij). destruct (IH i Hi) as [C|(l & L1 & L2 & L3 & L4)]; auto.
      destruct (in_dec Nat.eq_dec j (l ++ [i])) as [Hin|Hin].
      + left. exists j. apply in_app_iff in Hin as [Hin|[->|[]]].
        * eapply path_snoc; eauto.
        * apply t_step. auto.
      + right. exists (l ++ [i]). rewrite app_length. cbn. repeat split; try lia.
        * rewrite <- (rev_involutive ((l ++ [i]) ++ [j])). apply NoDup_rev. rewrite rev_unit. constructor; [rewrite <- in_rev; auto|]. now apply NoDup_rev.
        * intros x Hx. apply in_app_iff in Hx as [Hx|[<-|[]]]; auto.
        * intros x Hx. apply in_app_iff in Hx as [Hx|[<-|[]]]; [eapply path_snoc; eauto|now apply t_step].
  Qed.
  Lemma reads_lt i j : reads adj i j -> i < nv.
  Proof. intros H. destruct (Nat.lt_ge_cases i nv); auto. unfold reads in H. rewrite nth_overflow in H by auto. destruct H. Qed.

  Lemma before_trans_free l : NoDup l -> (forall i j, reads adj i j -> before l j i) -> ~ cyclic adj.
  Proof.
    intros Hn Hb [i Hi].
    assert (HT : forall a b, clos_trans nat (reads adj) a b -> before l b a).
    { intros a b H. induction H as [a b H|a b c H1 IH1 H2 IH2]; auto.
      destruct IH1 as (p & q & r & E1), IH2 as (p' & q' & r' & E2).
      (* b before a, c before b *)
      rewrite E1 in E2. assert (In c p).
      { assert (Hpos : forall (u v w x : list nat) y, NoDup (u ++ y :: v) -> u ++ y :: v = w ++ y :: x -> u = w).
        { clear. induction u as [|a u IH]; intros v w x y Hn E; destruct w as [|b w]; cbn in *; auto.
          - inversion E; subst. inversion Hn; subst. exfalso. apply H1. rewrite in_app_iff. cbn; auto.
          - inversion E; subst. inversion Hn; subst. exfalso. apply H1. rewrite in_app_iff. cbn; auto.
          - inversion E; subst. inversion Hn; subst. f_equal. eapply IH; eauto. }
        assert (p = p' ++ c :: q') as ->. { eapply (Hpos p (q ++ a :: r) (p' ++ c :: q') r' b). rewrite <- E1. auto. rewrite E2. now rewrite <- app_assoc. }
        rewrite in_app_iff. cbn; auto. }
      apply in_split in H as (u & v & ->). exists u, (v ++ b :: q), r. rewrite E1. repeat (rewrite <- app_assoc; cbn). reflexivity. }
    destruct (HT i i Hi) as (a & b & c & E). rewrite E in Hn. apply NoDup_remove_2 in Hn. apply Hn. rewrite !in_app_iff. cbn. auto.
  Qed.

  Theorem order_correct : exists order ok, determine_order_in adj = Some (order, ok) /\
    Permutation order (seq 0 nv) /\ (ok = false <-> cyclic adj) /\
    (ok = true -> forall i j, reads adj i j -> before order j i).
  Proof.
    unfold determine_order_in.
    assert (Hin : forall j, In j (concat adj) -> j < nv).
    { intros j Hj. apply in_concat in Hj as (l & Hl & Hj). apply In_nth with (d := []) in Hl as (i & Hi & <-). eapply Hr; eauto. }
    destruct (count_edges_ok (concat adj) (repeat 0 nv)) as (cnt & Ec & Lc & Nc); [apply repeat_length|auto|]. rewrite Ec.
    assert (Hnr : forall (X : Type) (x : X) m j, nth j (repeat x m) x = x). { intros X x m. induction m; intros [|j]; cbn; auto. }
    assert (H0 : inv (mkO cnt (repeat false nv) []) []).
    { constructor; cbn; auto; try tauto.
      - apply repeat_length.
      - intros j Hj. rewrite Nc by auto. rewrite Hnr. cbn. rewrite unordered_nil, inputs_all. lia.
      - intros j Hj. rewrite Hnr. split; [discriminate|tauto].
      - constructor.
      - intros a j b E. destruct a; discriminate. }
    destruct (order_loop_ok nv 0 _ H0 eq_refl) as (s & Es & Is & Ds); [lia|]. rewrite Es.
    assert (HP : Permutation (o_order s ++ filter (fun i => negb (nth i (o_ordered s) false)) (seq 0 nv)) (seq 0 nv)).
    { apply NoDup_Permutation.
      - assert (NoDup (filter (fun i => negb (nth i (o_ordered s) false)) (seq 0 nv))) as Hf by (apply NoDup_filter, seq_NoDup).
        pose proof (i_nodup _ _ Is) as Hd. pose proof (i_ord _ _ Is) as Ho. pose proof (i_rng _ _ Is) as Hg.
        assert (Hdis : forall x, In x (o_order s) -> ~ In x (filter (fun i => negb (nth i (o_ordered s) false)) (seq 0 nv))).
        { intros x Hx Hx'. apply filter_In in Hx' as [Hx1 Hx2]. apply (Ho x (Hg x Hx)) in Hx. rewrite Hx in Hx2. discriminate. }
        revert Hd Hdis Hf. generalize (filter (fun i => negb (nth i (o_ordered s) false)) (seq 0 nv)). generalize (o_order s). clear.
        induction l as [|a l IH]; intros l' Hd Hdis Hf; cbn; auto. inversion Hd; subst. constructor.
        + rewrite in_app_iff. intros [?|?]; auto. apply (Hdis a); cbn; auto.
        + apply IH; auto. intros x Hx. apply Hdis. cbn; auto.
      - apply seq_NoDup.
      - intros x. rewrite in_app_iff, filter_In, in_seq. split.
        + intros [Hx|[Hx _]]; [|lia]. apply (i_rng _ _ Is) in Hx. lia.
        + intros Hx. destruct (nth x (o_ordered s) false) eqn:E; [left; apply (i_ord _ _ Is); auto; lia|right; auto]. }
    assert (HF : forall i j, reads adj i j -> In j (o_order s) -> before (rev (o_order s)) j i).
    { intros i j Hij Hj. apply in_split in Hj as (a & b & E). pose proof (i_first _ _ Is a j b E i Hij) as Hi.
      apply in_split in Hi as (a1 & a2 & ->). exists (rev b), (rev a2), (rev a1). rewrite E.
      repeat (rewrite rev_app_distr; cbn). repeat (rewrite <- app_assoc; cbn). reflexivity. }
    destruct (Nat.ltb_spec (length (o_order s)) nv) as [Hl|Hl].
    - exists (rev (o_order s ++ filter (fun i => negb (nth i (o_ordered s) false)) (seq 0 nv))), false. split; auto. split; [|split].
      + etransitivity; [symmetry; apply Permutation_rev|auto].
      + split; auto. intros _.
        assert (exists k, k < nv /\ ~ In k (o_order s)) as (k & Hk & Hk').
        { destruct (unordered (o_order s)) as [|k l] eqn:Eu.
          - exfalso. assert (incl (seq 0 nv) (o_order s)).
            { intros x Hx. destruct (in_dec Nat.eq_dec x (o_order s)) as [|Hx']; auto. assert (In x (unordered (o_order s))) by (apply in_unordered; split; auto; apply in_seq in Hx; lia). rewrite Eu in H. destruct H. }
            pose proof (NoDup_incl_length (seq_NoDup nv 0) H). rewrite seq_length in *. lia.
          - exists k. apply in_unordered. rewrite Eu. cbn; auto. }
        destruct (cycle_or_chain (fun j => j < nv /\ ~ In j (o_order s))) with (m := nv) (j := k) as [C|(l & L1 & L2 & L3 & L4)]; auto.
        * intros j [Hj Hj']. destruct (Ds j Hj) as [D|D]; [contradiction|]. rewrite (i_cnt _ _ Is j Hj) in D. cbn in D.
          assert (occ (inputs_of (unordered (o_order s))) j > 0) as D' by lia. apply count_occ_In in D'. unfold inputs_of in D'. apply in_flat_map in D' as (i & Hi & Hi').
          apply in_unordered in Hi. eauto.
        * exfalso. assert (incl (l ++ [k]) (seq 0 nv)). { intros x Hx. apply in_seq. apply in_app_iff in Hx as [Hx|[<-|[]]]; [|lia]. apply L3 in Hx. lia. }
          pose proof (NoDup_incl_length L2 H). rewrite app_length, seq_length in *. cbn in *. lia.
      + discriminate.
    - exists (rev (o_order s)), true. split; auto.
      assert (HP2 : Permutation (o_order s) (seq 0 nv)).
      { apply NoDup_Permutation_bis; [apply (i_nodup _ _ Is)|now rewrite seq_length|]. intros x Hx. apply in_seq. apply (i_rng _ _ Is) in Hx. lia. }
      assert (HB : forall i j, reads adj i j -> before (rev (o_order s)) j i).
      { intros i j Hij. apply HF; auto. eapply Permutation_in; [symmetry; exact HP2|]. apply in_seq. apply Hr in Hij. lia. }
      split; [|split; [split|]]; auto.
      + etransitivity; [symmetry; apply Permutation_rev|auto].
      + discriminate.
      + intros C. exfalso. revert C. apply (before_trans_free (rev (o_order s))); auto. apply NoDup_rev, (i_nodup _ _ Is).
  Qed.
End Proofs.
