(* Settings and hashes. *)
From Verif Require Export NodeSpec NodeProofs.

Section Addr.
  Context {A P U : Type}.
  Variable ar : arith A.
  Variable ops : unit_ops A P U.
  Variable par_value : P -> option A.
  Variable ahash : N -> N -> N.
  Notation node := (node A U).
  Notation set := (set ops par_value).
  Notation targets := (@targets A U).
  Notation deliver := (deliver ops par_value).
  Notation skeleton := (@skeleton A U ar).
  Notation ping := (ping ops ahash).
  Notation preorder := (preorder ops).

  Lemma address_eqb_eq a b : address_eqb a b = true <-> a = b.
  Proof.
    destruct a, b; cbn; split; intros H; try discriminate; auto.
    - apply Nat.eqb_eq in H. congruence.
    - inversion H. apply Nat.eqb_refl.
    - apply N.eqb_eq in H. congruence.
    - inversion H. apply N.eqb_refl.
  Qed.

  Lemma deliver_under s a l : a <> ANull ->
    map (deliver s) (under [a] l) = under [a] (if address_eqb a (direction s) then map (deliver (peel s)) l else l).
  Proof.
    intros Ha. unfold under. destruct (address_eqb a (direction s)) eqn:E.
    - apply address_eqb_eq in E. rewrite !map_map. apply map_ext. intros [[p|] t]; cbn; auto.
      unfold NodeSpec.deliver. cbn [fst snd option_map app]. unfold direction in E. unfold peel. destruct (s_addr s) as [|b r] eqn:Es; [congruence|].
      subst b. cbn [strip s_addr s_par tl]. assert (H : address_eqb a a = true) by (now apply address_eqb_eq). rewrite H.
      destruct (strip p r); cbn; auto.
    - rewrite map_map. apply map_ext. intros [[p|] t]; cbn; auto.
      unfold NodeSpec.deliver. cbn [fst snd option_map app]. unfold direction in E. destruct (s_addr s) as [|b r]; cbn [strip]; auto. now rewrite E.
  Qed.
  Lemma deliver_hidden s l : map (deliver s) (hidden l) = hidden l.
  Proof. unfold hidden. rewrite map_map. apply map_ext. auto. Qed.
  Lemma map_ident {X} (f : X -> X) l : (forall x, f x = x) -> map f l = l.
  Proof. intros H. rewrite <- (map_id l) at 2. now apply map_ext. Qed.

  Definition set_good (x : node) : Prop := forall s x', set x s = Some x' ->
    targets x' = map (deliver s) (targets x) /\ skeleton x' = skeleton x.

  Lemma set_at_good xs : Forall set_good xs -> forall i s xs' k, set_at set xs i s = Some xs' ->
    map skeleton xs' = map skeleton xs /\
    under_index targets k xs' =
    (fix go k0 ys := match ys with [] => [] | y :: r => under [AIndex k0] (if Nat.eqb k0 (k + i) then map (deliver s) (targets y) else targets y) ++ go (S k0) r end) k xs.
  Proof.
    induction 1 as [|x xs Hx Hxs IH]; intros i s xs' k H; [destruct i; discriminate|].
    destruct i as [|i]; cbn in H.
    - destruct (set x s) as [x'|] eqn:E; [|discriminate]. cbn in H. inversion H; subst xs'. destruct (Hx s x' E) as [H1 H2].
      split; [cbn; congruence|]. cbn. rewrite Nat.add_0_r, Nat.eqb_refl, H1. f_equal. clear.
      assert (forall j, k < j -> under_index targets j xs = (fix go k0 ys := match ys with [] => [] | y :: r => under [AIndex k0] (if Nat.eqb k0 k then map (deliver s) (targets y) else targets y) ++ go (S k0) r end) j xs) as G.
      { induction xs as [|y ys IHy]; intros j Hj; cbn; auto. destruct (Nat.eqb_spec j k); [lia|]. f_equal. apply IHy. lia. }
      apply G. lia.
    - destruct (set_at set xs i s) as [r|] eqn:E; [|discriminate]. cbn in H. inversion H; subst xs'. destruct (IH i s r (S k) E) as [H1 H2].
      split; [cbn; congruence|]. cbn. destruct (Nat.eqb_spec k (k + S i)); [lia|]. f_equal. rewrite H2. now replace (S k + i) with (k + S i) by lia.
  Qed.
  Lemma map_under_index s xs k : map (deliver s) (under_index targets k xs) =
    (fix go k0 ys := match ys with [] => [] | y :: r => under [AIndex k0] (if address_eqb (AIndex k0) (direction s) then map (deliver (peel s)) (targets y) else targets y) ++ go (S k0) r end) k xs.
  Proof. revert k; induction xs as [|x xs IH]; intros k; cbn [under_index map]; auto. rewrite map_app, IH. now rewrite deliver_under by discriminate. Qed.

  Lemma multi_good (mk : list node -> node) xs s x' :
    Forall set_good xs -> (forall ys, targets (mk ys) = under_index targets 0 ys) ->
    (forall ys zs, map skeleton ys = map skeleton zs -> skeleton (mk ys) = skeleton (mk zs)) ->
    match direction s with AIndex i => option_map mk (set_at set xs i (peel s)) | _ => Some (mk xs) end = Some x' ->
    targets x' = map (deliver s) (targets (mk xs)) /\ skeleton x' = skeleton (mk xs).
  Proof.
    intros HF Ht Hs H. destruct (direction s) as [| | |i|] eqn:Ed;
      try (inversion H; subst x'; split; auto; rewrite Ht, map_under_index, Ed; generalize 0; induction xs as [|y ys IH]; intros k; cbn; auto; rewrite IH; auto; inversion HF; auto; fail).
    destruct (set_at set xs i (peel s)) as [xs'|] eqn:E; [|discriminate]. cbn in H. inversion H; subst x'.
    destruct (set_at_good xs HF i (peel s) xs' 0 E) as [H1 H2]. split; [|auto]. rewrite !Ht, H2, map_under_index, Ed.
    change (0 + i) with i. reflexivity.
  Qed.
  Lemma bin_good (mk : node -> node -> node) x y s x' :
    set_good x -> set_good y -> (forall a b, targets (mk a b) = under [ALeft] (targets a) ++ under [ARight] (targets b)) ->
    (forall a b c d, skeleton a = skeleton b -> skeleton c = skeleton d -> skeleton (mk a c) = skeleton (mk b d)) ->
    match direction s with
    | ALeft => option_map (fun a' => mk a' y) (set x (peel s))
    | ARight => option_map (fun b' => mk x b') (set y (peel s))
    | _ => Some (mk x y) end = Some x' ->
    targets x' = map (deliver s) (targets (mk x y)) /\ skeleton x' = skeleton (mk x y).
  Proof.
    intros Hx Hy Ht Hs H. rewrite Ht, map_app, !deliver_under by discriminate. destruct (direction s); cbn [address_eqb];
      try (inversion H; subst x'; rewrite Ht; auto; fail).
    - destruct (set x (peel s)) as [a|] eqn:E; [|discriminate]. inversion H; subst x'. destruct (Hx _ _ E) as [H1 H2]. rewrite Ht, H1. auto.
    - destruct (set y (peel s)) as [a|] eqn:E; [|discriminate]. inversion H; subst x'. destruct (Hy _ _ E) as [H1 H2]. rewrite Ht, H1. auto.
  Qed.

  Lemma set_targets x : set_good x.
  Proof.
    induction x using node_ind'; intros s x' H0; try (inversion H0; subst x'; split; auto; fail);
      try (eapply bin_good; eauto; intros; cbn; congruence);
      try (eapply multi_good; eauto; intros; cbn; congruence).
    - (* Leaf *) inversion H0; subst x'. cbn. split; auto. unfold NodeSpec.deliver. cbn. destruct s; auto.
    - (* Constant *) cbn in *. unfold NodeSpec.deliver. cbn. destruct (par_value (s_par s)); inversion H0; subst x'; split; auto.
      cbn. now rewrite map_map.
    - (* Unop *) cbn in H0. destruct (set x s) as [y|] eqn:E; [|discriminate]. inversion H0; subst x'. destruct (IHx _ _ E). cbn. split; congruence.
    - (* Thru *) cbn in H0. destruct (set x s) as [y|] eqn:E; [|discriminate]. inversion H0; subst x'. destruct (IHx _ _ E). cbn. split; congruence.
    - (* Feedback *) inversion H0; subst x'. cbn. split; auto. now rewrite deliver_hidden.
    - (* Feedback2 *) inversion H0; subst x'. cbn. split; auto. now rewrite deliver_hidden.
  Qed.

  (* an existing address never panics *)
  Lemma in_under_index k xs t : In t (under_index targets k xs) -> exists i x, nth_error xs i = Some x /\ In t (under [AIndex (k + i)] (targets x)).
  Proof.
    revert k; induction xs as [|x xs IH]; intros k H; cbn in H; [destruct H|]. apply in_app_or in H as [H|H].
    - exists 0, x. rewrite Nat.add_0_r. auto.
    - destruct (IH _ H) as (i & y & H1 & H2). exists (S i), y. split; auto. now replace (k + S i) with (S k + i) by lia.
  Qed.
  Lemma set_at_some xs s : forall i x, nth_error xs i = Some x -> set x s <> None -> set_at set xs i s <> None.
  Proof.
    induction xs as [|y xs IH]; intros [|i] x H Hs; cbn in *; try discriminate.
    - inversion H; subst. destruct (set x s); cbn; congruence.
    - specialize (IH i x H Hs). destruct (set_at set xs i s); cbn; congruence.
  Qed.
  Lemma under_in a (l : list (option (list address) * target A U)) p t : In (Some p, t) (under a l) -> exists q, p = a ++ q /\ In (Some q, t) l.
  Proof. intros H. apply in_map_iff in H as ([[q|] u] & E & H); cbn in E; inversion E; subst. eauto. Qed.
  Lemma set_exists x : forall p t par rest, In (Some p, t) (targets x) -> set x (mkSetting par (p ++ rest)) <> None.
  Proof.
    assert (HB : forall (mk : node -> node -> node) a b p t par rest,
      (forall p t par rest, In (Some p, t) (targets a) -> set a (mkSetting par (p ++ rest)) <> None) ->
      (forall p t par rest, In (Some p, t) (targets b) -> set b (mkSetting par (p ++ rest)) <> None) ->
      In (Some p, t) (under [ALeft] (targets a) ++ under [ARight] (targets b)) ->
      match direction (mkSetting par (p ++ rest)) with
      | ALeft => option_map (fun a' => mk a' b) (set a (peel (mkSetting par (p ++ rest))))
      | ARight => option_map (fun b' => mk a b') (set b (peel (mkSetting par (p ++ rest))))
      | _ => Some (mk a b) end <> None).
    { intros mk a b p t par rest Ha Hb Hin. apply in_app_or in Hin as [Hin|Hin]; apply under_in in Hin as (q & -> & Hin); cbn.
      - specialize (Ha q t par rest Hin). unfold peel; cbn. destruct (set a _); cbn; congruence.
      - specialize (Hb q t par rest Hin). unfold peel; cbn. destruct (set b _); cbn; congruence. }
    assert (HM : forall (mk : list node -> node) xs p t par rest,
      Forall (fun x => forall p t par rest, In (Some p, t) (targets x) -> set x (mkSetting par (p ++ rest)) <> None) xs ->
      In (Some p, t) (under_index targets 0 xs) ->
      match direction (mkSetting par (p ++ rest)) with AIndex i => option_map mk (set_at set xs i (peel (mkSetting par (p ++ rest)))) | _ => Some (mk xs) end <> None).
    { intros mk xs p t par rest HF Hin. apply in_under_index in Hin as (i & x0 & Hi & Hin). apply under_in in Hin as (q & -> & Hin). cbn.
      assert (Hx : set x0 (mkSetting par (q ++ rest)) <> None). { rewrite Forall_forall in HF. eapply HF; eauto. eapply nth_error_In; eauto. }
      pose proof (set_at_some xs (mkSetting par (q ++ rest)) i x0 Hi Hx). unfold peel; cbn.
      destruct (set_at set xs i _); cbn; congruence. }
    induction x using node_ind'; intros p t par rest Hin; try (destruct Hin; fail); try discriminate;
      try (eapply HB; eauto; fail); try (eapply HM; eauto; fail).
    - cbn in *. destruct (par_value par); discriminate.
    - cbn in *. specialize (IHx p t par rest Hin). destruct (set x _); cbn; congruence.
    - cbn in *. specialize (IHx p t par rest Hin). destruct (set x _); cbn; congruence.
  Qed.

  (* no address is a prefix of another *)
  Definition indep (l : list (option (list address) * target A U)) : Prop :=
    forall i j p q s t, nth_error l i = Some (Some p, s) -> nth_error l j = Some (Some q, t) -> strip p q <> None -> i = j.
  Lemma strip_app_same a p q : strip (a :: p) (a :: q) = strip p q.
  Proof. cbn. assert (address_eqb a a = true) as -> by (now apply address_eqb_eq). reflexivity. Qed.
  Lemma strip_diff a b p q : a <> b -> strip (a :: p) (b :: q) = None.
  Proof. intros H. cbn. destruct (address_eqb a b) eqn:E; auto. apply address_eqb_eq in E. congruence. Qed.
  Lemma nth_error_under a (l : list (option (list address) * target A U)) i p t : nth_error (under [a] l) i = Some (Some p, t) -> exists q, p = a :: q /\ nth_error l i = Some (Some q, t).
  Proof.
    unfold under. rewrite nth_error_map. destruct (nth_error l i) as [[[q|] u]|]; cbn; intros H; inversion H; subst. eauto.
  Qed.
  Lemma indep_under a (l : list (option (list address) * target A U)) : indep l -> indep (under [a] l).
  Proof.
    intros H i j p q s t Hi Hj Hs. apply nth_error_under in Hi as (p' & -> & Hi). apply nth_error_under in Hj as (q' & -> & Hj).
    rewrite strip_app_same in Hs. eapply H; eauto.
  Qed.
  Lemma indep_hidden (l : list (option (list address) * target A U)) : indep (hidden l).
  Proof. intros i j p q s t Hi. unfold hidden in Hi. rewrite nth_error_map in Hi. destruct (nth_error l i); cbn in Hi; discriminate. Qed.
  Definition starts (f : address -> Prop) (l : list (option (list address) * target A U)) : Prop :=
    forall i p t, nth_error l i = Some (Some p, t) -> exists a q, p = a :: q /\ f a.
  Lemma indep_app f l m : indep l -> indep m -> starts (fun a => ~ f a) l -> starts f m -> indep (l ++ m).
  Proof.
    intros Hl Hm Sl Sm i j p q s t Hi Hj Hs.
    destruct (Nat.lt_ge_cases i (length l)) as [Ci|Ci], (Nat.lt_ge_cases j (length l)) as [Cj|Cj].
    - rewrite nth_error_app1 in Hi, Hj by auto. eapply Hl; eauto.
    - rewrite nth_error_app1 in Hi by auto. rewrite nth_error_app2 in Hj by auto.
      destruct (Sl _ _ _ Hi) as (a & p' & -> & Ha), (Sm _ _ _ Hj) as (b & q' & -> & Hb). rewrite strip_diff in Hs; congruence.
    - rewrite nth_error_app2 in Hi by auto. rewrite nth_error_app1 in Hj by auto.
      destruct (Sm _ _ _ Hi) as (a & p' & -> & Ha), (Sl _ _ _ Hj) as (b & q' & -> & Hb). rewrite strip_diff in Hs; congruence.
    - rewrite nth_error_app2 in Hi, Hj by auto. specialize (Hm _ _ _ _ _ _ Hi Hj Hs). lia.
  Qed.
  Lemma starts_under (f : address -> Prop) a l : f a -> starts f (under [a] l).
  Proof. intros H i p t Hi. apply nth_error_under in Hi as (q & -> & _). eauto. Qed.
  Lemma starts_index k xs : starts (fun a => exists i, a = AIndex i /\ k <= i) (under_index targets k xs).
  Proof.
    revert k; induction xs as [|x xs IH]; intros k i p t H; [destruct i; discriminate|]. cbn in H.
    destruct (Nat.lt_ge_cases i (length (under [AIndex k] (targets x)))) as [C|C].
    - rewrite nth_error_app1 in H by auto. apply nth_error_under in H as (q & -> & _). eauto 6.
    - rewrite nth_error_app2 in H by auto. destruct (IH _ _ _ _ H) as (a & q & -> & j & -> & Hj). exists (AIndex j), q. split; auto. exists j. split; auto. lia.
  Qed.
  Lemma indep_index xs : Forall (fun x => indep (targets x)) xs -> forall k, indep (under_index targets k xs).
  Proof.
    induction 1 as [|x xs Hx Hxs IH]; intros k; [intros [|i]; discriminate|]. cbn.
    apply (indep_app (fun a => exists i, a = AIndex i /\ S k <= i)); auto using indep_under, starts_index.
    apply starts_under. intros (i & E & Hi). inversion E. lia.
  Qed.
  Lemma indep_single p t : indep [(Some p, t)].
  Proof. intros [|i] [|j] ? ? ? ? Hi Hj _; cbn in *; auto; destruct i || destruct j; discriminate. Qed.
  Lemma targets_indep x : indep (targets x).
  Proof.
    assert (HB : forall a b, indep (targets a) -> indep (targets b) -> indep (under [ALeft] (targets a) ++ under [ARight] (targets b))).
    { intros a b Ha Hb. apply (indep_app (fun a => a = ARight)); auto using indep_under; apply starts_under; [discriminate|auto]. }
    induction x using node_ind'; cbn [NodeSpec.targets]; auto using indep_single, indep_hidden, indep_index;
      try (intros [|?] ? ? ? ? ? Hi; discriminate).
  Qed.

  (* ---- ping ---- *)
  Hypothesis Hid : forall u h, u_id ops (u_set_hash ops u h) = u_id ops u.
  Fixpoint seeded (h : N) (l : list (N * option U)) : list (N * option U) :=
    match l with
    | [] => []
    | (i, ou) :: r => (i, option_map (fun u => u_set_hash ops u h) ou) :: seeded (ahash h i) r
    end.
  Definition ids (l : list (N * option U)) : list N := map fst l.
  Lemma seeded_app h l m : seeded h (l ++ m) = seeded h l ++ seeded (hash_ids ahash h (ids l)) m.
  Proof. revert h; induction l as [|[i ou] l IH]; intros h; cbn; auto. now rewrite IH. Qed.
  Lemma hash_ids_app h l m : hash_ids ahash h (l ++ m) = hash_ids ahash (hash_ids ahash h l) m.
  Proof. apply fold_left_app. Qed.
  Definition ping_good (x : node) : Prop := forall probe h,
    snd (ping probe x h) = hash_ids ahash h (ids (preorder x)) /\
    preorder (fst (ping probe x h)) = (if probe then preorder x else seeded h (preorder x)) /\
    (probe = true -> fst (ping probe x h) = x).
  Lemma ping_all_good xs : Forall ping_good xs -> forall probe h,
    snd (ping_all ping probe xs h) = hash_ids ahash h (ids (flat_map preorder xs)) /\
    flat_map preorder (fst (ping_all ping probe xs h)) = (if probe then flat_map preorder xs else seeded h (flat_map preorder xs)) /\
    (probe = true -> fst (ping_all ping probe xs h) = xs).
  Proof.
    induction 1 as [|x xs Hx Hxs IH]; intros probe h; cbn; [destruct probe; auto|].
    destruct (Hx probe h) as (H1 & H2 & H3). destruct (ping probe x h) as [x' h']. cbn in H1, H2, H3. subst h'.
    destruct (IH probe (hash_ids ahash h (ids (preorder x)))) as (G1 & G2 & G3). destruct (ping_all ping probe xs _) as [r' h'']. cbn in *.
    rewrite G1, G2, H2. unfold ids. unfold hash_ids; rewrite map_app, fold_left_app. split; auto. split.
    - destruct probe; auto. now rewrite seeded_app.
    - intros ->. rewrite H3, G3; auto.
  Qed.
  Lemma ping_ok x : ping_good x.
  Proof.
    assert (HB : forall (mk : node -> node -> node) i a b, ping_good a -> ping_good b -> (forall a b, preorder (mk a b) = (i, None) :: preorder a ++ preorder b) ->
      forall probe h,
      let r := (let (x', h2) := ping probe a (ahash h i) in let (y', h3) := ping probe b h2 in (mk x' y', h3)) in
      snd r = hash_ids ahash h (ids (preorder (mk a b))) /\
      preorder (fst r) = (if probe then preorder (mk a b) else seeded h (preorder (mk a b))) /\ (probe = true -> fst r = mk a b)).
    { intros mk i a b Ha Hb Hp probe h. cbv zeta. destruct (Ha probe (ahash h i)) as (H1 & H2 & H3). destruct (ping probe a (ahash h i)) as [a' h']. cbn in H1, H2, H3. subst h'.
      destruct (Hb probe (hash_ids ahash (ahash h i) (ids (preorder a)))) as (G1 & G2 & G3). destruct (ping probe b _) as [b' h'']. cbn [fst snd] in *.
      rewrite !Hp, G1, G2, H2. unfold ids. cbn. rewrite map_app, fold_left_app. split; auto. split.
      - destruct probe; auto. now rewrite seeded_app.
      - intros ->. rewrite H3, G3; auto. }
    assert (HUn : forall (mk : node -> node) i a, ping_good a -> (forall a, preorder (mk a) = (i, None) :: preorder a) ->
      forall probe h,
      let r := (let (x', h2) := ping probe a (ahash h i) in (mk x', h2)) in
      snd r = hash_ids ahash h (ids (preorder (mk a))) /\
      preorder (fst r) = (if probe then preorder (mk a) else seeded h (preorder (mk a))) /\ (probe = true -> fst r = mk a)).
    { intros mk i a Ha Hp probe h. cbv zeta. destruct (Ha probe (ahash h i)) as (H1 & H2 & H3). destruct (ping probe a (ahash h i)) as [a' h']. cbn [fst snd] in *. subst h'.
      rewrite !Hp, H2. split; auto. split; [destruct probe; auto|intros ->; now rewrite H3]. }
    assert (HM : forall (mk : list node -> node) i a, Forall ping_good a -> (forall a, preorder (mk a) = (i, None) :: flat_map preorder a) ->
      forall probe h,
      let r := (let (x', h2) := ping_all ping probe a (ahash h i) in (mk x', h2)) in
      snd r = hash_ids ahash h (ids (preorder (mk a))) /\
      preorder (fst r) = (if probe then preorder (mk a) else seeded h (preorder (mk a))) /\ (probe = true -> fst r = mk a)).
    { intros mk i a Ha Hp probe h. cbv zeta. destruct (ping_all_good a Ha probe (ahash h i)) as (H1 & H2 & H3). destruct (ping_all ping probe a (ahash h i)) as [a' h']. cbn [fst snd] in *. subst h'.
      rewrite !Hp, H2. split; auto. split; [destruct probe; auto|intros ->; now rewrite H3]. }
    induction x using node_ind'; intros probe h; try (cbn; destruct probe; auto; fail).
    - cbn. destruct probe; cbn; repeat split; auto; try discriminate. now rewrite Hid.
    - apply (HB (Binop b)); auto.
    - apply (HUn (Unop f)); auto.
    - apply (HB Pipe); auto.
    - apply (HB Stack); auto.
    - apply (HB Branch); auto.
    - apply (HB Bus); auto.
    - apply (HUn Thru); auto.
    - apply (HM MultiBus); auto.
    - apply (HM MultiStack); auto.
    - apply (HM (Reduce b)); auto.
    - apply (HM MultiBranch); auto.
    - apply (HM Chain); auto.
    - apply (HUn (fun x => Feedback x v f)); auto.
    - apply (HB (fun x y => Feedback2 x y v f)); auto.
  Qed.
  (* the k-th node of the listing *)
  Lemma seeded_nth l : forall h k i u, nth_error l k = Some (i, Some u) ->
    nth_error (seeded h l) k = Some (i, Some (u_set_hash ops u (hash_ids ahash h (firstn k (ids l))))).
  Proof.
    induction l as [|[i0 o0] l IH]; intros h [|k] i u H; cbn in *; try discriminate; [inversion H; auto|]. now apply IH.
  Qed.
  Lemma ping_seeds x h k i u : nth_error (preorder x) k = Some (i, Some u) ->
    nth_error (preorder (fst (ping false x h))) k = Some (i, Some (u_set_hash ops u (hash_ids ahash h (firstn k (map fst (preorder x)))))).
  Proof. intros H. destruct (ping_ok x false h) as (_ & E & _). rewrite E. now apply seeded_nth. Qed.
End Addr.
