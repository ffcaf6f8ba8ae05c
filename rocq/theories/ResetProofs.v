From Verif Require Import ResetSpec NodeProofs.

Section Lift.
  Context {A P U : Type}.
  Variable ar : arith A.
  Variable ops : unit_ops A P U.
  Notation node := (NodeModel.node A U).
  Notation ins := (NodeModel.ins ops).
  Notation outs := (NodeModel.outs ops).
  Notation tick := (NodeModel.tick ar ops).
  Notation wf := (NodeModel.wf ops).
  Notation reset := (NodeModel.reset ar ops).
  Section Both.
    Variable f : node -> node -> Prop.
    Definition both := fix go (xs ys : list node) : Prop :=
      match xs, ys with [], [] => True | x :: xs, y :: ys => f x y /\ go xs ys | _, _ => False end.
    Lemma both_F2 xs : forall ys, both xs ys <-> Forall2 f xs ys.
    Proof.
      induction xs as [|x xs IH]; intros [|y ys]; cbn; split; intros H; auto; try contradiction; try (inversion H; fail).
      - destruct H. constructor; auto. now apply IH.
      - inversion H; subst. split; auto. now apply IH.
    Qed.
  End Both.
  Variable R : U -> U -> Prop.
  Fixpoint lift (x y : node) : Prop :=
    match x with
    | Leaf u => exists v, y = Leaf v /\ R u v
    | Binop b x1 x2 => exists y1 y2, y = Binop b y1 y2 /\ lift x1 y1 /\ lift x2 y2
    | Unop f x1 => exists y1, y = Unop f y1 /\ lift x1 y1
    | Pipe x1 x2 => exists y1 y2, y = Pipe y1 y2 /\ lift x1 y1 /\ lift x2 y2
    | Stack x1 x2 => exists y1 y2, y = Stack y1 y2 /\ lift x1 y1 /\ lift x2 y2
    | Branch x1 x2 => exists y1 y2, y = Branch y1 y2 /\ lift x1 y1 /\ lift x2 y2
    | Bus x1 x2 => exists y1 y2, y = Bus y1 y2 /\ lift x1 y1 /\ lift x2 y2
    | Thru x1 => exists y1, y = Thru y1 /\ lift x1 y1
    | MultiBus xs => exists ys, y = MultiBus ys /\ both lift xs ys
    | MultiStack xs => exists ys, y = MultiStack ys /\ both lift xs ys
    | Reduce b xs => exists ys, y = Reduce b ys /\ both lift xs ys
    | MultiBranch xs => exists ys, y = MultiBranch ys /\ both lift xs ys
    | Chain xs => exists ys, y = Chain ys /\ both lift xs ys
    | Feedback x1 v f => exists y1, y = Feedback y1 v f /\ lift x1 y1
    | Feedback2 x1 x2 v f => exists y1 y2, y = Feedback2 y1 y2 v f /\ lift x1 y1 /\ lift x2 y2
    | x => y = x
    end.
  Hypothesis R_ar : forall u v, R u v -> u_ins ops u = u_ins ops v /\ u_outs ops u = u_outs ops v.
  Hypothesis R_tick : forall u v i, R u v -> length i = u_ins ops u ->
    R (fst (u_tick ops u i)) (fst (u_tick ops v i)) /\ snd (u_tick ops u i) = snd (u_tick ops v i) /\ length (snd (u_tick ops u i)) = u_outs ops u /\
    u_ins ops (fst (u_tick ops u i)) = u_ins ops u /\ u_outs ops (fst (u_tick ops u i)) = u_outs ops u.

  Lemma F2_maps xs ys : Forall (fun x => forall y, lift x y -> ins x = ins y /\ outs x = outs y) xs -> Forall2 lift xs ys ->
    map ins xs = map ins ys /\ map outs xs = map outs ys /\ length xs = length ys.
  Proof.
    intros H H2. induction H2 as [|x y xs ys Hx Hxs IH]; auto. inversion H as [|? ? Ha Hb]; subst. destruct (Ha y Hx) as [E1 E2].
    destruct (IH Hb) as (E3 & E4 & E5). cbn. rewrite E1, E2, E3, E4, E5. auto.
  Qed.
  Lemma lift_arity x : forall y, lift x y -> ins x = ins y /\ outs x = outs y.
  Proof.
    induction x using node_ind'; intros y L; cbn [lift] in L; try (subst y; auto; fail);
      try (destruct L as (ys & -> & L); apply both_F2 in L; destruct (F2_maps xs ys H L) as (E1 & E2 & E3)).
    - destruct L as (w & -> & L). apply R_ar in L. exact L.
    - destruct L as (y1 & y2 & -> & L1 & L2). destruct (IHx1 _ L1), (IHx2 _ L2). cbn. lia.
    - destruct L as (y1 & -> & L1). destruct (IHx _ L1). cbn. lia.
    - destruct L as (y1 & y2 & -> & L1 & L2). destruct (IHx1 _ L1), (IHx2 _ L2). cbn. lia.
    - destruct L as (y1 & y2 & -> & L1 & L2). destruct (IHx1 _ L1), (IHx2 _ L2). cbn. lia.
    - destruct L as (y1 & y2 & -> & L1 & L2). destruct (IHx1 _ L1), (IHx2 _ L2). cbn. lia.
    - destruct L as (y1 & y2 & -> & L1 & L2). destruct (IHx1 _ L1), (IHx2 _ L2). cbn. lia.
    - destruct L as (y1 & -> & L1). destruct (IHx _ L1). cbn. lia.
    - split; [exact (hd_ins_map ops _ _ E1)|exact (hd_outs_map ops _ _ E2)].
    - rewrite !ins_MultiStack, !outs_MultiStack, (hd_ins_map ops _ _ E1), (hd_outs_map ops _ _ E2), E3. auto.
    - rewrite !ins_Reduce, (hd_ins_map ops _ _ E1), E3. split; auto. exact (hd_outs_map ops _ _ E2).
    - rewrite !outs_MultiBranch, (hd_outs_map ops _ _ E2), E3. split; auto. exact (hd_ins_map ops _ _ E1).
    - split; [exact (hd_ins_map ops _ _ E1)|exact (hd_outs_map ops _ _ E2)].
    - destruct L as (y1 & -> & L1). destruct (IHx _ L1). cbn. lia.
    - destruct L as (y1 & y2 & -> & L1 & L2). destruct (IHx1 _ L1), (IHx2 _ L2). cbn. lia.
  Qed.
  Lemma lift_maps xs ys : Forall2 lift xs ys -> map ins xs = map ins ys /\ map outs xs = map outs ys /\ length xs = length ys.
  Proof. apply F2_maps. apply Forall_forall. intros x _. apply lift_arity. Qed.

  Definition good (x : node) : Prop := forall y i, wf x -> lift x y -> length i = ins x ->
    wf (fst (tick x i)) /\ lift (fst (tick x i)) (fst (tick y i)) /\ snd (tick x i) = snd (tick y i) /\ length (snd (tick x i)) = outs x /\
    ins (fst (tick x i)) = ins x /\ outs (fst (tick x i)) = outs x.
  Lemma all_good xs ni no : Forall good xs -> Forall wf xs -> Forall (fun y => ins y = ni /\ outs y = no) xs ->
    forall ys is, Forall2 lift xs ys -> length is = length xs -> Forall (fun i => length i = ni) is ->
    Forall wf (fst (tick_all tick xs is)) /\ Forall2 lift (fst (tick_all tick xs is)) (fst (tick_all tick ys is)) /\ snd (tick_all tick xs is) = snd (tick_all tick ys is) /\
    Forall (fun o => length o = no) (snd (tick_all tick xs is)) /\
    map ins (fst (tick_all tick xs is)) = map ins xs /\ map outs (fst (tick_all tick xs is)) = map outs xs.
  Proof.
    induction 1 as [|x xs Hx Hxs IH]; intros Hw Hn ys is HL Hl Hi.
    - inversion HL; subst. destruct is; [|discriminate]. cbn. auto 6.
    - inversion HL as [|? y ? ys' L1 L2]; subst. destruct is as [|i is]; [discriminate|]. cbn [length] in Hl.
      rewrite !tick_all_cons. cbn [fst snd map]. inversion Hw; inversion Hn as [|? ? [? ?] ?]; inversion Hi; subst.
      destruct (Hx y i) as (G1 & G2 & G3 & G4 & G5 & G6); auto. destruct (IH ltac:(auto) ltac:(auto) ys' is) as (K1 & K2 & K3 & K4 & K5 & K6); auto.
      rewrite G5, G6, K5, K6, G3, K3. rewrite <- K3. rewrite G3 in G4. repeat split; auto.
  Qed.
  Lemma chain_good xs n : Forall good xs -> Forall wf xs -> Forall (fun y => ins y = n /\ outs y = n) xs ->
    forall ys i, Forall2 lift xs ys -> length i = n ->
    Forall wf (fst (tick_chain tick xs i)) /\ Forall2 lift (fst (tick_chain tick xs i)) (fst (tick_chain tick ys i)) /\ snd (tick_chain tick xs i) = snd (tick_chain tick ys i) /\
    length (snd (tick_chain tick xs i)) = n /\
    map ins (fst (tick_chain tick xs i)) = map ins xs /\ map outs (fst (tick_chain tick xs i)) = map outs xs.
  Proof.
    induction 1 as [|x xs Hx Hxs IH]; intros Hw Hn ys i HL Hi.
    - inversion HL; subst. cbn. auto 6.
    - inversion HL as [|? y ? ys' L1 L2]; subst.
      rewrite !tick_chain_cons. cbn [fst snd map]. inversion Hw; inversion Hn as [|? ? [? ?] ?]; subst.
      destruct (Hx y i) as (G1 & G2 & G3 & G4 & G5 & G6); auto. rewrite <- G3.
      destruct (IH ltac:(auto) ltac:(auto) ys' (snd (tick x i))) as (K1 & K2 & K3 & K4 & K5 & K6); auto; [congruence|].
      rewrite G5, G6, K5, K6. repeat split; auto.
  Qed.

  Lemma lift_tick x : good x.
  Proof.
    induction x using node_ind'; intros y j Hw L Hj; cbn [lift] in L;
      try (subst y; cbn in *; rewrite ?repeat_length, ?map_length, ?seq_length; repeat split; auto; fail).
    - destruct L as (w & -> & L). cbn in Hj. destruct (R_tick u w j L Hj) as (E1 & E2 & E3 & E4 & E5).
      cbn [NodeModel.tick]. destruct (u_tick ops u j), (u_tick ops w j). cbn in *. repeat split; eauto.
    - destruct L as (y1 & y2 & -> & L1 & L2). rewrite !tick_Binop. destruct Hw as (H1 & H2 & H3). cbn [fst snd NodeModel.wf NodeModel.outs NodeModel.ins lift] in *.
      destruct (lift_arity _ _ L1) as [I1 _]. rewrite <- I1.
      destruct (IHx1 y1 (firstn (ins x1) j)) as (G1 & G2 & G3 & G4 & G5 & G6); auto; [apply firstn_len_le; lia|].
      destruct (IHx2 y2 (skipn (ins x1) j)) as (K1 & K2 & K3 & K4 & K5 & K6); auto; [rewrite skipn_length; lia|].
      rewrite zipw_length, G5, G6, K5, K6, <- G3, <- K3. repeat split; eauto; try lia.
    - destruct L as (y1 & -> & L1). rewrite !tick_Unop. cbn [fst snd NodeModel.wf NodeModel.outs NodeModel.ins lift] in *. rewrite map_length.
      destruct (IHx y1 j) as (G1 & G2 & G3 & G4 & G5 & G6); auto. rewrite <- G3. repeat split; eauto.
    - destruct L as (y1 & y2 & -> & L1 & L2). rewrite !tick_Pipe. destruct Hw as (H1 & H2 & H3). cbn [fst snd NodeModel.wf NodeModel.outs NodeModel.ins lift] in *.
      destruct (IHx1 y1 j) as (G1 & G2 & G3 & G4 & G5 & G6); auto. rewrite <- G3.
      destruct (IHx2 y2 (snd (tick x1 j))) as (K1 & K2 & K3 & K4 & K5 & K6); auto; [lia|]. repeat split; eauto; try lia.
    - destruct L as (y1 & y2 & -> & L1 & L2). rewrite !tick_Stack. destruct Hw as (H1 & H2). cbn [fst snd NodeModel.wf NodeModel.outs NodeModel.ins lift] in *.
      destruct (lift_arity _ _ L1) as [I1 _]. rewrite <- I1.
      destruct (IHx1 y1 (firstn (ins x1) j)) as (G1 & G2 & G3 & G4 & G5 & G6); auto; [apply firstn_len_le; lia|].
      destruct (IHx2 y2 (skipn (ins x1) j)) as (K1 & K2 & K3 & K4 & K5 & K6); auto; [rewrite skipn_length; lia|].
      rewrite app_length, G5, G6, K5, K6, <- G3, <- K3. repeat split; eauto.
    - destruct L as (y1 & y2 & -> & L1 & L2). rewrite !tick_Branch. destruct Hw as (H1 & H2 & H3). cbn [fst snd NodeModel.wf NodeModel.outs NodeModel.ins lift] in *.
      destruct (IHx1 y1 j) as (G1 & G2 & G3 & G4 & G5 & G6); auto.
      destruct (IHx2 y2 j) as (K1 & K2 & K3 & K4 & K5 & K6); auto; [lia|].
      rewrite app_length, G5, G6, K5, K6, <- G3, <- K3. repeat split; eauto.
    - destruct L as (y1 & y2 & -> & L1 & L2). rewrite !tick_Bus. destruct Hw as (H1 & H2 & H3 & H4). cbn [fst snd NodeModel.wf NodeModel.outs NodeModel.ins lift] in *.
      destruct (IHx1 y1 j) as (G1 & G2 & G3 & G4 & G5 & G6); auto.
      destruct (IHx2 y2 j) as (K1 & K2 & K3 & K4 & K5 & K6); auto; [lia|].
      rewrite zipw_length, G5, G6, K5, K6, <- G3, <- K3. repeat split; eauto; try lia.
    - destruct L as (y1 & -> & L1). rewrite !tick_Thru. cbn [fst snd NodeModel.wf NodeModel.outs NodeModel.ins lift] in *.
      destruct (lift_arity _ _ L1) as [I1 I2]. rewrite <- I1, <- I2.
      destruct (IHx y1 j) as (G1 & G2 & G3 & G4 & G5 & G6); auto. rewrite <- G3. repeat split; eauto; try lia. unfold thru_out. now rewrite map_length, seq_length.
    - destruct L as (ys & -> & L). apply both_F2 in L. destruct (lift_maps xs ys L) as (M1 & M2 & M3).
      rewrite !tick_MultiBus. destruct Hw as [Hw Hn]. cbv zeta; cbn [fst snd]. apply all_Forall in Hw.
      replace (map (fun _ => j) ys) with (map (fun _ => j) xs) by (clear - M3; revert ys M3; induction xs; intros [|? ?] M3; cbn in *; try lia; f_equal; auto).
      destruct (all_good xs (hd_ins ops xs) (hd_outs ops xs) H Hw (uniform_hd ops xs Hn) ys (map (fun _ => j) xs) L) as (K1 & K2 & K3 & K4 & K5 & K6); [apply map_length|apply Forall_const_map; exact Hj|].
      cbn [NodeModel.wf NodeModel.ins NodeModel.outs]. fold (hd_ins ops). fold (hd_outs ops).
      rewrite <- (hd_outs_map ops _ _ M2), <- K3. repeat split.
      + now apply all_Forall. + eapply uniform_map; eauto. + exists (fst (tick_all tick ys (map (fun _ => j) xs))). split; auto. now apply both_F2.
      + apply fold_zipw_length; auto. now rewrite repeat_length. + exact (hd_ins_map ops _ _ K5). + exact (hd_outs_map ops _ _ K6).
    - destruct L as (ys & -> & L). apply both_F2 in L. destruct (lift_maps xs ys L) as (M1 & M2 & M3).
      rewrite !tick_MultiStack. destruct Hw as [Hw Hn]. cbv zeta; cbn [fst snd]. apply all_Forall in Hw. rewrite ins_MultiStack in Hj.
      rewrite <- (hd_ins_map ops _ _ M1), <- M3.
      destruct (all_good xs (hd_ins ops xs) (hd_outs ops xs) H Hw (uniform_hd ops xs Hn) ys (slices (length xs) (hd_ins ops xs) j) L) as (K1 & K2 & K3 & K4 & K5 & K6); auto using slices_length, slices_each.
      rewrite !ins_MultiStack, !outs_MultiStack, (hd_ins_map ops _ _ K5), (hd_outs_map ops _ _ K6), (map_len_eq _ _ _ K5). rewrite <- K3. repeat split; auto.
      + now apply all_Forall. + eapply uniform_map; eauto. + eexists. split; [reflexivity|]. now apply both_F2.
      + rewrite (concat_length_uniform (hd_outs ops xs)); auto. f_equal. apply tick_all_length. apply slices_length.
    - destruct L as (ys & -> & L). apply both_F2 in L. destruct (lift_maps xs ys L) as (M1 & M2 & M3).
      rewrite !tick_Reduce. destruct Hw as [Hw Hn]. cbv zeta; cbn [fst snd]. apply all_Forall in Hw. rewrite ins_Reduce in Hj.
      rewrite <- (hd_ins_map ops _ _ M1), <- (hd_outs_map ops _ _ M2), <- M3.
      destruct (all_good xs (hd_ins ops xs) (hd_outs ops xs) H Hw (uniform_hd ops xs Hn) ys (slices (length xs) (hd_ins ops xs) j) L) as (K1 & K2 & K3 & K4 & K5 & K6); auto using slices_length, slices_each.
      rewrite !ins_Reduce, (hd_ins_map ops _ _ K5), (map_len_eq _ _ _ K5). rewrite <- K3. repeat split; auto.
      + now apply all_Forall. + eapply uniform_map; eauto. + eexists. split; [reflexivity|]. now apply both_F2.
      + unfold reduce_out. change (outs (Reduce b xs)) with (hd_outs ops xs). destruct (snd (tick_all tick xs _)); [now rewrite repeat_length|].
        inversion K4; subst. apply fold_zipw_length; auto.
      + exact (hd_outs_map ops _ _ K6).
    - destruct L as (ys & -> & L). apply both_F2 in L. destruct (lift_maps xs ys L) as (M1 & M2 & M3).
      rewrite !tick_MultiBranch. destruct Hw as [Hw Hn]. cbv zeta; cbn [fst snd]. apply all_Forall in Hw.
      replace (map (fun _ => j) ys) with (map (fun _ => j) xs) by (clear - M3; revert ys M3; induction xs; intros [|? ?] M3; cbn in *; try lia; f_equal; auto).
      destruct (all_good xs (hd_ins ops xs) (hd_outs ops xs) H Hw (uniform_hd ops xs Hn) ys (map (fun _ => j) xs) L) as (K1 & K2 & K3 & K4 & K5 & K6); [apply map_length|apply Forall_const_map; exact Hj|].
      rewrite !outs_MultiBranch, (hd_outs_map ops _ _ K6), (map_len_eq _ _ _ K5). rewrite <- K3. repeat split; auto.
      + now apply all_Forall. + eapply uniform_map; eauto. + eexists. split; [reflexivity|]. now apply both_F2.
      + rewrite (concat_length_uniform (hd_outs ops xs)); auto. f_equal. apply tick_all_length. apply map_length.
      + exact (hd_ins_map ops _ _ K5).
    - destruct L as (ys & -> & L). apply both_F2 in L. destruct (lift_maps xs ys L) as (M1 & M2 & M3).
      rewrite !tick_Chain. destruct Hw as (Hw & Hn & Hio). cbn [fst snd]. pose proof (chain_uniform ops xs Hn Hio) as Hc. apply all_Forall in Hw.
      destruct (chain_good xs (hd_ins ops xs) H Hw Hc ys j L Hj) as (K1 & K2 & K3 & K4 & K5 & K6). rewrite <- K3. repeat split; auto.
      + now apply all_Forall. + eapply uniform_map; eauto. + eapply all_in_out_map; eauto. + eexists. split; [reflexivity|]. now apply both_F2.
      + rewrite K4. destruct xs; [destruct Hn|]. inversion Hc; subst. cbn in *. lia.
      + exact (hd_ins_map ops _ _ K5). + exact (hd_outs_map ops _ _ K6).
    - destruct L as (y1 & -> & L1). rewrite !tick_Feedback. cbv zeta. cbn [fst snd NodeModel.wf NodeModel.outs NodeModel.ins lift] in *. destruct Hw as (H1 & H2 & H3 & H4).
      destruct (IHx y1 (zipw (a_add ar) j v)) as (G1 & G2 & G3 & G4 & G5 & G6); auto; [rewrite zipw_length; lia|].
      rewrite G5, G6, <- G3. repeat split; eauto. apply H4. lia.
    - destruct L as (y1 & y2 & -> & L1 & L2). rewrite !tick_Feedback2. cbv zeta. cbn [fst snd NodeModel.wf NodeModel.outs NodeModel.ins lift] in *. destruct Hw as (H1 & H2 & H3 & H4 & H5 & H6 & H7).
      destruct (IHx1 y1 (zipw (a_add ar) j v)) as (G1 & G2 & G3 & G4 & G5 & G6); auto; [rewrite zipw_length; lia|]. rewrite <- G3.
      destruct (IHx2 y2 (snd (tick x1 (zipw (a_add ar) j v)))) as (K1 & K2 & K3 & K4 & K5 & K6); auto; [lia|].
      rewrite G5, G6, K5, K6, <- K3. repeat split; eauto. apply H7. lia.
  Qed.
  Lemma lift_ticks l : forall x y, wf x -> lift x y -> stream (ins x) l ->
    snd (BufModel.ticks tick x l) = snd (BufModel.ticks tick y l) /\ lift (fst (BufModel.ticks tick x l)) (fst (BufModel.ticks tick y l)) /\
    wf (fst (BufModel.ticks tick x l)) /\ ins (fst (BufModel.ticks tick x l)) = ins x.
  Proof.
    induction l as [|i l IH]; intros x y Hw HL Hl; [auto|]. inversion Hl as [|? ? Hi Hl']; subst. cbn [BufModel.ticks].
    destruct (lift_tick x y i Hw HL Hi) as (G1 & G2 & G3 & G4 & G5 & G6).
    destruct (tick x i) as [x' o], (tick y i) as [y' o']. cbn [fst snd] in *. rewrite <- G5 in Hl'. specialize (IH x' y' G1 G2 Hl').
    destruct (BufModel.ticks tick x' l), (BufModel.ticks tick y' l). cbn in *. destruct IH as (-> & ? & ? & ?). rewrite G3. repeat split; auto. congruence.
  Qed.
End Lift.

Section Trans.
  Context {A U : Type}.
  Variable R : U -> U -> Prop.
  Hypothesis R_trans : forall u v w, R u v -> R v w -> R u w.
  Notation lift := (lift (A := A) R).
  Lemma both_trans (xs : list (NodeModel.node A U)) : Forall (fun x => forall y z, lift x y -> lift y z -> lift x z) xs ->
    forall ys zs, both lift xs ys -> both lift ys zs -> both lift xs zs.
  Proof.
    induction 1 as [|x xs Hx Hxs IH]; intros [|y ys] [|z zs] H1 H2; cbn in *; auto; try contradiction. destruct H1, H2. split; eauto.
  Qed.
  Lemma lift_trans x : forall y z, lift x y -> lift y z -> lift x z.
  Proof.
    induction x using node_ind'; intros y z L M; cbn [ResetProofs.lift] in L; try (subst y; exact M);
      try (destruct L as (y1 & y2 & -> & L1 & L2); destruct M as (z1 & z2 & -> & M1 & M2); exists z1, z2; repeat split; eauto; fail);
      try (destruct L as (y1 & -> & L1); destruct M as (z1 & -> & M1); exists z1; split; eauto; fail);
      try (destruct L as (ys & -> & L); destruct M as (zs & -> & M); exists zs; split; auto; eapply both_trans; eauto; fail).
  Qed.
End Trans.

Section Leaf.
  Context {A P U : Type}.
  Variable ops : unit_ops A P U.
  Notation after := (after ops).
  Notation played := (played ops).
  Notation alike := (alike ops).
  Notation fixed_arity := (fixed_arity ops).
  Notation restored := (restored ops).
  Lemma after_cons u i l : after u (i :: l) = after (fst (u_tick ops u i)) l.
  Proof. unfold ResetSpec.after. cbn. destruct (u_tick ops u i) as [u' o]. cbn. destruct (BufModel.ticks _ u' l). reflexivity. Qed.
  Lemma played_cons u i l : played u (i :: l) = snd (u_tick ops u i) :: played (fst (u_tick ops u i)) l.
  Proof. unfold ResetSpec.played. cbn. destruct (u_tick ops u i) as [u' o]. cbn. destruct (BufModel.ticks _ u' l). reflexivity. Qed.
  Lemma after_app l : forall u m, after u (l ++ m) = after (after u l) m.
  Proof. induction l as [|i l IH]; intros u m; auto. cbn [app]. rewrite !after_cons. apply IH. Qed.
  Lemma played_app l : forall u m, played u (l ++ m) = played u l ++ played (after u l) m.
  Proof. induction l as [|i l IH]; intros u m; auto. cbn [app]. rewrite !played_cons, after_cons, IH. reflexivity. Qed.
  Lemma fixed_arity_after u l : fixed_arity u -> stream (u_ins ops u) l -> fixed_arity (after u l).
  Proof.
    intros H Hl m Hm. destruct (H l Hl) as (E1 & E2 & _). rewrite E1 in Hm. destruct (H (l ++ m)) as (E3 & E4 & E5); [apply Forall_app; auto|].
    rewrite after_app in E3, E4. rewrite played_app in E5. rewrite E1, E2. repeat split; auto. apply Forall_app in E5. apply E5.
  Qed.
  Lemma fixed_arity_tick u i : fixed_arity u -> length i = u_ins ops u -> fixed_arity (fst (u_tick ops u i)) /\
    u_ins ops (fst (u_tick ops u i)) = u_ins ops u /\ u_outs ops (fst (u_tick ops u i)) = u_outs ops u /\ length (snd (u_tick ops u i)) = u_outs ops u.
  Proof.
    intros H Hi. assert (S1 : stream (u_ins ops u) [i]) by (repeat constructor; auto). pose proof (fixed_arity_after u [i] H S1) as K.
    destruct (H [i] S1) as (E1 & E2 & E3). rewrite after_cons in *. rewrite played_cons in E3. inversion E3; subst. auto.
  Qed.
  Lemma alike_refl u : alike u u.
  Proof. repeat split. Qed.
  Lemma alike_sym u v : alike u v -> alike v u.
  Proof. intros (E1 & E2 & E3). repeat split; auto; intros; destruct (E3 l) as (? & ? & ?); auto; rewrite E1; auto. Qed.
  Lemma alike_trans u v w : alike u v -> alike v w -> alike u w.
  Proof.
    intros (E1 & E2 & E3) (F1 & F2 & F3). split; [congruence|]. split; [congruence|]. intros l Hl. destruct (E3 l Hl) as (? & ? & ?).
    rewrite E1 in Hl. destruct (F3 l Hl) as (? & ? & ?). repeat split; congruence.
  Qed.
  Lemma alike_arity u v : alike u v -> fixed_arity v -> fixed_arity u.
  Proof.
    intros (E1 & E2 & E3) H l Hl. destruct (E3 l Hl) as (F1 & F2 & F3). rewrite E1 in Hl. destruct (H l Hl) as (? & ? & ?). rewrite F1, F2, F3, E1, E2. auto.
  Qed.
  Definition al (u v : U) : Prop := alike u v /\ fixed_arity u /\ fixed_arity v.
  Lemma al_trans u v w : al u v -> al v w -> al u w.
  Proof. intros (? & ? & ?) (? & ? & ?). split; [eapply alike_trans; eauto|]. split; auto. Qed.
  Lemma al_ar u v : al u v -> u_ins ops u = u_ins ops v /\ u_outs ops u = u_outs ops v.
  Proof. intros ((? & ? & _) & _). auto. Qed.
  Lemma al_tick u v i : al u v -> length i = u_ins ops u ->
    al (fst (u_tick ops u i)) (fst (u_tick ops v i)) /\ snd (u_tick ops u i) = snd (u_tick ops v i) /\ length (snd (u_tick ops u i)) = u_outs ops u /\
    u_ins ops (fst (u_tick ops u i)) = u_ins ops u /\ u_outs ops (fst (u_tick ops u i)) = u_outs ops u.
  Proof.
    intros ((E1 & E2 & E3) & Fu & Fv) Hi. destruct (fixed_arity_tick u i Fu Hi) as (G1 & G2 & G3 & G4).
    destruct (fixed_arity_tick v i Fv) as (K1 & K2 & K3 & K4); [congruence|].
    assert (C : forall l, stream (u_ins ops u) l -> stream (u_ins ops u) (i :: l)) by (constructor; auto).
    assert (E4 : snd (u_tick ops u i) = snd (u_tick ops v i)).
    { destruct (E3 [i]) as (_ & _ & E); [apply C; constructor|]. rewrite !played_cons in E. congruence. }
    split; [|auto]. split; [|auto]. split; [congruence|]. split; [congruence|]. intros l Hl. rewrite G2 in Hl. apply C in Hl. destruct (E3 _ Hl) as (F1 & F2 & F3).
    rewrite !after_cons in F1, F2. rewrite !played_cons in F3. repeat split; auto. congruence.
  Qed.
  (* units on the way from one that reset restores *)
  Definition on_the_way (u : U) : Prop := exists u0 l, fixed_arity u0 /\ restored u0 /\ stream (u_ins ops u0) l /\ u = after u0 l.
  Lemma way_tick u i : on_the_way u -> length i = u_ins ops u -> on_the_way (fst (u_tick ops u i)) /\ fixed_arity u.
  Proof.
    intros (u0 & l & F & Rs & Hl & ->) Hi. split; [|apply fixed_arity_after; auto]. destruct (F l Hl) as (E1 & _ & _).
    exists u0, (l ++ [i]). split; auto. split; auto. split. - apply Forall_app; split; auto. constructor; auto. congruence. - now rewrite after_app, after_cons.
  Qed.
  Lemma way_reset u i : on_the_way u -> length i = u_ins ops u -> al (u_reset ops u) (u_reset ops (fst (u_tick ops u i))).
  Proof.
    intros (u0 & l & F & Rs & Hl & ->) Hi. destruct (F l Hl) as (E1 & _ & _).
    assert (Hl2 : stream (u_ins ops u0) (l ++ [i])) by (apply Forall_app; split; auto; constructor; auto; congruence).
    pose proof (Rs _ Hl) as R1. pose proof (Rs _ Hl2) as R2. rewrite after_app, after_cons in R2. change (after ?x []) with x in R2.
    split; [exact (alike_trans _ _ _ R1 (alike_sym _ _ R2))|]. split; [exact (alike_arity _ _ R1 F)|exact (alike_arity _ _ R2 F)].
  Qed.
  Definition dia (u v : U) : Prop := u = v /\ on_the_way u.
  Lemma dia_ar u v : dia u v -> u_ins ops u = u_ins ops v /\ u_outs ops u = u_outs ops v.
  Proof. intros [-> _]. auto. Qed.
  Lemma dia_tick u v i : dia u v -> length i = u_ins ops u ->
    dia (fst (u_tick ops u i)) (fst (u_tick ops v i)) /\ snd (u_tick ops u i) = snd (u_tick ops v i) /\ length (snd (u_tick ops u i)) = u_outs ops u /\
    u_ins ops (fst (u_tick ops u i)) = u_ins ops u /\ u_outs ops (fst (u_tick ops u i)) = u_outs ops u.
  Proof.
    intros [<- W] Hi. destruct (way_tick u i W Hi) as [W' F]. destruct (fixed_arity_tick u i F Hi) as (G1 & G2 & G3 & G4). split; [split; auto|auto].
  Qed.
End Leaf.

Section Reset.
  Context {A P U : Type}.
  Variable ar : arith A.
  Variable ops : unit_ops A P U.
  Notation node := (NodeModel.node A U).
  Notation ins := (NodeModel.ins ops).
  Notation outs := (NodeModel.outs ops).
  Notation tick := (NodeModel.tick ar ops).
  Notation wf := (NodeModel.wf ops).
  Notation reset := (NodeModel.reset ar ops).
  Notation zero := (a_zero ar).
  Notation AL := (lift (A := A) (al ops)).
  Notation D := (lift (A := A) (dia ops)).
  (* every leaf is on its way *)
  Definition way (x : node) : Prop := D x x.
  Lemma both_way xs : both D xs xs -> Forall way xs.
  Proof. induction xs; cbn; intros H; constructor; try apply H; apply IHxs; apply H. Qed.
  Lemma way_step x i : wf x -> way x -> length i = ins x ->
    wf (fst (tick x i)) /\ way (fst (tick x i)) /\ length (snd (tick x i)) = outs x /\ ins (fst (tick x i)) = ins x.
  Proof. intros Hw Hx Hi. destruct (lift_tick ar ops (dia ops) (dia_ar ops) (dia_tick ops) x x i Hw Hx Hi) as (? & ? & _ & ? & ? & _). auto. Qed.
  Definition forgets (x : node) : Prop := forall i, wf x -> way x -> length i = ins x -> AL (reset x) (reset (fst (tick x i))).
  Lemma forgets_all xs ni no : Forall forgets xs -> Forall wf xs -> Forall way xs -> Forall (fun y => ins y = ni /\ outs y = no) xs ->
    forall is, length is = length xs -> Forall (fun i => length i = ni) is -> both AL (map reset xs) (map reset (fst (tick_all tick xs is))).
  Proof.
    induction 1 as [|x xs Hx Hxs IH]; intros Hw Hy Hn [|i is] Hl Hi; cbn [length] in *; try lia; try exact Logic.I.
    rewrite tick_all_cons. cbn [fst map both]. inversion Hw; inversion Hy; inversion Hn as [|? ? [? ?] ?]; inversion Hi; subst.
    split; [apply Hx; auto|apply IH; auto].
  Qed.
  Lemma forgets_chain xs n : Forall forgets xs -> Forall wf xs -> Forall way xs -> Forall (fun y => ins y = n /\ outs y = n) xs ->
    forall i, length i = n -> both AL (map reset xs) (map reset (fst (tick_chain tick xs i))).
  Proof.
    induction 1 as [|x xs Hx Hxs IH]; intros Hw Hy Hn i Hi; [exact Logic.I|].
    rewrite tick_chain_cons. cbn [fst map both]. inversion Hw; inversion Hy; inversion Hn as [|? ? [? ?] ?]; subst.
    split; [apply Hx; auto|apply IH; auto]. destruct (way_step x i) as (_ & _ & ? & _); auto. congruence.
  Qed.
  Lemma const_length {X Y B} (b : B) (l : list X) (m : list Y) : length l = length m -> map (fun _ => b) l = map (fun _ => b) m.
  Proof. revert m; induction l; intros [|y m] H; cbn in *; try lia; auto. f_equal. apply IHl; lia. Qed.
  Ltac way2 H := destruct H as (? & ? & E & ? & ?); injection E as <- <-.
  Ltac way1 H := destruct H as (? & E & ?); injection E as <-.
  Lemma all_forgets x : forgets x.
  Proof.
    induction x using node_ind'; intros j Hw Hy Hj; try reflexivity; unfold way in Hy; cbn [lift] in Hy.
    - destruct Hy as (w & E & [_ W]). cbn in Hj. pose proof (way_reset ops u j W Hj) as K. cbn [NodeModel.tick]. destruct (u_tick ops u j). cbn. eauto.
    - way2 Hy. rewrite tick_Binop. destruct Hw as (W1 & W2 & W3). cbn [fst NodeModel.reset NodeModel.ins lift] in *. do 2 eexists. split; [reflexivity|].
      split; [apply IHx1|apply IHx2]; auto; rewrite ?skipn_length, ?firstn_length; lia.
    - way1 Hy. rewrite tick_Unop. cbn [fst NodeModel.reset NodeModel.ins lift] in *. eexists. split; [reflexivity|]. now apply IHx.
    - way2 Hy. rewrite tick_Pipe. destruct Hw as (W1 & W2 & W3). cbn [fst NodeModel.reset NodeModel.ins lift] in *. do 2 eexists. split; [reflexivity|].
      split; [apply IHx1|apply IHx2]; auto. destruct (way_step x1 j) as (_ & _ & ? & _); auto. lia.
    - way2 Hy. rewrite tick_Stack. destruct Hw as (W1 & W2). cbn [fst NodeModel.reset NodeModel.ins lift] in *. do 2 eexists. split; [reflexivity|].
      split; [apply IHx1|apply IHx2]; auto; rewrite ?skipn_length, ?firstn_length; lia.
    - way2 Hy. rewrite tick_Branch. destruct Hw as (W1 & W2 & W3). cbn [fst NodeModel.reset NodeModel.ins lift] in *. do 2 eexists. split; [reflexivity|].
      split; [apply IHx1|apply IHx2]; auto; lia.
    - way2 Hy. rewrite tick_Bus. destruct Hw as (W1 & W2 & W3 & W4). cbn [fst NodeModel.reset NodeModel.ins lift] in *. do 2 eexists. split; [reflexivity|].
      split; [apply IHx1|apply IHx2]; auto; lia.
    - way1 Hy. rewrite tick_Thru. cbn [fst NodeModel.reset NodeModel.ins lift] in *. eexists. split; [reflexivity|]. now apply IHx.
    - way1 Hy. apply both_way in H0. rewrite tick_MultiBus. destruct Hw as (W1 & W2). apply all_Forall in W1. cbv zeta. cbn [fst NodeModel.reset lift] in *. eexists. split; [reflexivity|].
      apply forgets_all with (hd_ins ops xs) (hd_outs ops xs); auto using map_length, uniform_hd. now apply Forall_const_map.
    - way1 Hy. apply both_way in H0. rewrite tick_MultiStack. destruct Hw as (W1 & W2). apply all_Forall in W1. cbv zeta. cbn [fst NodeModel.reset lift] in *. eexists. split; [reflexivity|].
      rewrite ins_MultiStack in Hj. apply forgets_all with (hd_ins ops xs) (hd_outs ops xs); auto using slices_length, slices_each, uniform_hd.
    - way1 Hy. apply both_way in H0. rewrite tick_Reduce. destruct Hw as (W1 & W2). apply all_Forall in W1. cbv zeta. cbn [fst NodeModel.reset lift] in *. eexists. split; [reflexivity|].
      rewrite ins_Reduce in Hj. apply forgets_all with (hd_ins ops xs) (hd_outs ops xs); auto using slices_length, slices_each, uniform_hd.
    - way1 Hy. apply both_way in H0. rewrite tick_MultiBranch. destruct Hw as (W1 & W2). apply all_Forall in W1. cbv zeta. cbn [fst NodeModel.reset lift] in *. eexists. split; [reflexivity|].
      apply forgets_all with (hd_ins ops xs) (hd_outs ops xs); auto using map_length, uniform_hd. now apply Forall_const_map.
    - way1 Hy. apply both_way in H0. rewrite tick_Chain. destruct Hw as (W1 & W2 & W3). pose proof (chain_uniform ops xs W2 W3). apply all_Forall in W1. cbn [fst NodeModel.reset lift] in *. eexists. split; [reflexivity|].
      apply forgets_chain with (hd_ins ops xs); auto.
    - way1 Hy. rewrite tick_Feedback. destruct Hw as (W1 & W2 & W3 & W4). cbv zeta. cbn [fst NodeModel.reset NodeModel.ins lift] in *.
      assert (L : length (zipw (a_add ar) j v) = ins x) by (rewrite zipw_length; lia).
      exists (reset (fst (tick x (zipw (a_add ar) j v)))). split; [|apply IHx; auto]. f_equal. apply const_length. destruct (way_step x (zipw (a_add ar) j v)) as (_ & _ & ? & _); auto. rewrite W4; lia.
    - way2 Hy. rewrite tick_Feedback2. destruct Hw as (W1 & W2 & W3 & W4 & W5 & W6 & W7). cbv zeta. cbn [fst NodeModel.reset NodeModel.ins lift] in *.
      assert (L : length (zipw (a_add ar) j v) = ins x1) by (rewrite zipw_length; lia).
      destruct (way_step x1 (zipw (a_add ar) j v)) as (_ & _ & V1 & _); auto.
      destruct (way_step x2 (snd (tick x1 (zipw (a_add ar) j v)))) as (_ & _ & V2 & _); auto; [lia|].
      exists (reset (fst (tick x1 (zipw (a_add ar) j v)))), (reset (fst (tick x2 (snd (tick x1 (zipw (a_add ar) j v)))))). split; [|split; [apply IHx1; auto|apply IHx2; auto; lia]]. f_equal. apply const_length. rewrite W7; lia.
  Qed.
  Lemma forgets_run l : forall x, wf x -> way x -> stream (ins x) l -> l <> [] -> AL (reset x) (reset (fst (BufModel.ticks tick x l))).
  Proof.
    induction l as [|i l IH]; intros x Hw Hy Hl Hn; [congruence|]. inversion Hl as [|? ? Hi Hl']; subst. cbn [BufModel.ticks].
    pose proof (all_forgets x i Hw Hy Hi) as K. destruct (way_step x i Hw Hy Hi) as (W1 & W2 & W3 & W4). destruct (tick x i) as [x' o]. cbn [fst snd] in *.
    destruct l as [|i' l]; [exact K|]. rewrite <- W4 in Hl'. specialize (IH x' W1 W2 Hl'). destruct (BufModel.ticks tick x' (i' :: l)) as [x'' os]. cbn [fst] in *.
    eapply lift_trans; [apply al_trans|exact K|apply IH; discriminate].
  Qed.
  Lemma each_Forall (p : node -> Prop) xs : each p xs <-> Forall p xs.
  Proof. induction xs; cbn; split; intros H; auto; try (inversion H; subst; split; auto; now apply IHxs). destruct H; constructor; auto. now apply IHxs. Qed.
  Lemma Forall_both (f : node -> node -> Prop) (g h : node -> node) xs : Forall (fun x => f (g x) (h x)) xs -> both f (map g xs) (map h xs).
  Proof. induction 1; cbn; auto. Qed.
  Lemma const_zero v : Forall (fun a => a = zero) v -> map (fun _ => zero) v = v.
  Proof. induction 1; cbn; congruence. Qed.
  Lemma fresh_way x : fresh ar (resettable ops) x -> way x.
  Proof.
    unfold way. induction x using node_ind'; cbn [fresh lift]; intros F; auto;
      try (destruct F as [F1 F2]; do 2 eexists; split; [reflexivity|]; split; auto; fail);
      try (eexists; split; [reflexivity|]; auto; fail);
      try (apply each_Forall in F; eexists; split; [reflexivity|]; rewrite <- (map_id xs); apply Forall_both; rewrite Forall_forall in *; intros z Hz; apply H; auto; fail).
    - destruct F as [F1 F2]. exists u. split; auto. split; auto. exists u, []. split; auto. split; auto. split; auto. constructor.
    - destruct F as [F1 F2]. eexists; split; [reflexivity|]; auto.
    - destruct F as (F1 & F2 & F3). do 2 eexists; split; [reflexivity|]; auto.
  Qed.
  Lemma fresh_reset x : fresh ar (resettable ops) x -> AL x (reset x).
  Proof.
    induction x using node_ind'; cbn [fresh lift NodeModel.reset]; intros F; auto;
      try (destruct F as [F1 F2]; do 2 eexists; split; [reflexivity|]; split; auto; fail);
      try (eexists; split; [reflexivity|]; auto; fail);
      try (apply each_Forall in F; eexists; split; [reflexivity|]; rewrite <- (map_id xs) at 1; apply Forall_both; rewrite Forall_forall in *; intros z Hz; apply H; auto; fail).
    - destruct F as [F1 F2]. exists (u_reset ops u). split; auto. assert (S0 : stream (u_ins ops u) (@nil (list A))) by constructor. pose proof (F2 _ S0) as K. split; [exact (alike_sym ops _ _ K)|]. split; auto. exact (alike_arity ops _ _ K F1).
    - now subst.
    - destruct F as [F1 F2]. rewrite (const_zero _ F2). eexists; split; [reflexivity|]; auto.
    - destruct F as (F1 & F2 & F3). rewrite (const_zero _ F3). do 2 eexists; split; [reflexivity|]; auto.
  Qed.
  Lemma reset_restores x l : wf x -> fresh ar (resettable ops) x -> stream (ins x) l -> NodeSpec.equiv ar ops (reset (fst (BufModel.ticks tick x l))) x.
  Proof.
    intros Hw Hf Hl. assert (L : AL x (reset (fst (BufModel.ticks tick x l)))).
    { destruct l as [|i l]; [exact (fresh_reset x Hf)|]. eapply lift_trans; [apply al_trans|exact (fresh_reset x Hf)|]. apply forgets_run; auto using fresh_way. discriminate. }
    destruct (lift_arity ops (al ops) (al_ar ops) _ _ L) as [E1 E2]. split; auto. split; auto. intros m Hm. rewrite <- E1 in Hm.
    symmetry. exact (proj1 (lift_ticks ar ops (al ops) (al_ar ops) (al_tick ops) m _ _ Hw L Hm)).
  Qed.
End Reset.
Section Expr.
  Context {A P U : Type}.
  Variable ar : arith A.
  Variable ops : unit_ops A P U.
  Notation node := (NodeModel.node A U).
  Notation ex := (@expr_ops A P U ar ops).
  Notation AL := (lift (al ops)).
  Lemma al_run l : forall x y : node, NodeModel.wf ops x -> AL x y -> stream (NodeModel.ins ops x) l ->
    played ex x l = played ex y l /\ AL (after ex x l) (after ex y l) /\ NodeModel.wf ops (after ex x l) /\ NodeModel.ins ops (after ex x l) = NodeModel.ins ops x /\
    NodeModel.outs ops (after ex x l) = NodeModel.outs ops x /\ stream (NodeModel.outs ops x) (played ex x l).
  Proof.
    induction l as [|i l IH]; intros x y Hw HL Hl; [repeat split; auto; constructor|]. inversion Hl as [|? ? Hi Hl']; subst. rewrite !after_cons, !played_cons. cbn [expr_ops u_tick].
    destruct (lift_tick ar ops (al ops) (al_ar ops) (al_tick ops) x y i Hw HL Hi) as (G1 & G2 & G3 & G4 & G5 & G6).
    rewrite <- G5 in Hl'. destruct (IH _ _ G1 G2 Hl') as (K1 & K2 & K3 & K4 & K5 & K6). rewrite G5 in K4. rewrite G6 in K5, K6.
    split; [now rewrite G3, K1|]. repeat (split; [assumption|]). constructor; assumption.
  Qed.
  Lemma expr_resettable x : NodeModel.wf ops x -> fresh ar (resettable ops) x -> resettable ex x.
  Proof.
    intros Hw Hf. split.
    - intros l Hl. destruct (al_run l x _ Hw (fresh_reset ar ops x Hf) Hl) as (_ & _ & _ & H1 & H2 & H3). auto.
    - intros l Hl. assert (L : AL x (NodeModel.reset ar ops (after ex x l))).
      { destruct l as [|i l]; [exact (fresh_reset ar ops x Hf)|]. eapply lift_trans; [apply al_trans|exact (fresh_reset ar ops x Hf)|]. apply (forgets_run ar ops (i :: l)); [exact Hw|exact (fresh_way ar ops x Hf)|exact Hl|discriminate]. }
      apply alike_sym. destruct (lift_arity ops (al ops) (al_ar ops) _ _ L) as [E1 E2]. split; [exact E1|]. split; [exact E2|]. intros m Hm.
      destruct (al_run m _ _ Hw L Hm) as (K1 & K2 & _). destruct (lift_arity ops (al ops) (al_ar ops) _ _ K2) as [E3 E4]. auto.
  Qed.
End Expr.
