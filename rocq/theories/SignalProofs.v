(* Soundness of signal flow analysis for any meaning of labels that the routing rules respect. *)
From Coq Require Import Reals Lra Lia.
From Verif Require Import SignalSpec.
From Verif Require Export StreamProofs.
Local Open Scope R_scope.
Local Open Scope nat_scope.

Section ExprInd.
  Context {F U : Type}.
  Variable Q : expr F U -> Prop.
  Hypothesis HLeaf : forall u, Q (XLeaf u).
  Hypothesis HPrim : forall p, Q (XPrim p).
  Hypothesis HBinop : forall k x y, Q x -> Q y -> Q (XBinop k x y).
  Hypothesis HUnop : forall k x, Q x -> Q (XUnop k x).
  Hypothesis HPipe : forall x y, Q x -> Q y -> Q (XPipe x y).
  Hypothesis HStack : forall x y, Q x -> Q y -> Q (XStack x y).
  Hypothesis HBranch : forall x y, Q x -> Q y -> Q (XBranch x y).
  Hypothesis HBus : forall x y, Q x -> Q y -> Q (XBus x y).
  Hypothesis HThru : forall x, Q x -> Q (XThru x).
  Hypothesis HMultiBus : forall xs, Forall Q xs -> Q (XMultiBus xs).
  Hypothesis HMultiStack : forall xs, Forall Q xs -> Q (XMultiStack xs).
  Hypothesis HReduce : forall k xs, Forall Q xs -> Q (XReduce k xs).
  Hypothesis HMultiBranch : forall xs, Forall Q xs -> Q (XMultiBranch xs).
  Hypothesis HChain : forall xs, Forall Q xs -> Q (XChain xs).
  Hypothesis HFeedback : forall x v f, Q x -> Q (XFeedback x v f).
  Hypothesis HFeedback2 : forall x y v f, Q x -> Q y -> Q (XFeedback2 x y v f).
  Fixpoint expr_ind' (x : expr F U) : Q x :=
    let many := fix many (xs : list (expr F U)) : Forall Q xs :=
      match xs with [] => Forall_nil Q | x :: r => Forall_cons x (expr_ind' x) (many r) end in
    match x with
    | XLeaf u => HLeaf u
    | XPrim p => HPrim p
    | XBinop k x y => HBinop k x y (expr_ind' x) (expr_ind' y)
    | XUnop k x => HUnop k x (expr_ind' x)
    | XPipe x y => HPipe x y (expr_ind' x) (expr_ind' y)
    | XStack x y => HStack x y (expr_ind' x) (expr_ind' y)
    | XBranch x y => HBranch x y (expr_ind' x) (expr_ind' y)
    | XBus x y => HBus x y (expr_ind' x) (expr_ind' y)
    | XThru x => HThru x (expr_ind' x)
    | XMultiBus xs => HMultiBus xs (many xs)
    | XMultiStack xs => HMultiStack xs (many xs)
    | XReduce k xs => HReduce k xs (many xs)
    | XMultiBranch xs => HMultiBranch xs (many xs)
    | XChain xs => HChain xs (many xs)
    | XFeedback x v f => HFeedback x v f (expr_ind' x)
    | XFeedback2 x y v f => HFeedback2 x y v f (expr_ind' x) (expr_ind' y)
    end.
End ExprInd.

Lemma nth_zipw {X Y Z} (f : X -> Y -> Z) l m i dx dy dz : i < length l -> i < length m -> nth i (zipw f l m) dz = f (nth i l dx) (nth i m dy).
Proof. revert m i; induction l as [|a l IH]; intros [|b m] [|i] H1 H2; cbn in *; try lia; auto. apply IH; lia. Qed.
Lemma repeat_app_firstn {X} (v : X) a b : a <= b -> firstn a (repeat v b) = repeat v a.
Proof. revert b; induction a; intros [|b] H; cbn; auto; try lia. f_equal. apply IHa; lia. Qed.

Lemma resize_eq {F} (s : list (signal F)) n : n <= length s -> resize s n = firstn n s.
Proof. intros H. unfold resize. rewrite firstn_app. replace (n - length s) with 0 by lia. cbn. now rewrite app_nil_r. Qed.
Lemma at_all_some {F} (s : list (signal F)) n c : at_all s n = Some c -> n <= length s /\ c = firstn n s.
Proof. unfold at_all. destruct (Nat.leb_spec n (length s)); [intros H0; split; [auto|congruence]|discriminate]. Qed.

Notation nmR := Rnum_ops.
Notation sig := (signal R).

(* the label of an output that depends on all inputs in an unspecified way *)
Definition arb_label (S : list sig) : sig :=
  match S with [] => Unknown | a :: r => fold_left (fun c s => combine_nonlinear nmR c s (n0 nmR)) r (distort nmR a (n0 nmR)) end.

Record respected {W} (M : meaning W) : Prop := {
  mc_ext : forall s f g, (forall w t, f w t = g w t) -> M s f -> M s g;
  mc_value : forall v, M (Value v) (fun _ _ => v);
  mc_bin : forall k s t f g, M s f -> M t g -> M (bin_route nmR k s t) (fun w n => bin_op nmR k (f w n) (g w n));
  mc_un : forall k s f, M s f -> M (un_route nmR k s) (fun w n => un_op nmR k (f w n));
  mc_scale : forall c s f, M s f -> M (sig_scale nmR s c) (fun w n => f w n * c)%R;
  mc_arb : forall S X g, labelled M (length S) S X ->
    (forall w w' t, (forall s, s <= t -> X w s = X w' s) -> g w t = g w' t :> R) -> M (arb_label S) g
}.

Section Sound.
  Context {W P U : Type}.
  Variable M : meaning W.
  Hypothesis HM : respected M.
  Variable ops : unit_ops R P U.
  Hypothesis Hu : unit_laws 0%R ops.
  Variable u_route : U -> R -> list sig -> option (list sig).
  Variable u_copes : U -> bool.
  Variable freq : R.
  Notation ar := R_arith.
  Notation output := (output ar ops).
  Notation node_of := (node_of nmR).
  Notation xins := (xins nmR ops).
  Notation xouts := (xouts nmR ops).
  Notation route := (route nmR ops u_route freq).
  Notation Lab := (labelled M).
  Notation fam := (W -> nat -> list R).

  Lemma lab_ext n S (X Y : fam) : (forall w t, X w t = Y w t) -> Lab n S X -> Lab n S Y.
  Proof.
    intros E (H1 & H2 & H3). split; [auto|split]. { intros w t. rewrite <- E. apply H2. }
    intros i Hi. eapply (mc_ext M HM); [|apply H3; exact Hi]. intros; cbn. now rewrite E.
  Qed.
  Lemma lab_labels n S S' (X : fam) : n <= length S' -> firstn n S = firstn n S' -> Lab n S X -> Lab n S' X.
  Proof.
    intros Hl E (H1 & H2 & H3). split; [auto|split; auto]. intros i Hi.
    rewrite <- (nth_firstn_lt S' n i) by auto. rewrite <- E, nth_firstn_lt by auto. auto.
  Qed.
  Lemma lab_firstn n S (X : fam) : Lab n S X -> Lab n (firstn n S) X.
  Proof.
    intros H. apply (lab_labels n S); auto; [rewrite firstn_length; destruct H; lia|].
    rewrite firstn_firstn. f_equal. lia.
  Qed.
  Lemma lab_copy n S (X : fam) i k c : Lab n S X -> i + k <= n -> copy S i k = Some c ->
    length c = k /\ Lab k c (fun w t => firstn k (skipn i (X w t))).
  Proof.
    unfold copy. destruct (Nat.leb_spec (i + k) (length S)) as [Hl|]; [|discriminate].
    intros (H1 & H2 & H3) Hi E. assert (c = firstn k (skipn i S)) as -> by congruence. clear E.
    assert (E : length (firstn k (skipn i S)) = k) by (rewrite firstn_length, skipn_length; lia).
    split; auto. split; [lia|split].
    - intros w t. rewrite firstn_length, skipn_length, H2. lia.
    - intros j Hj. rewrite nth_firstn_lt, nth_skipn_add by auto.
      eapply (mc_ext M HM); [|apply (H3 (i + j)); lia]. intros; cbn. now rewrite nth_firstn_lt, nth_skipn_add by auto.
  Qed.
  Lemma lab_app nx ny S1 S2 (X Y : fam) : length S1 = nx -> Lab nx S1 X -> Lab ny S2 Y -> Lab (nx + ny) (S1 ++ S2) (fun w t => X w t ++ Y w t).
  Proof.
    intros E (H1 & H2 & H3) (H4 & H5 & H6). split; [rewrite app_length; lia|split].
    - intros w t. rewrite app_length, H2, H5. lia.
    - intros i Hi. destruct (Nat.lt_ge_cases i nx) as [Hlt|Hge].
      + rewrite app_nth1 by lia. eapply (mc_ext M HM); [|apply H3; exact Hlt]. intros; cbn. rewrite app_nth1; auto. rewrite H2. auto.
      + rewrite app_nth2 by lia. rewrite E. eapply (mc_ext M HM); [|apply (H6 (i - nx)); lia]. intros; cbn. rewrite app_nth2 by (rewrite H2; lia).
        now rewrite H2.
  Qed.
  Lemma lab_append nx ny S1 S2 S' (X Y : fam) : Lab nx S1 X -> Lab ny S2 Y -> append S1 S2 nx ny = Some S' ->
    length S' = nx + ny /\ Lab (nx + ny) S' (fun w t => X w t ++ Y w t).
  Proof.
    intros H1 H2. unfold append. destruct (at_all S2 ny) as [b|] eqn:E; [|discriminate]. apply at_all_some in E as [E1 ->].
    intros E. assert (S' = resize S1 nx ++ firstn ny S2) as -> by congruence. pose proof H1 as (H3 & _).
    rewrite resize_eq by auto. assert (E2 : length (firstn nx S1) = nx) by (rewrite firstn_length; lia).
    split; [rewrite app_length, E2, firstn_length; lia|]. apply lab_app; auto using lab_firstn.
  Qed.
  Lemma lab_merge k n S1 S2 S' (X Y : fam) : Lab n S1 X -> Lab n S2 Y -> merge (bin_route nmR k) n S1 S2 = Some S' ->
    length S' = length S1 /\ Lab n S' (fun w t => zipw (bin_op nmR k) (X w t) (Y w t)).
  Proof.
    intros (H1 & H2 & H3) (H4 & H5 & H6). unfold merge.
    destruct (at_all S1 n) as [a|] eqn:E1; [|discriminate]. apply at_all_some in E1 as [E1 ->].
    destruct (at_all S2 n) as [b|] eqn:E2; [|discriminate]. apply at_all_some in E2 as [E2 ->].
    intros E. assert (S' = zipw (bin_route nmR k) (firstn n S1) (firstn n S2) ++ skipn n S1) as -> by congruence.
    assert (El : length (zipw (bin_route nmR k) (firstn n S1) (firstn n S2)) = n) by (rewrite zipw_length, !firstn_length; lia).
    split; [rewrite app_length, El, skipn_length; lia|]. split; [rewrite app_length; lia|split].
    - intros w t. rewrite zipw_length, H2, H5. lia.
    - intros i Hi. rewrite app_nth1 by lia. rewrite (nth_zipw _ _ _ _ Unknown Unknown) by (rewrite firstn_length; lia).
      rewrite !nth_firstn_lt by auto. eapply (mc_ext M HM); [|apply (mc_bin M HM); [apply H3|apply H6]; exact Hi].
      intros w t; cbn. rewrite (nth_zipw _ _ _ _ 0%R 0%R); auto; [rewrite H2|rewrite H5]; auto.
  Qed.
  Lemma combine_sum_bin s t : combine_sum nmR s t = bin_route nmR KAdd s t.
  Proof. reflexivity. Qed.
  Lemma merge_ext {F} (f g : signal F -> signal F -> signal F) n a b : (forall s t, f s t = g s t) -> merge f n a b = merge g n a b.
  Proof.
    intros H. unfold merge. destruct (at_all a n); auto. destruct (at_all b n); auto. do 2 f_equal.
    generalize l l0. clear - H. intros l; induction l as [|x l IH]; intros [|y m]; cbn; auto. now rewrite H, IH.
  Qed.
  Lemma lab_unop k n S1 c (X : fam) : Lab n S1 X -> at_all S1 n = Some c ->
    length (map (un_route nmR k) c ++ skipn n S1) = length S1 /\ Lab n (map (un_route nmR k) c ++ skipn n S1) (fun w t => map (un_op nmR k) (X w t)).
  Proof.
    intros (H1 & H2 & H3) E. apply at_all_some in E as [_ ->].
    assert (El : length (map (un_route nmR k) (firstn n S1)) = n) by (rewrite map_length, firstn_length; lia).
    split; [rewrite app_length, El, skipn_length; lia|]. split; [rewrite app_length; lia|split].
    - intros w t. rewrite map_length. apply H2.
    - intros i Hi. rewrite app_nth1 by lia. rewrite (nth_indep _ Unknown (un_route nmR k Unknown)) by lia. rewrite map_nth, nth_firstn_lt by auto.
      eapply (mc_ext M HM); [|apply (mc_un M HM k); apply H3; exact Hi]. intros w t; cbn.
      rewrite (nth_indep (map (un_op nmR k) (X w t)) 0%R (un_op nmR k 0%R)) by (rewrite map_length, H2; auto). now rewrite map_nth.
  Qed.

  (* routing rules *)
  Lemma routing_arb S n (X : fam) S' (Y : fam) m : length S = m -> Lab m S X -> routing_route nmR (Arbitrary (n0 nmR)) S n = Some S' ->
    (forall w, width n (Y w)) -> (forall w w' t, (forall s, s <= t -> X w s = X w' s) -> Y w t = Y w' t) ->
    length S' = n /\ Lab n S' Y.
  Proof.
    intros El HL E HY Hc. assert (S' = repeat (arb_label S) n) as ->.
    { unfold routing_route in E. destruct S; unfold arb_label; congruence. }
    split; [apply repeat_length|]. split; [rewrite repeat_length; auto|split; auto].
    intros i Hi. rewrite (nth_indep _ Unknown (arb_label S)) by (rewrite repeat_length; auto). rewrite nth_repeat.
    apply (mc_arb M HM S X); [rewrite El; auto|]. intros w w' t H. now rewrite (Hc w w' t H).
  Qed.
  Lemma lab_unknown (g : W -> nat -> R) : (forall w w' t, g w t = g w' t) -> M Unknown g.
  Proof.
    intros H. apply (mc_arb M HM [] (fun _ _ => [])); [|intros; apply H]. split; [cbn; auto|split; [intros w t; reflexivity|cbn; intros; lia]].
  Qed.
  Lemma routing_empty r n S' (Y : fam) : routing_route nmR r [] n = Some S' ->
    (forall w, width n (Y w)) -> (forall w w' t, Y w t = Y w' t) -> length S' = n /\ Lab n S' Y.
  Proof.
    intros E HY Hc. assert (S' = repeat Unknown n) as -> by (cbn in E; congruence).
    split; [apply repeat_length|]. split; [rewrite repeat_length; auto|split; auto].
    intros i Hi. rewrite nth_repeat. apply lab_unknown. intros w w' t. now rewrite (Hc w w' t).
  Qed.
  Lemma lab_of_seq n S m (X : fam) (pick : nat -> nat) : Lab m S X -> (forall i, i < n -> pick i < m) ->
    Lab n (map (fun i => nth (pick i) S Unknown) (seq 0 n)) (fun w t => map (fun i => nth (pick i) (X w t) 0%R) (seq 0 n)).
  Proof.
    intros (H1 & H2 & H3) Hp. split; [now rewrite map_length, seq_length|split].
    - intros w t. now rewrite map_length, seq_length.
    - intros i Hi. rewrite nth_map_seq by auto. eapply (mc_ext M HM); [|apply (H3 (pick i)); auto].
      intros; cbn. now rewrite nth_map_seq by auto.
  Qed.
  Lemma fold_sum (S : list sig) m (X : fam) (pick : nat -> nat) js : Lab m S X ->
    (forall j, In j js -> pick j < m) -> forall s f, M s f ->
    M (fold_left (fun c j => combine_sum nmR c (nth (pick j) S Unknown)) js s)
      (fun w t => fold_left Rplus (map (fun j => nth (pick j) (X w t) 0%R) js) (f w t)).
  Proof.
    intros HL. induction js as [|j js IH]; intros Hp s f Hs; cbn [fold_left map]; auto.
    eapply (mc_ext M HM); [|apply IH; [intros; apply Hp; now right|]].
    2:{ apply (mc_bin M HM KAdd); [exact Hs|]. apply HL. apply Hp. now left. }
    intros w t. reflexivity.
  Qed.

  Lemma join_tick_R n (l : list R) a r : l = a :: r -> join_tick ar n l = (fold_left Rplus r a / INR n)%R.
  Proof. intros ->. reflexivity. Qed.
  Lemma IZR_INR k : IZR (Z.of_nat k) = INR k.
  Proof. symmetry. apply INR_IZR_INZ. Qed.

  Lemma routing_join S m n S' (X : fam) : 0 < n -> length S = m * n -> Lab (m * n) S X ->
    routing_route nmR RJoin S m = Some S' ->
    length S' = m /\ Lab m S' (fun w t => map (fun j => join_tick ar n (strided ar m n j (X w t))) (seq 0 m)).
  Proof.
    intros Hn El HL. unfold routing_route. destruct S as [|a r] eqn:ES.
    { intros E. assert (m = 0) by (destruct m; auto; cbn in El; destruct n; cbn in El; lia). subst m.
      assert (S' = []) as -> by (cbn in E; congruence). split; auto. split; [auto|split; [intros w t; reflexivity|intros; lia]]. }
    rewrite <- ES in *. destruct (Nat.eqb_spec m 0) as [|Hm]; [discriminate|]. destruct (Nat.ltb_spec (length S) m); [discriminate|].
    intros E. match type of E with Some ?l = _ => assert (S' = l) as -> by congruence end. clear E.
    split; [now rewrite map_length, seq_length|]. split; [now rewrite map_length, seq_length|split].
    { intros w t. now rewrite map_length, seq_length. }
    intros i Hi. rewrite nth_map_seq by auto.
    assert (Eq : length S / m - 1 = n - 1) by (rewrite El, Nat.mul_comm, Nat.div_mul by auto; auto).
    rewrite Eq.
    eapply (mc_ext M HM); [|apply (mc_scale M HM); apply (fold_sum S (m * n) X (fun j => i + j * m)); [exact HL| |apply HL]].
    - intros w t. cbn beta. rewrite nth_map_seq by auto. unfold strided. destruct n as [|n]; [lia|].
      cbn [seq map]. rewrite Nat.mul_0_l, Nat.add_0_r. rewrite (join_tick_R (Datatypes.S n) _ _ _ eq_refl).
      replace (Datatypes.S n - 1) with n by lia. change (a_zero ar) with 0%R. unfold ofnat. cbn [ndiv nofZ Rnum_ops]. rewrite !IZR_INR, El.
      rewrite mult_INR. assert (INR m <> 0%R) by (apply not_0_INR; auto). assert (INR (Datatypes.S n) <> 0%R) by (apply not_0_INR; auto).
      unfold Rdiv. f_equal. field. auto.
    - intros j Hj. apply in_seq in Hj. nia.
    - nia.
  Qed.

  Definition ok (e : bool) (x : expr R U) : Prop :=
    forall S S' X, (e = true -> length S = xins x) -> Lab (xins x) S X -> route x S = Some S' ->
      Lab (xouts x) S' (fun w => output (node_of x) (X w)) /\ (tight e x = true -> length S' = xouts x).

  Variable pl : U -> Prop.
  Hypothesis Hleaf : forall u, pl u -> leaf_sound ops u_route u_copes M freq u.

  Lemma map_nth_seq (l : list R) n : length l = n -> map (fun i => nth i l 0%R) (seq 0 n) = l.
  Proof. intros <-. exact (map_nth_seq_id ar l). Qed.

  Ltac some H := match type of H with Some ?l = Some ?s => assert (s = l) by congruence; subst s; clear H end.

  Lemma prim_ok e p : wf ops (prim_node nmR p) -> safe u_copes (U := U) e (XPrim p) = true -> over pl nmR (XPrim p) -> ok e (XPrim p).
  Proof.
    intros Hw Hs Hp S S' X He HL E. unfold SignalModel.xins, SignalModel.xouts in *. cbn [SignalModel.node_of] in *.
    pose proof HL as (HL1 & HL2 & HL3).
    assert (Hw' : forall w, width (outs ops (prim_node nmR p)) (output (prim_node nmR p) (X w))).
    { intros w. apply (output_width ar ops Hu); auto. }
    cbn [SignalModel.route] in E. destruct p; cbn [prim_route prim_node ins outs tight safe] in *.
    - some E. split; [|auto]. eapply lab_ext; [|exact HL]. intros w t. now rewrite (output_stateless ar ops (MultiPass n) (fun i => i)).
    - some E. split; [|auto]. eapply lab_ext; [|exact HL]. intros w t. now rewrite (output_stateless ar ops Pass (fun i => i)).
    - some E. split; auto. split; [auto|split; auto; intros; lia].
    - some E. rewrite map_length. split; auto. split; [rewrite map_length; auto|split; auto].
      intros i Hi. rewrite (nth_indep _ Unknown (Value (nth i v 0%R))) by (rewrite map_length; auto). rewrite (map_nth Value).
      eapply (mc_ext M HM); [|rewrite (nth_indep v _ 0%R) by auto; apply (mc_value M HM)].
      intros w t; cbn beta. now rewrite (output_stateless ar ops (Constant v) (fun _ => v)).
    - specialize (He Hs). destruct S as [|s0 [|s1 S1]]; cbn in He; try lia. cbn [routing_route length] in E. some E.
      rewrite map_length, seq_length. split; auto.
      eapply lab_ext; [|apply (lab_of_seq n [s0] 1 X (fun i => i mod 1)); auto; intros; apply Nat.mod_upper_bound; lia].
      intros w t; cbn beta. rewrite (output_stateless ar ops (Split n) (fun i => repeat (nth 0 i 0%R) n)) by reflexivity.
      transitivity (map (fun _ : nat => nth 0 (X w t) 0%R) (seq 0 n)); [apply map_ext; intros; now rewrite Nat.mod_1_r|].
      rewrite map_const_repeat. now rewrite seq_length.
    - specialize (He Hs). destruct S as [|s0 S1] eqn:ES.
      + cbn in He. apply routing_empty with (Y := fun w => output (MultiSplit m n) (X w)) in E; auto; [tauto|].
        intros w w' t. rewrite !(output_stateless ar ops (MultiSplit m n) (fun inp => map (fun i => nth (i mod m) inp 0%R) (seq 0 (m * n)))) by reflexivity.
        rewrite <- He. reflexivity.
      + rewrite <- ES in *. assert (Hm : m <> 0) by (rewrite <- He, ES; cbn; lia).
        assert (E' : Some (map (fun i => nth (i mod length S) S Unknown) (seq 0 (m * n))) = Some S') by (rewrite <- E, ES; reflexivity). some E'.
        rewrite map_length, seq_length. split; auto. rewrite He.
        eapply lab_ext; [|apply (lab_of_seq (m * n) S m X (fun i => i mod m)); auto; intros; apply Nat.mod_upper_bound; auto].
        intros w t; cbn beta. now rewrite (output_stateless ar ops (MultiSplit m n) (fun inp => map (fun i => nth (i mod m) inp 0%R) (seq 0 (m * n)))).
    - specialize (He Hs). cbn in Hw. destruct (routing_join S 1 n S' X) as [H1 H2]; auto; rewrite ?Nat.mul_1_l; auto.
      split; auto. eapply lab_ext; [|exact H2]. intros w t. cbn beta.
      rewrite (output_stateless ar ops (Join n) (fun inp => [join_tick ar n inp])) by reflexivity. cbn [seq map]. do 2 f_equal.
      transitivity (map (fun i => nth i (X w t) 0%R) (seq 0 n)); [|apply map_nth_seq; apply HL2].
      unfold strided. apply map_ext. intros i. cbn. f_equal. lia.
    - specialize (He Hs). cbn in Hw. destruct (routing_join S m n S' X) as [H1 H2]; auto.
      split; auto. eapply lab_ext; [|exact H2]. intros w t. cbn beta.
      now rewrite (output_stateless ar ops (MultiJoin m n) (fun inp => map (fun j => join_tick ar n (strided ar m n j inp)) (seq 0 m))).
    - specialize (He Hs). destruct S as [|s0 S1] eqn:ES.
      + cbn in He. apply routing_empty with (Y := fun w => output (Reverse n) (X w)) in E; auto; [tauto|].
        intros w w' t. rewrite !(output_stateless ar ops (Reverse n) (fun inp => map (fun i => nth (n - 1 - i) inp 0%R) (seq 0 n))) by reflexivity.
        rewrite <- He. reflexivity.
      + rewrite <- ES in *.
        assert (E' : (if Nat.eqb (length S) n then Some (map (fun i => nth (length S - 1 - i) S Unknown) (seq 0 n)) else None) = Some S') by (rewrite <- E, ES; reflexivity).
        rewrite He, Nat.eqb_refl in E'. some E'. rewrite map_length, seq_length. split; auto.
        eapply lab_ext; [|apply (lab_of_seq n S n X (fun i => n - 1 - i)); auto; intros; lia].
        intros w t; cbn beta. now rewrite (output_stateless ar ops (Reverse n) (fun inp => map (fun i => nth (n - 1 - i) inp 0%R) (seq 0 n))).
    - specialize (He Hs). destruct S; [|discriminate].
      apply routing_empty with (Y := fun w => output (Impulse n v (n1 nmR)) (X w)) in E; auto; [tauto|].
      intros w w' t. apply output_causal. intros s _. pose proof (HL2 w s). pose proof (HL2 w' s).
      destruct (X w s), (X w' s); cbn in *; auto; discriminate.
    - specialize (He Hs). cbn in Hp. subst r.
      apply routing_arb with (X := X) (m := i) (Y := fun w => output (MapNode i o f) (X w)) in E; auto; [tauto|].
      intros w w' t H. apply output_causal. auto.
  Qed.

  (* several children: what each gets (labels and streams) and what it yields *)
  Definition yields (n : nat) (x : expr R U) (p : option (list sig) * fam) : Prop :=
    forall o, (match fst p with Some i => route x i | None => None end) = Some o -> Lab n o (fun w => output (node_of x) (snd p w)).
  Definition results (xs : list (expr R U)) (ps : list (option (list sig) * fam)) : W -> nat -> list (list R) :=
    fun w t => zipw (fun x p => output (node_of x) (snd p w) t) xs ps.
  Lemma fold_ok k n xs ps : Forall2 (yields n) xs ps -> forall acc (A : fam) S', Lab n acc A ->
    route_fold route (bin_route nmR k) n xs (map fst ps) acc = Some S' ->
    length S' = length acc /\ Lab n S' (fun w t => fold_left (zipw (bin_op nmR k)) (results xs ps w t) (A w t)).
  Proof.
    intros H. induction H as [|x [i X] xs ps Hx Hxs IH]; intros acc A S' HA E; cbn [map fst snd] in *.
    - cbn in E. some E. split; auto.
    - cbn in E. destruct i as [i|]; [|discriminate]. destruct (route x i) as [o|] eqn:Eo; [|discriminate].
      specialize (Hx o Eo). cbn [snd] in Hx.
      destruct (merge (bin_route nmR k) n acc o) as [acc'|] eqn:Em; [|discriminate].
      destruct (lab_merge k n acc o acc' A _ HA Hx Em) as [H1 H2].
      destruct (IH _ _ _ H2 E) as [H3 H4]. split; [congruence|]. eapply lab_ext; [|exact H4]. reflexivity.
  Qed.
  Lemma cat_ok n xs ps : Forall2 (yields n) xs ps -> forall S',
    route_cat route n xs (map fst ps) = Some S' ->
    length S' = length xs * n /\ Lab (length xs * n) S' (fun w t => concat (results xs ps w t)).
  Proof.
    intros H. induction H as [|x [i X] xs ps Hx Hxs IH]; intros S' E; cbn [map fst snd length] in *.
    - cbn in E. some E. split; auto. split; [auto|split; [intros w t; reflexivity|cbn; intros; lia]].
    - cbn in E. destruct i as [i|]; [|discriminate]. destruct (route x i) as [o|] eqn:Eo; [|discriminate].
      specialize (Hx o Eo). cbn [snd] in Hx.
      destruct (at_all o n) as [a|] eqn:Ea; [|discriminate]. apply at_all_some in Ea as [Ea ->].
      destruct (route_cat route n xs (map fst ps)) as [b|] eqn:Eb; [|discriminate]. some E.
      destruct (IH b eq_refl) as [H1 H2]. assert (El : length (firstn n o) = n) by (rewrite firstn_length; lia).
      split; [rewrite app_length, El; cbn; lia|]. cbn [Nat.mul]. eapply lab_ext; [|apply lab_app; [exact El|apply lab_firstn; exact Hx|exact H2]].
      reflexivity.
  Qed.

  Lemma uniform_of xs : uniform ops (map node_of xs) ->
    Forall (fun x => xins x = hd_ins ops (map node_of xs) /\ xouts x = hd_outs ops (map node_of xs)) xs.
  Proof. intros H. apply uniform_hd in H. rewrite Forall_map in H. exact H. Qed.
  Lemma all_map p (xs : list (expr R U)) : all p (map node_of xs) <-> Forall (fun x => p (node_of x)) xs.
  Proof. rewrite all_Forall. apply Forall_map. Qed.
  Lemma plain_list xs : ((fix go (xs : list (expr R U)) : Prop := match xs with [] => True | a :: r => over pl nmR a /\ go r end) xs) <-> Forall (over pl nmR) xs.
  Proof. induction xs as [|x xs IH]; split; intros H; auto; [destruct H; constructor; tauto|inversion H; subst; tauto]. Qed.

  Definition good (x : expr R U) : Prop := forall e, wf ops (node_of x) -> safe u_copes e x = true -> over pl nmR x -> ok e x.

  (* the children after the first, all with the same input *)
  Lemma same_yields e n m xs S (X : fam) : (e = true -> length S = n) -> Lab n S X ->
    Forall good xs -> Forall (fun x => wf ops (node_of x)) xs -> Forall (over pl nmR) xs -> forallb (safe u_copes e) xs = true ->
    Forall (fun x => xins x = n /\ xouts x = m) xs -> Forall2 (yields m) xs (map (fun _ => (Some S, X)) xs).
  Proof.
    intros He HL. induction xs as [|x xs IH]; intros H1 H2 H3 H4 H5; cbn [map]; constructor.
    - inversion H1; inversion H2; inversion H3; inversion H5; subst. apply andb_prop in H4 as [H4 _].
      intros o Eo. cbn [fst snd] in *. destruct H18 as [<- <-]. eapply (H6 e); eauto.
    - inversion H1; inversion H2; inversion H3; inversion H5; subst. apply andb_prop in H4 as [_ H4]. apply IH; auto.
  Qed.
  (* the children after the first, each with its own part of the input *)
  Lemma part_yields n m tot xs S (X : fam) i0 : Lab tot S X -> (i0 + length xs) * n <= tot ->
    Forall good xs -> Forall (fun x => wf ops (node_of x)) xs -> Forall (over pl nmR) xs -> forallb (safe u_copes true) xs = true ->
    Forall (fun x => xins x = n /\ xouts x = m) xs ->
    Forall2 (yields m) xs (map (fun i => (copy S (i * n) n, fun w t => firstn n (skipn (i * n) (X w t)))) (seq i0 (length xs))).
  Proof.
    intros HL. revert i0. induction xs as [|x xs IH]; intros i0 Ht H1 H2 H3 H4 H5; cbn [map length seq] in *; constructor.
    - inversion H1; inversion H2; inversion H3; inversion H5; subst. apply andb_prop in H4 as [H4 _].
      intros o Eo. cbn [fst snd] in *. destruct H18 as [<- <-]. destruct (copy S (i0 * xins x) (xins x)) as [c|] eqn:Ec; [|discriminate].
      destruct (lab_copy tot S X (i0 * xins x) (xins x) c HL) as [K1 K2]; auto; [nia|]. eapply (H6 true); eauto.
    - inversion H1; inversion H2; inversion H3; inversion H5; subst. apply andb_prop in H4 as [_ H4]. apply IH; auto. nia.
  Qed.
  Lemma results_all xs ps w t : results xs ps w t = all_outputs ar ops (map node_of xs) (map (fun p => snd p w) ps) t.
  Proof. unfold results, all_outputs. rewrite zipw_map_l, zipw_map_r. reflexivity. Qed.
  Lemma zip0 (l : list R) n : length l = n -> zipw Rplus (repeat 0%R n) l = l.
  Proof. intros <-. induction l; cbn; auto. rewrite Rplus_0_l. now f_equal. Qed.

  Lemma chain_ok xs : Forall good xs -> forall e n S S' (X : fam), Forall (fun x => wf ops (node_of x)) xs -> Forall (over pl nmR) xs ->
    (fix go (e : bool) (xs : list (expr R U)) : bool := match xs with [] => true | a :: r => safe u_copes e a && go (tight e a) r end) e xs = true ->
    Forall (fun x => xins x = n /\ xouts x = n) xs -> (e = true -> length S = n) -> Lab n S X -> route_chain route xs S = Some S' ->
    Lab n S' (fun w => chain_output ar ops (map node_of xs) (X w)) /\
    ((fix go (e : bool) (xs : list (expr R U)) : bool := match xs with [] => e | a :: r => go (tight e a) r end) e xs = true -> length S' = n).
  Proof.
    induction 1 as [|x xs Hx Hxs IH]; intros e n S S' X H2 H3 H4 H5 He HL E.
    - cbn in E. some E. cbn [map chain_output]. split; auto.
    - cbn in E. destruct (route x S) as [o|] eqn:Eo; [|discriminate].
      apply Forall_cons_iff in H2 as [W1 W2]; apply Forall_cons_iff in H3 as [P1 P2]; apply Forall_cons_iff in H5 as [[Ei Eo'] N2]. apply andb_prop in H4 as [H4 H4'].
      destruct (Hx e W1 H4 P1 S o X) as [Ha Hb]; auto; [rewrite Ei; auto|rewrite Ei; auto|].
      rewrite Eo' in *. eapply IH; eauto.
  Qed.

  Lemma all_good x : good x.
  Proof.
    induction x using expr_ind'; intros e Hw Hs Hp.
    - intros S S' X He HL E. cbn [SignalModel.route] in E. unfold SignalModel.xins, SignalModel.xouts in *. cbn [SignalModel.node_of ins outs safe tight] in *.
      destruct (Hleaf u Hp S S' X HL) as [H1 H2]; auto. { apply orb_prop in Hs as [->|Hs]; auto. }
    - apply prim_ok; auto.
    - intros S S' X He HL E. cbn [SignalModel.route] in E. destruct Hw as (H1 & H2 & H3). apply andb_prop in Hs as [Hs1 Hs2]. destruct Hp as [Hp1 Hp2].
      change (xins (XBinop k x1 x2)) with (xins x1 + xins x2) in *. change (xouts (XBinop k x1 x2)) with (xouts x1) in *.
      destruct (copy S 0 (xins x1)) as [c1|] eqn:E1; [|discriminate]. destruct (copy S (xins x1) (xins x2)) as [c2|] eqn:E2; [|discriminate].
      destruct (lab_copy (xins x1 + xins x2) S X 0 (xins x1) c1 HL ltac:(lia) E1) as [L1 L1']. destruct (lab_copy (xins x1 + xins x2) S X (xins x1) (xins x2) c2 HL ltac:(lia) E2) as [L2 L2'].
      destruct (route x1 c1) as [o1|] eqn:Eo1; [|discriminate]. destruct (route x2 c2) as [o2|] eqn:Eo2; [|discriminate].
      destruct (IHx1 true H1 Hs1 Hp1 c1 o1 _ (fun _ => L1) L1' Eo1) as [R1 T1]. destruct (IHx2 true H2 Hs2 Hp2 c2 o2 _ (fun _ => L2) L2' Eo2) as [R2 T2].
      replace (xouts x2) with (xouts x1) in R2 by exact H3.
      destruct (lab_merge k _ _ _ _ _ _ R1 R2 E) as [El HLab]. split.
      + eapply lab_ext; [|exact HLab]. intros w t. cbn beta. cbn [SignalModel.node_of]. rewrite output_Binop by auto. f_equal.
        apply output_causal. intros s _. cbv beta. unfold hi. apply firstn_all2. rewrite skipn_length. destruct HL as (_ & HX & _). rewrite HX.
        change (ins ops (node_of x1)) with (xins x1). lia.
      + cbn [tight]. intros T. rewrite El. auto.
    - intros S S' X He HL E. cbn [SignalModel.route] in E.
      change (xins (XUnop k x)) with (xins x) in *. change (xouts (XUnop k x)) with (xouts x) in *.
      destruct (route x S) as [o|] eqn:Eo; [|discriminate]. destruct (IHx e Hw Hs Hp S o X He HL Eo) as [R1 T1].
      destruct (at_all o (xouts x)) as [c|] eqn:Ec; [|discriminate]. some E.
      destruct (lab_unop k _ _ _ _ R1 Ec) as [El HLab]. split.
      + eapply lab_ext; [|exact HLab]. intros w t. cbn beta. cbn [SignalModel.node_of]. now rewrite output_Unop.
      + cbn [tight]. intros T. rewrite El. auto.
    - intros S S' X He HL E. cbn [SignalModel.route] in E. destruct Hw as (H1 & H2 & H3). apply andb_prop in Hs as [Hs1 Hs2]. destruct Hp as [Hp1 Hp2].
      change (xins (XPipe x1 x2)) with (xins x1) in *. change (xouts (XPipe x1 x2)) with (xouts x2) in *.
      destruct (route x1 S) as [o|] eqn:Eo; [|discriminate]. destruct (IHx1 e H1 Hs1 Hp1 S o X He HL Eo) as [R1 T1].
      change (xouts x1 = xins x2) in H3. rewrite H3 in *.
      destruct (IHx2 _ H2 Hs2 Hp2 o S' _ T1 R1 E) as [R2 T2]. split; [|exact T2].
      eapply lab_ext; [|exact R2]. intros w t. cbn beta. cbn [SignalModel.node_of]. now rewrite output_Pipe.
    - intros S S' X He HL E. cbn [SignalModel.route] in E. destruct Hw as (H1 & H2). apply andb_prop in Hs as [Hs1 Hs2]. destruct Hp as [Hp1 Hp2].
      change (xins (XStack x1 x2)) with (xins x1 + xins x2) in *. change (xouts (XStack x1 x2)) with (xouts x1 + xouts x2) in *.
      destruct (copy S 0 (xins x1)) as [c1|] eqn:E1; [|discriminate]. destruct (copy S (xins x1) (xins x2)) as [c2|] eqn:E2; [|discriminate].
      destruct (lab_copy (xins x1 + xins x2) S X 0 (xins x1) c1 HL ltac:(lia) E1) as [L1 L1']. destruct (lab_copy (xins x1 + xins x2) S X (xins x1) (xins x2) c2 HL ltac:(lia) E2) as [L2 L2'].
      destruct (route x1 c1) as [o1|] eqn:Eo1; [|discriminate]. destruct (route x2 c2) as [o2|] eqn:Eo2; [|discriminate].
      destruct (IHx1 true H1 Hs1 Hp1 c1 o1 _ (fun _ => L1) L1' Eo1) as [R1 T1]. destruct (IHx2 true H2 Hs2 Hp2 c2 o2 _ (fun _ => L2) L2' Eo2) as [R2 T2].
      destruct (lab_append _ _ _ _ _ _ _ R1 R2 E) as [El HLab]. split; [|auto].
      eapply lab_ext; [|exact HLab]. intros w t. cbn beta. cbn [SignalModel.node_of]. rewrite output_Stack by auto. f_equal.
      apply output_causal. intros s _. cbv beta. unfold hi. apply firstn_all2. rewrite skipn_length. destruct HL as (_ & HX & _). rewrite HX.
      change (ins ops (node_of x1)) with (xins x1). lia.
    - intros S S' X He HL E. cbn [SignalModel.route] in E. destruct Hw as (H1 & H2 & H3). apply andb_prop in Hs as [Hs1 Hs2]. destruct Hp as [Hp1 Hp2].
      change (xins (XBranch x1 x2)) with (xins x1) in *. change (xouts (XBranch x1 x2)) with (xouts x1 + xouts x2) in *. change (xins x1 = xins x2) in H3.
      destruct (route x1 S) as [o1|] eqn:Eo1; [|discriminate]. destruct (route x2 S) as [o2|] eqn:Eo2; [|discriminate].
      destruct (IHx1 e H1 Hs1 Hp1 S o1 X He HL Eo1) as [R1 T1]. rewrite H3 in *. destruct (IHx2 e H2 Hs2 Hp2 S o2 X He HL Eo2) as [R2 T2].
      destruct (lab_append _ _ _ _ _ _ _ R1 R2 E) as [El HLab]. split; [|auto].
      eapply lab_ext; [|exact HLab]. intros w t. cbn beta. cbn [SignalModel.node_of]. now rewrite output_Branch.
    - intros S S' X He HL E. cbn [SignalModel.route] in E. destruct Hw as (H1 & H2 & H3 & H4). apply andb_prop in Hs as [Hs1 Hs2]. destruct Hp as [Hp1 Hp2].
      change (xins (XBus x1 x2)) with (xins x1) in *. change (xouts (XBus x1 x2)) with (xouts x1) in *. change (xins x1 = xins x2) in H3. change (xouts x1 = xouts x2) in H4.
      destruct (route x1 S) as [o1|] eqn:Eo1; [|discriminate]. destruct (route x2 S) as [o2|] eqn:Eo2; [|discriminate].
      destruct (IHx1 e H1 Hs1 Hp1 S o1 X He HL Eo1) as [R1 T1]. rewrite H3 in *. destruct (IHx2 e H2 Hs2 Hp2 S o2 X He HL Eo2) as [R2 T2].
      rewrite <- H4 in R2. change (combine_sum nmR) with (bin_route nmR KAdd) in E.
      destruct (lab_merge KAdd _ _ _ _ _ _ R1 R2 E) as [El HLab]. split; [|cbn [tight]; intros T; rewrite El; auto].
      eapply lab_ext; [|exact HLab]. intros w t. cbn beta. cbn [SignalModel.node_of]. now rewrite output_Bus.
    - intros S S' X He HL E. cbn [SignalModel.route] in E.
      change (xins (XThru x)) with (xins x) in *. change (xouts (XThru x)) with (xins x) in *.
      destruct (route x S) as [o|] eqn:Eo; [|discriminate]. destruct (IHx e Hw Hs Hp S o X He HL Eo) as [R1 T1].
      pose proof R1 as (R2 & R3 & R4). pose proof HL as (HL1 & HL2 & HL3).
      destruct (Nat.leb_spec (xouts x) (xins x)) as [Hle|Hgt].
      + destruct (copy S (xouts x) (xins x - xouts x)) as [c|] eqn:Ec; [|discriminate]. some E.
        destruct (lab_copy (xins x) S X (xouts x) (xins x - xouts x) c HL ltac:(lia) Ec) as [L1 L1']. rewrite resize_eq by auto.
        assert (El : length (firstn (xouts x) o) = xouts x) by (rewrite firstn_length; lia).
        split; [|intros _; rewrite app_length; lia].
        replace (xins x) with (xouts x + (xins x - xouts x)) by lia.
        eapply lab_ext; [|apply lab_app; [exact El|apply lab_firstn; exact R1|exact L1']].
        intros w t. cbn beta. cbn [SignalModel.node_of]. rewrite output_Thru by auto. rewrite (thru_long ar ops); auto; [|apply HL2|apply R3].
        f_equal. apply firstn_all2. rewrite skipn_length, HL2. change (outs ops (node_of x)) with (xouts x). lia.
      + some E. rewrite resize_eq by lia. assert (El : length (firstn (xins x) o) = xins x) by (rewrite firstn_length; lia).
        split; [|intros _; auto].
        split; [lia|split].
        * intros w t. cbn [SignalModel.node_of]. rewrite output_Thru by auto. rewrite (thru_short ar ops); auto; [|apply HL2|apply R3]. rewrite firstn_length, R3. change (ins ops (node_of x)) with (xins x). lia.
        * intros i Hi. rewrite nth_firstn_lt by auto. eapply (mc_ext M HM); [|apply R4; lia]. intros w t. cbn beta. cbn [SignalModel.node_of].
          rewrite output_Thru by auto. rewrite (thru_short ar ops); auto; [|apply HL2|apply R3]. now rewrite nth_firstn_lt.
    - intros S S' X He HL E. cbn [SignalModel.route] in E. destruct xs as [|a r]; [discriminate|].
      destruct Hw as (Hw & Hn). apply all_map in Hw. apply uniform_of in Hn. apply (proj1 (plain_list (a :: r))) in Hp.
      change (xins (XMultiBus (a :: r))) with (xins a) in *. change (xouts (XMultiBus (a :: r))) with (xouts a) in *.
      change (hd_ins ops (map node_of (a :: r))) with (xins a) in *. change (hd_outs ops (map node_of (a :: r))) with (xouts a) in *.
      apply Forall_cons_iff in H as [G1 G2]; apply Forall_cons_iff in Hw as [W1 W2]; apply Forall_cons_iff in Hn as [N1 N2]; apply Forall_cons_iff in Hp as [P1 P2]. cbn [safe forallb] in Hs. apply andb_prop in Hs as [Hs1 Hs2].
      destruct (route a S) as [o|] eqn:Eo; [|discriminate]. destruct (G1 e W1 Hs1 P1 S o X He HL Eo) as [R1 T1].
      change (combine_sum nmR) with (bin_route nmR KAdd) in E.
      assert (Ep : map (fun _ : expr R U => Some S) r = map fst (map (fun _ : expr R U => (Some S, X)) r)) by (rewrite map_map; reflexivity).
      rewrite Ep in E. destruct (fold_ok KAdd (xouts a) r _ (same_yields e (xins a) (xouts a) r S X He HL G2 W2 P2 Hs2 N2) o _ S' R1 E) as [El HLab].
      split; [|cbn [tight]; intros T; rewrite El; auto].
      eapply lab_ext; [|exact HLab]. intros w t. cbn beta. cbn [SignalModel.node_of]. rewrite output_MultiBus by auto.
      rewrite results_all, map_map. cbn [snd]. rewrite map_const_repeat, map_length. cbn [map length repeat]. unfold all_outputs at 2. cbn [zipw fold_left].
      fold (all_outputs ar ops (map node_of r) (repeat (X w) (length r)) t). cbn [hd_outs]. change (outs ops (node_of a)) with (xouts a).
      change (a_add ar) with Rplus. change (a_zero ar) with 0%R. cbn [bin_op nadd Rnum_ops]. rewrite zip0; [reflexivity|]. destruct R1 as (_ & R1 & _). apply R1.
    - intros S S' X He HL E. cbn [SignalModel.route] in E. destruct xs as [|a r]; [destruct Hw as [_ []]|].
      destruct Hw as (Hw & Hn). apply all_map in Hw. apply uniform_of in Hn. apply (proj1 (plain_list (a :: r))) in Hp.
      change (hd_ins ops (map node_of (a :: r))) with (xins a) in *. change (hd_outs ops (map node_of (a :: r))) with (xouts a) in *.
      assert (Ei : xins (XMultiStack (a :: r)) = length (a :: r) * xins a) by (unfold SignalModel.xins; cbn [SignalModel.node_of]; rewrite ins_MultiStack, map_length; reflexivity).
      assert (Eu : xouts (XMultiStack (a :: r)) = length (a :: r) * xouts a) by (unfold SignalModel.xouts; cbn [SignalModel.node_of]; rewrite outs_MultiStack, map_length; reflexivity).
      rewrite Ei in *. rewrite Eu in *. clear Ei Eu.
      apply Forall_cons_iff in H as [G1 G2]; apply Forall_cons_iff in Hw as [W1 W2]; apply Forall_cons_iff in Hn as [N1 N2]; apply Forall_cons_iff in Hp as [P1 P2]. cbn [safe forallb] in Hs. apply andb_prop in Hs as [Hs1 Hs2].
      destruct (route a S) as [o|] eqn:Eo; [|discriminate].
      assert (HLa : Lab (xins a) S (fun w t => firstn (xins a) (X w t))).
      { destruct HL as (L1 & L2 & L3). cbn [length] in *. split; [lia|split].
        - intros w t. rewrite firstn_length, L2. lia.
        - intros i Hi. eapply (mc_ext M HM); [|apply L3; lia]. intros; cbn. now rewrite nth_firstn_lt. }
      destruct (G1 _ W1 Hs1 P1 S o _ ltac:(intros Hb; apply andb_prop in Hb as [He1 He2]; rewrite (He He1); destruct r; [cbn; lia|discriminate]) HLa Eo) as [R1 T1].
      assert (Ep : map (fun i : nat => copy S (i * xins a) (xins a)) (seq 1 (length r)) =
                   map fst (map (fun i => (copy S (i * xins a) (xins a), fun (w : W) (t : nat) => firstn (xins a) (skipn (i * xins a) (X w t)))) (seq 1 (length r)))) by (rewrite map_map; reflexivity).
      rewrite Ep in E. destruct (route_cat route (xouts a) r _) as [rest|] eqn:Er; [|discriminate]. some E.
      destruct (cat_ok (xouts a) r _ (part_yields (xins a) (xouts a) _ r S X 1 HL ltac:(cbn; lia) G2 W2 P2 Hs2 N2) rest Er) as [El HLab].
      pose proof R1 as (R2 & R3 & R4). rewrite resize_eq by auto.
      assert (El' : length (firstn (xouts a) o) = xouts a) by (rewrite firstn_length; lia).
      split; [|intros _; rewrite app_length; cbn; lia]. cbn [length Nat.mul].
      eapply lab_ext; [|apply lab_app; [exact El'|apply lab_firstn; exact R1|exact HLab]].
      intros w t. cbn beta. cbn [SignalModel.node_of]. rewrite output_MultiStack by auto. rewrite results_all, map_map. cbn [snd map length]. rewrite map_length.
      unfold parts. cbn [seq map]. unfold all_outputs at 2. cbn [zipw concat hd_ins]. reflexivity.
    - intros S S' X He HL E. cbn [SignalModel.route] in E. destruct xs as [|a r]; [discriminate|].
      destruct Hw as (Hw & Hn). apply all_map in Hw. apply uniform_of in Hn. apply (proj1 (plain_list (a :: r))) in Hp.
      change (hd_ins ops (map node_of (a :: r))) with (xins a) in *. change (hd_outs ops (map node_of (a :: r))) with (xouts a) in *.
      assert (Ei : xins (XReduce k (a :: r)) = length (a :: r) * xins a) by (unfold SignalModel.xins; cbn [SignalModel.node_of]; rewrite ins_Reduce, map_length; reflexivity).
      change (xouts (XReduce k (a :: r))) with (xouts a) in *.
      rewrite Ei in *. clear Ei.
      apply Forall_cons_iff in H as [G1 G2]; apply Forall_cons_iff in Hw as [W1 W2]; apply Forall_cons_iff in Hn as [N1 N2]; apply Forall_cons_iff in Hp as [P1 P2]. cbn [safe forallb] in Hs. apply andb_prop in Hs as [Hs1 Hs2].
      destruct (route a S) as [o|] eqn:Eo; [|discriminate].
      assert (HLa : Lab (xins a) S (fun w t => firstn (xins a) (X w t))).
      { destruct HL as (L1 & L2 & L3). cbn [length] in *. split; [lia|split].
        - intros w t. rewrite firstn_length, L2. lia.
        - intros i Hi. eapply (mc_ext M HM); [|apply L3; lia]. intros; cbn. now rewrite nth_firstn_lt. }
      destruct (G1 _ W1 Hs1 P1 S o _ ltac:(intros Hb; apply andb_prop in Hb as [He1 He2]; rewrite (He He1); destruct r; [cbn; lia|discriminate]) HLa Eo) as [R1 T1].
      assert (Ep : map (fun i : nat => copy S (i * xins a) (xins a)) (seq 1 (length r)) =
                   map fst (map (fun i => (copy S (i * xins a) (xins a), fun (w : W) (t : nat) => firstn (xins a) (skipn (i * xins a) (X w t)))) (seq 1 (length r)))) by (rewrite map_map; reflexivity).
      rewrite Ep in E.
      destruct (fold_ok k (xouts a) r _ (part_yields (xins a) (xouts a) _ r S X 1 HL ltac:(cbn; lia) G2 W2 P2 Hs2 N2) o _ S' R1 E) as [El HLab].
      split; [|cbn [tight]; intros T; rewrite El; auto].
      eapply lab_ext; [|exact HLab]. intros w t. cbn beta. cbn [SignalModel.node_of]. rewrite output_Reduce by auto. rewrite results_all, map_map. cbn [snd map length]. rewrite map_length.
      unfold parts. cbn [seq map]. unfold all_outputs at 2. cbn [zipw hd_ins reduce_out]. reflexivity.
    - intros S S' X He HL E. cbn [SignalModel.route] in E. destruct xs as [|a r]; [destruct Hw as [_ []]|].
      destruct Hw as (Hw & Hn). apply all_map in Hw. apply uniform_of in Hn. apply (proj1 (plain_list (a :: r))) in Hp.
      change (hd_ins ops (map node_of (a :: r))) with (xins a) in *. change (hd_outs ops (map node_of (a :: r))) with (xouts a) in *.
      change (xins (XMultiBranch (a :: r))) with (xins a) in *.
      assert (Eu : xouts (XMultiBranch (a :: r)) = length (a :: r) * xouts a) by (unfold SignalModel.xouts; cbn [SignalModel.node_of]; rewrite outs_MultiBranch, map_length; reflexivity).
      rewrite Eu in *. clear Eu.
      apply Forall_cons_iff in H as [G1 G2]; apply Forall_cons_iff in Hw as [W1 W2]; apply Forall_cons_iff in Hn as [N1 N2]; apply Forall_cons_iff in Hp as [P1 P2]. cbn [safe forallb] in Hs. apply andb_prop in Hs as [Hs1 Hs2].
      destruct (route a S) as [o|] eqn:Eo; [|discriminate]. destruct (G1 e W1 Hs1 P1 S o X He HL Eo) as [R1 T1].
      assert (Ep : map (fun _ : expr R U => Some S) r = map fst (map (fun _ : expr R U => (Some S, X)) r)) by (rewrite map_map; reflexivity).
      rewrite Ep in E. destruct (route_cat route (xouts a) r _) as [rest|] eqn:Er; [|discriminate]. some E.
      destruct (cat_ok (xouts a) r _ (same_yields e (xins a) (xouts a) r S X He HL G2 W2 P2 Hs2 N2) rest Er) as [El HLab].
      pose proof R1 as (R2 & R3 & R4). rewrite resize_eq by auto.
      assert (El' : length (firstn (xouts a) o) = xouts a) by (rewrite firstn_length; lia).
      split; [|intros _; rewrite app_length; cbn; lia]. cbn [length Nat.mul].
      eapply lab_ext; [|apply lab_app; [exact El'|apply lab_firstn; exact R1|exact HLab]].
      intros w t. cbn beta. cbn [SignalModel.node_of]. rewrite output_MultiBranch by auto. rewrite results_all, map_map. cbn [snd map length]. rewrite map_length.
      cbn [repeat]. unfold all_outputs at 2. cbn [zipw concat]. rewrite map_const_repeat. reflexivity.
    - intros S S' X He HL E. cbn [SignalModel.route] in E. destruct xs as [|a r]; [discriminate|].
      destruct Hw as (Hw & Hn & Hio). pose proof (chain_uniform ops _ Hn Hio) as Hc. rewrite Forall_map in Hc. apply all_map in Hw. apply (proj1 (plain_list (a :: r))) in Hp.
      change (xins (XChain (a :: r))) with (xins a) in *. change (hd_ins ops (map node_of (a :: r))) with (xins a) in Hc.
      assert (Eu : xouts (XChain (a :: r)) = xins a) by (inversion Hc; subst; tauto). rewrite Eu.
      destruct (chain_ok (a :: r) H e (xins a) S S' X Hw Hp Hs Hc He HL E) as [R1 T1]. split; [|exact T1].
      eapply lab_ext; [|exact R1]. intros w t. cbn beta. cbn [SignalModel.node_of]. now rewrite output_Chain.
    - intros S S' X He HL E. cbn [SignalModel.route safe] in *. specialize (He Hs).
      change (xouts (XFeedback x v f)) with (xouts x) in *.
      apply routing_arb with (X := X) (m := xins (XFeedback x v f)) (Y := fun w => output (node_of (XFeedback x v f)) (X w)) in E; auto; [tauto| |].
      + intros w. apply (output_width ar ops Hu (node_of (XFeedback x v f))); auto. destruct HL as (_ & HL & _). apply HL.
      + intros w w' t Hc. apply output_causal. auto.
    - intros S S' X He HL E. cbn [SignalModel.route safe] in *. specialize (He Hs).
      change (xouts (XFeedback2 x1 x2 v f)) with (xouts x1) in *.
      apply routing_arb with (X := X) (m := xins (XFeedback2 x1 x2 v f)) (Y := fun w => output (node_of (XFeedback2 x1 x2 v f)) (X w)) in E; auto; [tauto| |].
      + intros w. apply (output_width ar ops Hu (node_of (XFeedback2 x1 x2 v f))); auto. destruct HL as (_ & HL & _). apply HL.
      + intros w w' t Hc. apply output_causal. auto.
  Qed.
End Sound.
