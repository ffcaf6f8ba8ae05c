From Verif Require Export NodeModel BufProofs.

Section NodeInd.
  Context {A U : Type}.
  Notation node := (node A U).
  Variable Q : node -> Prop.
  Hypothesis HLeaf : forall u, Q (Leaf u).
  Hypothesis HMultiPass : forall n, Q (MultiPass n).
  Hypothesis HPass : Q Pass.
  Hypothesis HSink : forall n, Q (Sink n).
  Hypothesis HConstant : forall v, Q (Constant v).
  Hypothesis HSplit : forall n, Q (Split n).
  Hypothesis HMultiSplit : forall m n, Q (MultiSplit m n).
  Hypothesis HJoin : forall n, Q (Join n).
  Hypothesis HMultiJoin : forall m n, Q (MultiJoin m n).
  Hypothesis HReverse : forall n, Q (Reverse n).
  Hypothesis HImpulse : forall n v o, Q (Impulse n v o).
  Hypothesis HMapNode : forall i o f, Q (MapNode i o f).
  Hypothesis HBinop : forall b x y, Q x -> Q y -> Q (Binop b x y).
  Hypothesis HUnop : forall f x, Q x -> Q (Unop f x).
  Hypothesis HPipe : forall x y, Q x -> Q y -> Q (Pipe x y).
  Hypothesis HStack : forall x y, Q x -> Q y -> Q (Stack x y).
  Hypothesis HBranch : forall x y, Q x -> Q y -> Q (Branch x y).
  Hypothesis HBus : forall x y, Q x -> Q y -> Q (Bus x y).
  Hypothesis HThru : forall x, Q x -> Q (Thru x).
  Hypothesis HMultiBus : forall xs, Forall Q xs -> Q (MultiBus xs).
  Hypothesis HMultiStack : forall xs, Forall Q xs -> Q (MultiStack xs).
  Hypothesis HReduce : forall b xs, Forall Q xs -> Q (Reduce b xs).
  Hypothesis HMultiBranch : forall xs, Forall Q xs -> Q (MultiBranch xs).
  Hypothesis HChain : forall xs, Forall Q xs -> Q (Chain xs).
  Hypothesis HFeedback : forall x v f, Q x -> Q (Feedback x v f).
  Hypothesis HFeedback2 : forall x y v f, Q x -> Q y -> Q (Feedback2 x y v f).
  Fixpoint node_ind' (x : node) : Q x :=
    let many := fix many (xs : list node) : Forall Q xs :=
      match xs with [] => Forall_nil Q | x :: r => Forall_cons x (node_ind' x) (many r) end in
    match x with
    | Leaf u => HLeaf u
    | MultiPass n => HMultiPass n
    | Pass => HPass
    | Sink n => HSink n
    | Constant v => HConstant v
    | Split n => HSplit n
    | MultiSplit m n => HMultiSplit m n
    | Join n => HJoin n
    | MultiJoin m n => HMultiJoin m n
    | Reverse n => HReverse n
    | Impulse n v o => HImpulse n v o
    | MapNode i o f => HMapNode i o f
    | Binop b x y => HBinop b x y (node_ind' x) (node_ind' y)
    | Unop f x => HUnop f x (node_ind' x)
    | Pipe x y => HPipe x y (node_ind' x) (node_ind' y)
    | Stack x y => HStack x y (node_ind' x) (node_ind' y)
    | Branch x y => HBranch x y (node_ind' x) (node_ind' y)
    | Bus x y => HBus x y (node_ind' x) (node_ind' y)
    | Thru x => HThru x (node_ind' x)
    | MultiBus xs => HMultiBus xs (many xs)
    | MultiStack xs => HMultiStack xs (many xs)
    | Reduce b xs => HReduce b xs (many xs)
    | MultiBranch xs => HMultiBranch xs (many xs)
    | Chain xs => HChain xs (many xs)
    | Feedback x v f => HFeedback x v f (node_ind' x)
    | Feedback2 x y v f => HFeedback2 x y v f (node_ind' x) (node_ind' y)
    end.
End NodeInd.

(* ---- repeated ticking of composite machines ---- *)
Section TicksGen.
  Context {I O X : Type}.
  Variable t : X -> I -> X * O.
  Fixpoint mticks (x : X) (l : list I) : X * list O :=
    match l with [] => (x, []) | i :: r => let (x', o) := t x i in let (x'', os) := mticks x' r in (x'', o :: os) end.
  Lemma mticks_length x l : length (snd (mticks x l)) = length l.
  Proof.
    revert x; induction l as [|i l IH]; intros x; cbn; auto.
    destruct (t x i) as [x' o]. specialize (IH x'). destruct (mticks x' l); cbn in *; lia.
  Qed.
End TicksGen.
Lemma mticks_ticks {A X} (t : X -> list A -> X * list A) x l : mticks t x l = ticks t x l.
Proof. reflexivity. Qed.

(* one component *)
Lemma ticks1 {X Z I O I' O'} (tx : X -> I -> X * O) (tz : Z -> I' -> Z * O')
    (mk : X -> Z) (fi : I' -> I) (fo : I' -> O -> O') (Inv : X -> Prop) (ok : I' -> Prop) :
  (forall x i, Inv x -> ok i -> Inv (fst (tx x (fi i))) /\
      tz (mk x) i = (mk (fst (tx x (fi i))), fo i (snd (tx x (fi i))))) ->
  forall l x, Inv x -> Forall ok l ->
  mticks tz (mk x) l = (mk (fst (mticks tx x (map fi l))), zipw fo l (snd (mticks tx x (map fi l)))).
Proof.
  intros H l. induction l as [|i l IH]; intros x Hx Hl; cbn [map mticks]; auto.
  inversion Hl; subst. destruct (H x i) as [HA HB]; auto. rewrite HB.
  destruct (tx x (fi i)) as [x' o]; cbn [fst snd] in *. rewrite IH; auto.
  destruct (mticks tx x' (map fi l)); reflexivity.
Qed.
Lemma zipw_const_map {X Y Z} (f : Y -> Z) (l : list X) (m : list Y) : length l = length m -> zipw (fun _ b => f b) l m = map f m.
Proof. revert m; induction l; intros [|y m] H; cbn in *; try lia; auto. f_equal. apply IHl; lia. Qed.
Lemma ticks1m {X Z I O I' O'} (tx : X -> I -> X * O) (tz : Z -> I' -> Z * O')
    (mk : X -> Z) (fi : I' -> I) (fo : O -> O') (Inv : X -> Prop) :
  (forall x i, Inv x -> Inv (fst (tx x (fi i))) /\
      tz (mk x) i = (mk (fst (tx x (fi i))), fo (snd (tx x (fi i))))) ->
  forall l x, Inv x ->
  mticks tz (mk x) l = (mk (fst (mticks tx x (map fi l))), map fo (snd (mticks tx x (map fi l)))).
Proof.
  intros H l x Hx. rewrite <- (zipw_const_map fo l (snd (mticks tx x (map fi l)))) by (now rewrite mticks_length, map_length).
  apply (ticks1 tx tz mk fi (fun _ o => fo o) Inv (fun _ => True)); auto. apply Forall_forall; auto.
Qed.
(* two components side by side *)
Lemma ticks2 {X Y Z I J O P I' O'} (tx : X -> I -> X * O) (ty : Y -> J -> Y * P) (tz : Z -> I' -> Z * O')
    (mk : X -> Y -> Z) (fx : I' -> I) (fy : I' -> J) (fo : O -> P -> O') (Inv : X -> Y -> Prop) (ok : I' -> Prop) :
  (forall x y i, Inv x y -> ok i -> Inv (fst (tx x (fx i))) (fst (ty y (fy i))) /\
      tz (mk x y) i = (mk (fst (tx x (fx i))) (fst (ty y (fy i))), fo (snd (tx x (fx i))) (snd (ty y (fy i))))) ->
  forall l x y, Inv x y -> Forall ok l ->
  mticks tz (mk x y) l =
    (mk (fst (mticks tx x (map fx l))) (fst (mticks ty y (map fy l))),
     zipw fo (snd (mticks tx x (map fx l))) (snd (mticks ty y (map fy l)))).
Proof.
  intros H l. induction l as [|i l IH]; intros x y Hx Hl; cbn [map mticks]; auto.
  inversion Hl; subst. destruct (H x y i) as [HA HB]; auto. rewrite HB.
  destruct (tx x (fx i)) as [x' o]; destruct (ty y (fy i)) as [y' p]; cbn [fst snd] in *. rewrite IH; auto.
  destruct (mticks tx x' (map fx l)); destruct (mticks ty y' (map fy l)); reflexivity.
Qed.
(* two components in series *)
Lemma ticks_series {X Y Z I O P} (tx : X -> I -> X * O) (ty : Y -> O -> Y * P) (tz : Z -> I -> Z * P) (mk : X -> Y -> Z) :
  (forall x y i, tz (mk x y) i = (mk (fst (tx x i)) (fst (ty y (snd (tx x i)))), snd (ty y (snd (tx x i))))) ->
  forall l x y, mticks tz (mk x y) l =
    (mk (fst (mticks tx x l)) (fst (mticks ty y (snd (mticks tx x l)))), snd (mticks ty y (snd (mticks tx x l)))).
Proof.
  intros H l. induction l as [|i l IH]; intros x y; cbn [mticks]; auto.
  rewrite H. destruct (tx x i) as [x' o]; cbn [fst snd]. rewrite IH.
  destruct (mticks tx x' l) as [x'' os]; cbn [fst snd mticks].
  destruct (ty y o) as [y' p]; cbn [fst snd].
  destruct (mticks ty y' os); reflexivity.
Qed.

Section Proofs.
  Context {A P U : Type}.
  Variable ar : arith A.
  Variable ops : unit_ops A P U.
  Notation zero := (a_zero ar).
  Notation add := (a_add ar).
  Notation node := (node A U).
  Notation ins := (ins ops).
  Notation outs := (outs ops).
  Notation tick := (tick ar ops).
  Notation process := (process ar ops).
  Notation wf := (wf ops).
  Notation blockable := (blockable ar ops).
  Notation frame := (frame zero).
  Notation frames := (frames zero).

  Lemma all_Forall (p : node -> Prop) xs : all p xs <-> Forall p xs.
  Proof.
    induction xs as [|x xs IH]; cbn; split; intros H; auto.
    - destruct H; constructor; auto. now apply IH.
    - inversion H; subst; split; auto. now apply IH.
  Qed.

  Lemma tick_all_length (t : node -> list A -> node * list A) xs is : length is = length xs ->
    length (fst (tick_all t xs is)) = length xs /\ length (snd (tick_all t xs is)) = length xs.
  Proof.
    revert is; induction xs as [|x xs IH]; intros [|i is] H; cbn in *; try lia; auto.
    destruct (t x i). destruct (IH is) as [H1 H2]; [lia|]. destruct (tick_all t xs is); cbn in *; lia.
  Qed.
  Lemma tick_all_cons (t : node -> list A -> node * list A) x xs i is :
    tick_all t (x :: xs) (i :: is) =
    (fst (t x i) :: fst (tick_all t xs is), snd (t x i) :: snd (tick_all t xs is)).
  Proof. cbn. destruct (t x i), (tick_all t xs is); reflexivity. Qed.
  Lemma tick_chain_cons (t : node -> list A -> node * list A) x xs i :
    tick_chain t (x :: xs) i =
    (fst (t x i) :: fst (tick_chain t xs (snd (t x i))), snd (tick_chain t xs (snd (t x i)))).
  Proof. cbn. destruct (t x i); cbn. destruct (tick_chain t xs l); reflexivity. Qed.

  Definition arity_kept (x : node) : Prop := forall i, ins (fst (tick x i)) = ins x /\ outs (fst (tick x i)) = outs x.

  Lemma tick_all_arity xs is : Forall arity_kept xs -> length is = length xs ->
    map ins (fst (tick_all tick xs is)) = map ins xs /\ map outs (fst (tick_all tick xs is)) = map outs xs.
  Proof.
    intros H; revert is; induction H as [|x xs Hx Hxs IH]; intros [|i is] Hl; cbn [length] in *; try lia; auto.
    rewrite tick_all_cons. cbn [fst map]. destruct (IH is) as [H1 H2]; [lia|]. destruct (Hx i) as [H3 H4].
    rewrite H1, H2, H3, H4. auto.
  Qed.
  Lemma tick_chain_arity xs i : Forall arity_kept xs ->
    map ins (fst (tick_chain tick xs i)) = map ins xs /\ map outs (fst (tick_chain tick xs i)) = map outs xs.
  Proof.
    intros H; revert i; induction H as [|x xs Hx Hxs IH]; intros i; auto.
    rewrite tick_chain_cons. cbn [fst map]. destruct (IH (snd (tick x i))) as [H1 H2]. destruct (Hx i) as [H3 H4].
    rewrite H1, H2, H3, H4. auto.
  Qed.
  Definition hd_ins (xs : list node) := match xs with [] => 0 | x :: _ => ins x end.
  Definition hd_outs (xs : list node) := match xs with [] => 0 | x :: _ => outs x end.
  Lemma hd_ins_map xs ys : map ins xs = map ins ys -> hd_ins xs = hd_ins ys.
  Proof. destruct xs, ys; cbn; congruence. Qed.
  Lemma hd_outs_map xs ys : map outs xs = map outs ys -> hd_outs xs = hd_outs ys.
  Proof. destruct xs, ys; cbn; congruence. Qed.
  Lemma ins_MultiStack xs : ins (MultiStack xs) = length xs * hd_ins xs.
  Proof. destruct xs; cbn; auto. Qed.
  Lemma outs_MultiStack xs : outs (MultiStack xs) = length xs * hd_outs xs.
  Proof. destruct xs; cbn; auto. Qed.
  Lemma ins_Reduce b xs : ins (Reduce b xs) = length xs * hd_ins xs.
  Proof. destruct xs; cbn; auto. Qed.
  Lemma outs_MultiBranch xs : outs (MultiBranch xs) = length xs * hd_outs xs.
  Proof. destruct xs; cbn; auto. Qed.
  Lemma map_len_eq {X} (f : node -> X) xs ys : map f xs = map f ys -> length xs = length ys.
  Proof. intros H. rewrite <- (map_length f xs), <- (map_length f ys). congruence. Qed.

  (* equational form of tick on composite nodes *)
  Lemma tick_Binop b x y i : tick (Binop b x y) i =
    (Binop b (fst (tick x (firstn (ins x) i))) (fst (tick y (skipn (ins x) i))),
     zipw b (snd (tick x (firstn (ins x) i))) (snd (tick y (skipn (ins x) i)))).
  Proof. cbn. destruct (tick x _), (tick y _); reflexivity. Qed.
  Lemma tick_Unop f x i : tick (Unop f x) i = (Unop f (fst (tick x i)), map f (snd (tick x i))).
  Proof. cbn. destruct (tick x _); reflexivity. Qed.
  Lemma tick_Pipe x y i : tick (Pipe x y) i =
    (Pipe (fst (tick x i)) (fst (tick y (snd (tick x i)))), snd (tick y (snd (tick x i)))).
  Proof. cbn. destruct (tick x _); cbn. destruct (tick y _); reflexivity. Qed.
  Lemma tick_Stack x y i : tick (Stack x y) i =
    (Stack (fst (tick x (firstn (ins x) i))) (fst (tick y (skipn (ins x) i))),
     snd (tick x (firstn (ins x) i)) ++ snd (tick y (skipn (ins x) i))).
  Proof. cbn. destruct (tick x _), (tick y _); reflexivity. Qed.
  Lemma tick_Branch x y i : tick (Branch x y) i =
    (Branch (fst (tick x i)) (fst (tick y i)), snd (tick x i) ++ snd (tick y i)).
  Proof. cbn. destruct (tick x _), (tick y _); reflexivity. Qed.
  Lemma tick_Bus x y i : tick (Bus x y) i =
    (Bus (fst (tick x i)) (fst (tick y i)), zipw add (snd (tick x i)) (snd (tick y i))).
  Proof. cbn. destruct (tick x _), (tick y _); reflexivity. Qed.
  Definition thru_out (nout nin : nat) (i o : list A) : list A :=
    map (fun c => if Nat.ltb c nout then nth c o zero else nth c i zero) (seq 0 nin).
  Lemma tick_Thru x i : tick (Thru x) i = (Thru (fst (tick x i)), thru_out (outs x) (ins x) i (snd (tick x i))).
  Proof. cbn. destruct (tick x _); reflexivity. Qed.
  Lemma tick_MultiBus xs i : tick (MultiBus xs) i =
    let r := tick_all tick xs (map (fun _ => i) xs) in
    (MultiBus (fst r), fold_left (zipw add) (snd r) (repeat zero (hd_outs xs))).
  Proof. cbn. destruct (tick_all tick xs _); reflexivity. Qed.
  Lemma tick_MultiStack xs i : tick (MultiStack xs) i =
    let r := tick_all tick xs (slices (length xs) (hd_ins xs) i) in (MultiStack (fst r), concat (snd r)).
  Proof. cbn. fold (hd_ins xs). destruct (tick_all tick xs _); reflexivity. Qed.
  Definition reduce_out (b : A -> A -> A) (n : nat) (os : list (list A)) : list A :=
    match os with [] => repeat zero n | o :: r => fold_left (zipw b) r o end.
  Lemma tick_Reduce b xs i : tick (Reduce b xs) i =
    let r := tick_all tick xs (slices (length xs) (hd_ins xs) i) in
    (Reduce b (fst r), reduce_out b (hd_outs xs) (snd r)).
  Proof. cbn. fold (hd_ins xs). destruct (tick_all tick xs _); reflexivity. Qed.
  Lemma tick_MultiBranch xs i : tick (MultiBranch xs) i =
    let r := tick_all tick xs (map (fun _ => i) xs) in (MultiBranch (fst r), concat (snd r)).
  Proof. cbn. destruct (tick_all tick xs _); reflexivity. Qed.
  Lemma tick_Chain xs i : tick (Chain xs) i = (Chain (fst (tick_chain tick xs i)), snd (tick_chain tick xs i)).
  Proof. cbn. destruct (tick_chain tick xs _); reflexivity. Qed.
  Lemma tick_Feedback x v f i : tick (Feedback x v f) i =
    let o := tick x (zipw add i v) in (Feedback (fst o) (f (snd o)) f, snd o).
  Proof. cbn. unfold vadd. destruct (tick x _); reflexivity. Qed.
  Lemma tick_Feedback2 x y v f i : tick (Feedback2 x y v f) i =
    let o := tick x (zipw add i v) in let p := tick y (snd o) in (Feedback2 (fst o) (fst p) (f (snd p)) f, snd o).
  Proof. cbn. unfold vadd. destruct (tick x _); cbn. destruct (tick y _); reflexivity. Qed.

  Variable Hu : unit_laws zero ops.

  Lemma tick_arity x : arity_kept x.
  Proof.
    induction x using node_ind'; intros j; try (split; reflexivity).
    - cbn. pose proof (ul_ins _ _ Hu u j). pose proof (ul_outs _ _ Hu u j). destruct (u_tick ops u j); cbn in *; auto.
    - rewrite tick_Binop. cbn. destruct (IHx1 (firstn (ins x1) j)), (IHx2 (skipn (ins x1) j)). split; congruence.
    - rewrite tick_Unop. cbn. destruct (IHx j). auto.
    - rewrite tick_Pipe. cbn. destruct (IHx1 j), (IHx2 (snd (tick x1 j))); auto.
    - rewrite tick_Stack. cbn. destruct (IHx1 (firstn (ins x1) j)), (IHx2 (skipn (ins x1) j)). split; congruence.
    - rewrite tick_Branch. cbn. destruct (IHx1 j), (IHx2 j). split; congruence.
    - rewrite tick_Bus. cbn. destruct (IHx1 j), (IHx2 j). split; congruence.
    - rewrite tick_Thru. cbn. destruct (IHx j). split; congruence.
    - rewrite tick_MultiBus. destruct (tick_all_arity xs (map (fun _ => j) xs)) as [H1 H2]; auto using map_length.
      split; [exact (hd_ins_map _ _ H1)|exact (hd_outs_map _ _ H2)].
    - rewrite tick_MultiStack. destruct (tick_all_arity xs (slices (length xs) (hd_ins xs) j)) as [H1 H2]; auto using slices_length.
      cbv zeta. cbn [fst]. rewrite !ins_MultiStack, !outs_MultiStack, (hd_ins_map _ _ H1), (hd_outs_map _ _ H2), (map_len_eq _ _ _ H1). auto.
    - rewrite tick_Reduce. destruct (tick_all_arity xs (slices (length xs) (hd_ins xs) j)) as [H1 H2]; auto using slices_length.
      cbv zeta. cbn [fst]. rewrite !ins_Reduce, (hd_ins_map _ _ H1), (map_len_eq _ _ _ H1). split; [auto|exact (hd_outs_map _ _ H2)].
    - rewrite tick_MultiBranch. destruct (tick_all_arity xs (map (fun _ => j) xs)) as [H1 H2]; auto using map_length.
      cbv zeta. cbn [fst]. rewrite !outs_MultiBranch, (hd_outs_map _ _ H2), (map_len_eq _ _ _ H1). split; [exact (hd_ins_map _ _ H1)|auto].
    - rewrite tick_Chain. destruct (tick_chain_arity xs j) as [H1 H2]; auto.
      split; [exact (hd_ins_map _ _ H1)|exact (hd_outs_map _ _ H2)].
    - rewrite tick_Feedback. cbn. apply IHx.
    - rewrite tick_Feedback2. cbn. apply IHx1.
  Qed.
  Lemma ins_tick x i : ins (fst (tick x i)) = ins x.
  Proof. apply tick_arity. Qed.
  Lemma outs_tick x i : outs (fst (tick x i)) = outs x.
  Proof. apply tick_arity. Qed.

  Lemma tick_all_Forall (p : node -> Prop) xs is : Forall (fun x => forall i, p x -> p (fst (tick x i))) xs ->
    length is = length xs -> Forall p xs -> Forall p (fst (tick_all tick xs is)).
  Proof.
    intros H; revert is; induction H as [|x xs Hx Hxs IH]; intros [|i is] Hl Hp; cbn [length] in *; try lia; try (cbn; auto; fail).
    rewrite tick_all_cons. inversion Hp; subst. constructor; [apply Hx; auto|]. apply IH; auto.
  Qed.
  Lemma tick_chain_Forall (p : node -> Prop) xs i : Forall (fun x => forall i, p x -> p (fst (tick x i))) xs ->
    Forall p xs -> Forall p (fst (tick_chain tick xs i)).
  Proof.
    intros H; revert i; induction H as [|x xs Hx Hxs IH]; intros i Hp; [cbn; auto|].
    rewrite tick_chain_cons. inversion Hp; subst. constructor; [apply Hx; auto|]. apply IH; auto.
  Qed.

  Lemma blockable_tick x : forall i, blockable x -> blockable (fst (tick x i)).
  Proof.
    induction x using node_ind'; intros j Hb; try exact Hb; try exact Logic.I.
    - cbn. destruct (u_tick ops u j); exact Logic.I.
    - rewrite tick_Binop. destruct Hb; cbn; auto.
    - rewrite tick_Unop. apply IHx; auto.
    - rewrite tick_Pipe. destruct Hb; cbn; auto.
    - rewrite tick_Stack. destruct Hb; cbn; auto.
    - rewrite tick_Branch. destruct Hb; cbn; auto.
    - rewrite tick_Bus. destruct Hb; cbn; auto.
    - rewrite tick_Thru. destruct Hb; cbn; auto. split; auto. now rewrite ins_tick.
    - rewrite tick_MultiBus. destruct Hb as [Hb Hz]. split; auto. apply all_Forall in Hb. apply all_Forall. apply tick_all_Forall; auto using map_length.
    - rewrite tick_MultiStack. apply all_Forall in Hb. apply all_Forall. apply tick_all_Forall; auto using slices_length.
    - rewrite tick_Reduce. apply all_Forall in Hb. apply all_Forall. apply tick_all_Forall; auto using slices_length.
    - rewrite tick_MultiBranch. apply all_Forall in Hb. apply all_Forall. apply tick_all_Forall; auto using map_length.
    - rewrite tick_Chain. apply all_Forall in Hb. apply all_Forall. apply tick_chain_Forall; auto.
    - rewrite tick_Feedback. exact Logic.I.
    - rewrite tick_Feedback2. exact Logic.I.
  Qed.

  Notation uniform := (uniform ops).
  Lemma uniform_map xs ys : map ins xs = map ins ys -> map outs xs = map outs ys -> uniform ys -> uniform xs.
  Proof.
    destruct ys as [|y ys]; [intros _ _ []|]. destruct xs as [|x xs]; [discriminate|].
    intros H1 H2 H3. unfold NodeModel.uniform in *.
    assert (Hi : Forall (fun n => n = ins y) (map ins (y :: ys))).
    { apply Forall_forall. intros n Hn. apply in_map_iff in Hn as (z & <- & Hz). rewrite Forall_forall in H3. now apply H3. }
    assert (Ho : Forall (fun n => n = outs y) (map outs (y :: ys))).
    { apply Forall_forall. intros n Hn. apply in_map_iff in Hn as (z & <- & Hz). rewrite Forall_forall in H3. now apply H3. }
    rewrite <- H1 in Hi. rewrite <- H2 in Ho. rewrite Forall_forall in Hi, Ho.
    assert (Ex : ins x = ins y) by (cbn in H1; congruence).
    assert (Ey : outs x = outs y) by (cbn in H2; congruence).
    apply Forall_forall. intros z Hz. rewrite Ex, Ey. split; [apply Hi|apply Ho]; now apply in_map.
  Qed.
  Lemma uniform_hd xs : uniform xs -> Forall (fun y => ins y = hd_ins xs /\ outs y = hd_outs xs) xs.
  Proof. destruct xs; [intros []|]. exact (fun H => H). Qed.

  Definition tick_good (x : node) : Prop := forall i, wf x -> length i = ins x ->
    wf (fst (tick x i)) /\ length (snd (tick x i)) = outs x.
  Lemma tick_all_good xs is ni no : Forall tick_good xs -> Forall wf xs ->
    Forall (fun y => ins y = ni /\ outs y = no) xs ->
    length is = length xs -> Forall (fun i => length i = ni) is ->
    Forall wf (fst (tick_all tick xs is)) /\ Forall (fun o => length o = no) (snd (tick_all tick xs is)).
  Proof.
    intros H; revert is; induction H as [|x xs Hx Hxs IH]; intros [|i is] Hw Hn Hl Hi; cbn [length] in *; try lia; try (cbn; auto; fail).
    rewrite tick_all_cons. cbn [fst snd]. inversion Hw; inversion Hn; inversion Hi; subst.
    destruct (IH is) as [Hc Hd]; auto. destruct (Hx i) as [Ha Hb]; auto; [lia|]. split; constructor; auto. lia.
  Qed.
  Lemma tick_chain_good xs i n : Forall tick_good xs -> Forall wf xs ->
    Forall (fun y => ins y = n /\ outs y = n) xs -> length i = n ->
    Forall wf (fst (tick_chain tick xs i)) /\ length (snd (tick_chain tick xs i)) = n.
  Proof.
    intros H; revert i; induction H as [|x xs Hx Hxs IH]; intros i Hw Hn Hi; [cbn; auto|].
    rewrite tick_chain_cons. cbn [fst snd]. inversion Hw; inversion Hn; subst.
    destruct (Hx i) as [Ha Hb]; auto; [lia|]. destruct (IH (snd (tick x i))) as [Hc Hd]; auto; lia.
  Qed.
  Lemma fold_zipw_length (b : A -> A -> A) (os : list (list A)) n (o : list A) : length o = n -> Forall (fun v => length v = n) os ->
    length (fold_left (zipw b) os o) = n.
  Proof. intros Ho H. revert o Ho; induction H; intros o Ho; cbn; auto. apply IHForall. rewrite zipw_length. lia. Qed.
  Lemma Forall_const_map {X Y} (p : Y -> Prop) (v : Y) (xs : list X) : p v -> Forall p (map (fun _ => v) xs).
  Proof. intros. apply Forall_forall. intros y Hy. apply in_map_iff in Hy as (? & <- & _); auto. Qed.
  Lemma firstn_len_le {X} k (l : list X) : k <= length l -> length (firstn k l) = k.
  Proof. intros; rewrite firstn_length; lia. Qed.
  Lemma chain_uniform xs : uniform xs -> all (fun y => ins y = outs y) xs -> Forall (fun y => ins y = hd_ins xs /\ outs y = hd_ins xs) xs.
  Proof.
    intros H1 H2. apply uniform_hd in H1. apply all_Forall in H2. rewrite Forall_forall in *. intros y Hy.
    specialize (H1 y Hy); specialize (H2 y Hy). cbn in H2. lia.
  Qed.
  Lemma all_in_out_map xs ys : map ins xs = map ins ys -> map outs xs = map outs ys ->
    all (fun y => ins y = outs y) ys -> all (fun y => ins y = outs y) xs.
  Proof.
    revert ys; induction xs as [|x xs IH]; intros [|y ys] H1 H2 H; cbn in *; auto; try discriminate.
    inversion H1; inversion H2. destruct H. split; [congruence|]. eauto.
  Qed.

  Lemma tick_wf x : tick_good x.
  Proof.
    induction x using node_ind'; intros j Hw Hj;
      try (cbn in *; rewrite ?repeat_length, ?map_length, ?seq_length; auto; fail).
    - cbn. pose proof (ul_len _ _ Hu u j Hj). destruct (u_tick ops u j); cbn in *; auto.
    - rewrite tick_Binop. destruct Hw as (H1 & H2 & H3). cbn [fst snd NodeModel.wf NodeModel.outs NodeModel.ins] in *. rewrite !outs_tick.
      destruct (IHx1 (firstn (ins x1) j)); auto; [apply firstn_len_le; lia|].
      destruct (IHx2 (skipn (ins x1) j)); auto; [rewrite skipn_length; lia|].
      rewrite zipw_length. repeat split; auto. lia.
    - rewrite tick_Unop. cbn [fst snd NodeModel.wf NodeModel.outs NodeModel.ins] in *. rewrite map_length. apply IHx; auto.
    - rewrite tick_Pipe. destruct Hw as (H1 & H2 & H3). cbn [fst snd NodeModel.wf NodeModel.outs NodeModel.ins] in *. rewrite outs_tick, ins_tick.
      destruct (IHx1 j); auto. destruct (IHx2 (snd (tick x1 j))); auto; try lia.
    - rewrite tick_Stack. destruct Hw as (H1 & H2). cbn [fst snd NodeModel.wf NodeModel.outs NodeModel.ins] in *.
      destruct (IHx1 (firstn (ins x1) j)); auto; [apply firstn_len_le; lia|].
      destruct (IHx2 (skipn (ins x1) j)); auto; [rewrite skipn_length; lia|].
      rewrite app_length. repeat split; auto.
    - rewrite tick_Branch. destruct Hw as (H1 & H2 & H3). cbn [fst snd NodeModel.wf NodeModel.outs NodeModel.ins] in *. rewrite !ins_tick.
      destruct (IHx1 j); auto. destruct (IHx2 j); auto; [lia|]. rewrite app_length. repeat split; auto.
    - rewrite tick_Bus. destruct Hw as (H1 & H2 & H3 & H4). cbn [fst snd NodeModel.wf NodeModel.outs NodeModel.ins] in *. rewrite !ins_tick, !outs_tick.
      destruct (IHx1 j); auto. destruct (IHx2 j); auto; [lia|]. rewrite zipw_length. repeat split; auto; lia.
    - rewrite tick_Thru. cbn [fst snd NodeModel.wf NodeModel.outs NodeModel.ins] in *. destruct (IHx j); auto.
      split; auto. unfold thru_out. now rewrite map_length, seq_length.
    - rewrite tick_MultiBus. destruct Hw as [Hw Hn]. cbv zeta; cbn [fst snd]. apply all_Forall in Hw.
      destruct (tick_all_good xs (map (fun _ => j) xs) (hd_ins xs) (hd_outs xs)) as [H1 H2]; auto using uniform_hd, map_length.
      { apply Forall_const_map. exact Hj. }
      destruct (tick_all_arity xs (map (fun _ => j) xs)) as [H3 H4]; [apply Forall_forall; intros; apply tick_arity|apply map_length|].
      split; [split; [now apply all_Forall|eapply uniform_map; eauto]|].
      apply fold_zipw_length; auto. now rewrite repeat_length.
    - rewrite tick_MultiStack. destruct Hw as [Hw Hn]. cbv zeta; cbn [fst snd]. apply all_Forall in Hw.
      rewrite ins_MultiStack in Hj. rewrite outs_MultiStack.
      destruct (tick_all_good xs (slices (length xs) (hd_ins xs) j) (hd_ins xs) (hd_outs xs)) as [H1 H2]; auto using uniform_hd, slices_length, slices_each.
      destruct (tick_all_arity xs (slices (length xs) (hd_ins xs) j)) as [H3 H4]; [apply Forall_forall; intros; apply tick_arity|apply slices_length|].
      split; [split; [now apply all_Forall|eapply uniform_map; eauto]|].
      rewrite (concat_length_uniform (hd_outs xs)); auto. f_equal. apply tick_all_length. apply slices_length.
    - rewrite tick_Reduce. destruct Hw as [Hw Hn]. cbv zeta; cbn [fst snd]. apply all_Forall in Hw.
      rewrite ins_Reduce in Hj.
      destruct (tick_all_good xs (slices (length xs) (hd_ins xs) j) (hd_ins xs) (hd_outs xs)) as [H1 H2]; auto using uniform_hd, slices_length, slices_each.
      destruct (tick_all_arity xs (slices (length xs) (hd_ins xs) j)) as [H3 H4]; [apply Forall_forall; intros; apply tick_arity|apply slices_length|].
      split; [split; [now apply all_Forall|eapply uniform_map; eauto]|].
      unfold reduce_out. change (outs (Reduce b xs)) with (hd_outs xs). destruct (snd (tick_all tick xs _)); [now rewrite repeat_length|].
      inversion H2; subst. apply fold_zipw_length; auto.
    - rewrite tick_MultiBranch. destruct Hw as [Hw Hn]. cbv zeta; cbn [fst snd]. apply all_Forall in Hw. rewrite outs_MultiBranch.
      destruct (tick_all_good xs (map (fun _ => j) xs) (hd_ins xs) (hd_outs xs)) as [H1 H2]; auto using uniform_hd, map_length.
      { apply Forall_const_map. exact Hj. }
      destruct (tick_all_arity xs (map (fun _ => j) xs)) as [H3 H4]; [apply Forall_forall; intros; apply tick_arity|apply map_length|].
      split; [split; [now apply all_Forall|eapply uniform_map; eauto]|].
      rewrite (concat_length_uniform (hd_outs xs)); auto. f_equal. apply tick_all_length. apply map_length.
    - rewrite tick_Chain. destruct Hw as (Hw & Hn & Hio). cbn [fst snd]. pose proof (chain_uniform xs Hn Hio) as Hc. apply all_Forall in Hw.
      destruct (tick_chain_good xs j (hd_ins xs)) as [H1 H2]; auto.
      destruct (tick_chain_arity xs j) as [H3 H4]; [apply Forall_forall; intros; apply tick_arity|].
      split; [split; [now apply all_Forall|split; [eapply uniform_map; eauto|eapply all_in_out_map; eauto]]|].
      rewrite H2. destruct xs; [destruct Hn|]. inversion Hc; subst. cbn in *. lia.
    - rewrite tick_Feedback. cbn [fst snd NodeModel.wf NodeModel.outs NodeModel.ins] in *. destruct Hw as (H1 & H2 & H3 & H4).
      destruct (IHx (zipw add j v)); auto; [rewrite zipw_length; lia|]. rewrite ins_tick, outs_tick. repeat split; auto.
      apply H4. lia.
    - rewrite tick_Feedback2. cbn [fst snd NodeModel.wf NodeModel.outs NodeModel.ins] in *. destruct Hw as (H1 & H2 & H3 & H4 & H5 & H6 & H7).
      destruct (IHx1 (zipw add j v)); auto; [rewrite zipw_length; lia|].
      destruct (IHx2 (snd (tick x1 (zipw add j v)))); auto; [lia|].
      rewrite !ins_tick, !outs_tick. repeat split; auto. apply H7. lia.
  Qed.

  (* ---- ticks of composite nodes in terms of ticks of the parts ---- *)
  Notation ticks := (ticks tick).
  Lemma ticks_wf l : forall x, wf x -> Forall (fun i => length i = ins x) l ->
    wf (fst (ticks x l)) /\ ins (fst (ticks x l)) = ins x /\ outs (fst (ticks x l)) = outs x /\
    Forall (fun o => length o = outs x) (snd (ticks x l)).
  Proof.
    induction l as [|i l IH]; intros x Hw Hl; [cbn; auto|cbn [BufModel.ticks]].
    inversion Hl as [|? ? Hi Hl']; subst. destruct (tick_wf x i Hw Hi) as [H1 H2].
    pose proof (ins_tick x i) as E1. pose proof (outs_tick x i) as E2.
    destruct (tick x i) as [x' o]; cbn [fst snd] in *.
    destruct (IH x') as (H3 & H4 & H5 & H6); auto. { rewrite E1; auto. }
    destruct (ticks x' l) as [x'' os]; cbn [fst snd] in *. rewrite H4, H5. repeat split; auto.
    constructor; auto. now rewrite <- E2.
  Qed.

  Lemma ticks_stateless x f : (forall i, tick x i = (x, f i)) -> forall l, ticks x l = (x, map f l).
  Proof. intros H l. induction l as [|i l IH]; cbn; auto. now rewrite H, IH. Qed.
  Lemma Forall_True {X} (l : list X) : Forall (fun _ => True) l.
  Proof. apply Forall_forall; auto. Qed.

  Lemma ticks_Leaf u l : ticks (Leaf u) l = (Leaf (fst (BufModel.ticks (u_tick ops) u l)), snd (BufModel.ticks (u_tick ops) u l)).
  Proof.
    revert u; induction l as [|i l IH]; intros u; cbn; auto.
    destruct (u_tick ops u i) as [u' o]. rewrite IH. destruct (BufModel.ticks (u_tick ops) u' l); reflexivity.
  Qed.
  Lemma ticks_Pipe x y l : ticks (Pipe x y) l =
    (Pipe (fst (ticks x l)) (fst (ticks y (snd (ticks x l)))), snd (ticks y (snd (ticks x l)))).
  Proof. exact (ticks_series tick tick tick Pipe tick_Pipe l x y). Qed.
  Lemma ticks_Stack x y l : ticks (Stack x y) l =
    (Stack (fst (ticks x (map (firstn (ins x)) l))) (fst (ticks y (map (skipn (ins x)) l))),
     zipw (@app A) (snd (ticks x (map (firstn (ins x)) l))) (snd (ticks y (map (skipn (ins x)) l)))).
  Proof.
    apply (ticks2 tick tick tick Stack (firstn (ins x)) (skipn (ins x)) (@app A) (fun z _ => ins z = ins x) (fun _ => True)); auto using Forall_True.
    intros x0 y0 i H _. split; [rewrite ins_tick; auto|]. rewrite tick_Stack, H. reflexivity.
  Qed.
  Lemma ticks_Binop b x y l : ticks (Binop b x y) l =
    (Binop b (fst (ticks x (map (firstn (ins x)) l))) (fst (ticks y (map (skipn (ins x)) l))),
     zipw (zipw b) (snd (ticks x (map (firstn (ins x)) l))) (snd (ticks y (map (skipn (ins x)) l)))).
  Proof.
    apply (ticks2 tick tick tick (Binop b) (firstn (ins x)) (skipn (ins x)) (zipw b) (fun z _ => ins z = ins x) (fun _ => True)); auto using Forall_True.
    intros x0 y0 i H _. split; [rewrite ins_tick; auto|]. rewrite tick_Binop, H. reflexivity.
  Qed.
  Lemma ticks_Branch x y l : ticks (Branch x y) l =
    (Branch (fst (ticks x l)) (fst (ticks y l)), zipw (@app A) (snd (ticks x l)) (snd (ticks y l))).
  Proof.
    pose proof (ticks2 tick tick tick Branch (fun i => i) (fun i => i) (@app A) (fun _ _ => True) (fun _ => True)) as H.
    specialize (H (fun x0 y0 i _ _ => conj Logic.I (tick_Branch x0 y0 i)) l x y Logic.I (Forall_True l)).
    rewrite map_id in H. exact H.
  Qed.
  Lemma ticks_Bus x y l : ticks (Bus x y) l =
    (Bus (fst (ticks x l)) (fst (ticks y l)), zipw (zipw add) (snd (ticks x l)) (snd (ticks y l))).
  Proof.
    pose proof (ticks2 tick tick tick Bus (fun i => i) (fun i => i) (zipw add) (fun _ _ => True) (fun _ => True)) as H.
    specialize (H (fun x0 y0 i _ _ => conj Logic.I (tick_Bus x0 y0 i)) l x y Logic.I (Forall_True l)).
    rewrite map_id in H. exact H.
  Qed.
  Lemma ticks_Unop f x l : ticks (Unop f x) l = (Unop f (fst (ticks x l)), map (map f) (snd (ticks x l))).
  Proof.
    pose proof (ticks1 tick tick (Unop f) (fun i => i) (fun _ o => map f o) (fun _ => True) (fun _ => True)) as H.
    specialize (H (fun x0 i _ _ => conj Logic.I (tick_Unop f x0 i)) l x Logic.I (Forall_True l)).
    rewrite map_id in H. rewrite zipw_const_map in H; [exact H|]. symmetry. apply (mticks_length tick).
  Qed.
  Lemma ticks_Thru x l : ticks (Thru x) l = (Thru (fst (ticks x l)), zipw (thru_out (outs x) (ins x)) l (snd (ticks x l))).
  Proof.
    pose proof (ticks1 tick tick Thru (fun i => i) (thru_out (outs x) (ins x)) (fun z => ins z = ins x /\ outs z = outs x) (fun _ => True)) as H.
    rewrite <- (map_id l) at 2 4. apply H; auto using Forall_True.
    intros z i [H1 H2] _. rewrite ins_tick, outs_tick. split; auto. rewrite tick_Thru, H1, H2. reflexivity.
  Qed.
  Definition same_arities (xs ys : list node) : Prop := map ins ys = map ins xs /\ map outs ys = map outs xs.
  Lemma tick_all_same xs is : length is = length xs -> same_arities xs (fst (tick_all tick xs is)).
  Proof. intros. apply tick_all_arity; auto. apply Forall_forall; intros; apply tick_arity. Qed.
  Lemma tick_chain_same xs i : same_arities xs (fst (tick_chain tick xs i)).
  Proof. intros. apply tick_chain_arity; auto. apply Forall_forall; intros; apply tick_arity. Qed.
  Lemma same_trans a b c : same_arities a b -> same_arities b c -> same_arities a c.
  Proof. intros [H1 H2] [H3 H4]. split; congruence. Qed.
  Lemma map_const_repeat {X Y} (v : Y) (xs : list X) : map (fun _ => v) xs = repeat v (length xs).
  Proof. induction xs; cbn; congruence. Qed.
  Lemma same_length xs ys : same_arities xs ys -> length ys = length xs.
  Proof. intros [H _]. exact (map_len_eq _ _ _ H). Qed.

  Notation mall := (mticks (tick_all tick)).
  Lemma ticks_MultiBus xs l : ticks (MultiBus xs) l =
    let r := mall xs (map (fun i => repeat i (length xs)) l) in
    (MultiBus (fst r), map (fun os => fold_left (zipw add) os (repeat zero (hd_outs xs))) (snd r)).
  Proof.
    cbv zeta.
    apply (ticks1m (tick_all tick) tick MultiBus (fun i => repeat i (length xs)) (fun os => fold_left (zipw add) os (repeat zero (hd_outs xs))) (same_arities xs)); [|split; auto].
    intros ys i Hs. pose proof (same_length _ _ Hs) as Hl. split.
    - eapply same_trans; eauto. apply tick_all_same. now rewrite repeat_length.
    - rewrite tick_MultiBus. cbv zeta. rewrite map_const_repeat, Hl, (hd_outs_map ys xs) by apply Hs. reflexivity.
  Qed.
  Lemma ticks_MultiBranch xs l : ticks (MultiBranch xs) l =
    let r := mall xs (map (fun i => repeat i (length xs)) l) in (MultiBranch (fst r), map (@concat A) (snd r)).
  Proof.
    cbv zeta.
    apply (ticks1m (tick_all tick) tick MultiBranch (fun i => repeat i (length xs)) (fun os => concat os) (same_arities xs)); [|split; auto].
    intros ys i Hs. pose proof (same_length _ _ Hs) as Hl. split.
    - eapply same_trans; eauto. apply tick_all_same. now rewrite repeat_length.
    - rewrite tick_MultiBranch. cbv zeta. rewrite map_const_repeat, Hl. reflexivity.
  Qed.
  Lemma ticks_MultiStack xs l : ticks (MultiStack xs) l =
    let r := mall xs (map (slices (length xs) (hd_ins xs)) l) in (MultiStack (fst r), map (@concat A) (snd r)).
  Proof.
    cbv zeta.
    apply (ticks1m (tick_all tick) tick MultiStack (slices (length xs) (hd_ins xs)) (fun os => concat os) (same_arities xs)); [|split; auto].
    intros ys i Hs. pose proof (same_length _ _ Hs) as Hl. split.
    - eapply same_trans; eauto. apply tick_all_same. now rewrite slices_length.
    - rewrite tick_MultiStack. cbv zeta. rewrite Hl, (hd_ins_map ys xs) by apply Hs. reflexivity.
  Qed.
  Lemma ticks_Reduce b xs l : ticks (Reduce b xs) l =
    let r := mall xs (map (slices (length xs) (hd_ins xs)) l) in (Reduce b (fst r), map (reduce_out b (hd_outs xs)) (snd r)).
  Proof.
    cbv zeta.
    apply (ticks1m (tick_all tick) tick (Reduce b) (slices (length xs) (hd_ins xs)) (fun os => reduce_out b (hd_outs xs) os) (same_arities xs)); [|split; auto].
    intros ys i Hs. pose proof (same_length _ _ Hs) as Hl. split.
    - eapply same_trans; eauto. apply tick_all_same. now rewrite slices_length.
    - rewrite tick_Reduce. cbv zeta. rewrite Hl, (hd_ins_map ys xs), (hd_outs_map ys xs) by apply Hs. reflexivity.
  Qed.
  Notation mchain := (mticks (tick_chain tick)).
  Lemma ticks_Chain xs l : ticks (Chain xs) l = (Chain (fst (mchain xs l)), snd (mchain xs l)).
  Proof.
    pose proof (ticks1 (tick_chain tick) tick Chain (fun i => i) (fun _ o => o) (fun _ => True) (fun _ => True)) as H.
    specialize (H (fun xs i _ _ => conj Logic.I (tick_Chain xs i)) l xs Logic.I (Forall_True l)).
    rewrite map_id in H. rewrite zipw_snd in H; [exact H|]. symmetry. apply mticks_length.
  Qed.
  Lemma mchain_nil l : mchain [] l = ([], l).
  Proof. induction l as [|i l IH]; cbn; auto. cbn in IH. now rewrite IH. Qed.
  Lemma mchain_cons x xs l : mchain (x :: xs) l =
    (fst (ticks x l) :: fst (mchain xs (snd (ticks x l))), snd (mchain xs (snd (ticks x l)))).
  Proof. exact (ticks_series tick (tick_chain tick) (tick_chain tick) cons (tick_chain_cons tick) l x xs). Qed.
  Lemma mall_nil L : mall [] L = ([], map (fun _ => []) L).
  Proof. induction L as [|i L IH]; cbn; auto. cbn in IH. rewrite IH. reflexivity. Qed.
  Lemma mall_cons x xs L : Forall (fun is => is <> []) L -> mall (x :: xs) L =
    (fst (ticks x (map (hd []) L)) :: fst (mall xs (map (@tl _) L)),
     zipw cons (snd (ticks x (map (hd []) L))) (snd (mall xs (map (@tl _) L)))).
  Proof.
    intros HL. apply (ticks2 tick (tick_all tick) (tick_all tick) cons (hd []) (@tl (list A)) cons (fun _ _ => True) (fun is => is <> [])); auto.
    intros x0 y0 [|i is] _ Hi; [congruence|]. split; auto. apply tick_all_cons.
  Qed.

  (* ---- block processing ---- *)
  Definition bframes (bs : list (list (list A))) (n : nat) : list (list (list A)) :=
    map (fun i => map (fun b => frame b i) bs) (seq 0 n).
  Lemma bframes_cons b bs n : map (hd []) (bframes (b :: bs) n) = frames b n /\ map (@tl _) (bframes (b :: bs) n) = bframes bs n /\
    Forall (fun is => is <> []) (bframes (b :: bs) n).
  Proof.
    unfold bframes, BufModel.frames. rewrite !map_map. repeat split; auto.
    apply Forall_forall. intros z Hz. apply in_map_iff in Hz as (? & <- & _). discriminate.
  Qed.
  Lemma frames_firstn k b n : frames (firstn k b) n = map (firstn k) (frames b n).
  Proof. unfold BufModel.frames. rewrite map_map. apply map_ext. intros; apply frame_firstn. Qed.
  Lemma frames_skipn k b n : frames (skipn k b) n = map (skipn k) (frames b n).
  Proof. unfold BufModel.frames. rewrite map_map. apply map_ext. intros; apply frame_skipn. Qed.
  Lemma zipw_map_map {X Y Z W} (f : Y -> Z -> W) (g : X -> Y) (h : X -> Z) l : zipw f (map g l) (map h l) = map (fun a => f (g a) (h a)) l.
  Proof. induction l; cbn; congruence. Qed.
  Lemma frames_app_bufs b c n : frames (b ++ c) n = zipw (@app A) (frames b n) (frames c n).
  Proof. unfold BufModel.frames. rewrite zipw_map_map. apply map_ext. intros; apply frame_app. Qed.
  Lemma bframes_slices m k b n : bframes (slices m k b) n = map (slices m k) (frames b n).
  Proof.
    unfold bframes, BufModel.frames. rewrite map_map. apply map_ext. intros i. unfold BufModel.frame. now rewrite map_slices.
  Qed.
  Lemma bframes_concat bs n : frames (concat bs) n = map (@concat A) (bframes bs n).
  Proof. unfold bframes, BufModel.frames. rewrite map_map. apply map_ext. intros i. unfold BufModel.frame. now rewrite concat_map. Qed.
  Lemma bframes_const {X} (xs : list X) b n : bframes (map (fun _ => b) xs) n = map (fun i => repeat i (length xs)) (frames b n).
  Proof.
    unfold bframes, BufModel.frames. rewrite map_map. apply map_ext. intros i. rewrite map_map. apply map_const_repeat.
  Qed.
  Lemma firstn_all_shaped n (b : list (list A)) : shaped n b -> firstn n b = b.
  Proof. intros [H _]. apply firstn_all2. lia. Qed.

  Lemma route_simd_shaped n size f (out : list (list A)) : shaped n out -> shaped n (route_simd ar size f out).
  Proof.
    intros [H _]. unfold route_simd. split; [rewrite map_length, seq_length; auto|].
    apply Forall_forall. intros ch Hc. apply in_map_iff in Hc as (? & <- & _). apply write_simd_length.
  Qed.
  Lemma frame_route_simd size f out i : size <= MAXB -> i < size ->
    frame (route_simd ar size f out) i = map (fun c => f c i) (seq 0 (length out)).
  Proof.
    intros Hs Hi. unfold BufModel.frame, route_simd. rewrite map_map. apply map_ext. intros c. apply nth_write_simd; auto.
  Qed.

  Definition good_garbage (g : garbage (A := A)) : Prop := forall p n, shaped n (g p n).
  Definition ctr (x : node) : Prop := forall g size inb out, good_garbage g -> size <= MAXB ->
    shaped (ins x) inb -> shaped (outs x) out ->
    let r := process g x size inb out in let t := ticks x (frames inb size) in
    fst r = fst t /\ frames (snd r) size = snd t /\ shaped (outs x) (snd r).
  Lemma good_sub g k : good_garbage g -> good_garbage (sub g k).
  Proof. intros H p n. apply H. Qed.

  Lemma ctr_route x f tf : (forall g size inb out, process g x size inb out = (x, route_simd ar size (f inb) out)) ->
    (forall i, tick x i = (x, tf i)) ->
    (forall inb k, shaped (ins x) inb -> map (fun c => f inb c k) (seq 0 (outs x)) = tf (frame inb k)) -> ctr x.
  Proof.
    intros H1 H2 H3 g size inb out Hg Hs Hi Ho. cbv zeta. rewrite H1, (ticks_stateless x tf H2). cbn [fst snd].
    split; [auto|]. split; [|now apply route_simd_shaped].
    unfold BufModel.frames. rewrite map_map. apply map_ext_in. intros k Hk. apply in_seq in Hk.
    rewrite frame_route_simd by lia. destruct Ho as [-> _]. apply H3; auto.
  Qed.

  Lemma ctr_default x : wf x -> (forall g size inb out, process g x size inb out = default_process zero tick size x inb out) -> ctr x.
  Proof.
    intros Hw H g size inb out Hg Hs Hi Ho. cbv zeta. rewrite H. unfold default_process.
    destruct (process_ticks_ok zero tick (outs x) (fun z => wf z /\ ins z = ins x /\ outs z = outs x) (ins x)) with (k := size) (i := 0) (x := x) (inb := inb) (out := out)
      as (E1 & E2 & E3 & _); auto.
    - intros z i (H1 & H2 & H3) Hl. destruct (tick_wf z i) as [H4 H5]; auto; [lia|].
      rewrite ins_tick, outs_tick. repeat split; auto; lia.
    - apply Hi.
  Qed.

  Lemma process_all_ok xs ni no size : Forall ctr xs -> Forall (fun y => ins y = ni /\ outs y = no) xs -> size <= MAXB ->
    forall g k inbs outbs, good_garbage g -> length inbs = length xs -> length outbs = length xs ->
    Forall (shaped ni) inbs -> Forall (shaped no) outbs ->
    let r := process_all process g k xs size inbs outbs in let t := mall xs (bframes inbs size) in
    fst r = fst t /\ bframes (snd r) size = snd t /\ Forall (shaped no) (snd r) /\ length (snd r) = length xs.
  Proof.
    intros HF Hn Hs. induction xs as [|x xs IH]; intros g k [|i is] [|o os] Hg H1 H2 H3 H4; cbn [length] in *; try lia; cbv zeta.
    - rewrite mall_nil. cbn. repeat split; auto. unfold bframes. now rewrite map_map.
    - inversion HF as [|? ? Hx HF']; inversion Hn as [|? ? [Hxi Hxo] Hn']; inversion H3; inversion H4; subst.
      destruct (IH HF' Hn' g (S k) is os) as (E1 & E2 & E3 & E4); auto.
      destruct (Hx (sub g k) size i o) as (F1 & F2 & F3); auto using good_sub.
      destruct (bframes_cons i is size) as (B1 & B2 & B3). rewrite mall_cons by auto. rewrite B1, B2.
      cbn. destruct (process (sub g k) x size i o) as [x' o']. destruct (process_all process g (S k) xs size is os) as [r' os'].
      cbn [fst snd] in *. rewrite <- E1, <- E2, <- F1, <- F2. repeat split; auto; cbn; try lia.
      unfold bframes, BufModel.frames. rewrite zipw_map_map. reflexivity.
  Qed.

  Lemma zip_acc_shaped n size b (d s : list (list A)) : length d = n -> length s = n ->
    shaped n (zipw (fun d s => write_simd zero size (fun k => b (nth k d zero) (nth k s zero)) d) d s).
  Proof.
    intros H1 H2. split; [rewrite zipw_length; lia|]. clear. revert s; induction d; intros [|y s]; cbn; constructor; auto using write_simd_length.
  Qed.
  Lemma frame_zip_acc size (b : A -> A -> A) (d s : list (list A)) i : size <= MAXB -> i < size ->
    frame (zipw (fun d s => write_simd zero size (fun k => b (nth k d zero) (nth k s zero)) d) d s) i = zipw b (frame d i) (frame s i).
  Proof.
    intros Hs Hi. unfold BufModel.frame. rewrite map_zipw, zipw_map_l, zipw_map_r.
    apply zipw_ext_Forall. intros p q _ _. exact (nth_write_simd zero size (fun k => b (nth k p zero) (nth k q zero)) p i Hs Hi).
  Qed.
  Lemma frames_zip_acc size (b : A -> A -> A) (d s : list (list A)) : size <= MAXB ->
    frames (zipw (fun d s => write_simd zero size (fun k => b (nth k d zero) (nth k s zero)) d) d s) size = zipw (zipw b) (frames d size) (frames s size).
  Proof.
    intros Hs. unfold BufModel.frames. rewrite zipw_map_map. apply map_ext_in. intros i Hi. apply in_seq in Hi. apply frame_zip_acc; lia.
  Qed.

  Lemma process_reduce_ok b xs ni no size : Forall ctr xs -> Forall (fun y => ins y = ni /\ outs y = no) xs -> size <= MAXB ->
    forall g k inbs tmp out, good_garbage g -> length inbs = length xs -> Forall (shaped ni) inbs -> shaped no tmp -> shaped no out ->
    let r := process_reduce ar process b g k xs size inbs tmp out in let t := mall xs (bframes inbs size) in
    fst r = fst t /\ frames (snd r) size = zipw (fun o os => fold_left (zipw b) os o) (frames out size) (snd t) /\ shaped no (snd r).
  Proof.
    intros HF Hn Hs. induction xs as [|x xs IH]; intros g k [|i is] tmp out Hg H1 H3 H4 H5; cbn [length] in *; try lia; cbv zeta.
    - rewrite mall_nil. cbn. repeat split; auto; try apply H5. unfold bframes, BufModel.frames. rewrite map_map, zipw_map_map. reflexivity.
    - inversion HF as [|? ? Hx HF']; inversion Hn as [|? ? [Hxi Hxo] Hn']; inversion H3; subst.
      destruct (Hx (sub g k) size i tmp) as (F1 & F2 & F3); auto using good_sub.
      destruct (bframes_cons i is size) as (B1 & B2 & B3). rewrite mall_cons by auto. rewrite B1, B2.
      cbn [process_reduce]. destruct (process (sub g k) x size i tmp) as [x' tmp']. cbn [fst snd] in *.
      set (out' := zipw _ out tmp').
      assert (Ho' : shaped (outs x) out') by (apply zip_acc_shaped; [apply H5|apply F3]).
      assert (Hf' : frames out' size = zipw (zipw b) (frames out size) (frames tmp' size)) by (apply frames_zip_acc; auto).
      destruct (IH HF' Hn' g (S k) is tmp' out') as (E1 & E2 & E3); auto.
      destruct (process_reduce ar process b g (S k) xs size is tmp' out') as [r' out'']. cbn [fst snd] in *.
      split; [congruence|]. split; auto. rewrite E2, Hf', F2. clear.
      generalize (frames out size) (snd (ticks x (frames i size))) (snd (mall xs (bframes is size))).
      intros l; induction l; intros [|? m] [|? n]; cbn; auto. f_equal; auto.
  Qed.

  Lemma odd_lxor_S n i : Nat.odd (Nat.lxor n (S i)) = negb (Nat.odd (Nat.lxor n i)).
  Proof.
    rewrite <- !Nat.bit0_odd, !Nat.lxor_spec, !Nat.bit0_odd, Nat.odd_succ, <- Nat.negb_odd.
    destruct (Nat.odd n), (Nat.odd i); reflexivity.
  Qed.
  Lemma process_chain_ok n c size xs : Forall ctr xs -> Forall (fun y => ins y = c /\ outs y = c) xs -> size <= MAXB ->
    forall g i buffer out, good_garbage g -> i + length xs = n -> shaped c buffer -> shaped c out ->
    let r := process_chain process g n i xs size buffer out in
    let t := mchain xs (frames (if Nat.odd (Nat.lxor n i) then buffer else out) size) in
    fst r = fst t /\ frames (snd r) size = snd t /\ shaped c (snd r).
  Proof.
    intros HF Hn Hs. induction xs as [|x xs IH]; intros g i buffer out Hg Hl Hb Ho; cbn [length] in *; cbv zeta.
    - rewrite Nat.add_0_r in Hl. subst i. rewrite Nat.lxor_nilpotent. cbn [Nat.odd Nat.even negb]. rewrite mchain_nil. cbn. repeat split; auto; apply Ho.
    - inversion HF as [|? ? Hx HF']; inversion Hn as [|? ? [Hxi Hxo] Hn']; subst c.
      specialize (IH HF' Hn'). cbn [process_chain]. rewrite mchain_cons. pose proof (odd_lxor_S n i) as Hodd.
      destruct (Nat.odd (Nat.lxor n i)) eqn:Eo.
      + destruct (Hx (sub g i) size buffer out) as (F1 & F2 & F3); auto using good_sub; [now rewrite Hxo|].
        destruct (process (sub g i) x size buffer out) as [x' out']. cbn [fst snd] in *. rewrite Hxo in F3.
        destruct (IH g (S i) buffer out') as (E1 & E2 & E3); auto; [lia|]. rewrite Hodd in E1, E2. cbn [negb] in *.
        destruct (process_chain process g n (S i) xs size buffer out') as [r' o]. cbn [fst snd] in *.
        rewrite <- F2. repeat split; auto; try congruence; apply E3.
      + destruct (Hx (sub g i) size out buffer) as (F1 & F2 & F3); auto using good_sub; [now rewrite Hxo|].
        destruct (process (sub g i) x size out buffer) as [x' b']. cbn [fst snd] in *. rewrite Hxo in F3.
        destruct (IH g (S i) b' out) as (E1 & E2 & E3); auto; [lia|]. rewrite Hodd in E1, E2. cbn [negb] in *.
        destruct (process_chain process g n (S i) xs size b' out) as [r' o]. cbn [fst snd] in *.
        rewrite <- F2. repeat split; auto; try congruence; apply E3.
  Qed.

  Lemma frame_nth_map inb c k n : shaped n inb -> nth c (frame inb k) zero = nth k (nth c inb []) zero.
  Proof.
    intros [H _]. unfold BufModel.frame.
    transitivity (nth c (map (fun ch => nth k ch zero) inb) (nth k [] zero)); [f_equal; destruct k; reflexivity|].
    apply (map_nth (fun ch => nth k ch zero)).
  Qed.
  Lemma map_nth_seq_id (l : list A) : map (fun c => nth c l zero) (seq 0 (length l)) = l.
  Proof.
    apply nth_ext_len with (d := zero); [now rewrite map_length, seq_length|].
    intros i Hi. rewrite map_length, seq_length in Hi. now rewrite nth_map_seq.
  Qed.
  Lemma Forall_impl2 {X} (p q r : X -> Prop) l : (forall a, p a -> q a -> r a) -> Forall p l -> Forall q l -> Forall r l.
  Proof. intros H H1 H2. rewrite Forall_forall in *. auto. Qed.
  Lemma children_ok xs : Forall (fun x => wf x -> blockable x -> ctr x) xs -> all wf xs -> all blockable xs -> Forall ctr xs.
  Proof. intros H H1 H2. apply all_Forall in H1, H2. rewrite Forall_forall in *. auto. Qed.
  Lemma thru_short x i o : length i = ins x -> length o = outs x -> ins x < outs x -> thru_out (outs x) (ins x) i o = firstn (ins x) o.
  Proof.
    intros Hi Ho Hlt. unfold thru_out. apply nth_ext_len with (d := zero).
    - rewrite map_length, seq_length, firstn_length. lia.
    - intros k Hk. rewrite map_length, seq_length in Hk. rewrite nth_map_seq by lia.
      destruct (Nat.ltb_spec k (outs x)); [|lia]. now rewrite nth_firstn_lt.
  Qed.
  Lemma thru_long x i o : length i = ins x -> length o = outs x -> outs x <= ins x -> thru_out (outs x) (ins x) i o = o ++ skipn (outs x) i.
  Proof.
    intros Hi Ho Hle. unfold thru_out. apply nth_ext_len with (d := zero).
    - rewrite map_length, seq_length, app_length, skipn_length. lia.
    - intros k Hk. rewrite map_length, seq_length in Hk. rewrite nth_map_seq by lia.
      destruct (Nat.ltb_spec k (outs x)).
      + now rewrite app_nth1 by lia.
      + rewrite app_nth2 by lia. rewrite nth_skipn_add. f_equal. lia.
  Qed.
  Lemma zipw_ext_len {X Y Z} (f g : X -> Y -> Z) l m (p : X -> Prop) (q : Y -> Prop) :
    Forall p l -> Forall q m -> (forall a b, p a -> q b -> f a b = g a b) -> zipw f l m = zipw g l m.
  Proof. intros H1 H2 H. rewrite Forall_forall in *. apply zipw_ext_Forall. auto. Qed.
  Lemma frames_ok n b size : shaped n b -> Forall (fun i => length i = n) (frames b size).
  Proof. intros [H _]. rewrite <- H. apply frames_each. Qed.

  Lemma process_ok x : wf x -> blockable x -> ctr x.
  Proof.
    induction x using node_ind'; intros Hw Hb.
    - (* Leaf *) intros g size inb out Hg Hs Hi Ho. cbv zeta. rewrite ticks_Leaf. cbn.
      pose proof (ul_process _ _ Hu u size inb out Hs Hi Ho) as H. destruct (u_process ops u size inb out) as [u' o].
      destruct H as [H1 H2]. rewrite <- H1. auto.
    - (* MultiPass *) apply (ctr_route _ (fun inb c k => nth k (nth c inb []) zero) (fun i => i)); auto. intros inb k Hi. cbn [NodeModel.outs NodeModel.ins] in *.
      rewrite <- (map_nth_seq_id (frame inb k)). rewrite frame_length. destruct Hi as [Hl Hf]. rewrite Hl. apply map_ext. intros c. symmetry. apply (frame_nth_map inb c k n). split; auto.
    - (* Pass *) apply (ctr_route _ (fun inb c k => nth k (nth c inb []) zero) (fun i => i)); auto. intros inb k Hi. cbn [NodeModel.outs NodeModel.ins] in *.
      rewrite <- (map_nth_seq_id (frame inb k)). rewrite frame_length. destruct Hi as [Hl Hf]. rewrite Hl. apply map_ext. intros c. symmetry. apply (frame_nth_map inb c k 1). split; auto.
    - (* Sink *) intros g size inb out Hg Hs Hi Ho. cbv zeta. rewrite (ticks_stateless _ (fun _ => [])) by reflexivity. cbn.
      split; auto. split; auto. destruct Ho as [Ho _]. destruct out; [|discriminate]. unfold BufModel.frames. now rewrite map_map.
    - (* Constant *) apply (ctr_route _ (fun inb c k => nth c v zero) (fun _ => v)); auto. intros inb k Hi. apply map_nth_seq_id.
    - (* Split *) apply (ctr_route _ (fun inb c k => nth k (nth 0 inb []) zero) (fun i => repeat (nth 0 i zero) n)); auto. intros inb k Hi. cbn [NodeModel.outs NodeModel.ins] in *.
      rewrite map_const_repeat, seq_length. now rewrite (frame_nth_map inb 0 k 1).
    - (* MultiSplit *) apply (ctr_route _ (fun inb c k => nth k (nth (c mod m) inb []) zero) (fun i => map (fun c => nth (c mod m) i zero) (seq 0 (m * n)))); auto.
      intros inb k Hi. cbn [NodeModel.outs NodeModel.ins] in *. apply map_ext. intros c. symmetry. eapply frame_nth_map; eauto.
    - (* Join *) apply (ctr_route _ (fun inb c k => join_block ar n (map (fun ch => nth k ch zero) inb)) (fun i => [join_tick ar n i])); auto.
      intros inb k Hi. cbn. f_equal. apply Hb. rewrite (frame_length zero). apply Hi.
    - (* MultiJoin *) apply (ctr_route _ (fun inb c k => join_block ar n (strided ar m n c (map (fun ch => nth k ch zero) inb))) (fun i => map (fun j => join_tick ar n (strided ar m n j i)) (seq 0 m))); auto.
      intros inb k Hi. apply map_ext. intros c. apply Hb. unfold strided. now rewrite map_length, seq_length.
    - (* Reverse *) apply (ctr_route _ (fun inb c k => nth k (nth (n - 1 - c) inb []) zero) (fun i => map (fun c => nth (n - 1 - c) i zero) (seq 0 n))); auto.
      intros inb k Hi. apply map_ext. intros c. symmetry. eapply frame_nth_map; eauto.
    - (* Impulse *) apply ctr_default; auto.
    - (* Map *) apply ctr_default; auto.
    - (* Binop *) destruct Hw as (W1 & W2 & W3), Hb as (B1 & B2). specialize (IHx1 W1 B1); specialize (IHx2 W2 B2).
      intros g size inb out Hg Hs Hi Ho. cbv zeta. rewrite ticks_Binop. cbn [NodeModel.process NodeModel.ins NodeModel.outs] in *.
      destruct (IHx1 (sub g 1) size (firstn (ins x1) inb) (g [] (outs x1))) as (E1 & E2 & E3); auto using good_sub.
      { eapply shaped_firstn; eauto; lia. }
      rewrite (firstn_all_shaped (ins x2)) by (replace (ins x2) with (ins x1 + ins x2 - ins x1) by lia; now apply shaped_skipn).
      destruct (IHx2 (sub g 2) size (skipn (ins x1) inb) out) as (F1 & F2 & F3); auto using good_sub.
      { replace (ins x2) with (ins x1 + ins x2 - ins x1) by lia; now apply shaped_skipn. }
      { now rewrite <- W3. }
      destruct (process (sub g 1) x1 size _ _) as [x' bx]. destruct (process (sub g 2) x2 size _ _) as [y' by_]. cbn [fst snd] in *.
      rewrite frames_firstn in E1, E2. rewrite frames_skipn in F1, F2. rewrite <- E1, <- E2, <- F1, <- F2.
      split; auto. split; [|apply zip_simd_shaped; [apply E3|rewrite W3; apply F3]].
      unfold BufModel.frames. rewrite zipw_map_map. apply map_ext_in. intros k Hk. apply in_seq in Hk. apply frame_zip_simd; lia.
    - (* Unop *) specialize (IHx Hw Hb). intros g size inb out Hg Hs Hi Ho. cbv zeta. rewrite ticks_Unop. cbn [NodeModel.process NodeModel.ins NodeModel.outs] in *.
      destruct (IHx (sub g 1) size inb out) as (E1 & E2 & E3); auto using good_sub.
      destruct (process (sub g 1) x size _ _) as [x' o]. cbn [fst snd] in *. rewrite <- E1, <- E2. split; auto. split.
      + unfold BufModel.frames. rewrite map_map. apply map_ext_in. intros k Hk. apply in_seq in Hk.
        unfold BufModel.frame. rewrite !map_map. apply map_ext. intros ch.
        exact (nth_write_simd zero size (fun k => f (nth k ch zero)) ch k Hs ltac:(lia)).
      + destruct E3 as [E3 _]. split; [now rewrite map_length|]. apply Forall_forall. intros c Hc. apply in_map_iff in Hc as (? & <- & _). apply write_simd_length.
    - (* Pipe *) destruct Hw as (W1 & W2 & W3), Hb as (B1 & B2). specialize (IHx1 W1 B1); specialize (IHx2 W2 B2).
      intros g size inb out Hg Hs Hi Ho. cbv zeta. rewrite ticks_Pipe. cbn [NodeModel.process NodeModel.ins NodeModel.outs] in *.
      destruct (IHx1 (sub g 1) size inb (g [] (outs x1))) as (E1 & E2 & E3); auto using good_sub.
      destruct (process (sub g 1) x1 size _ _) as [x' bx]. cbn [fst snd] in *.
      destruct (IHx2 (sub g 2) size bx out) as (F1 & F2 & F3); auto using good_sub; [now rewrite <- W3|].
      destruct (process (sub g 2) x2 size _ _) as [y' o]. cbn [fst snd] in *. rewrite <- E1, <- E2. split; [now rewrite F1|]. auto.
    - (* Stack *) destruct Hw as (W1 & W2), Hb as (B1 & B2). specialize (IHx1 W1 B1); specialize (IHx2 W2 B2).
      intros g size inb out Hg Hs Hi Ho. cbv zeta. rewrite ticks_Stack. cbn [NodeModel.process NodeModel.ins NodeModel.outs] in *.
      destruct (IHx1 (sub g 1) size (firstn (ins x1) inb) (firstn (outs x1) out)) as (E1 & E2 & E3); auto using good_sub.
      { eapply shaped_firstn; eauto; lia. } { eapply shaped_firstn; eauto; lia. }
      rewrite (firstn_all_shaped (ins x2)) by (replace (ins x2) with (ins x1 + ins x2 - ins x1) by lia; now apply shaped_skipn).
      destruct (IHx2 (sub g 2) size (skipn (ins x1) inb) (skipn (outs x1) out)) as (F1 & F2 & F3); auto using good_sub.
      { replace (ins x2) with (ins x1 + ins x2 - ins x1) by lia; now apply shaped_skipn. }
      { replace (outs x2) with (outs x1 + outs x2 - outs x1) by lia; now apply shaped_skipn. }
      destruct (process (sub g 1) x1 size _ _) as [x' ox]. destruct (process (sub g 2) x2 size _ _) as [y' oy]. cbn [fst snd] in *.
      rewrite frames_firstn in E1, E2. rewrite frames_skipn in F1, F2. rewrite <- E1, <- E2, <- F1, <- F2.
      split; auto. split; [apply frames_app_bufs|apply shaped_app; auto].
    - (* Branch *) destruct Hw as (W1 & W2 & W3), Hb as (B1 & B2). specialize (IHx1 W1 B1); specialize (IHx2 W2 B2).
      intros g size inb out Hg Hs Hi Ho. cbv zeta. rewrite ticks_Branch. cbn [NodeModel.process NodeModel.ins NodeModel.outs] in *.
      destruct (IHx1 (sub g 1) size inb (firstn (outs x1) out)) as (E1 & E2 & E3); auto using good_sub.
      { eapply shaped_firstn; eauto; lia. }
      destruct (IHx2 (sub g 2) size inb (skipn (outs x1) out)) as (F1 & F2 & F3); auto using good_sub; [now rewrite <- W3| |].
      { replace (outs x2) with (outs x1 + outs x2 - outs x1) by lia; now apply shaped_skipn. }
      destruct (process (sub g 1) x1 size _ _) as [x' ox]. destruct (process (sub g 2) x2 size _ _) as [y' oy]. cbn [fst snd] in *.
      rewrite <- E1, <- E2, <- F1, <- F2. split; auto. split; [apply frames_app_bufs|apply shaped_app; auto].
    - (* Bus *) destruct Hw as (W1 & W2 & W3 & W4), Hb as (B1 & B2). specialize (IHx1 W1 B1); specialize (IHx2 W2 B2).
      intros g size inb out Hg Hs Hi Ho. cbv zeta. rewrite ticks_Bus. cbn [NodeModel.process NodeModel.ins NodeModel.outs] in *.
      destruct (IHx1 (sub g 1) size inb out) as (E1 & E2 & E3); auto using good_sub.
      destruct (IHx2 (sub g 2) size inb (g [] (outs x1))) as (F1 & F2 & F3); auto using good_sub; [now rewrite <- W3|rewrite <- W4; apply Hg|].
      destruct (process (sub g 1) x1 size _ _) as [x' ox]. destruct (process (sub g 2) x2 size _ _) as [y' oy]. cbn [fst snd] in *.
      rewrite <- E1, <- E2, <- F1, <- F2. split; auto. split; [apply frames_zip_acc; auto|apply zip_acc_shaped; [apply E3|rewrite W4; apply F3]].
    - (* Thru *) destruct Hb as (B0 & B). specialize (IHx Hw B).
      intros g size inb out Hg Hs Hi Ho. cbv zeta. rewrite ticks_Thru. cbn [NodeModel.process NodeModel.ins NodeModel.outs] in *.
      destruct (Nat.eqb_spec (ins x) 0) as [|_]; [lia|].
      destruct (ticks_wf (frames inb size) x Hw (frames_ok _ _ _ Hi)) as (_ & _ & _ & T).
      destruct (Nat.ltb_spec (ins x) (outs x)).
      + destruct (IHx (sub g 1) size inb (g [] (outs x))) as (E1 & E2 & E3); auto using good_sub.
        destruct (process (sub g 1) x size _ _) as [x' b]. cbn [fst snd] in *. rewrite <- E1. split; auto.
        assert (Hsf : shaped (ins x) (firstn (ins x) b)) by (eapply shaped_firstn; eauto; lia).
        split; [|apply copy_simd_shaped; [apply Hsf|apply Ho]].
        rewrite <- E2 in *.
        rewrite (zipw_ext_len _ (fun _ o => firstn (ins x) o) _ _ (fun i => length i = ins x) (fun o => length o = outs x));
          [|now apply frames_ok|auto|intros; now apply thru_short].
        rewrite zipw_const_map by (now rewrite !frames_length). rewrite <- frames_firstn.
        apply frames_ext. intros k Hk. apply frame_copy_simd; auto. destruct Hsf, Ho; lia.
      + destruct (IHx (sub g 1) size inb (firstn (outs x) out)) as (E1 & E2 & E3); auto using good_sub.
        { eapply shaped_firstn; eauto. }
        destruct (process (sub g 1) x size _ _) as [x' b]. cbn [fst snd] in *. rewrite <- E1. split; auto.
        pose proof (shaped_skipn _ (outs x) _ Hi) as S1. pose proof (shaped_skipn _ (outs x) _ Ho) as S2.
        assert (S3 : shaped (ins x - outs x) (copy_simd zero size (skipn (outs x) inb) (skipn (outs x) out))) by (apply copy_simd_shaped; [apply S1|apply S2]).
        split; [|replace (ins x) with (outs x + (ins x - outs x)) at 1 by lia; apply shaped_app; auto].
        rewrite <- E2 in *.
        rewrite (zipw_ext_len _ (fun i o => o ++ skipn (outs x) i) _ _ (fun i => length i = ins x) (fun o => length o = outs x));
          [|now apply frames_ok|auto|intros; now apply thru_long].
        unfold BufModel.frames. rewrite zipw_map_map. apply map_ext_in. intros k Hk. apply in_seq in Hk.
        rewrite frame_app. f_equal. rewrite frame_copy_simd by (destruct S1, S2; lia). apply frame_skipn.
    - (* MultiBus *) destruct Hw as (W1 & W2), Hb as (B1 & B2). pose proof (children_ok xs H W1 B1) as HC. pose proof (uniform_hd xs W2) as HU.
      intros g size inb out Hg Hs Hi Ho. cbv zeta. rewrite ticks_MultiBus. cbv zeta.
      destruct xs as [|y r]; [destruct W2|]. cbn [hd_outs hd_ins] in *. inversion HC as [|? ? C1 C2]; inversion HU as [|? ? _ U2]; subst.
      cbn [NodeModel.process NodeModel.ins NodeModel.outs] in *.
      destruct (C1 (sub g 1) size inb out) as (E1 & E2 & E3); auto using good_sub.
      destruct (process (sub g 1) y size inb out) as [y' o]. cbn [fst snd] in *.
      destruct (process_reduce_ok add r (ins y) (outs y) size C2 U2 Hs (sub g 2) 0 (map (fun _ => inb) r) (g [] (outs y)) o) as (F1 & F2 & F3); auto using good_sub, map_length.
      { now apply Forall_const_map. }
      destruct (process_reduce ar process add _ _ r _ _ _ _) as [r' o']. cbn [fst snd] in *.
      rewrite <- (bframes_const (y :: r)). cbn [map length].
      destruct (bframes_cons inb (map (fun _ => inb) r) size) as (K1 & K2 & K3). rewrite mall_cons by auto. rewrite K1, K2. cbn [fst snd].
      rewrite <- E1, <- F1. split; auto. split; auto. rewrite F2, E2.
      destruct (ticks_wf (frames inb size) y (proj1 W1) (frames_ok _ _ _ Hi)) as (_ & _ & _ & T).
      revert T. generalize (snd (ticks y (frames inb size))) (snd (mall r (bframes (map (fun _ => inb) r) size))). clear - B2.
      intros l; induction l as [|o l IH]; intros [|os m] T; cbn; auto. inversion T; subst. f_equal; auto.
      f_equal. clear - B2 H1. rewrite <- H1. clear H1. induction o; cbn; congruence.
    - (* MultiStack *) destruct Hw as (W1 & W2). pose proof (children_ok xs H W1 Hb) as HC. pose proof (uniform_hd xs W2) as HU.
      intros g size inb out Hg Hs Hi Ho. cbv zeta. rewrite ticks_MultiStack. cbv zeta.
      rewrite ins_MultiStack in Hi. rewrite outs_MultiStack in *.
      cbn [NodeModel.process]. fold (hd_ins xs) (hd_outs xs).
      destruct (process_all_ok xs (hd_ins xs) (hd_outs xs) size HC HU Hs g 0 (slices (length xs) (hd_ins xs) inb) (slices (length xs) (hd_outs xs) out)) as (E1 & E2 & E3 & E4);
        auto using slices_length, shaped_slices.
      destruct (process_all process g 0 xs size _ _) as [xs' os]. cbn [fst snd] in *. rewrite bframes_slices in E1, E2.
      rewrite <- E1, <- E2. split; auto. split; [apply bframes_concat|]. rewrite <- E4. apply shaped_concat; auto.
    - (* Reduce *) destruct Hw as (W1 & W2). pose proof (children_ok xs H W1 Hb) as HC. pose proof (uniform_hd xs W2) as HU.
      intros g size inb out Hg Hs Hi Ho. cbv zeta. rewrite ticks_Reduce. cbv zeta.
      destruct xs as [|y r]; [destruct W2|]. cbn [hd_outs hd_ins] in *. inversion HC as [|? ? C1 C2]; inversion HU as [|? ? _ U2]; subst.
      cbn [NodeModel.process NodeModel.ins NodeModel.outs length] in *.
      assert (Hi1 : shaped (ins y) (firstn (ins y) inb)) by (eapply shaped_firstn; eauto; lia).
      assert (Hi2 : shaped (length r * ins y) (skipn (ins y) inb)).
      { replace (length r * ins y) with (S (length r) * ins y - ins y) by lia. apply shaped_skipn; auto. }
      destruct (C1 (sub g 1) size (firstn (ins y) inb) out) as (E1 & E2 & E3); auto using good_sub.
      destruct (process (sub g 1) y size _ out) as [y' o]. cbn [fst snd] in *.
      destruct (process_reduce_ok b r (ins y) (outs y) size C2 U2 Hs (sub g 2) 0 (slices (length r) (ins y) (skipn (ins y) inb)) (g [] (outs y)) o) as (F1 & F2 & F3); auto using good_sub, slices_length, shaped_slices.
      destruct (process_reduce ar process b _ _ r _ _ _ _) as [r' o']. cbn [fst snd] in *.
      rewrite <- bframes_slices. cbn [slices].
      destruct (bframes_cons (firstn (ins y) inb) (slices (length r) (ins y) (skipn (ins y) inb)) size) as (K1 & K2 & K3). rewrite mall_cons by auto. rewrite K1, K2. cbn [fst snd].
      rewrite <- E1, <- F1. split; auto. split; auto. rewrite F2, E2.
      generalize (snd (ticks y (frames (firstn (ins y) inb) size))) (snd (mall r (bframes (slices (length r) (ins y) (skipn (ins y) inb)) size))). clear.
      intros l; induction l as [|o l IH]; intros [|os m]; cbn; auto. f_equal; auto.
    - (* MultiBranch *) destruct Hw as (W1 & W2). pose proof (children_ok xs H W1 Hb) as HC. pose proof (uniform_hd xs W2) as HU.
      intros g size inb out Hg Hs Hi Ho. cbv zeta. rewrite ticks_MultiBranch. cbv zeta.
      rewrite outs_MultiBranch in *. change (ins (MultiBranch xs)) with (hd_ins xs) in Hi.
      cbn [NodeModel.process]. fold (hd_outs xs).
      destruct (process_all_ok xs (hd_ins xs) (hd_outs xs) size HC HU Hs g 0 (map (fun _ => inb) xs) (slices (length xs) (hd_outs xs) out)) as (E1 & E2 & E3 & E4);
        auto using slices_length, map_length, shaped_slices, Forall_const_map.
      destruct (process_all process g 0 xs size _ _) as [xs' os]. cbn [fst snd] in *. rewrite bframes_const in E1, E2.
      rewrite <- E1, <- E2. split; auto. split; [apply bframes_concat|]. rewrite <- E4. apply shaped_concat; auto.
    - (* Chain *) destruct Hw as (W1 & W2 & W3). pose proof (children_ok xs H W1 Hb) as HC. pose proof (chain_uniform xs W2 W3) as HU.
      intros g size inb out Hg Hs Hi Ho. cbv zeta. rewrite ticks_Chain.
      destruct xs as [|y r]; [destruct W2|]. cbn [hd_outs hd_ins] in *. inversion HC as [|? ? C1 C2]; inversion HU as [|? ? [_ U1] U2]; subst.
      cbn [NodeModel.process NodeModel.ins NodeModel.outs] in *. rewrite mchain_cons. set (n := length (y :: r)).
      assert (Hodd : Nat.odd (Nat.lxor n 1) = negb (Nat.odd n)).
      { rewrite odd_lxor_S, Nat.lxor_0_r. reflexivity. }
      destruct (Nat.odd n) eqn:En.
      + destruct (C1 (sub g 0) size inb out) as (E1 & E2 & E3); auto using good_sub.
        destruct (process (sub g 0) y size _ _) as [y' o]. cbn [fst snd] in *. rewrite U1 in *.
        destruct (process_chain_ok n (ins y) size r C2 U2 Hs g 1 (g [] (ins y)) o) as (F1 & F2 & F3); auto.
        rewrite Hodd in F1, F2. cbn [negb] in *. destruct (process_chain process g n 1 r size _ _) as [r' o']. cbn [fst snd] in *.
        rewrite <- E2. repeat split; auto; try congruence; apply F3.
      + destruct (C1 (sub g 0) size inb (g [] (outs y))) as (E1 & E2 & E3); auto using good_sub.
        destruct (process (sub g 0) y size _ _) as [y' b]. cbn [fst snd] in *. rewrite U1 in *.
        destruct (process_chain_ok n (ins y) size r C2 U2 Hs g 1 b out) as (F1 & F2 & F3); auto.
        rewrite Hodd in F1, F2. cbn [negb] in *. destruct (process_chain process g n 1 r size _ _) as [r' o']. cbn [fst snd] in *.
        rewrite <- E2. repeat split; auto; try congruence; apply F3.
    - (* Feedback *) apply ctr_default; auto.
    - (* Feedback2 *) apply ctr_default; auto.
  Qed.
End Proofs.
