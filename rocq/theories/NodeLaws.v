From Verif Require Export NodeSpec NodeProofs.

Section Laws.
  Context {A P U : Type}.
  Variable ar : arith A.
  Variable ops : unit_ops A P U.
  Notation zero := (a_zero ar).
  Notation add := (a_add ar).
  Notation node := (node A U).
  Notation ins := (ins ops).
  Notation outs := (outs ops).
  Notation tick := (tick ar ops).
  Notation process := (process ar ops).
  Notation wf := (wf ops).
  Notation blockable := (blockable ar ops).
  Notation outputs := (outputs ar ops).
  Notation equiv := (equiv ar ops).
  Variable Hu : unit_laws zero ops.

  Lemma stream_app n (l m : list (list A)) : stream n l -> stream n m -> stream n (l ++ m).
  Proof. intros. apply Forall_app. auto. Qed.

  Lemma blockable_ticks l : forall x, blockable x -> blockable (fst (ticks tick x l)).
  Proof.
    induction l as [|i l IH]; intros x Hb; cbn; auto.
    pose proof (blockable_tick ar ops Hu x i Hb) as H. destruct (tick x i) as [x' o]; cbn in *. specialize (IH x' H).
    destruct (ticks tick x' l); cbn in *; auto.
  Qed.

  Lemma block_contract_node x g : wf x -> blockable x -> (forall p n, shaped n (g p n)) ->
    block_contract zero tick (process g) (ins x) (outs x) x.
  Proof.
    intros Hw Hb Hg size inb out Hs Hi Ho. destruct (process_ok ar ops Hu x Hw Hb g size inb out Hg Hs Hi Ho) as (H1 & H2 & H3).
    destruct (process g x size inb out) as [x' o]. cbn [fst snd] in *. split; auto. rewrite H1, H2.
    now destruct (ticks tick x (frames zero inb size)).
  Qed.

  Lemma run_blocks_ok bs : forall x, wf x -> blockable x -> Forall (block_ok ops x) bs ->
    run_blocks ar ops x bs = ticks tick x (input_frames ar bs).
  Proof.
    induction bs as [|b bs IH]; intros x Hw Hb HB; cbn [run_blocks]; auto.
    inversion HB as [|? ? (B1 & B2 & B3 & B4) HB']; subst.
    destruct (process_ok ar ops Hu x Hw Hb (k_tmp b) (k_size b) (k_in b) (k_out b) B4 B1 B2 B3) as (H1 & H2 & H3).
    unfold input_frames. cbn [map concat]. rewrite ticks_app.
    assert (Hst : stream (ins x) (frames zero (k_in b) (k_size b))) by (now apply frames_ok).
    destruct (ticks_wf ar ops Hu _ x Hw Hst) as (W1 & W2 & W3 & _).
    pose proof (blockable_ticks (frames zero (k_in b) (k_size b)) x Hb) as W4.
    destruct (process (k_tmp b) x (k_size b) (k_in b) (k_out b)) as [x' o]. cbn [fst snd] in *.
    destruct (ticks tick x (frames zero (k_in b) (k_size b))) as [x1 o1]. cbn [fst snd] in *. subst x1.
    fold (input_frames ar bs). rewrite <- IH; auto.
    - rewrite H2. destruct (run_blocks ar ops x' bs); reflexivity.
    - clear - HB' W2 W3. induction HB' as [|b' bs (C1 & C2 & C3 & C4) _ IHB]; constructor; auto. unfold block_ok. now rewrite W2, W3.
  Qed.

  (* ---- outputs of combinators ---- *)
  Lemma outputs_length x l : length (outputs x l) = length l.
  Proof. apply ticks_length. Qed.
  Lemma outputs_stream x l : wf x -> stream (ins x) l -> stream (outs x) (outputs x l).
  Proof. intros Hw Hl. apply (ticks_wf ar ops Hu l x Hw Hl). Qed.
  Lemma outputs_Pipe x y l : outputs (Pipe x y) l = outputs y (outputs x l).
  Proof. unfold NodeSpec.outputs. now rewrite ticks_Pipe. Qed.
  Lemma outputs_Stack x y l : outputs (Stack x y) l =
    zipw (@app A) (outputs x (map (firstn (ins x)) l)) (outputs y (map (skipn (ins x)) l)).
  Proof. unfold NodeSpec.outputs. now rewrite ticks_Stack. Qed.
  Lemma outputs_Binop b x y l : outputs (Binop b x y) l =
    zipw (zipw b) (outputs x (map (firstn (ins x)) l)) (outputs y (map (skipn (ins x)) l)).
  Proof. unfold NodeSpec.outputs. now rewrite ticks_Binop. Qed.
  Lemma outputs_Branch x y l : outputs (Branch x y) l = zipw (@app A) (outputs x l) (outputs y l).
  Proof. unfold NodeSpec.outputs. now rewrite ticks_Branch. Qed.
  Lemma outputs_Bus x y l : outputs (Bus x y) l = zipw (zipw add) (outputs x l) (outputs y l).
  Proof. unfold NodeSpec.outputs. now rewrite ticks_Bus. Qed.
  Lemma outputs_Unop f x l : outputs (Unop f x) l = map (map f) (outputs x l).
  Proof. unfold NodeSpec.outputs. now rewrite ticks_Unop. Qed.
  Lemma outputs_Thru x l : wf x -> stream (ins x) l ->
    outputs (Thru x) l = zipw (fun i o => firstn (ins x) (o ++ skipn (outs x) i)) l (outputs x l).
  Proof.
    intros Hw Hl. unfold NodeSpec.outputs. rewrite ticks_Thru by auto. cbn [snd].
    apply (zipw_ext_len _ _ _ _ (fun i => length i = ins x) (fun o => length o = outs x)); auto.
    - apply (ticks_wf ar ops Hu l x Hw Hl).
    - intros i o Hi Ho. destruct (Nat.lt_ge_cases (ins x) (outs x)).
      + rewrite thru_short by auto. rewrite firstn_app. replace (ins x - length o) with 0 by lia. now rewrite app_nil_r.
      + rewrite thru_long by auto. rewrite firstn_all2; auto. rewrite app_length, skipn_length. lia.
  Qed.
  Lemma outputs_stateless x f l : (forall i, tick x i = (x, f i)) -> outputs x l = map f l.
  Proof. intros H. unfold NodeSpec.outputs. now rewrite (ticks_stateless ar ops x f H). Qed.
  Lemma outputs_nil x : outputs x [] = [].
  Proof. reflexivity. Qed.

  Lemma equiv_refl x : equiv x x.
  Proof. repeat split; auto. Qed.
  Lemma equiv_sym x y : equiv x y -> equiv y x.
  Proof. intros (H1 & H2 & H3). repeat split; auto. intros l Hl. symmetry. apply H3. now rewrite H1. Qed.
  Lemma equiv_trans x y z : equiv x y -> equiv y z -> equiv x z.
  Proof.
    intros (H1 & H2 & H3) (G1 & G2 & G3). repeat split; try congruence. intros l Hl. rewrite H3 by auto. apply G3. now rewrite <- H1.
  Qed.
  Lemma stream_map_firstn n k (l : list (list A)) : k <= n -> stream n l -> stream k (map (firstn k) l).
  Proof.
    intros Hk H. unfold stream in *. apply Forall_forall. intros i Hi. apply in_map_iff in Hi as (j & <- & Hj).
    rewrite Forall_forall in H. rewrite firstn_length, (H j Hj). lia.
  Qed.
  Lemma stream_map_skipn n k (l : list (list A)) : stream n l -> stream (n - k) (map (skipn k) l).
  Proof.
    intros H. unfold stream in *. apply Forall_forall. intros i Hi. apply in_map_iff in Hi as (j & <- & Hj).
    rewrite Forall_forall in H. rewrite skipn_length, (H j Hj). lia.
  Qed.

  (* congruence *)
  Lemma equiv_Pipe x x' y y' : wf x -> wf x' -> outs x = ins y -> equiv x x' -> equiv y y' -> equiv (Pipe x y) (Pipe x' y').
  Proof.
    intros Hw Hw' Hxy (H1 & H2 & H3) (G1 & G2 & G3). repeat split; cbn; auto. intros l Hl. rewrite !outputs_Pipe, H3 by auto.
    apply G3. rewrite <- Hxy, H2. apply outputs_stream; auto. now rewrite <- H1.
  Qed.
  Lemma equiv_Stack x x' y y' : equiv x x' -> equiv y y' -> equiv (Stack x y) (Stack x' y').
  Proof.
    intros (H1 & H2 & H3) (G1 & G2 & G3). repeat split; cbn; auto. intros l Hl. rewrite !outputs_Stack, <- H1.
    rewrite H3, G3; auto.
    - replace (ins y) with (ins x + ins y - ins x) by lia. now apply stream_map_skipn.
    - apply (stream_map_firstn (ins x + ins y)); auto; lia.
  Qed.
  Lemma equiv_Binop b x x' y y' : equiv x x' -> equiv y y' -> equiv (Binop b x y) (Binop b x' y').
  Proof.
    intros (H1 & H2 & H3) (G1 & G2 & G3). repeat split; cbn; auto. intros l Hl. rewrite !outputs_Binop, <- H1.
    rewrite H3, G3; auto.
    - replace (ins y) with (ins x + ins y - ins x) by lia. now apply stream_map_skipn.
    - apply (stream_map_firstn (ins x + ins y)); auto; lia.
  Qed.
  Lemma equiv_Branch x x' y y' : ins x = ins y -> equiv x x' -> equiv y y' -> equiv (Branch x y) (Branch x' y').
  Proof.
    intros Hi (H1 & H2 & H3) (G1 & G2 & G3). repeat split; cbn; auto. intros l Hl. rewrite !outputs_Branch, H3, G3; auto. now rewrite <- Hi.
  Qed.
  Lemma equiv_Bus x x' y y' : ins x = ins y -> equiv x x' -> equiv y y' -> equiv (Bus x y) (Bus x' y').
  Proof.
    intros Hi (H1 & H2 & H3) (G1 & G2 & G3). repeat split; cbn; auto. intros l Hl. rewrite !outputs_Bus, H3, G3; auto. now rewrite <- Hi.
  Qed.
  Lemma equiv_Unop f x x' : equiv x x' -> equiv (Unop f x) (Unop f x').
  Proof. intros (H1 & H2 & H3). repeat split; cbn; auto. intros l Hl. rewrite !outputs_Unop, H3; auto. Qed.
  Lemma equiv_Thru x x' : wf x -> wf x' -> equiv x x' -> equiv (Thru x) (Thru x').
  Proof.
    intros Hw Hw' (H1 & H2 & H3). repeat split; cbn; auto. intros l Hl. rewrite !outputs_Thru; auto; [|now rewrite <- H1].
    rewrite H3, <- H1, <- H2 by auto. reflexivity.
  Qed.

  (* associativity *)
  Lemma zipw_assoc {X} (f : X -> X -> X) : (forall a b c, f (f a b) c = f a (f b c)) ->
    forall l m n, zipw f (zipw f l m) n = zipw f l (zipw f m n).
  Proof. intros H l; induction l; intros [|b m] [|c n]; cbn; auto. now rewrite H, IHl. Qed.
  Lemma zipw_comm {X} (f : X -> X -> X) : (forall a b, f a b = f b a) -> forall l m, zipw f l m = zipw f m l.
  Proof. intros H l; induction l; intros [|b m]; cbn; auto. now rewrite H, IHl. Qed.
  Lemma skipn_skipn' {X} a b (l : list X) : skipn b (skipn a l) = skipn (a + b) l.
  Proof. revert l; induction a; intros [|x l]; cbn; auto. now rewrite skipn_nil. Qed.
  Lemma pipe_assoc x y z : equiv (Pipe (Pipe x y) z) (Pipe x (Pipe y z)).
  Proof. repeat split; auto. intros l _. now rewrite !outputs_Pipe. Qed.
  Lemma stack_assoc x y z : equiv (Stack (Stack x y) z) (Stack x (Stack y z)).
  Proof.
    repeat split; cbn; try lia. intros l _. rewrite !outputs_Stack. cbn [NodeModel.ins]. rewrite !map_map.
    rewrite zipw_assoc by (intros; now rewrite app_assoc).
    f_equal; [|f_equal]; f_equal; apply map_ext; intros i.
    - rewrite firstn_firstn. f_equal. lia.
    - now rewrite skipn_firstn_comm, Nat.add_comm, Nat.add_sub.
    - symmetry. apply skipn_skipn'.
  Qed.
  Lemma branch_assoc x y z : equiv (Branch (Branch x y) z) (Branch x (Branch y z)).
  Proof.
    repeat split; cbn; try lia. intros l _. rewrite !outputs_Branch. apply zipw_assoc. intros; now rewrite app_assoc.
  Qed.
  Lemma bus_assoc x y z : (forall a b c, add (add a b) c = add a (add b c)) -> equiv (Bus (Bus x y) z) (Bus x (Bus y z)).
  Proof. intros H. repeat split; cbn; auto. intros l _. rewrite !outputs_Bus. apply zipw_assoc. now apply zipw_assoc. Qed.
  Lemma bus_comm x y : (forall a b, add a b = add b a) -> ins x = ins y -> outs x = outs y -> equiv (Bus x y) (Bus y x).
  Proof. intros H H1 H2. repeat split; cbn; auto. intros l _. rewrite !outputs_Bus. apply zipw_comm. now apply zipw_comm. Qed.

  (* identities and routing *)
  Lemma outputs_MultiPass n l : outputs (MultiPass n) l = l.
  Proof. rewrite (outputs_stateless _ (fun i => i)) by reflexivity. apply map_id. Qed.
  Lemma outputs_Pass l : outputs Pass l = l.
  Proof. rewrite (outputs_stateless _ (fun i => i)) by reflexivity. apply map_id. Qed.
  Lemma pass_left x : equiv (Pipe (MultiPass (ins x)) x) x.
  Proof. repeat split; auto. intros l _. now rewrite outputs_Pipe, outputs_MultiPass. Qed.
  Lemma pass_right x : equiv (Pipe x (MultiPass (outs x))) x.
  Proof. repeat split; auto. intros l _. now rewrite outputs_Pipe, outputs_MultiPass. Qed.
  Lemma multisplit2 m i : length i = m -> map (fun c => nth (c mod m) i zero) (seq 0 (m * 2)) = i ++ i.
  Proof.
    intros Hi. apply nth_ext_len with (d := zero).
    - rewrite map_length, seq_length, app_length. lia.
    - intros k Hk. rewrite map_length, seq_length in Hk. rewrite nth_map_seq by lia.
      destruct (Nat.lt_ge_cases k m).
      + rewrite app_nth1 by lia. now rewrite Nat.mod_small.
      + rewrite app_nth2 by lia. f_equal. symmetry. rewrite Hi. apply (Nat.mod_unique k m 1); lia.
  Qed.
  Lemma map_stream_ext {B} n (l : list (list A)) (f g : list A -> B) : stream n l -> (forall i, length i = n -> f i = g i) -> map f l = map g l.
  Proof. intros Hl H. apply map_ext_in. intros i Hi. apply H. unfold stream in Hl. rewrite Forall_forall in Hl. auto. Qed.
  Lemma branch_is_split_stack x y : ins x = ins y -> equiv (Branch x y) (Pipe (MultiSplit (ins x) 2) (Stack x y)).
  Proof.
    intros Hxy. repeat split; auto. intros l Hl. rewrite outputs_Pipe, outputs_Branch, outputs_Stack.
    rewrite (outputs_stateless (MultiSplit (ins x) 2) (fun i => map (fun c => nth (c mod ins x) i zero) (seq 0 (ins x * 2)))) by reflexivity.
    rewrite !map_map. cbn [NodeModel.ins] in Hl. f_equal; f_equal; rewrite <- (map_id l) at 1.
    - apply (map_stream_ext (ins x)); auto. intros i Hi. now rewrite multisplit2, firstn_app, Hi, Nat.sub_diag, firstn_O, app_nil_r, firstn_all2 by lia.
    - apply (map_stream_ext (ins x)); auto. intros i Hi. now rewrite multisplit2, skipn_app, Hi, Nat.sub_diag, skipn_all2 by lia.
  Qed.
  Lemma map_zipw_gen {X Y Z W} (h : Z -> W) (f : X -> Y -> Z) l m : map h (zipw f l m) = zipw (fun a b => h (f a b)) l m.
  Proof. apply map_zipw. Qed.
  Lemma zipw_both {X Y Z1 Z2 W} (g : Z1 -> Z2 -> W) (f1 : X -> Y -> Z1) (f2 : X -> Y -> Z2) l m :
    zipw g (zipw f1 l m) (zipw f2 l m) = zipw (fun a b => g (f1 a b) (f2 a b)) l m.
  Proof. revert m; induction l; intros [|b m]; cbn; auto. f_equal; auto. Qed.
  Lemma bus_is_branch_sum x y : wf x -> wf y -> ins x = ins y -> outs x = outs y ->
    equiv (Bus x y) (Pipe (Branch x y) (Binop add (MultiPass (outs x)) (MultiPass (outs x)))).
  Proof.
    intros Hx Hy Hi Ho. repeat split; auto. intros l Hl. cbn [NodeModel.ins] in Hl.
    rewrite outputs_Pipe, outputs_Bus, outputs_Binop, outputs_Branch, !outputs_MultiPass. cbn [NodeModel.ins].
    rewrite !map_zipw_gen, zipw_both.
    apply (zipw_ext_len _ _ _ _ (fun o => length o = outs x) (fun o => length o = outs x)).
    - apply outputs_stream; auto.
    - rewrite Ho. apply outputs_stream; auto. now rewrite <- Hi.
    - intros a b Ha Hb. rewrite firstn_app, skipn_app, Ha, Nat.sub_diag, firstn_O, app_nil_r, firstn_all2, skipn_all2 by lia. reflexivity.
  Qed.
  (* (x | y) >> (z | w) = (x >> z) | (y >> w) *)
  Lemma exchange x y z w : wf x -> wf y -> outs x = ins z ->
    equiv (Pipe (Stack x y) (Stack z w)) (Stack (Pipe x z) (Pipe y w)).
  Proof.
    intros Hx Hy Hxz. repeat split; auto. intros l Hl. cbn [NodeModel.ins] in Hl.
    rewrite outputs_Pipe, !outputs_Stack, !outputs_Pipe. cbn [NodeModel.ins].
    assert (S1 : stream (outs x) (outputs x (map (firstn (ins x)) l))).
    { apply outputs_stream; auto. apply (stream_map_firstn (ins x + ins y)); auto; lia. }
    assert (L : length (outputs x (map (firstn (ins x)) l)) = length (outputs y (map (skipn (ins x)) l))).
    { now rewrite !outputs_length, !map_length. }
    revert S1 L. generalize (outputs x (map (firstn (ins x)) l)) (outputs y (map (skipn (ins x)) l)). intros a b S1 L.
    rewrite !map_zipw_gen. f_equal; f_equal.
    - transitivity (zipw (fun p (_ : list A) => p) a b); [|now apply zipw_fst].
      apply (zipw_ext_len _ _ _ _ (fun o => length o = outs x) (fun _ => True)); auto using Forall_True.
      intros p q Hp _. rewrite firstn_app, Hp, Hxz, Nat.sub_diag, firstn_O, app_nil_r, firstn_all2 by lia. reflexivity.
    - transitivity (zipw (fun (_ : list A) q => q) a b); [|now apply zipw_snd].
      apply (zipw_ext_len _ _ _ _ (fun o => length o = outs x) (fun _ => True)); auto using Forall_True.
      intros p q Hp _. rewrite skipn_app, Hp, Hxz, Nat.sub_diag, skipn_all2 by lia. reflexivity.
  Qed.
  Lemma reverse_reverse n : equiv (Pipe (Reverse n) (Reverse n)) (MultiPass n).
  Proof.
    repeat split; auto. intros l Hl. cbn [NodeModel.ins] in Hl. rewrite outputs_Pipe, outputs_MultiPass.
    rewrite !(outputs_stateless (Reverse n) (fun i => map (fun c => nth (n - 1 - c) i zero) (seq 0 n))) by reflexivity.
    rewrite map_map. rewrite <- (map_id l) at 2. apply (map_stream_ext n); auto. intros i Hi.
    apply nth_ext_len with (d := zero); [rewrite map_length, seq_length; lia|].
    intros k Hk. rewrite map_length, seq_length in Hk. rewrite !nth_map_seq by lia. f_equal. lia.
  Qed.

  (* README "Equivalent Expressions" *)
  Lemma stream_nil_eq (l m : list (list A)) : stream 0 l -> stream 0 m -> length l = length m -> l = m.
  Proof.
    revert m; induction l as [|a l IH]; intros [|b m] H1 H2 H3; cbn in *; try lia; auto. inversion H1; inversion H2; subst.
    destruct a, b; try discriminate. f_equal. apply IH; auto.
  Qed.
  Lemma no_outputs_is_sink x : wf x -> outs x = 0 -> equiv x (Sink (ins x)).
  Proof.
    intros Hw Ho. repeat split; auto. intros l Hl. apply stream_nil_eq.
    - rewrite <- Ho. apply outputs_stream; auto.
    - apply (outputs_stream (Sink (ins x))); cbn; auto.
    - now rewrite !outputs_length.
  Qed.
  Lemma stack_constants v w : equiv (Stack (Constant v) (Constant w)) (Constant (v ++ w)).
  Proof.
    repeat split; cbn; [now rewrite app_length|]. intros l _. rewrite outputs_Stack, !(outputs_stateless (Constant _) (fun _ => _)) by reflexivity.
    rewrite !map_map. apply zipw_map_map.
  Qed.
  Lemma sink_stack_generator n x : wf x -> ins x = 0 -> equiv (Stack (Sink n) x) (Stack x (Sink n)).
  Proof.
    intros Hw Hi. repeat split; cbn; try lia. intros l Hl. cbn in Hl. rewrite Hi, Nat.add_0_r in Hl. rewrite !outputs_Stack. cbn [NodeModel.ins]. rewrite Hi.
    rewrite !(outputs_stateless (Sink _) (fun _ => [])) by reflexivity. rewrite !map_map.
    assert (E : map (skipn n) l = map (firstn 0) l).
    { apply (map_stream_ext n); auto. intros i Hl'. rewrite skipn_all2 by lia. reflexivity. }
    rewrite E. pose proof (outputs_length x (map (firstn 0) l)) as Hlen. rewrite map_length in Hlen. revert Hlen.
    generalize (outputs x (map (firstn 0) l)). clear. induction l as [|i l IH]; intros [|o os] H; cbn in *; try lia; auto.
    rewrite app_nil_r. f_equal. apply IH. lia.
  Qed.
  Lemma manual_bypass f k : wf f -> ins f = outs f + k -> equiv (Branch f (Stack (Sink (outs f)) (MultiPass k))) (Thru f).
  Proof.
    intros Hw Hi. repeat split; cbn; try lia. intros l Hl. cbn [NodeModel.ins] in Hl. rewrite outputs_Thru by auto.
    rewrite outputs_Branch, outputs_Stack, outputs_MultiPass, (outputs_stateless (Sink _) (fun _ => [])) by reflexivity.
    cbn [NodeModel.ins]. rewrite map_map, zipw_map_map. cbn [app]. pose proof (outputs_stream f l Hw Hl) as Ho.
    pose proof (outputs_length f l) as Hlen. revert Ho Hlen. generalize (outputs f l). revert Hl. rewrite Hi. generalize (outs f). clear.
    intros n Hl m Hm Hlen. revert m Hm Hlen. induction Hl as [|i l Hx Hl IH]; intros [|o os] Hm Hlen; cbn in *; try lia; auto.
    inversion Hm as [|? ? Ho Hm']; subst. f_equal; [|apply IH; auto; lia].
    rewrite firstn_all2; auto. rewrite app_length, skipn_length. lia.
  Qed.
  Lemma thru_sink n : equiv (Thru (Sink n)) (MultiPass n).
  Proof.
    repeat split; auto. intros l Hl. cbn in Hl. rewrite outputs_Thru by (cbn; auto). rewrite (outputs_stateless (Sink _) (fun _ => [])) by reflexivity.
    rewrite outputs_MultiPass. cbn. induction Hl as [|i l Hi Hl IH]; cbn; auto. rewrite IH. f_equal. apply firstn_all2. lia.
  Qed.
  Lemma thru_generator x y : wf x -> wf y -> ins x = 0 -> ins y = 0 -> equiv (Thru x) (Thru y).
  Proof.
    intros Hx Hy H1 H2. repeat split; cbn; try lia. intros l Hl. cbn in Hl. rewrite H1 in Hl.
    rewrite !outputs_Thru, H1, H2 by (auto; now rewrite ?H1, ?H2).
    pose proof (outputs_length x l) as L1. pose proof (outputs_length y l) as L2. revert L1 L2. generalize (outputs x l) (outputs y l). clear.
    induction l as [|i l IH]; intros [|a m] [|b n] L1 L2; cbn in *; try lia; auto. f_equal. apply IH; lia.
  Qed.
  Lemma bus_of_modified f s s' : wf f -> wf s -> ins f = 1 -> outs f = 1 -> ins s = 1 -> ins s' = 1 -> 
    equiv (Pipe (Branch Pass f) (Binop add s s')) (Bus s (Pipe f s')).
  Proof.
    intros Hf Hs H1 H2 H3 H4. repeat split; cbn; auto. intros l Hl. cbn [NodeModel.ins] in Hl.
    rewrite outputs_Pipe, outputs_Binop, outputs_Branch, outputs_Bus, outputs_Pipe, outputs_Pass, H3.
    assert (So : stream 1 (outputs f l)). { rewrite <- H2. apply outputs_stream; auto. now rewrite H1. }
    pose proof (outputs_length f l) as L. revert So L. generalize (outputs f l). intros m So L.
    rewrite !map_zipw_gen. f_equal; f_equal.
    - transitivity (zipw (fun a (_ : list A) => a) l m); [|now apply zipw_fst].
      apply (zipw_ext_len _ _ _ _ (fun o => length o = 1) (fun _ => True)); auto using Forall_True.
      intros p q Hp _. rewrite firstn_app, Hp, firstn_all2 by lia. cbn. apply app_nil_r.
    - transitivity (zipw (fun (_ : list A) b => b) l m); [|now apply zipw_snd].
      apply (zipw_ext_len _ _ _ _ (fun o => length o = 1) (fun _ => True)); auto using Forall_True.
      intros p q Hp _. rewrite skipn_app, Hp, skipn_all2 by lia. reflexivity.
  Qed.

  (* ---- many children ---- *)
  Notation mall := (mticks (tick_all tick)).
  Lemma nth_zipw {X Y Z} (f : X -> Y -> Z) l m i dx dy dz : i < length l -> i < length m -> nth i (zipw f l m) dz = f (nth i l dx) (nth i m dy).
  Proof. revert m i; induction l; intros [|y m] [|i] H1 H2; cbn in *; try lia; auto. apply IHl; lia. Qed.
  Lemma nth_map_in {X Y} (f : X -> Y) l i dx dy : i < length l -> nth i (map f l) dy = f (nth i l dx).
  Proof. intros H. rewrite nth_indep with (d' := f dx) by (now rewrite map_length). apply map_nth. Qed.
  Lemma mall_nth xs : forall L t, Forall (fun is => length is = length xs) L -> t < length L ->
    nth t (snd (mall xs L)) [] = zipw (fun j x => nth t (outputs x (map (fun is => nth j is []) L)) []) (seq 0 (length xs)) xs.
  Proof.
    induction xs as [|x xs IH]; intros L t HL Ht.
    - rewrite mall_nil. cbn [snd length seq zipw]. now rewrite (nth_map_in _ _ _ []).
    - assert (Hne : Forall (fun is => is <> []) L).
      { eapply Forall_impl; [|exact HL]. cbn. intros a Ha ->. discriminate. }
      rewrite mall_cons by auto. cbn [snd].
      rewrite (nth_zipw cons _ _ t [] []).
      2:{ rewrite ticks_length, map_length. auto. }
      2:{ rewrite mticks_length, map_length. auto. }
      rewrite IH; [|apply Forall_forall; intros i Hi; apply in_map_iff in Hi as (j & <- & Hj); rewrite Forall_forall in HL; specialize (HL j Hj); destruct j; cbn in *; lia|now rewrite map_length].
      cbn [length seq zipw]. f_equal.
      + unfold NodeSpec.outputs. f_equal. f_equal. f_equal. apply map_ext. now intros [|].
      + rewrite <- seq_shift, zipw_map_l. apply zipw_ext_Forall. intros j y _ _. rewrite map_map. f_equal. f_equal.
        apply map_ext_in. intros [|? ?] Hin; auto. rewrite Forall_forall in HL. specialize (HL _ Hin). discriminate.
  Qed.
  Lemma nth_slices {X} n k (l : list X) j : j < n -> nth j (slices n k l) [] = firstn k (skipn (j * k) l).
  Proof.
    revert l j; induction n; intros l [|j] H; cbn [slices nth]; try lia; auto. rewrite IHn by lia. now rewrite skipn_skipn'.
  Qed.
  Definition channels (a n : nat) (l : list (list A)) : list (list A) := map (fun i => firstn n (skipn a i)) l.
  Lemma zipw_seq_ext {X Z} (f g : nat -> X -> Z) xs : (forall j x, j < length xs -> f j x = g j x) ->
    zipw f (seq 0 (length xs)) xs = zipw g (seq 0 (length xs)) xs.
  Proof. intros H. apply zipw_ext_Forall. intros j x Hj _. apply H. apply in_seq in Hj. lia. Qed.

  Lemma slices_outputs xs l t : t < length l ->
    nth t (snd (mall xs (map (slices (length xs) (hd_ins ops xs)) l))) [] =
    zipw (fun k x => nth t (outputs x (channels (k * hd_ins ops xs) (hd_ins ops xs) l)) []) (seq 0 (length xs)) xs.
  Proof.
    intros Ht. rewrite mall_nth.
    - apply zipw_seq_ext. intros j x Hj. f_equal. f_equal. rewrite map_map. apply map_ext. intros i. now apply nth_slices.
    - apply Forall_forall. intros i Hi. apply in_map_iff in Hi as (? & <- & _). apply slices_length.
    - now rewrite map_length.
  Qed.
  Lemma repeat_outputs xs l t : t < length l ->
    nth t (snd (mall xs (map (fun i => repeat i (length xs)) l))) [] = map (fun x => nth t (outputs x l) []) xs.
  Proof.
    intros Ht. rewrite mall_nth.
    - rewrite (zipw_seq_ext _ (fun j x => nth t (outputs x l) [])).
      + rewrite zipw_const_map; auto. now rewrite seq_length.
      + intros j x Hj. f_equal. f_equal. rewrite map_map. rewrite <- (map_id l) at 2. apply map_ext. intros i. clear - Hj. revert j Hj. induction (length xs); intros [|j] Hj; cbn; auto; try lia. apply IHn; lia.
    - apply Forall_forall. intros i Hi. apply in_map_iff in Hi as (? & <- & _). apply repeat_length.
    - now rewrite map_length.
  Qed.
  Lemma outputs_MultiStack xs l t : t < length l ->
    nth t (outputs (MultiStack xs) l) [] =
    concat (zipw (fun k x => nth t (outputs x (channels (k * hd_ins ops xs) (hd_ins ops xs) l)) []) (seq 0 (length xs)) xs).
  Proof.
    intros Ht. unfold NodeSpec.outputs at 1. rewrite ticks_MultiStack by auto. cbn [snd].
    rewrite (nth_map_in _ _ _ []) by (now rewrite mticks_length, map_length). f_equal. now apply slices_outputs.
  Qed.
  Lemma outputs_Reduce b xs l t : t < length l ->
    nth t (outputs (Reduce b xs) l) [] =
    reduce_out ar b (hd_outs ops xs) (zipw (fun k x => nth t (outputs x (channels (k * hd_ins ops xs) (hd_ins ops xs) l)) []) (seq 0 (length xs)) xs).
  Proof.
    intros Ht. unfold NodeSpec.outputs at 1. rewrite ticks_Reduce by auto. cbn [snd].
    rewrite (nth_map_in _ _ _ []) by (now rewrite mticks_length, map_length). f_equal. now apply slices_outputs.
  Qed.
  Lemma outputs_MultiBranch xs l t : t < length l ->
    nth t (outputs (MultiBranch xs) l) [] = concat (map (fun x => nth t (outputs x l) []) xs).
  Proof.
    intros Ht. unfold NodeSpec.outputs at 1. rewrite ticks_MultiBranch by auto. cbn [snd].
    rewrite (nth_map_in _ _ _ []) by (now rewrite mticks_length, map_length). f_equal. now apply repeat_outputs.
  Qed.
  Lemma outputs_MultiBus xs l t : t < length l ->
    nth t (outputs (MultiBus xs) l) [] = fold_left (zipw add) (map (fun x => nth t (outputs x l) []) xs) (repeat zero (hd_outs ops xs)).
  Proof.
    intros Ht. unfold NodeSpec.outputs at 1. rewrite ticks_MultiBus by auto. cbn [snd].
    rewrite (nth_map_in _ _ _ []) by (now rewrite mticks_length, map_length). f_equal. now apply repeat_outputs.
  Qed.
  Lemma outputs_Chain xs l : outputs (Chain xs) l = fold_left (fun s x => outputs x s) xs l.
  Proof.
    unfold NodeSpec.outputs at 1. rewrite ticks_Chain. cbn [snd].
    revert l; induction xs as [|x xs IH]; intros l; [now rewrite mchain_nil|]. rewrite mchain_cons. cbn [snd fold_left]. apply IH.
  Qed.
  Lemma outs_pipes xs : forall x n, outs x = n -> Forall (fun y => outs y = n) xs -> outs (fold_left Pipe xs x) = n.
  Proof. induction xs as [|y xs IH]; intros x n Hx Hn; cbn; auto. inversion Hn; subst. apply (IH (Pipe x y)); auto. Qed.
  Lemma ins_pipes xs : forall x, ins (fold_left Pipe xs x) = ins x.
  Proof. induction xs as [|y xs IH]; intros x; cbn; auto. now rewrite IH. Qed.
  Lemma chain_is_pipes x xs : uniform ops (x :: xs) -> equiv (Chain (x :: xs)) (fold_left Pipe xs x).
  Proof.
    intros Hn. split; [|split].
    - now rewrite ins_pipes.
    - symmetry. apply outs_pipes; auto. apply Forall_inv_tail in Hn. eapply Forall_impl; [|exact Hn]. cbn. intros a [_ H]. exact H.
    - intros l _. rewrite outputs_Chain. cbn [fold_left]. clear Hn.
      assert (G : forall xs x l, outputs (fold_left Pipe xs x) l = fold_left (fun s x => outputs x s) xs (outputs x l)).
      { clear. intros xs; induction xs as [|y xs IH]; intros x l; cbn; auto. rewrite IH, outputs_Pipe. reflexivity. }
      now rewrite G.
  Qed.

  (* ---- feedback ---- *)
  Lemma feedback_equation x v f l : outputs (Feedback x v f) l = outputs x (zipw (zipw add) l (v :: map f (outputs (Feedback x v f) l))).
  Proof.
    revert x v; induction l as [|i l IH]; intros x v; [reflexivity|].
    unfold NodeSpec.outputs in *. cbn [ticks]. rewrite tick_Feedback. cbv zeta. cbn [zipw ticks].
    destruct (tick x (zipw add i v)) as [x' o]. cbn [fst snd]. specialize (IH x' (f o)).
    destruct (ticks tick (Feedback x' (f o) f) l) as [z os] eqn:E. cbn [fst snd map] in *.
    destruct (ticks tick x' (zipw (zipw add) l (f o :: map f os))) as [z' os']. cbn in *. congruence.
  Qed.
  Lemma feedback2_equation x y v f l :
    outputs (Feedback2 x y v f) l = outputs x (zipw (zipw add) l (v :: map f (outputs y (outputs (Feedback2 x y v f) l)))).
  Proof.
    revert x y v; induction l as [|i l IH]; intros x y v; [reflexivity|].
    unfold NodeSpec.outputs in *. cbn [ticks]. rewrite tick_Feedback2. cbv zeta. cbn [zipw ticks].
    destruct (tick x (zipw add i v)) as [x' o]. cbn [fst snd]. destruct (tick y o) as [y' p] eqn:Ey. cbn [fst snd]. specialize (IH x' y' (f p)).
    destruct (ticks tick (Feedback2 x' y' (f p) f) l) as [z os] eqn:E. cbn [fst snd map ticks] in *. rewrite Ey.
    destruct (ticks tick y' os) as [y'' ps] eqn:Eps. cbn [snd map] in *.
    destruct (ticks tick x' (zipw (zipw add) l (f p :: map f ps))) as [z' os']. cbn in *. congruence.
  Qed.
  (* the equation has only one solution *)
  Lemma feedback_unique x v f l os : length os = length l -> os = outputs x (zipw (zipw add) l (v :: map f os)) ->
    os = outputs (Feedback x v f) l.
  Proof.
    revert x v os; induction l as [|i l IH]; intros x v os Hl H; [destruct os; [reflexivity|discriminate]|].
    destruct os as [|o os]; [discriminate|]. unfold NodeSpec.outputs in *. cbn [ticks]. rewrite tick_Feedback. cbv zeta. cbn [zipw ticks map] in *.
    destruct (tick x (zipw add i v)) as [x' o']. cbn [fst snd] in *.
    destruct (ticks tick x' (zipw (zipw add) l (f o :: map f os))) as [z os'] eqn:E. cbn [snd] in H. inversion H; subst o' os'.
    specialize (IH x' (f o) os). rewrite E in IH. cbn [snd] in IH. rewrite IH at 1 by auto.
    now destruct (ticks tick (Feedback x' (f o) f) l).
  Qed.

  (* ---- reset ---- *)
  Section Reset.
    Hypothesis Hr : forall u i, u_reset ops (fst (u_tick ops u i)) = u_reset ops u.
    Notation reset := (reset ar ops).
    Definition reset_forgets (x : node) : Prop := forall i, wf x -> length i = ins x -> reset (fst (tick x i)) = reset x.
    Lemma reset_tick_all xs ni no : Forall reset_forgets xs -> Forall wf xs -> Forall (fun y => ins y = ni /\ outs y = no) xs ->
      forall is, length is = length xs -> Forall (fun i => length i = ni) is -> map reset (fst (tick_all tick xs is)) = map reset xs.
    Proof.
      induction 1 as [|x xs Hx Hxs IH]; intros Hw Hn [|i is] Hl Hi; cbn [length] in *; try lia; auto.
      rewrite tick_all_cons. cbn [fst map]. inversion Hw; inversion Hn as [|? ? [? ?] ?]; inversion Hi; subst.
      f_equal; [apply Hx; auto|apply IH; auto].
    Qed.
    Lemma reset_tick_chain xs n : Forall reset_forgets xs -> Forall wf xs -> Forall (fun y => ins y = n /\ outs y = n) xs ->
      forall i, length i = n -> map reset (fst (tick_chain tick xs i)) = map reset xs.
    Proof.
      induction 1 as [|x xs Hx Hxs IH]; intros Hw Hn i Hi; auto.
      rewrite tick_chain_cons. cbn [fst map]. inversion Hw; inversion Hn as [|? ? [H6 H7] ?]; subst.
      f_equal; [apply Hx; auto|apply IH; auto]. destruct (tick_wf ar ops Hu x i); auto. congruence.
    Qed.
    Lemma map_const_length {X Y B} (b : B) (l : list X) (m : list Y) : length l = length m -> map (fun _ => b) l = map (fun _ => b) m.
    Proof. revert m; induction l; intros [|y m] H; cbn in *; try lia; auto. f_equal. apply IHl; lia. Qed.
    Lemma reset_tick x : reset_forgets x.
    Proof.
      induction x using node_ind'; intros j Hw Hj; try reflexivity.
      - cbn. specialize (Hr u j). destruct (u_tick ops u j); cbn in *. now rewrite Hr.
      - rewrite tick_Binop. destruct Hw as (W1 & W2 & W3). cbn [fst NodeModel.reset NodeModel.ins] in *. rewrite IHx1, IHx2; auto; rewrite ?skipn_length, ?firstn_length; lia.
      - rewrite tick_Unop. cbn [fst NodeModel.reset NodeModel.ins] in *. rewrite IHx; auto.
      - rewrite tick_Pipe. destruct Hw as (W1 & W2 & W3). cbn [fst NodeModel.reset NodeModel.ins] in *. rewrite IHx1, IHx2; auto.
        destruct (tick_wf ar ops Hu x1 j); auto; lia.
      - rewrite tick_Stack. destruct Hw as (W1 & W2). cbn [fst NodeModel.reset NodeModel.ins] in *. rewrite IHx1, IHx2; auto; rewrite ?skipn_length, ?firstn_length; lia.
      - rewrite tick_Branch. destruct Hw as (W1 & W2 & W3). cbn [fst NodeModel.reset NodeModel.ins] in *. rewrite IHx1, IHx2; auto; lia.
      - rewrite tick_Bus. destruct Hw as (W1 & W2 & W3 & W4). cbn [fst NodeModel.reset NodeModel.ins] in *. rewrite IHx1, IHx2; auto; lia.
      - rewrite tick_Thru. cbn [fst NodeModel.reset NodeModel.ins] in *. rewrite IHx; auto.
      - rewrite tick_MultiBus. destruct Hw as (W1 & W2). apply all_Forall in W1. cbv zeta. cbn [fst NodeModel.reset] in *. f_equal.
        apply reset_tick_all with (hd_ins ops xs) (hd_outs ops xs); auto using map_length, uniform_hd. now apply Forall_const_map.
      - rewrite tick_MultiStack. destruct Hw as (W1 & W2). apply all_Forall in W1. cbv zeta. cbn [fst NodeModel.reset] in *. f_equal.
        rewrite ins_MultiStack in Hj. apply reset_tick_all with (hd_ins ops xs) (hd_outs ops xs); auto using slices_length, slices_each, uniform_hd.
      - rewrite tick_Reduce. destruct Hw as (W1 & W2). apply all_Forall in W1. cbv zeta. cbn [fst NodeModel.reset] in *. f_equal.
        rewrite ins_Reduce in Hj. apply reset_tick_all with (hd_ins ops xs) (hd_outs ops xs); auto using slices_length, slices_each, uniform_hd.
      - rewrite tick_MultiBranch. destruct Hw as (W1 & W2). apply all_Forall in W1. cbv zeta. cbn [fst NodeModel.reset] in *. f_equal.
        apply reset_tick_all with (hd_ins ops xs) (hd_outs ops xs); auto using map_length, uniform_hd. now apply Forall_const_map.
      - rewrite tick_Chain. destruct Hw as (W1 & W2 & W3). pose proof (chain_uniform ops xs W2 W3). apply all_Forall in W1. cbn [fst NodeModel.reset] in *. f_equal.
        apply reset_tick_chain with (hd_ins ops xs); auto.
      - rewrite tick_Feedback. destruct Hw as (W1 & W2 & W3 & W4). cbv zeta. cbn [fst NodeModel.reset NodeModel.ins] in *.
        assert (L : length (zipw add j v) = ins x) by (rewrite zipw_length; lia).
        rewrite IHx by auto. f_equal. apply map_const_length. rewrite W4; [lia|]. destruct (tick_wf ar ops Hu x (zipw add j v)); auto; lia.
      - rewrite tick_Feedback2. destruct Hw as (W1 & W2 & W3 & W4 & W5 & W6 & W7). cbv zeta. cbn [fst NodeModel.reset NodeModel.ins] in *.
        assert (L : length (zipw add j v) = ins x1) by (rewrite zipw_length; lia).
        destruct (tick_wf ar ops Hu x1 (zipw add j v)) as [V1 V2]; auto.
        destruct (tick_wf ar ops Hu x2 (snd (tick x1 (zipw add j v)))) as [V3 V4]; auto; [lia|].
        rewrite IHx1, IHx2; auto; [|lia]. f_equal. apply map_const_length. rewrite W7; lia.
    Qed.
    Lemma reset_ticks l : forall x, wf x -> stream (ins x) l -> reset (fst (ticks tick x l)) = reset x.
    Proof.
      induction l as [|i l IH]; intros x Hw Hl; auto. inversion Hl as [|? ? Hi Hl']; subst. cbn [ticks].
      pose proof (reset_tick x i Hw Hi) as H1. destruct (tick_wf ar ops Hu x i Hw Hi) as [H2 _].
      pose proof (ins_tick ar ops Hu x i) as H3. destruct (tick x i) as [x' o]. cbn [fst snd] in *.
      specialize (IH x' H2). rewrite H3 in IH. specialize (IH Hl'). destruct (ticks tick x' l); cbn in *. congruence.
    Qed.
  End Reset.
End Laws.
