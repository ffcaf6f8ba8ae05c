(* Properties of AudioNode expressions. *)
From Verif Require Import NodeArithProofs HashModel.
From Coq Require Import Reals SpecFloat.
Local Open Scope nat_scope.

(* ------------------------------------------------------------------ C18 *)
(* For every expression over well-behaved leaves, one block of any size up to 64 leaves the same state and writes the same
   samples as that many ticks, whatever was in the output buffer, in the temporaries, and in the input beyond the block. *)
Theorem C18_block_equals_ticks : forall (A P U : Type) (ar : arith A) (ops : unit_ops A P U),
  unit_laws (a_zero ar) ops -> forall (x : node A U) (g : garbage),
  wf ops x -> blockable ar ops x -> (forall p n, shaped n (g p n)) ->
  block_contract (a_zero ar) (tick ar ops) (process ar ops g) (ins ops x) (outs ops x) x.
Proof. intros. now apply block_contract_node. Qed.
Print Assumptions C18_block_equals_ticks.

(* Any partition of a stream into blocks gives the ticked stream and the ticked state. *)
Theorem C18_any_partition : forall (A P U : Type) (ar : arith A) (ops : unit_ops A P U),
  unit_laws (a_zero ar) ops -> forall (x : node A U) (bs : list (block A)),
  wf ops x -> blockable ar ops x -> Forall (block_ok ops x) bs ->
  run_blocks ar ops x bs = ticks (tick ar ops) x (input_frames ar bs).
Proof. intros. now apply run_blocks_ok. Qed.
Print Assumptions C18_any_partition.

(* With exact arithmetic the only condition left is that every pass-through node has an input. *)
Theorem C18_any_partition_exact : forall (P U : Type) (ops : unit_ops R P U),
  unit_laws 0%R ops -> forall (x : node R U) (bs : list (block R)),
  wf ops x -> thru_fed ops x -> Forall (block_ok ops x) bs ->
  run_blocks R_arith ops x bs = ticks (tick R_arith ops) x (input_frames R_arith bs).
Proof. intros P U ops Hu x bs Hw Ht Hb. apply run_blocks_ok; auto. now apply thru_fed_blockable. Qed.
Print Assumptions C18_any_partition_exact.

(* In binary32 the block output of a three-input join differs from the ticked output (1, 0, 4). *)
Theorem C18_join_rounding_refuted :
  exists inb out : list (list spec_float), shaped 3 inb /\ shaped 1 out /\
  forall g, frames (nofZ f32_ops 0) (snd (process f32_arith (delay_ops (nofZ f32_ops 0)) g (Join 3) 1 inb out)) 1 <>
            snd (ticks (tick f32_arith (delay_ops (nofZ f32_ops 0))) (Join 3) (frames (nofZ f32_ops 0) inb 1)).
Proof.
  exists (block1 (f32s [1; 0; 4]%Z)), (block1 (f32s [0]%Z)). split; [exact (block1_shaped _)|]. split; [exact (block1_shaped _)|].
  intros g. vm_compute. discriminate.
Qed.
Print Assumptions C18_join_rounding_refuted.

(* In binary32 a multi-bus turns -0.0 into 0.0 when ticked but not in blocks. *)
Theorem C18_multibus_sign_of_zero_refuted :
  exists inb out : list (list spec_float), shaped 1 inb /\ shaped 1 out /\
  forall g, frames (nofZ f32_ops 0) (snd (process f32_arith (delay_ops (nofZ f32_ops 0)) g (MultiBus [Pass]) 1 inb out)) 1 <>
            snd (ticks (tick f32_arith (delay_ops (nofZ f32_ops 0))) (MultiBus [Pass]) (frames (nofZ f32_ops 0) inb 1)).
Proof.
  exists (block1 [S754_zero true]), (block1 (f32s [0]%Z)). split; [exact (block1_shaped _)|]. split; [exact (block1_shaped _)|].
  intros g. vm_compute. discriminate.
Qed.
Print Assumptions C18_multibus_sign_of_zero_refuted.

(* !x with a generator x: ticking advances x, processing a block does not touch it. *)
Theorem C18_thru_generator_refuted :
  forall g, fst (process Z_arith demo_ops g (Thru (Leaf (Cnt 0))) 1 [] []) = Thru (Leaf (Cnt 0)) /\
            fst (ticks (tick Z_arith demo_ops) (Thru (Leaf (Cnt 0))) (frames 0%Z [] 1)) = Thru (Leaf (Cnt 1)).
Proof. intros g. split; reflexivity. Qed.
Print Assumptions C18_thru_generator_refuted.

(* the hypotheses hold for an expression with state, feedback, a bus, a chain and a reduction *)
Definition demo_expr : node Z demo :=
  Pipe (Branch (Thru (Pipe (Pipe (Leaf (Del 3)) (Split 2)) (Binop Z.mul Pass (Leaf (Del 1)))))
               (Bus (Chain [Leaf (Del 5); Leaf (Del 6)]) (MultiBus [Leaf (Del 7); Pass])))
       (Stack (Feedback (Leaf (Del 2)) [4%Z] (map Z.opp)) (Pipe (Stack Pass (Leaf (Cnt 9))) (Reduce Z.add [Pass; Leaf (Del 0)]))).
Example C18_example_hypotheses : unit_laws 0%Z demo_ops /\ wf demo_ops demo_expr /\ blockable Z_arith demo_ops demo_expr.
Proof. split; [exact demo_laws|]. cbn. repeat split; auto; repeat constructor; try lia; intros v Hv; now rewrite map_length. Qed.
Example C18_example_blocks :
  let b n := mkBlock n [map Z.of_nat (seq 1 64)] [repeat 77%Z 64; repeat 78%Z 64] (fun _ n => repeat (repeat 99%Z 64) n) in
  Forall (block_ok demo_ops demo_expr) [b 3; b 0; b 10] /\
  firstn 4 (snd (run_blocks Z_arith demo_ops demo_expr [b 3; b 0; b 10])) = [[2; 14]; [7; 17]; [1; 16]; [-5; 17]]%Z.
Proof.
  split; [|vm_compute; reflexivity].
  repeat constructor; cbn; unfold MAXB; try lia; try (now rewrite repeat_length);
    try (apply Forall_forall; intros c Hc; apply repeat_spec in Hc; subst; reflexivity).
Qed.

(* ------------------------------------------------------------------ C19 *)
(* What each combinator computes on a stream of input frames. *)
Theorem C19_pipe : forall A P U (ar : arith A) (ops : unit_ops A P U) x y l,
  outputs ar ops (Pipe x y) l = outputs ar ops y (outputs ar ops x l).
Proof. intros. apply outputs_Pipe. Qed.
Print Assumptions C19_pipe.
Theorem C19_stack : forall A P U (ar : arith A) (ops : unit_ops A P U), unit_laws (a_zero ar) ops -> forall x y l,
  outputs ar ops (Stack x y) l =
  zipw (@app A) (outputs ar ops x (map (firstn (ins ops x)) l)) (outputs ar ops y (map (skipn (ins ops x)) l)).
Proof. intros. now apply outputs_Stack. Qed.
Print Assumptions C19_stack.
Theorem C19_branch : forall A P U (ar : arith A) (ops : unit_ops A P U) x y l,
  outputs ar ops (Branch x y) l = zipw (@app A) (outputs ar ops x l) (outputs ar ops y l).
Proof. intros. apply outputs_Branch. Qed.
Print Assumptions C19_branch.
Theorem C19_bus : forall A P U (ar : arith A) (ops : unit_ops A P U) x y l,
  outputs ar ops (Bus x y) l = zipw (zipw (a_add ar)) (outputs ar ops x l) (outputs ar ops y l).
Proof. intros. apply outputs_Bus. Qed.
Print Assumptions C19_bus.
Theorem C19_binop : forall A P U (ar : arith A) (ops : unit_ops A P U), unit_laws (a_zero ar) ops -> forall b x y l,
  outputs ar ops (Binop b x y) l =
  zipw (zipw b) (outputs ar ops x (map (firstn (ins ops x)) l)) (outputs ar ops y (map (skipn (ins ops x)) l)).
Proof. intros. now apply outputs_Binop. Qed.
Print Assumptions C19_binop.
Theorem C19_unop : forall A P U (ar : arith A) (ops : unit_ops A P U) f x l,
  outputs ar ops (Unop f x) l = map (map f) (outputs ar ops x l).
Proof. intros. apply outputs_Unop. Qed.
Print Assumptions C19_unop.
(* !x: the outputs of x, then the inputs x has no output for; as many channels as inputs *)
Theorem C19_thru : forall A P U (ar : arith A) (ops : unit_ops A P U), unit_laws (a_zero ar) ops -> forall x l,
  wf ops x -> stream (ins ops x) l ->
  outputs ar ops (Thru x) l = zipw (fun i o => firstn (ins ops x) (o ++ skipn (outs ops x) i)) l (outputs ar ops x l).
Proof. intros. now apply outputs_Thru. Qed.
Print Assumptions C19_thru.
Theorem C19_chain : forall A P U (ar : arith A) (ops : unit_ops A P U) xs l,
  outputs ar ops (Chain xs) l = fold_left (fun s x => outputs ar ops x s) xs l.
Proof. intros. apply outputs_Chain. Qed.
Print Assumptions C19_chain.
(* multi nodes, frame by frame *)
Theorem C19_multistack : forall A P U (ar : arith A) (ops : unit_ops A P U), unit_laws (a_zero ar) ops -> forall x xs l t,
  t < length l ->
  nth t (outputs ar ops (MultiStack (x :: xs)) l) [] =
  concat (zipw (fun k y => nth t (outputs ar ops y (channels (k * ins ops x) (ins ops x) l)) []) (seq 0 (S (length xs))) (x :: xs)).
Proof. intros A P U ar ops Hu x xs l t Ht. exact (outputs_MultiStack ar ops Hu (x :: xs) l t Ht). Qed.
Print Assumptions C19_multistack.
Theorem C19_reduce : forall A P U (ar : arith A) (ops : unit_ops A P U), unit_laws (a_zero ar) ops -> forall b x xs l t,
  t < length l ->
  nth t (outputs ar ops (Reduce b (x :: xs)) l) [] =
  fold_left (zipw b)
    (zipw (fun k y => nth t (outputs ar ops y (channels (k * ins ops x) (ins ops x) l)) []) (seq 1 (length xs)) xs)
    (nth t (outputs ar ops x (channels 0 (ins ops x) l)) []).
Proof. intros A P U ar ops Hu b x xs l t Ht. exact (outputs_Reduce ar ops Hu b (x :: xs) l t Ht). Qed.
Print Assumptions C19_reduce.
Theorem C19_multibranch : forall A P U (ar : arith A) (ops : unit_ops A P U), unit_laws (a_zero ar) ops -> forall xs l t, t < length l ->
  nth t (outputs ar ops (MultiBranch xs) l) [] = concat (map (fun x => nth t (outputs ar ops x l) []) xs).
Proof. intros. now apply outputs_MultiBranch. Qed.
Print Assumptions C19_multibranch.
Theorem C19_multibus : forall A P U (ar : arith A) (ops : unit_ops A P U), unit_laws (a_zero ar) ops -> forall x xs l t, t < length l ->
  nth t (outputs ar ops (MultiBus (x :: xs)) l) [] =
  fold_left (zipw (a_add ar)) (map (fun x => nth t (outputs ar ops x l) []) (x :: xs)) (repeat (a_zero ar) (outs ops x)).
Proof. intros A P U ar ops Hu x xs l t Ht. exact (outputs_MultiBus ar ops Hu (x :: xs) l t Ht). Qed.
Print Assumptions C19_multibus.

(* Laws: associativity of >>, |, ^ and &, units, exchange, and the identities documented in the README. *)
Theorem C19_associative : forall A P U (ar : arith A) (ops : unit_ops A P U), unit_laws (a_zero ar) ops -> forall x y z : node A U,
  equiv ar ops (Pipe (Pipe x y) z) (Pipe x (Pipe y z)) /\
  equiv ar ops (Stack (Stack x y) z) (Stack x (Stack y z)) /\
  equiv ar ops (Branch (Branch x y) z) (Branch x (Branch y z)) /\
  ((forall a b c, a_add ar (a_add ar a b) c = a_add ar a (a_add ar b c)) -> equiv ar ops (Bus (Bus x y) z) (Bus x (Bus y z))).
Proof. intros A P U ar ops Hu x y z. exact (conj (pipe_assoc ar ops x y z) (conj (stack_assoc ar ops Hu x y z) (conj (branch_assoc ar ops x y z) (bus_assoc ar ops x y z)))). Qed.
Print Assumptions C19_associative.
Theorem C19_bus_commutative : forall A P U (ar : arith A) (ops : unit_ops A P U) (x y : node A U),
  (forall a b, a_add ar a b = a_add ar b a) -> ins ops x = ins ops y -> outs ops x = outs ops y ->
  equiv ar ops (Bus x y) (Bus y x).
Proof. intros. now apply bus_comm. Qed.
Print Assumptions C19_bus_commutative.
Theorem C19_pass_is_unit : forall A P U (ar : arith A) (ops : unit_ops A P U) (x : node A U),
  equiv ar ops (Pipe (MultiPass (ins ops x)) x) x /\ equiv ar ops (Pipe x (MultiPass (outs ops x))) x.
Proof. intros. exact (conj (pass_left ar ops x) (pass_right ar ops x)). Qed.
Print Assumptions C19_pass_is_unit.
Theorem C19_exchange : forall A P U (ar : arith A) (ops : unit_ops A P U), unit_laws (a_zero ar) ops -> forall x y z w : node A U,
  wf ops x -> wf ops y -> outs ops x = ins ops z ->
  equiv ar ops (Pipe (Stack x y) (Stack z w)) (Stack (Pipe x z) (Pipe y w)).
Proof. intros. now apply exchange. Qed.
Print Assumptions C19_exchange.
Theorem C19_branch_shares_input : forall A P U (ar : arith A) (ops : unit_ops A P U), unit_laws (a_zero ar) ops -> forall x y : node A U,
  ins ops x = ins ops y -> equiv ar ops (Branch x y) (Pipe (MultiSplit (ins ops x) 2) (Stack x y)).
Proof. intros. now apply branch_is_split_stack. Qed.
Print Assumptions C19_branch_shares_input.
Theorem C19_bus_sums_branch : forall A P U (ar : arith A) (ops : unit_ops A P U), unit_laws (a_zero ar) ops -> forall x y : node A U,
  wf ops x -> wf ops y -> ins ops x = ins ops y -> outs ops x = outs ops y ->
  equiv ar ops (Bus x y) (Pipe (Branch x y) (Binop (a_add ar) (MultiPass (outs ops x)) (MultiPass (outs ops x)))).
Proof. intros. now apply bus_is_branch_sum. Qed.
Print Assumptions C19_bus_sums_branch.
Theorem C19_chain_is_pipes : forall A P U (ar : arith A) (ops : unit_ops A P U) (x : node A U) xs,
  uniform ops (x :: xs) -> equiv ar ops (Chain (x :: xs)) (fold_left Pipe xs x).
Proof. intros. now apply chain_is_pipes. Qed.
Print Assumptions C19_chain_is_pipes.
Theorem C19_reverse_involutive : forall A P U (ar : arith A) (ops : unit_ops A P U) n,
  equiv ar ops (Pipe (Reverse n) (Reverse n)) (MultiPass n).
Proof. intros. apply reverse_reverse. Qed.
Print Assumptions C19_reverse_involutive.
Theorem C19_split_then_join : forall P U (ops : unit_ops R P U) m n, 1 <= n ->
  equiv R_arith ops (Pipe (Split n) (Join n)) Pass /\ equiv R_arith ops (Pipe (MultiSplit m n) (MultiJoin m n)) (MultiPass m).
Proof. intros P U ops m n Hn. exact (conj (split_join ops n Hn) (multisplit_multijoin ops m n Hn)). Qed.
Print Assumptions C19_split_then_join.
(* README.md "Expressions Are Graphs" and the equivalence table of the pass-through operator *)
Theorem C19_readme_equivalences : forall A P U (ar : arith A) (ops : unit_ops A P U), unit_laws (a_zero ar) ops ->
  (forall x, wf ops x -> outs ops x = 0 -> equiv ar ops x (Sink (ins ops x))) /\
  (forall v w, equiv ar ops (Stack (Constant v) (Constant w)) (Constant (v ++ w))) /\
  (forall n x, wf ops x -> ins ops x = 0 -> equiv ar ops (Stack (Sink n) x) (Stack x (Sink n))) /\
  (forall f k, wf ops f -> ins ops f = outs ops f + k -> equiv ar ops (Branch f (Stack (Sink (outs ops f)) (MultiPass k))) (Thru f)) /\
  (forall n, equiv ar ops (Thru (Sink n)) (MultiPass n)) /\
  (forall f s s', wf ops f -> wf ops s -> ins ops f = 1 -> outs ops f = 1 -> ins ops s = 1 -> ins ops s' = 1 ->
     equiv ar ops (Pipe (Branch Pass f) (Binop (a_add ar) s s')) (Bus s (Pipe f s'))).
Proof.
  intros A P U ar ops Hu.
  exact (conj (no_outputs_is_sink ar ops Hu) (conj (stack_constants ar ops Hu) (conj (sink_stack_generator ar ops Hu) (conj (manual_bypass ar ops Hu) (conj (thru_sink ar ops Hu) (bus_of_modified ar ops Hu)))))).
Qed.
Print Assumptions C19_readme_equivalences.
(* equivalence is a congruence: these laws may be applied inside larger expressions *)
Theorem C19_congruence : forall A P U (ar : arith A) (ops : unit_ops A P U), unit_laws (a_zero ar) ops -> forall x x' y y' : node A U,
  wf ops x -> wf ops x' -> equiv ar ops x x' -> equiv ar ops y y' ->
  (outs ops x = ins ops y -> equiv ar ops (Pipe x y) (Pipe x' y')) /\
  equiv ar ops (Stack x y) (Stack x' y') /\
  (forall b, equiv ar ops (Binop b x y) (Binop b x' y')) /\
  (ins ops x = ins ops y -> equiv ar ops (Branch x y) (Branch x' y')) /\
  (ins ops x = ins ops y -> equiv ar ops (Bus x y) (Bus x' y')) /\
  (forall f, equiv ar ops (Unop f x) (Unop f x')) /\
  equiv ar ops (Thru x) (Thru x').
Proof.
  intros A P U ar ops Hu x x' y y' Hx Hx' E1 E2.
  exact (conj (fun H => equiv_Pipe ar ops Hu x x' y y' Hx Hx' H E1 E2) (conj (equiv_Stack ar ops Hu x x' y y' E1 E2)
    (conj (fun b => equiv_Binop ar ops Hu b x x' y y' E1 E2) (conj (fun H => equiv_Branch ar ops x x' y y' H E1 E2)
    (conj (fun H => equiv_Bus ar ops x x' y y' H E1 E2) (conj (fun f => equiv_Unop ar ops f x x' E1) (equiv_Thru ar ops Hu x x' Hx Hx' E1))))))).
Qed.
Print Assumptions C19_congruence.
Example C19_example :
  outputs Z_arith demo_ops (Pipe (Branch (Leaf (Del 9)) (MultiBus [Pass; Leaf (Del 4)])) (Reverse 2)) [[1]; [2]; [3]]%Z = [[5; 9]; [3; 1]; [5; 2]]%Z.
Proof. reflexivity. Qed.

(* ------------------------------------------------------------------ C20 *)
(* A setting changes exactly the leaf or constant whose path is a prefix of its address, and gives it the rest of the address;
   nothing else in the expression changes. *)
Theorem C20_set_exact : forall A P U (ar : arith A) (ops : unit_ops A P U) (par_value : P -> option A) (x x' : node A U) (s : setting P),
  set ops par_value x s = Some x' ->
  targets x' = map (deliver ops par_value s) (targets x) /\ skeleton ar x' = skeleton ar x.
Proof. intros A P U ar ops pv x x' s H. exact (set_targets ar ops pv x s x' H). Qed.
Print Assumptions C20_set_exact.
(* Every addressable target can be addressed: the setting goes through without an index panic. *)
Theorem C20_set_reaches : forall A P U (ops : unit_ops A P U) (par_value : P -> option A) (x : node A U) p t par rest,
  In (Some p, t) (targets x) -> exists x', set ops par_value x (mkSetting par (p ++ rest)) = Some x'.
Proof.
  intros A P U ops pv x p t par rest H. pose proof (set_exists ops pv x p t par rest H) as E.
  destruct (set ops pv x (mkSetting par (p ++ rest))) as [x'|]; [now exists x'|congruence].
Qed.
Print Assumptions C20_set_reaches.
(* At most one target is addressed: no path is a prefix of another. *)
Theorem C20_addresses_distinct : forall A U (x : node A U) i j p q s t,
  nth_error (targets x) i = Some (Some p, s) -> nth_error (targets x) j = Some (Some q, t) -> strip p q <> None -> i = j.
Proof. intros A U x. exact (targets_indep x). Qed.
Print Assumptions C20_addresses_distinct.
Example C20_example :
  set demo_ops (@Some Z) demo_expr (mkSetting 42%Z [ALeft; ARight; ARight; AIndex 0])%Z =
  Some (Pipe (Branch (Thru (Pipe (Pipe (Leaf (Del 3)) (Split 2)) (Binop Z.mul Pass (Leaf (Del 1)))))
               (Bus (Chain [Leaf (Del 5); Leaf (Del 6)]) (MultiBus [Leaf (Del 42); Pass])))
       (Stack (Feedback (Leaf (Del 2)) [4%Z] (map Z.opp)) (Pipe (Stack Pass (Leaf (Cnt 9))) (Reduce Z.add [Pass; Leaf (Del 0)])))) /\
  In (Some [ALeft; ARight; ARight; AIndex 0], TUnit (Del 7)) (targets demo_expr).
Proof. split; [reflexivity|]. cbn. tauto. Qed.
(* an index beyond the last child is a panic *)
Example C20_index_panics : set demo_ops (@Some Z) (MultiBus [Leaf (Del 7); Pass]) (mkSetting 1%Z [AIndex 2]) = None.
Proof. reflexivity. Qed.

(* ------------------------------------------------------------------ C24 *)
(* The output of feedback(x) is the output of x when fed with the input plus the (transformed) output one sample earlier. *)
Theorem C24_feedback_equation : forall A P U (ar : arith A) (ops : unit_ops A P U) x v f l,
  outputs ar ops (Feedback x v f) l =
  outputs ar ops x (zipw (zipw (a_add ar)) l (v :: map f (outputs ar ops (Feedback x v f) l))).
Proof. intros. apply feedback_equation. Qed.
Print Assumptions C24_feedback_equation.
(* That equation has one solution. *)
Theorem C24_feedback_unique : forall A P U (ar : arith A) (ops : unit_ops A P U) x v f l os,
  length os = length l -> os = outputs ar ops x (zipw (zipw (a_add ar)) l (v :: map f os)) -> os = outputs ar ops (Feedback x v f) l.
Proof. intros. now apply feedback_unique. Qed.
Print Assumptions C24_feedback_unique.
(* feedback2: the loop runs through y. *)
Theorem C24_feedback2_equation : forall A P U (ar : arith A) (ops : unit_ops A P U) x y v f l,
  outputs ar ops (Feedback2 x y v f) l =
  outputs ar ops x (zipw (zipw (a_add ar)) l (v :: map f (outputs ar ops y (outputs ar ops (Feedback2 x y v f) l)))).
Proof. intros. apply feedback2_equation. Qed.
Print Assumptions C24_feedback2_equation.
Example C24_example : outputs Z_arith demo_ops (Feedback Pass [0%Z] (map (Z.mul 2))) [[1]; [0]; [0]; [1]]%Z = [[1]; [2]; [4]; [9]]%Z.
Proof. reflexivity. Qed.

(* ------------------------------------------------------------------ C28 *)
(* If reset forgets the history of every leaf then it forgets the history of the expression. *)
Theorem C28_expression_reset : forall A P U (ar : arith A) (ops : unit_ops A P U),
  unit_laws (a_zero ar) ops -> (forall u i, u_reset ops (fst (u_tick ops u i)) = u_reset ops u) ->
  forall (x : node A U) l, wf ops x -> stream (ins ops x) l ->
  reset ar ops (fst (ticks (tick ar ops) x l)) = reset ar ops x.
Proof. intros. now apply reset_ticks. Qed.
Print Assumptions C28_expression_reset.
Example C28_example_leaf : forall u i, u_reset demo_ops (fst (u_tick demo_ops u i)) = u_reset demo_ops u.
Proof. intros [] i; reflexivity. Qed.

(* ------------------------------------------------------------------ C45 *)
(* ping(false) gives every leaf the hash of the IDs of the nodes that precede it in preorder, and returns the hash of all IDs;
   the probing pass returns the same hash and changes nothing. *)
Theorem C45_ping_seeds : forall A P U (ops : unit_ops A P U) (ahash : N -> N -> N),
  (forall u h, u_id ops (u_set_hash ops u h) = u_id ops u) -> forall (x : node A U) h,
  snd (ping ops ahash false x h) = hash_ids ahash h (map fst (preorder ops x)) /\
  forall k i u, nth_error (preorder ops x) k = Some (i, Some u) ->
    nth_error (preorder ops (fst (ping ops ahash false x h))) k =
    Some (i, Some (u_set_hash ops u (hash_ids ahash h (firstn k (map fst (preorder ops x)))))).
Proof.
  intros A P U ops ahash Hid x h. exact (conj (proj1 (ping_ok ops ahash Hid x false h)) (ping_seeds ops ahash Hid x h)).
Qed.
Print Assumptions C45_ping_seeds.
Theorem C45_probe_is_pure : forall A P U (ops : unit_ops A P U) (ahash : N -> N -> N),
  (forall u h, u_id ops (u_set_hash ops u h) = u_id ops u) -> forall (x : node A U) h,
  ping ops ahash true x h = (x, hash_ids ahash h (map fst (preorder ops x))).
Proof.
  intros A P U ops ahash Hid x h. destruct (ping_ok ops ahash Hid x true h) as (H1 & _ & H2).
  rewrite (surjective_pairing (ping ops ahash true x h)), H1, H2; auto.
Qed.
Print Assumptions C45_probe_is_pure.
(* Leaves at different positions are seeded from different ID histories. *)
Theorem C45_histories_differ : forall A P U (ops : unit_ops A P U) (x : node A U) i j, i < j -> j < length (preorder ops x) ->
  firstn i (map fst (preorder ops x)) <> firstn j (map fst (preorder ops x)).
Proof. intros A P U ops x i j Hi Hj. apply firstn_inj; [exact Hi|]. rewrite map_length. exact (Nat.lt_le_incl _ _ Hj). Qed.
Print Assumptions C45_histories_differ.
Example C45_example :
  (forall u h, u_id demo_ops (u_set_hash demo_ops u h) = u_id demo_ops u) /\
  let x := Stack (Leaf (Cnt 0)) (Leaf (Cnt 0)) in
  fst (ping demo_ops atto_hash false x 5) =
  Stack (Leaf (Cnt (Z.of_N (atto_hash 5 7)))) (Leaf (Cnt (Z.of_N (atto_hash (atto_hash 5 7) 101)))) /\
  atto_hash 5 7 <> atto_hash (atto_hash 5 7) 101.
Proof. split; [intros []; reflexivity|]. vm_compute. split; [reflexivity|discriminate]. Qed.
