(* Specifications for AudioNode expressions. *)
From Verif Require Export NodeModel.

Section Spec.
  Context {A P U : Type}.
  Variable ar : arith A.
  Variable ops : unit_ops A P U.
  Notation node := (node A U).
  Notation buf := (list (list A)).

  (* A session of block processing: each block has its size, input buffer, output buffer as found (arbitrary contents)
     and arbitrary contents of uninitialised temporaries. Result: final state and the frames of all blocks in order. *)
  Record block := mkBlock { k_size : nat; k_in : buf; k_out : buf; k_tmp : garbage (A := A) }.
  Definition block_ok (x : node) (b : block) : Prop :=
    k_size b <= MAXB /\ shaped (ins ops x) (k_in b) /\ shaped (outs ops x) (k_out b) /\ forall p n, shaped n (k_tmp b p n).
  Fixpoint run_blocks (x : node) (bs : list block) : node * list (list A) :=
    match bs with
    | [] => (x, [])
    | b :: r =>
        let (x', o) := process ar ops (k_tmp b) x (k_size b) (k_in b) (k_out b) in
        let (x'', os) := run_blocks x' r in (x'', frames (a_zero ar) o (k_size b) ++ os)
    end.
  (* the input frames of the session *)
  Definition input_frames (bs : list block) : list (list A) :=
    concat (map (fun b => frames (a_zero ar) (k_in b) (k_size b)) bs).

  (* the output frames of x on a stream of input frames *)
  Definition outputs (x : node) (l : list (list A)) : list (list A) := snd (ticks (tick ar ops) x l).
  (* streams of frames of width n *)
  Definition stream (n : nat) (l : list (list A)) : Prop := Forall (fun i => length i = n) l.
  (* observable equality of two expressions *)
  Definition equiv (x y : node) : Prop :=
    ins ops x = ins ops y /\ outs ops x = outs ops y /\
    forall l, stream (ins ops x) l -> outputs x l = outputs y l.

  (* what a setting can change: a leaf unit or a constant *)
  Inductive target := TUnit (u : U) | TConst (v : list A).
  (* all targets of an expression in order; with each the address that leads to it: left()/right() under binary nodes,
     index(i) under the i-th child of a multi node, nothing for unary operators; None inside feedback nodes. *)
  Definition under (a : list address) (l : list (option (list address) * target)) : list (option (list address) * target) :=
    map (fun t => (option_map (app a) (fst t), snd t)) l.
  Definition hidden (l : list (option (list address) * target)) := map (fun t => (@None (list address), snd t)) l.
  Section Children.
    Variable f : node -> list (option (list address) * target).
    Definition under_index := fix go (k : nat) (xs : list node) : list (option (list address) * target) :=
      match xs with [] => [] | x :: r => under [AIndex k] (f x) ++ go (S k) r end.
  End Children.
  Fixpoint targets (x : node) : list (option (list address) * target) :=
    match x with
    | Leaf u => [(Some [], TUnit u)]
    | Constant v => [(Some [], TConst v)]
    | Binop _ x y | Pipe x y | Stack x y | Branch x y | Bus x y => under [ALeft] (targets x) ++ under [ARight] (targets y)
    | Unop _ x | Thru x => targets x
    | MultiBus xs | MultiStack xs | Reduce _ xs | MultiBranch xs | Chain xs => under_index targets 0 xs
    | Feedback x _ _ => hidden (targets x)
    | Feedback2 x y _ _ => hidden (targets x ++ targets y)
    | _ => []
    end.
  (* what is left of address a below the path p, if a starts with p *)
  Definition address_eqb (a b : address) : bool :=
    match a, b with
    | ANull, ANull => true | ALeft, ALeft => true | ARight, ARight => true
    | AIndex i, AIndex j => Nat.eqb i j | ANode i, ANode j => N.eqb i j
    | _, _ => false
    end.
  Fixpoint strip (p a : list address) : option (list address) :=
    match p, a with
    | [], _ => Some a
    | x :: p', y :: a' => if address_eqb x y then strip p' a' else None
    | _ :: _, [] => None
    end.
  (* the effect of a setting on one target with path p *)
  Definition deliver (par_value : P -> option A) (s : setting P) (t : option (list address) * target) : option (list address) * target :=
    match fst t with
    | None => t
    | Some p =>
        match strip p (s_addr s) with
        | None => t
        | Some rest =>
            (Some p, match snd t with
                     | TUnit u => TUnit (u_set ops u (mkSetting (s_par s) rest))
                     | TConst v => match par_value (s_par s) with Some a => TConst (map (fun _ => a) v) | None => TConst v end
                     end)
        end
    end.
  (* the expression with all targets blanked out *)
  Fixpoint skeleton (x : node) : NodeModel.node A unit :=
    match x with
    | Leaf _ => Leaf tt
    | Constant v => Constant (map (fun _ => a_zero ar) v)
    | MultiPass n => MultiPass n | Pass => Pass | Sink n => Sink n | Split n => Split n | MultiSplit m n => MultiSplit m n
    | Join n => Join n | MultiJoin m n => MultiJoin m n | Reverse n => Reverse n | Impulse n v o => Impulse n v o
    | MapNode i o f => MapNode i o f
    | Binop b x y => Binop b (skeleton x) (skeleton y)
    | Unop f x => Unop f (skeleton x)
    | Pipe x y => Pipe (skeleton x) (skeleton y)
    | Stack x y => Stack (skeleton x) (skeleton y)
    | Branch x y => Branch (skeleton x) (skeleton y)
    | Bus x y => Bus (skeleton x) (skeleton y)
    | Thru x => Thru (skeleton x)
    | MultiBus xs => MultiBus (map skeleton xs)
    | MultiStack xs => MultiStack (map skeleton xs)
    | Reduce b xs => Reduce b (map skeleton xs)
    | MultiBranch xs => MultiBranch (map skeleton xs)
    | Chain xs => Chain (map skeleton xs)
    | Feedback x v f => Feedback (skeleton x) v f
    | Feedback2 x y v f => Feedback2 (skeleton x) (skeleton y) v f
    end.

  (* preorder listing of an expression: the ID of every node, and the unit if it is a leaf *)
  Fixpoint preorder (x : node) : list (N * option U) :=
    (node_id ops x, match x with Leaf u => Some u | _ => None end) ::
    match x with
    | Binop _ x y | Pipe x y | Stack x y | Branch x y | Bus x y => preorder x ++ preorder y
    | Unop _ x | Thru x => preorder x
    | MultiBus xs | MultiStack xs | Reduce _ xs | MultiBranch xs | Chain xs => flat_map preorder xs
    | Feedback x _ _ => preorder x
    | Feedback2 x y _ _ => preorder x ++ preorder y
    | _ => []
    end.
  (* hash a list of IDs *)
  Definition hash_ids (ahash : N -> N -> N) (h : N) (ids : list N) : N := fold_left ahash ids h.
End Spec.
Arguments block : clear implicits. Arguments mkBlock {A}. Arguments k_size {A}. Arguments k_in {A}. Arguments k_out {A}. Arguments k_tmp {A}.
Arguments target : clear implicits. Arguments TUnit {A U}. Arguments TConst {A U}.
