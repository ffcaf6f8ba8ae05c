(* AudioNode expressions: the graph combinators and routing nodes of /repo/src/audionode.rs (and the feedback nodes of
   /repo/src/feedback.rs) as a deep embedding over arbitrary leaf units.
   Type-level arities become the functions ins/outs; the Rust trait bounds become the predicate wf.
   SIMD lane-wise arithmetic is taken to equal scalar arithmetic on each lane.
   denormal::prevent_denormals (src/feedback.rs) and allocate() are not modelled.
   Multi* nodes are given by lists; Rust's Frame<X, N> holds N nodes of one type. *)
From Verif Require Export UnitModel.

Section Node.
  Context {A P U : Type}.
  Variable ar : arith A.
  Variable ops : unit_ops A P U.
  Variable par_value : P -> option A.      (* Parameter::Value(v) *)
  Variable ahash : N -> N -> N.            (* AttoHash::hash: state, data *)
  Notation zero := (a_zero ar).
  Notation add := (a_add ar).
  Notation buf := (list (list A)).

  Inductive node :=
  | Leaf (u : U)
  | MultiPass (n : nat)                    (* audionode.rs:344-375 *)
  | Pass                                   (* audionode.rs:377-406 *)
  | Sink (n : nat)                         (* audionode.rs:408-434 *)
  | Constant (v : list A)                  (* audionode.rs:436-496 *)
  | Split (n : nat)                        (* audionode.rs:498-540 *)
  | MultiSplit (m n : nat)                 (* audionode.rs:542-586 *)
  | Join (n : nat)                         (* audionode.rs:588-636 *)
  | MultiJoin (m n : nat)                  (* audionode.rs:638-695 *)
  | Reverse (n : nat)                      (* audionode.rs:2455-2486 *)
  | Impulse (n : nat) (v one : A)          (* audionode.rs:2488-2522: value and the constant 1.0 *)
  | MapNode (i o : nat) (f : list A -> list A)      (* audionode.rs:1239-1278 *)
  | Binop (b : A -> A -> A) (x y : node)   (* audionode.rs:823-961 *)
  | Unop (f : A -> A) (x : node)           (* audionode.rs:1166-1234; the channelwise operators of 964-1160 *)
  | Pipe (x y : node)                      (* audionode.rs:1284-1380 *)
  | Stack (x y : node)                     (* audionode.rs:1384-1512 *)
  | Branch (x y : node)                    (* audionode.rs:1516-1630 *)
  | Bus (x y : node)                       (* audionode.rs:1635-1748 *)
  | Thru (x : node)                        (* audionode.rs:1753-1836 *)
  | MultiBus (xs : list node)              (* audionode.rs:1840-1950 *)
  | MultiStack (xs : list node)            (* audionode.rs:1954-2086 *)
  | Reduce (b : A -> A -> A) (xs : list node)       (* audionode.rs:2091-2222 *)
  | MultiBranch (xs : list node)           (* audionode.rs:2227-2342 *)
  | Chain (xs : list node)                 (* audionode.rs:2346-2452 *)
  | Feedback (x : node) (value : list A) (f : list A -> list A)               (* feedback.rs:66-159 *)
  | Feedback2 (x y : node) (value : list A) (f : list A -> list A).           (* feedback.rs:161-271 *)

  (* audionode.rs:25-342: type Inputs / Outputs of each impl *)
  Fixpoint ins (x : node) : nat :=
    match x with
    | Leaf u => u_ins ops u
    | MultiPass n => n | Pass => 1 | Sink n => n | Constant _ => 0 | Split _ => 1 | MultiSplit m _ => m
    | Join n => n | MultiJoin m n => m * n | Reverse n => n | Impulse _ _ _ => 0 | MapNode i _ _ => i
    | Binop _ x y => ins x + ins y
    | Unop _ x => ins x
    | Pipe x _ => ins x
    | Stack x y => ins x + ins y
    | Branch x _ => ins x
    | Bus x _ => ins x
    | Thru x => ins x
    | MultiBus xs => match xs with [] => 0 | x :: _ => ins x end
    | MultiStack xs => match xs with [] => 0 | x :: _ => length xs * ins x end
    | Reduce _ xs => match xs with [] => 0 | x :: _ => length xs * ins x end
    | MultiBranch xs => match xs with [] => 0 | x :: _ => ins x end
    | Chain xs => match xs with [] => 0 | x :: _ => ins x end
    | Feedback x _ _ => ins x
    | Feedback2 x _ _ _ => ins x
    end.
  (* audionode.rs:25-342 *)
  Fixpoint outs (x : node) : nat :=
    match x with
    | Leaf u => u_outs ops u
    | MultiPass n => n | Pass => 1 | Sink _ => 0 | Constant v => length v | Split n => n | MultiSplit m n => m * n
    | Join _ => 1 | MultiJoin m _ => m | Reverse n => n | Impulse n _ _ => n | MapNode _ o _ => o
    | Binop _ x _ => outs x
    | Unop _ x => outs x
    | Pipe _ y => outs y
    | Stack x y => outs x + outs y
    | Branch x y => outs x + outs y
    | Bus x _ => outs x
    | Thru x => ins x
    | MultiBus xs => match xs with [] => 0 | x :: _ => outs x end
    | MultiStack xs => match xs with [] => 0 | x :: _ => length xs * outs x end
    | Reduce _ xs => match xs with [] => 0 | x :: _ => outs x end
    | MultiBranch xs => match xs with [] => 0 | x :: _ => length xs * outs x end
    | Chain xs => match xs with [] => 0 | x :: _ => outs x end
    | Feedback x _ _ => outs x
    | Feedback2 x _ _ _ => outs x
    end.

  (* Join tick, src/audionode.rs:614-621: x0 + x1 + ... then division by N *)
  Definition join_tick (n : nat) (l : list A) : A :=
    match l with [] => zero | a :: r => a_divn ar (fold_left add r a) n end.
  (* audionode.rs:622-632: Join process, 617-627: x0 * z, then add x_i * z *)
  Definition join_block (n : nat) (l : list A) : A :=
    match l with [] => zero | a :: r => fold_left (fun acc v => add acc (a_muln ar v n)) r (a_muln ar a n) end.
  (* audionode.rs:670-690: the N inputs that MultiJoin averages into channel j: input[j + i * M], 661-669 *)
  Definition strided (m n j : nat) (l : list A) : list A := map (fun i => nth (j + i * m) l zero) (seq 0 n).

  (* audionode.rs:721-741: elementwise sum of frames *)
  Definition vadd (a b : list A) : list A := zipw add a b.

  (* ---- tick ---- *)
  Section TickAll.
    Variable tick : node -> list A -> node * list A.
    (* audionode.rs:1893-1896, 2023-2031, 2286-2294: for (i, node) in x.iter_mut().enumerate() { node.tick(input_i) } *)
    Definition tick_all := fix go (xs : list node) (inps : list (list A)) : list node * list (list A) :=
      match xs, inps with
      | x :: r, i :: is => let (x', o) := tick x i in let (r', os) := go r is in (x' :: r', o :: os)
      | _, _ => ([], [])
      end.
    (* audionode.rs:2402-2408: Chain::tick 2405-2411 *)
    Definition tick_chain := fix go (xs : list node) (i : list A) : list node * list A :=
      match xs with
      | [] => ([], i)
      | x :: r => let (x', o) := tick x i in let (r', o') := go r o in (x' :: r', o')
      end.
  End TickAll.

  (* audionode.rs:362-2517 (the functions tick) *)
  Fixpoint tick (x : node) (inp : list A) {struct x} : node * list A :=
    match x with
    | Leaf u => let (u', o) := u_tick ops u inp in (Leaf u', o)
    | MultiPass _ | Pass => (x, inp)
    | Sink _ => (x, [])
    | Constant v => (x, v)
    | Split n => (x, repeat (nth 0 inp zero) n)
    | MultiSplit m n => (x, map (fun i => nth (i mod m) inp zero) (seq 0 (m * n)))
    | Join n => (x, [join_tick n inp])
    | MultiJoin m n => (x, map (fun j => join_tick n (strided m n j inp)) (seq 0 m))
    | Reverse n => (x, map (fun i => nth (n - 1 - i) inp zero) (seq 0 n))
    | Impulse n v one => (Impulse n zero one, repeat v n)
    | MapNode _ _ f => (x, f inp)
    | Binop b x y =>
        let (x', ox) := tick x (firstn (ins x) inp) in
        let (y', oy) := tick y (skipn (ins x) inp) in
        (Binop b x' y', zipw b ox oy)
    | Unop f x => let (x', o) := tick x inp in (Unop f x', map f o)
    | Pipe x y => let (x', o) := tick x inp in let (y', o') := tick y o in (Pipe x' y', o')
    | Stack x y =>
        let (x', ox) := tick x (firstn (ins x) inp) in
        let (y', oy) := tick y (skipn (ins x) inp) in
        (Stack x' y', ox ++ oy)
    | Branch x y =>
        let (x', ox) := tick x inp in let (y', oy) := tick y inp in (Branch x' y', ox ++ oy)
    | Bus x y =>
        let (x', ox) := tick x inp in let (y', oy) := tick y inp in (Bus x' y', vadd ox oy)
    | Thru x =>
        let (x', o) := tick x inp in
        (Thru x', map (fun c => if Nat.ltb c (outs x) then nth c o zero else nth c inp zero) (seq 0 (ins x)))
    | MultiBus xs =>
        let (xs', os) := tick_all tick xs (map (fun _ => inp) xs) in
        (MultiBus xs', fold_left vadd os (repeat zero (outs x)))
    | MultiStack xs =>
        let (xs', os) := tick_all tick xs (slices (length xs) (match xs with [] => 0 | x :: _ => ins x end) inp) in
        (MultiStack xs', concat os)
    | Reduce b xs =>
        let (xs', os) := tick_all tick xs (slices (length xs) (match xs with [] => 0 | x :: _ => ins x end) inp) in
        (Reduce b xs', match os with [] => repeat zero (outs x) | o :: r => fold_left (zipw b) r o end)
    | MultiBranch xs =>
        let (xs', os) := tick_all tick xs (map (fun _ => inp) xs) in
        (MultiBranch xs', concat os)
    | Chain xs => let (xs', o) := tick_chain tick xs inp in (Chain xs', o)
    | Feedback x value f =>
        let (x', o) := tick x (vadd inp value) in (Feedback x' (f o) f, o)
    | Feedback2 x y value f =>
        let (x', o) := tick x (vadd inp value) in
        let (y', o') := tick y o in (Feedback2 x' y' (f o') f, o)
    end.

  (* ---- process ---- *)
  (* buffer.rs:326-332: Contents of the temporary buffers (BufferArray::uninitialized()): arbitrary, chosen by a function of the position
     in the expression (a path) and of the channel count. *)
  Definition garbage := list nat -> nat -> buf.
  (* buffer.rs:326-332 *)
  Definition sub (g : garbage) (i : nat) : garbage := fun p n => g (i :: p) n.

  (* audionode.rs:365-370, 398-401, 530-535, 576-581, 2476-2481: single-channel writes of a routing node: out channel c gets f c k at sample k *)
  Definition route_simd (size : nat) (f : nat -> nat -> A) (out : buf) : buf :=
    map (fun c => write_simd zero size (f c) (nth c out [])) (seq 0 (length out)).

  Section ProcessAll.
    Variable process : garbage -> node -> nat -> buf -> buf -> node * buf.
    (* audionode.rs:2034-2046, 2296-2306: children with disjoint output channels *)
    Definition process_all := fix go (g : garbage) (k : nat) (xs : list node) (size : nat) (inbs outbs : list buf)
        : list node * list buf :=
      match xs, inbs, outbs with
      | x :: r, i :: is, o :: os =>
          let (x', o') := process (sub g k) x size i o in
          let (r', os') := go g (S k) r size is os in (x' :: r', o' :: os')
      | _, _, _ => ([], [])
      end.
    (* audionode.rs:1899-1910, 2167-2188: children after the first: each renders into the shared temporary, which is combined into the output *)
    Definition process_reduce (b : A -> A -> A) := fix go (g : garbage) (k : nat) (xs : list node) (size : nat) (inbs : list buf) (tmp out : buf)
        : list node * buf :=
      match xs, inbs with
      | x :: r, i :: is =>
          let (x', tmp') := process (sub g k) x size i tmp in
          let out' := zipw (fun d s => write_simd zero size (fun k => b (nth k d zero) (nth k s zero)) d) out tmp' in
          let (r', out'') := go g (S k) r size is tmp' out' in (x' :: r', out'')
      | _, _ => ([], out)
      end.
    (* audionode.rs:2410-2424: Chain::process 2413-2427 for the nodes after the first: n is the chain length, i the index of the next node *)
    Definition process_chain := fix go (g : garbage) (n i : nat) (xs : list node) (size : nat) (buffer out : buf)
        : list node * buf :=
      match xs with
      | [] => ([], out)
      | x :: r =>
          if Nat.odd (Nat.lxor n i) then
            let (x', out') := process (sub g i) x size buffer out in
            let (r', o) := go g n (S i) r size buffer out' in (x' :: r', o)
          else
            let (x', buffer') := process (sub g i) x size out buffer in
            let (r', o) := go g n (S i) r size buffer' out in (x' :: r', o)
      end.
  End ProcessAll.

  (* audionode.rs:365-2481 (the functions process) *)
  Fixpoint process (g : garbage) (x : node) (size : nat) (inb out : buf) {struct x} : node * buf :=
    match x with
    | Leaf u => let (u', o) := u_process ops u size inb out in (Leaf u', o)
    | MultiPass _ | Pass => (x, route_simd size (fun c k => nth k (nth c inb []) zero) out)
    | Sink _ => (x, out)
    | Constant v => (x, route_simd size (fun c _ => nth c v zero) out)
    | Split _ => (x, route_simd size (fun _ k => nth k (nth 0 inb []) zero) out)
    | MultiSplit m _ => (x, route_simd size (fun c k => nth k (nth (c mod m) inb []) zero) out)
    | Join n => (x, route_simd size (fun _ k => join_block n (map (fun ch => nth k ch zero) inb)) out)
    | MultiJoin m n => (x, route_simd size (fun c k => join_block n (strided m n c (map (fun ch => nth k ch zero) inb))) out)
    | Reverse n => (x, route_simd size (fun c k => nth k (nth (n - 1 - c) inb []) zero) out)
    | Impulse _ _ _ => default_process zero tick size x inb out
    | MapNode _ _ _ => default_process zero tick size x inb out
    | Binop b x y =>
        let (x', bx) := process (sub g 1) x size (firstn (ins x) inb) (g [] (outs x)) in
        let (y', by_) := process (sub g 2) y size (firstn (ins y) (skipn (ins x) inb)) out in
        (Binop b x' y', zip_simd zero size b bx by_)
    | Unop f x =>
        let (x', o) := process (sub g 1) x size inb out in
        (Unop f x', map (fun d => write_simd zero size (fun k => f (nth k d zero)) d) o)
    | Pipe x y =>
        let (x', bx) := process (sub g 1) x size inb (g [] (outs x)) in
        let (y', o) := process (sub g 2) y size bx out in (Pipe x' y', o)
    | Stack x y =>
        let (x', ox) := process (sub g 1) x size (firstn (ins x) inb) (firstn (outs x) out) in
        let (y', oy) := process (sub g 2) y size (firstn (ins y) (skipn (ins x) inb)) (skipn (outs x) out) in
        (Stack x' y', ox ++ oy)
    | Branch x y =>
        let (x', ox) := process (sub g 1) x size inb (firstn (outs x) out) in
        let (y', oy) := process (sub g 2) y size inb (skipn (outs x) out) in
        (Branch x' y', ox ++ oy)
    | Bus x y =>
        let (x', ox) := process (sub g 1) x size inb out in
        let (y', oy) := process (sub g 2) y size inb (g [] (outs x)) in
        (Bus x' y', zipw (fun d s => write_simd zero size (fun k => add (nth k d zero) (nth k s zero)) d) ox oy)
    | Thru x =>
        if Nat.eqb (ins x) 0 then (Thru x, out)
        else if Nat.ltb (ins x) (outs x) then
          let (x', b) := process (sub g 1) x size inb (g [] (outs x)) in
          (Thru x', copy_simd zero size (firstn (ins x) b) out)
        else
          let (x', o) := process (sub g 1) x size inb (firstn (outs x) out) in
          (Thru x', o ++ copy_simd zero size (skipn (outs x) inb) (skipn (outs x) out))
    | MultiBus xs =>
        match xs with
        | [] => (x, out)      (* self.x[0] panics; excluded by wf *)
        | y :: r =>
            let (y', o) := process (sub g 1) y size inb out in
            let (r', o') := process_reduce process add (sub g 2) 0 r size (map (fun _ => inb) r) (g [] (outs y)) o in
            (MultiBus (y' :: r'), o')
        end
    | MultiStack xs =>
        let ni := match xs with [] => 0 | y :: _ => ins y end in
        let no := match xs with [] => 0 | y :: _ => outs y end in
        let (xs', os) := process_all process g 0 xs size (slices (length xs) ni inb) (slices (length xs) no out) in
        (MultiStack xs', concat os)
    | Reduce b xs =>
        match xs with
        | [] => (x, out)
        | y :: r =>
            let (y', o) := process (sub g 1) y size (firstn (ins y) inb) out in
            let (r', o') := process_reduce process b (sub g 2) 0 r size (slices (length r) (ins y) (skipn (ins y) inb)) (g [] (outs y)) o in
            (Reduce b (y' :: r'), o')
        end
    | MultiBranch xs =>
        let no := match xs with [] => 0 | y :: _ => outs y end in
        let (xs', os) := process_all process g 0 xs size (map (fun _ => inb) xs) (slices (length xs) no out) in
        (MultiBranch xs', concat os)
    | Chain xs =>
        match xs with
        | [] => (x, out)
        | y :: r =>
            let n := length xs in
            if Nat.odd n then
              let (y', o) := process (sub g 0) y size inb out in
              let (r', o') := process_chain process g n 1 r size (g [] (outs y)) o in (Chain (y' :: r'), o')
            else
              let (y', b) := process (sub g 0) y size inb (g [] (outs y)) in
              let (r', o') := process_chain process g n 1 r size b out in (Chain (y' :: r'), o')
        end
    | Feedback _ _ _ => default_process zero tick size x inb out
    | Feedback2 _ _ _ _ => default_process zero tick size x inb out
    end.

  (* ---- reset ---- *)
  (* audionode.rs:888-2512 (the functions reset) *)
  Fixpoint reset (x : node) : node :=
    match x with
    | Leaf u => Leaf (u_reset ops u)
    | Impulse n _ one => Impulse n one one
    | Binop b x y => Binop b (reset x) (reset y)
    | Unop f x => Unop f (reset x)
    | Pipe x y => Pipe (reset x) (reset y)
    | Stack x y => Stack (reset x) (reset y)
    | Branch x y => Branch (reset x) (reset y)
    | Bus x y => Bus (reset x) (reset y)
    | Thru x => Thru (reset x)
    | MultiBus xs => MultiBus (map reset xs)
    | MultiStack xs => MultiStack (map reset xs)
    | Reduce b xs => Reduce b (map reset xs)
    | MultiBranch xs => MultiBranch (map reset xs)
    | Chain xs => Chain (map reset xs)
    | Feedback x value f => Feedback (reset x) (map (fun _ => zero) value) f
    | Feedback2 x y value f => Feedback2 (reset x) (reset y) (map (fun _ => zero) value) f
    | _ => x
    end.

  (* ---- set ---- *)
  (* None is the out-of-bounds panic of self.x[index]. *)
  Section SetAt.
    Variable set : node -> setting P -> option node.
    (* audionode.rs:1912-1916, 2048-2052, 2190-2194, 2308-2312, 2426-2430 *)
    Definition set_at := fix go (xs : list node) (i : nat) (s : setting P) : option (list node) :=
      match xs, i with
      | [], _ => None
      | x :: r, O => option_map (fun x' => x' :: r) (set x s)
      | x :: r, S i' => option_map (cons x) (go r i' s)
      end.
  End SetAt.
  Fixpoint set (x : node) (s : setting P) {struct x} : option node :=
    let bin (mk : node -> node -> node) (a b : node) (sa sb : setting P -> option node) :=
      match direction s with
      | ALeft => option_map (fun a' => mk a' b) (sa (peel s))
      | ARight => option_map (fun b' => mk a b') (sb (peel s))
      | _ => Some (mk a b)
      end in
    let multi (mk : list node -> node) (xs : list node) (f : nat -> setting P -> option (list node)) :=
      match direction s with
      | AIndex i => option_map mk (f i (peel s))
      | _ => Some (mk xs)
      end in
    match x with
    | Leaf u => Some (Leaf (u_set ops u s))
    | Constant v => match par_value (s_par s) with Some a => Some (Constant (map (fun _ => a) v)) | None => Some x end
    | Binop b x y => bin (Binop b) x y (set x) (set y)
    | Unop f x => option_map (Unop f) (set x s)
    | Pipe x y => bin Pipe x y (set x) (set y)
    | Stack x y => bin Stack x y (set x) (set y)
    | Branch x y => bin Branch x y (set x) (set y)
    | Bus x y => bin Bus x y (set x) (set y)
    | Thru x => option_map Thru (set x s)
    | MultiBus xs => multi MultiBus xs (set_at set xs)
    | MultiStack xs => multi MultiStack xs (set_at set xs)
    | Reduce b xs => multi (Reduce b) xs (set_at set xs)
    | MultiBranch xs => multi MultiBranch xs (set_at set xs)
    | Chain xs => multi Chain xs (set_at set xs)
    | _ => Some x      (* no override of set: src/audionode.rs:124; Feedback and Feedback2 included *)
    end.

  (* ---- ping ---- *)
  (* audionode.rs:357-2505 (the constants ID): const ID of each impl *)
  Definition node_id (x : node) : N :=
    match x with
    | Leaf u => u_id ops u
    | MultiPass _ => 0 | Pass => 48 | Sink _ => 1 | Constant _ => 2 | Split _ => 40 | MultiSplit _ _ => 38
    | Join _ => 41 | MultiJoin _ _ => 39 | Reverse _ => 45 | Impulse _ _ _ => 81 | MapNode _ _ _ => 5
    | Binop _ _ _ => 3 | Unop _ _ => 4 | Pipe _ _ => 6 | Stack _ _ => 7 | Branch _ _ => 8 | Bus _ _ => 10 | Thru _ => 12
    | MultiBus _ => 28 | MultiStack _ => 30 | Reduce _ _ => 32 | MultiBranch _ => 33 | Chain _ => 32
    | Feedback _ _ _ => 11 | Feedback2 _ _ _ _ => 66
    end%N.
  Section PingAll.
    Variable ping : bool -> node -> N -> node * N.
    (* audionode.rs:1918-1924, 2054-2060, 2196-2202, 2314-2320, 2432-2438 *)
    Definition ping_all := fix go (probe : bool) (xs : list node) (h : N) : list node * N :=
      match xs with
      | [] => ([], h)
      | x :: r => let (x', h') := ping probe x h in let (r', h'') := go probe r h' in (x' :: r', h'')
      end.
  End PingAll.
  (* audionode.rs:150-157, 939-2438 (the functions ping) *)
  Fixpoint ping (probe : bool) (x : node) (h : N) {struct x} : node * N :=
    let h1 := ahash h (node_id x) in
    let bin (mk : node -> node -> node) (px py : N -> node * N) :=
      let (x', h2) := px h1 in let (y', h3) := py h2 in (mk x' y', h3) in
    match x with
    | Leaf u => (Leaf (if probe then u else u_set_hash ops u h), h1)
    | Binop b x y => bin (Binop b) (ping probe x) (ping probe y)
    | Unop f x => let (x', h2) := ping probe x h1 in (Unop f x', h2)
    | Pipe x y => bin Pipe (ping probe x) (ping probe y)
    | Stack x y => bin Stack (ping probe x) (ping probe y)
    | Branch x y => bin Branch (ping probe x) (ping probe y)
    | Bus x y => bin Bus (ping probe x) (ping probe y)
    | Thru x => let (x', h2) := ping probe x h1 in (Thru x', h2)
    | MultiBus xs => let (xs', h2) := ping_all ping probe xs h1 in (MultiBus xs', h2)
    | MultiStack xs => let (xs', h2) := ping_all ping probe xs h1 in (MultiStack xs', h2)
    | Reduce b xs => let (xs', h2) := ping_all ping probe xs h1 in (Reduce b xs', h2)
    | MultiBranch xs => let (xs', h2) := ping_all ping probe xs h1 in (MultiBranch xs', h2)
    | Chain xs => let (xs', h2) := ping_all ping probe xs h1 in (Chain xs', h2)
    | Feedback x v f => let (x', h2) := ping probe x h1 in (Feedback x' v f, h2)
    | Feedback2 x y v f => let (x', h2) := ping probe x h1 in let (y', h3) := ping probe y h2 in (Feedback2 x' y' v f, h3)
    | _ => (x, h1)
    end.
  (* audionode.rs:1295-1326: Pipe::new and the other constructors: ping(true, AttoHash::new(ID)), then ping(false, that hash) *)
  Definition seed (x : node) (h0 : N) : node := let (x1, h) := ping true x h0 in fst (ping false x1 h).

  (* ---- the Rust trait bounds ---- *)
  (* audionode.rs:1848-1870, 1967-1996, 2103-2128, 2237-2261, 2354-2379 *)
  Definition uniform (xs : list node) : Prop :=
    match xs with [] => False | x :: _ => Forall (fun y => ins y = ins x /\ outs y = outs x) xs end.
  Section AllProp.
    Variable p : node -> Prop.
    (* audionode.rs:1293-2379 (the bounds of the impls) *)
    Definition all := fix go (xs : list node) : Prop := match xs with [] => True | x :: r => p x /\ go r end.
  End AllProp.
  (* audionode.rs:1293-2379 (the bounds of the impls) *)
  Fixpoint wf (x : node) : Prop :=
    match x with
    | Join n => 1 <= n
    | MultiJoin m n => 1 <= n
    | MapNode i o f => forall v, length v = i -> length (f v) = o
    | Binop _ x y => wf x /\ wf y /\ outs x = outs y
    | Unop _ x => wf x
    | Pipe x y => wf x /\ wf y /\ outs x = ins y
    | Stack x y => wf x /\ wf y
    | Branch x y => wf x /\ wf y /\ ins x = ins y
    | Bus x y => wf x /\ wf y /\ ins x = ins y /\ outs x = outs y
    | Thru x => wf x
    | MultiBus xs => all wf xs /\ uniform xs
    | MultiStack xs => all wf xs /\ uniform xs
    | Reduce _ xs => all wf xs /\ uniform xs
    | MultiBranch xs => all wf xs /\ uniform xs
    | Chain xs => all wf xs /\ uniform xs /\ all (fun y => ins y = outs y) xs
    | Feedback x value f => wf x /\ ins x = outs x /\ length value = ins x /\ (forall v, length v = ins x -> length (f v) = ins x)
    | Feedback2 x y value f =>
        wf x /\ wf y /\ ins x = outs x /\ ins y = ins x /\ outs y = ins x /\ length value = ins x /\
        (forall v, length v = ins x -> length (f v) = ins x)
    | _ => True
    end.
  (* audionode.rs:365-2481 (the functions process): Conditions under which block processing and ticking agree exactly. They concern Thru, Join, MultiJoin and MultiBus only:
     Thru::process returns early when there are no inputs, Join multiplies by 1/N in blocks but divides by N in ticks,
     MultiBus ticks start from 0.0 while blocks start from the first output. *)
  Fixpoint blockable (x : node) : Prop :=
    match x with
    | Join n => forall l, length l = n -> join_block n l = join_tick n l
    | MultiJoin _ n => forall l, length l = n -> join_block n l = join_tick n l
    | Binop _ x y | Pipe x y | Stack x y | Branch x y | Bus x y => blockable x /\ blockable y
    | Unop _ x => blockable x
    | Thru x => ins x <> 0 /\ blockable x
    | MultiBus xs => all blockable xs /\ (forall a, add zero a = a)
    | MultiStack xs | Reduce _ xs | MultiBranch xs | Chain xs => all blockable xs
    | _ => True
    end.
End Node.
Arguments node : clear implicits.
