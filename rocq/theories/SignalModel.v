(* Signal flow analysis: /repo/src/signal.rs, the route functions of /repo/src/audionode.rs and /repo/src/feedback.rs, and latency() and
   response() of /repo/src/audiounit.rs:194-255. No proofs here.
   SignalFrame is a list; None is a panic (an index out of range, an assertion, a division by zero).
   Leaf units bring their own route function. The numbers are those of a num record; complex numbers are pairs. *)
From Verif Require Export Num NodeModel.

Section Signal.
  Context {F : Type}.
  Variable nm : num F.
  Local Infix "+." := (nadd nm) (at level 50, left associativity).
  Local Infix "-." := (nsub nm) (at level 50, left associativity).
  Local Infix "*." := (nmul nm) (at level 40, left associativity).
  Notation cplx := (F * F)%type.

  (* signal.rs:26-111 (num_complex): num_complex: + - negation and multiplication; multiplication with a real number *)
  Definition cadd (a b : cplx) : cplx := (fst a +. fst b, snd a +. snd b).
  (* signal.rs:26-111 (num_complex) *)
  Definition csub (a b : cplx) : cplx := (fst a -. fst b, snd a -. snd b).
  (* signal.rs:26-111 (num_complex) *)
  Definition cneg (a : cplx) : cplx := (nneg nm (fst a), nneg nm (snd a)).
  (* signal.rs:26-111 (num_complex) *)
  Definition cmul (a b : cplx) : cplx := (fst a *. fst b -. snd a *. snd b, fst a *. snd b +. snd a *. fst b).
  (* signal.rs:55-64 (num_complex) *)
  Definition cscale (a : cplx) (f : F) : cplx := (fst a *. f, snd a *. f).
  (* signal.rs:78-111 (num_complex) *)
  Definition c0 : cplx := (n0 nm, n0 nm).
  (* audiounit.rs:194-215 (num_complex) *)
  Definition c1 : cplx := (n1 nm, n0 nm).

  (* signal.rs:8-21 Signal *)
  Inductive signal := Unknown | Value (v : F) | Latency (l : F) | Response (r : cplx) (l : F).

  (* signal.rs:26-32 filter *)
  Definition sig_filter (s : signal) (latency : F) (f : cplx -> cplx) : signal :=
    match s with Latency l => Latency (l +. latency) | Response r l => Response (f r) (l +. latency) | _ => Unknown end.
  (* signal.rs:37-43 distort *)
  Definition distort (s : signal) (latency : F) : signal :=
    match s with Latency l => Latency (l +. latency) | Response _ l => Latency (l +. latency) | _ => Unknown end.
  (* signal.rs:46-52 delay *)
  Definition sig_delay (s : signal) (latency : F) : signal :=
    match s with Latency l => Latency (l +. latency) | Response r l => Response r (l +. latency) | x => x end.
  (* signal.rs:55-61 scale *)
  Definition sig_scale (s : signal) (factor : F) : signal :=
    match s with Value x => Value (x *. factor) | Response r l => Response (cscale r factor) l | x => x end.
  (* signal.rs:66-73 combine_nonlinear *)
  Definition combine_nonlinear (s t : signal) (latency : F) : signal :=
    match distort s (n0 nm), distort t (n0 nm) with
    | Latency lx, Latency ly => Latency (nmin nm lx ly +. latency)
    | Latency lx, _ => Latency (lx +. latency)
    | _, Latency ly => Latency (ly +. latency)
    | _, _ => Unknown
    end.
  (* signal.rs:78-109 combine_linear *)
  Definition combine_linear (s t : signal) (latency : F) (value : F -> F -> F) (response : cplx -> cplx -> cplx) : signal :=
    match s, t with
    | Value vx, Value vy => Value (value vx vy)
    | Latency lx, Latency ly => Latency (nmin nm lx ly +. latency)
    | Response rx lx, Response ry ly => Response (response rx ry) (nmin nm lx ly +. latency)
    | Response rx lx, Value _ => Response (response rx c0) (lx +. latency)
    | Value _, Response ry ly => Response (response c0 ry) (ly +. latency)
    | Response _ lx, Latency ly => Latency (nmin nm lx ly +. latency)
    | Latency lx, Response _ ly => Latency (nmin nm lx ly +. latency)
    | Latency lx, _ => Latency (lx +. latency)
    | Response _ lx, _ => Latency (lx +. latency)
    | _, Latency ly => Latency (ly +. latency)
    | _, Response _ ly => Latency (ly +. latency)
    | _, _ => Unknown
    end.
  (* audionode.rs:736-739: |x, y| x + y for values and responses *)
  Definition combine_sum (s t : signal) : signal := combine_linear s t (n0 nm) (nadd nm) cadd.

  Notation sframe := (list signal).
  Notation "'let?' x := e 'in' f" := (match e with Some x => f | None => None end) (at level 200, x name, right associativity).
  (* signal.rs:146-148: SignalFrame::at for the indices 0 .. n-1, all in range *)
  Definition at_all (s : sframe) (n : nat) : option sframe := if Nat.leb n (length s) then Some (firstn n s) else None.
  (* signal.rs:124-129 copy *)
  Definition copy (s : sframe) (i n : nat) : option sframe := if Nat.leb (i + n) (length s) then Some (firstn n (skipn i s)) else None.
  (* signal.rs:154-156 resize *)
  Definition resize (s : sframe) (n : nat) : sframe := firstn n (s ++ repeat Unknown n).

  (* signal.rs:159-173 Routing *)
  Inductive routing := Arbitrary (latency : F) | RSplit | RJoin | RReverse | Generator (latency : F).
  (* signal.rs:159-173 *)
  Definition ofnat (n : nat) : F := nofZ nm (Z.of_nat n).
  (* signal.rs:176-225 Routing::route *)
  Definition routing_route (r : routing) (input : sframe) (outputs : nat) : option sframe :=
    match input with
    | [] => Some (repeat Unknown outputs)
    | first :: rest =>
        let len := length input in
        match r with
        | Arbitrary latency => Some (repeat (fold_left (fun combo s => combine_nonlinear combo s latency) rest (distort first latency)) outputs)
        | RSplit => Some (map (fun i => nth (i mod len) input Unknown) (seq 0 outputs))
        | RJoin =>
            if Nat.eqb outputs 0 then None                    (* input.len() / output.len() *)
            else if Nat.ltb len outputs then None             (* input.at(i) *)
            else
              Some (map (fun i =>
                let combo := fold_left (fun combo j => combine_sum combo (nth (i + j * outputs) input Unknown)) (seq 1 (len / outputs - 1)) (nth i input Unknown) in
                sig_scale combo (ndiv nm (ofnat outputs) (ofnat len))) (seq 0 outputs))
        | RReverse =>
            if Nat.eqb len outputs then Some (map (fun i => nth (len - 1 - i) input Unknown) (seq 0 outputs)) else None
        | Generator latency => Some (repeat (Latency latency) outputs)
        end
    end.

  (* audionode.rs:709-822: the binary operators and their route functions *)
  Inductive bin_kind := KAdd | KSub | KMul.
  (* audionode.rs:709-822 *)
  Definition bin_op (k : bin_kind) : F -> F -> F := match k with KAdd => nadd nm | KSub => nsub nm | KMul => nmul nm end.
  Definition bin_route (k : bin_kind) (x y : signal) : signal :=
    match k with
    | KAdd => combine_linear x y (n0 nm) (nadd nm) cadd
    | KSub => combine_linear x y (n0 nm) (nsub nm) csub
    | KMul =>                                                   (* audionode.rs:800-819 *)
        match x, y with
        | Value vx, Value vy => Value (vx *. vy)
        | Latency lx, Latency ly => Latency (nmin nm lx ly)
        | Response _ lx, Response _ ly => Latency (nmin nm lx ly)
        | Response _ lx, Latency ly => Latency (nmin nm lx ly)
        | Latency lx, Response _ ly => Latency (nmin nm lx ly)
        | Response rx lx, Value vy => Response (cmul rx (vy, n0 nm)) lx
        | Value vx, Response ry ly => Response (cmul ry (vx, n0 nm)) ly
        | Latency lx, _ => Latency lx
        | Response _ lx, _ => Latency lx
        | _, Latency ly => Latency ly
        | _, Response _ ly => Latency ly
        | _, _ => Unknown
        end
    end.
  (* audionode.rs:974-1162: the unary operators and their route functions *)
  Inductive un_kind := KNeg | KId | KAddScalar (s : F) | KNegAddScalar (s : F) | KMulScalar (s : F).
  (* audionode.rs:974-1162 *)
  Definition un_op (k : un_kind) (v : F) : F :=
    match k with KNeg => nneg nm v | KId => v | KAddScalar s => v +. s | KNegAddScalar s => nneg nm v +. s | KMulScalar s => v *. s end.
  (* audionode.rs:974-1162 *)
  Definition un_route (k : un_kind) (x : signal) : signal :=
    match k, x with
    | KNeg, Value v => Value (nneg nm v)
    | KNeg, Response r l => Response (cneg r) l
    | KAddScalar s, Value v => Value (v +. s)
    | KNegAddScalar s, Value v => Value (nneg nm v +. s)
    | KNegAddScalar _, Response r l => Response (cneg r) l
    | KMulScalar s, Response r l => Response (cscale r s) l
    | KMulScalar s, Value v => Value (v *. s)
    | _, s => s
    end.

  (* Expressions whose operators are known: the nodes of NodeModel.v with the operators by name and the routing of map nodes. *)
  Context {P U : Type}.
  Variable ops : unit_ops F P U.
  Variable u_route : U -> F -> sframe -> option sframe.       (* audionode.rs:166 (route): route(input, frequency) of a leaf unit *)
  Inductive prim :=
  | PMultiPass (n : nat) | PPass | PSink (n : nat) | PConstant (v : list F) | PSplit (n : nat) | PMultiSplit (m n : nat)
  | PJoin (n : nat) | PMultiJoin (m n : nat) | PReverse (n : nat) | PImpulse (n : nat) (v : F) | PMap (i o : nat) (f : list F -> list F) (r : routing).
  (* audionode.rs:350-2490 (the nodes) *)
  Inductive expr :=
  | XLeaf (u : U)
  | XPrim (p : prim)
  | XBinop (k : bin_kind) (x y : expr)
  | XUnop (k : un_kind) (x : expr)
  | XPipe (x y : expr)
  | XStack (x y : expr)
  | XBranch (x y : expr)
  | XBus (x y : expr)
  | XThru (x : expr)
  | XMultiBus (xs : list expr)
  | XMultiStack (xs : list expr)
  | XReduce (k : bin_kind) (xs : list expr)
  | XMultiBranch (xs : list expr)
  | XChain (xs : list expr)
  | XFeedback (x : expr) (value : list F) (f : list F -> list F)
  | XFeedback2 (x y : expr) (value : list F) (f : list F -> list F).

  (* audionode.rs:166: the processing node that an expression is *)
  Definition prim_node (p : prim) : node F U :=
    match p with
    | PMultiPass n => MultiPass n | PPass => Pass | PSink n => Sink n | PConstant v => Constant v | PSplit n => Split n
    | PMultiSplit m n => MultiSplit m n | PJoin n => Join n | PMultiJoin m n => MultiJoin m n | PReverse n => Reverse n
    | PImpulse n v => Impulse n v (n1 nm) | PMap i o f _ => MapNode i o f
    end.
  (* audionode.rs:350-2490 (the nodes) *)
  Fixpoint node_of (x : expr) : node F U :=
    match x with
    | XLeaf u => Leaf u
    | XPrim p => prim_node p
    | XBinop k x y => Binop (bin_op k) (node_of x) (node_of y)
    | XUnop k x => Unop (un_op k) (node_of x)
    | XPipe x y => Pipe (node_of x) (node_of y)
    | XStack x y => Stack (node_of x) (node_of y)
    | XBranch x y => Branch (node_of x) (node_of y)
    | XBus x y => Bus (node_of x) (node_of y)
    | XThru x => Thru (node_of x)
    | XMultiBus xs => MultiBus (map node_of xs)
    | XMultiStack xs => MultiStack (map node_of xs)
    | XReduce k xs => Reduce (bin_op k) (map node_of xs)
    | XMultiBranch xs => MultiBranch (map node_of xs)
    | XChain xs => Chain (map node_of xs)
    | XFeedback x v f => Feedback (node_of x) v f
    | XFeedback2 x y v f => Feedback2 (node_of x) (node_of y) v f
    end.
  (* audionode.rs:25-342 *)
  Definition xins (x : expr) : nat := ins ops (node_of x).
  (* audionode.rs:25-342 *)
  Definition xouts (x : expr) : nat := outs ops (node_of x).

  (* audionode.rs:1730-1742: for i in 0..n { x.set(i, f(x.at(i), y.at(i))) } *)
  Definition merge (f : signal -> signal -> signal) (n : nat) (x y : sframe) : option sframe :=
    let? a := at_all x n in let? b := at_all y n in Some (zipw f a b ++ skipn n x).
  (* audionode.rs:1493-1507, 1617-1628: x.resize(nx + ny); for i in 0..ny { x.set(nx + i, y.at(i)) } *)
  Definition append (x y : sframe) (nx ny : nat) : option sframe :=
    let? b := at_all y ny in Some (resize x nx ++ b).

  Definition prim_route (p : prim) (input : sframe) : option sframe :=
    match p with
    | PMultiPass _ | PPass => Some input                        (* audionode.rs:372-374, 403-405 *)
    | PSink _ => Some []                                        (* audionode.rs:431-433 *)
    | PConstant v => Some (map Value v)                         (* audionode.rs:489-495 *)
    | PSplit n => routing_route RSplit input n                  (* audionode.rs:537-539 *)
    | PMultiSplit m n => routing_route RSplit input (m * n)     (* audionode.rs:583-585 *)
    | PJoin _ => routing_route RJoin input 1                    (* audionode.rs:633-635 *)
    | PMultiJoin m _ => routing_route RJoin input m             (* audionode.rs:692-694 *)
    | PReverse n => routing_route RReverse input n              (* audionode.rs:2483-2485 *)
    | PImpulse n _ => routing_route (Generator (n0 nm)) input n (* audionode.rs:2519-2521 *)
    | PMap _ o _ r => routing_route r input o                   (* audionode.rs:1277-1279 *)
    end.

  Section Children.
    Variable route : expr -> sframe -> option sframe.
    (* audionode.rs:1926-1941, 2204-2218: MultiBus::route 1928-1941 and Reduce::route 2206-2214 for the children after the first; each gets its input *)
    Definition route_fold (f : signal -> signal -> signal) (n : nat) := fix go (xs : list expr) (inputs : list (option sframe)) (acc : sframe) : option sframe :=
      match xs, inputs with
      | x :: r, i :: is => let? input := i in let? o := route x input in let? acc' := merge f n acc o in go r is acc'
      | _, _ => Some acc
      end.
    (* audionode.rs:2062-2078, 2322-2336: MultiStack::route 2068-2076 and MultiBranch::route 2328-2333 for the children after the first *)
    Definition route_cat (n : nat) := fix go (xs : list expr) (inputs : list (option sframe)) : option sframe :=
      match xs, inputs with
      | x :: r, i :: is => let? input := i in let? o := route x input in let? a := at_all o n in let? b := go r is in Some (a ++ b)
      | _, _ => Some []
      end.
    (* audionode.rs:2446-2452: Chain::route 2447-2451 *)
    Definition route_chain := fix go (xs : list expr) (input : sframe) : option sframe :=
      match xs with [] => Some input | x :: r => let? o := route x input in go r o end.
  End Children.

  Fixpoint route (freq : F) (x : expr) (input : sframe) {struct x} : option sframe :=
    match x with
    | XLeaf u => u_route u freq input
    | XPrim p => prim_route p input
    | XBinop k a b =>                                           (* audionode.rs:948-960 *)
        let? ia := copy input 0 (xins a) in let? ib := copy input (xins a) (xins b) in
        let? oa := route freq a ia in let? ob := route freq b ib in
        merge (bin_route k) (xouts a) oa ob
    | XUnop k a => let? o := route freq a input in let? c := at_all o (xouts a) in Some (map (un_route k) c ++ skipn (xouts a) o)   (* audionode.rs:1228-1234 *)
    | XPipe a b => let? o := route freq a input in route freq b o                    (* audionode.rs:1377-1379 *)
    | XStack a b =>                                             (* audionode.rs:1493-1506 *)
        let? ia := copy input 0 (xins a) in let? ib := copy input (xins a) (xins b) in
        let? oa := route freq a ia in let? ob := route freq b ib in append oa ob (xouts a) (xouts b)
    | XBranch a b => let? oa := route freq a input in let? ob := route freq b input in append oa ob (xouts a) (xouts b)   (* audionode.rs:1617-1625 *)
    | XBus a b => let? oa := route freq a input in let? ob := route freq b input in merge combine_sum (xouts a) oa ob   (* audionode.rs:1730-1742 *)
    | XThru a =>                                                (* audionode.rs:1824-1831 *)
        let? o := route freq a input in
        if Nat.leb (xouts a) (xins a) then let? rest := copy input (xouts a) (xins a - xouts a) in Some (resize o (xouts a) ++ rest)
        else Some (resize o (xins a))
    | XMultiBus xs =>                                           (* audionode.rs:1926-1943 *)
        match xs with
        | [] => None
        | a :: r => let? o := route freq a input in route_fold (route freq) combine_sum (xouts a) r (map (fun _ => Some input) r) o
        end
    | XMultiStack xs =>                                         (* audionode.rs:2062-2078: the first child gets the whole input *)
        match xs with
        | [] => Some (repeat Unknown (xouts (XMultiStack xs)))
        | a :: r =>
            let? o := route freq a input in
            let? rest := route_cat (route freq) (xouts a) r (map (fun i => copy input (i * xins a) (xins a)) (seq 1 (length r))) in
            Some (resize o (xouts a) ++ rest)
        end
    | XReduce k xs =>                                           (* audionode.rs:2204-2216: the first child gets the whole input *)
        match xs with
        | [] => None
        | a :: r =>
            let? o := route freq a input in
            route_fold (route freq) (bin_route k) (xouts a) r (map (fun i => copy input (i * xins a) (xins a)) (seq 1 (length r))) o
        end
    | XMultiBranch xs =>                                        (* audionode.rs:2322-2335 *)
        match xs with
        | [] => Some (repeat Unknown (xouts (XMultiBranch xs)))
        | a :: r =>
            let? o := route freq a input in
            let? rest := route_cat (route freq) (xouts a) r (map (fun _ => Some input) r) in
            Some (resize o (xouts a) ++ rest)
        end
    | XChain xs => match xs with [] => None | _ => route_chain (route freq) xs input end      (* audionode.rs:2446-2452 *)
    | XFeedback a _ _ => routing_route (Arbitrary (n0 nm)) input (xouts a)                     (* feedback.rs:148-150 *)
    | XFeedback2 a _ _ _ => routing_route (Arbitrary (n0 nm)) input (xouts a)                  (* feedback.rs:260-262 *)
    end.

  (* audiounit.rs:194-205 response: panics when there is no such output *)
  Definition response (x : expr) (freq : F) (output : nat) : option (option cplx) :=
    if Nat.ltb output (xouts x) then
      let? o := route freq x (repeat (Response c1 (n0 nm)) (xins x)) in
      let? s := nth_error o output in
      Some (match s with Response r _ => Some r | _ => None end)
    else None.
  (* audiounit.rs:234-255 latency: the least latency of the outputs *)
  Definition least (acc : option F) (s : signal) : option F :=
    match acc, s with
    | None, Latency x => Some x
    | Some r, Latency x => Some (nmin nm r x)
    | _, _ => acc
    end.
  (* audiounit.rs:234-255 *)
  Definition latency (x : expr) : option (option F) :=
    if Nat.eqb (xouts x) 0 then Some None
    else
      let? o := route (n1 nm) x (repeat (Latency (n0 nm)) (xins x)) in
      let? c := at_all o (xouts x) in
      Some (fold_left least c None).
End Signal.
Arguments Unknown {F}. Arguments Value {F}. Arguments Latency {F}. Arguments Response {F}.
Arguments Arbitrary {F}. Arguments RSplit {F}. Arguments RJoin {F}. Arguments RReverse {F}. Arguments Generator {F}.
Arguments KNeg {F}. Arguments KId {F}. Arguments KAddScalar {F}. Arguments KNegAddScalar {F}. Arguments KMulScalar {F}.
Arguments PMultiPass {F}. Arguments PPass {F}. Arguments PSink {F}. Arguments PConstant {F}. Arguments PSplit {F}. Arguments PMultiSplit {F}.
Arguments PJoin {F}. Arguments PMultiJoin {F}. Arguments PReverse {F}. Arguments PImpulse {F}. Arguments PMap {F}.
Arguments expr : clear implicits. Arguments signal : clear implicits. Arguments prim : clear implicits. Arguments routing : clear implicits.
Arguments XLeaf {F U}. Arguments XPrim {F U}. Arguments XBinop {F U}. Arguments XUnop {F U}. Arguments XPipe {F U}. Arguments XStack {F U}.
Arguments XBranch {F U}. Arguments XBus {F U}. Arguments XThru {F U}. Arguments XMultiBus {F U}. Arguments XMultiStack {F U}.
Arguments XReduce {F U}. Arguments XMultiBranch {F U}. Arguments XChain {F U}. Arguments XFeedback {F U}. Arguments XFeedback2 {F U}.
