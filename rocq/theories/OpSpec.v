(* What the operators with numbers and the builder methods should do. No proofs here. *)
From Coq Require Import Reals SpecFloat QArith.
From Verif Require Export OpModel NodeSpec NetSpec TuneSpec.
Local Open Scope nat_scope.

(* arithmetic in which a - b is a + (-b), and sums and products do not depend on the order of two operands *)
Definition lawful {A} (nm : num A) : Prop :=
  forall a b, nadd nm a b = nadd nm b a /\ nmul nm a b = nmul nm b a /\ nadd nm a (nneg nm b) = nsub nm a b.
(* the same number, or zeros of any sign *)
Definition same_number (a b : spec_float) : Prop := a = b \/ exists s t, a = S754_zero s /\ b = S754_zero t.

(* expressions that opcodes build around a generator: constant(f) >> x, and x with an operator on its output *)
Inductive frame_ (V : Type) := Bare | Driven (v : list V) | Mapped (f : V -> V) (c : frame_ V).
Arguments Bare {V}. Arguments Driven {V}. Arguments Mapped {V}.
Fixpoint fill {V U} (c : frame_ V) (u : U) : NodeModel.node V U :=
  match c with Bare => Leaf u | Driven v => Pipe (Constant v) (Leaf u) | Mapped f c => Unop f (fill c u) end.
(* noise, white and mls; pink; brown; and these with an operator *)
Inductive tail_ (V U : Type) := NoTail | Filtered (u : U) | Amplified (u : U) (b : V -> V -> V) (v : list V) | Mapped' (f : V -> V) (c : tail_ V U).
Arguments NoTail {V U}. Arguments Filtered {V U}. Arguments Amplified {V U}. Arguments Mapped' {V U}.
Fixpoint attach {V U} (c : tail_ V U) (u : U) : NodeModel.node V U :=
  match c with
  | NoTail => Leaf u
  | Filtered w => Pipe (Leaf u) (Leaf w)
  | Amplified w b v => Pipe (Leaf u) (Binop b (Leaf w) (Constant v))
  | Mapped' f c => Unop f (attach c u)
  end.

Section Sources.
  Context {F V X : Type} (widen : V -> F).
  Notation voice := (voice F V X).
  (* an oscillator that has always had the initial phase p, and has not run *)
  Definition phased (p : V) (u : voice) : option voice :=
    match u with
    | SOsc k s => Some (SOsc k (mkOsc (widen p) (os_sd s) 0 (Some (widen p))))
    | SDsf two s => Some (SDsf two (mkDsf p (ds_rough s) (ds_spacing s) (ds_sd s) 0 (Some p)))
    | SWave s => Some (SWave (mkSynth p 0 (Some p) (sy_hint s) (sy_sr s) (sy_sd s)))
    | _ => None
    end.
  (* a noise generator that has always had the seed s, and has not run *)
  Definition sown (s : N) (u : voice) : option voice :=
    match u with
    | SNoise _ _ _ => Some (SNoise (noise_reset s) (Some s) 0)
    | SMls n _ _ _ => Some (SMls n (mls_start n s) (Some s) 0)
    | _ => None
    end.
  (* the filters of a tail in their initial state *)
  Fixpoint rested (rest : X -> X) (c : tail_ V voice) : tail_ V voice :=
    let r := fun u => match u with SFilter i x => SFilter i (rest x) | u => u end in
    match c with NoTail => NoTail | Filtered u => Filtered (r u) | Amplified u b v => Amplified (r u) b v | Mapped' f c => Mapped' f (rested rest c) end.
  Fixpoint filters (c : tail_ V voice) : Prop :=
    match c with NoTail => True | Filtered u | Amplified u _ _ => exists i x, u = SFilter i x | Mapped' _ c => filters c end.
End Sources.
(* what may happen to an expression before it plays: it is told its place in a graph, or reset *)
Inductive event := Placed (h : N) | Rewound.
Definition happen {A P U} (ar : arith A) (ops : unit_ops A P U) (ahash : N -> N -> N) (x : NodeModel.node A U) (l : list event) : NodeModel.node A U :=
  fold_left (fun x e => match e with Placed h => fst (ping ops ahash false x h) | Rewound => reset ar ops x end) l x.

(* the parameters that a filter with subsampling has in sample k: those of the last input that it read, which are those of samples p - 1, 2 p - 1, 3 p - 1 and so on *)
Definition subsampled {F} (zero : F) (p : nat) (initial : list F) (ins : list (list F)) : list (list F) :=
  map (fun k => nth 0 (nth k ins []) zero :: if Nat.ltb (k + 1) p then initial else tl (nth ((k + 1) / p * p - 1) ins [])) (seq 0 (length ins)).

(* samples for examples and refutations: rational numbers, an oscillator and a filter that does nothing *)
Section Samples.
  Local Open Scope Q_scope.
  Definition q_ops : unit_ops Q (param Q) (voice Q Q unit) :=
    src_ops Qnum_ops Qnum_ops (fun x => x) (fun x => x) (fun x => x) (fun x => x) (fun x => x) (fun x _ => x) 1 (fun _ => 0) [] (fun n => inject_Z (Z.of_N n)) (fun n => inject_Z (Z.of_N n)) (fun x l => (x, l)) (fun x => x).
  Definition q_arith : arith Q := mkArith Q 0 Qplus (fun x n => x / inject_Z (Z.of_nat n)) (fun x n => x * inject_Z (Z.of_nat n)).
  Definition saw0 : voice Q Q unit := SOsc KRamp (osc_new Qnum_ops None (1 # 8)).
  Definition pass0 : NodeModel.node Q (voice Q Q unit) := Leaf (SFilter 1 tt).
End Samples.
