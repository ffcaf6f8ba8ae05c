(* Concrete sample arithmetic for AudioNode expressions: exact reals and IEEE binary32. *)
From Verif Require Export NodeSpec Num.
From Coq Require Import Reals SpecFloat.

(* exact *)
Definition R_arith : arith R :=
  mkArith R 0%R Rplus (fun a n => (a / INR n)%R) (fun a n => (a * (1 / INR n))%R).
(* binary32: Join divides by N as f32 when ticking (src/audionode.rs:610-616), multiplies by the rounded 1/N in blocks (617-627) *)
Definition f32_arith : arith spec_float :=
  mkArith spec_float (nofZ f32_ops 0) (nadd f32_ops)
    (fun a n => ndiv f32_ops a (nofZ f32_ops (Z.of_nat n)))
    (fun a n => nmul f32_ops a (ndiv f32_ops (n1 f32_ops) (nofZ f32_ops (Z.of_nat n)))).

(* every pass-through node !x inside has at least one input *)
Fixpoint thru_fed {A P U} (ops : unit_ops A P U) (x : node A U) : Prop :=
  match x with
  | Binop _ x y | Pipe x y | Stack x y | Branch x y | Bus x y => thru_fed ops x /\ thru_fed ops y
  | Unop _ x => thru_fed ops x
  | Thru x => ins ops x <> 0 /\ thru_fed ops x
  | MultiBus xs | MultiStack xs | Reduce _ xs | MultiBranch xs | Chain xs => all (thru_fed ops) xs
  | _ => True
  end.

(* Sample leaf units over the integers for examples: a one-sample delay, and a pseudorandom-like counter seeded by its hash. *)
Inductive demo := Del (s : Z) | Cnt (k : Z).
Definition demo_tick (u : demo) (i : list Z) : demo * list Z :=
  match u with
  | Del s => (Del (nth 0 i 0%Z), [s])
  | Cnt k => (Cnt (k + 1), [k])
  end.
Definition demo_ops : unit_ops Z Z demo :=
  mkUnit Z Z demo
    (fun u => match u with Del _ => 1 | Cnt _ => 0 end) (fun _ => 1) demo_tick
    (fun u size inb out => default_process 0%Z demo_tick size u inb out)
    (fun u s => match u with Del _ => Del (s_par s) | Cnt _ => Cnt (s_par s) end)
    (fun u => match u with Del _ => Del 0%Z | Cnt _ => Cnt 0%Z end)
    (fun u => match u with Del _ => 100%N | Cnt _ => 101%N end)
    (fun u h => match u with Del s => Del s | Cnt _ => Cnt (Z.of_N h) end).
Definition Z_arith : arith Z := mkArith Z 0%Z Z.add (fun a n => (a / Z.of_nat n)%Z) (fun a n => (a / Z.of_nat n)%Z).
(* the same one-sample delay over any sample type *)
Definition delay_tick {A} (zero : A) (u : A) (i : list A) : A * list A := (nth 0 i zero, [u]).
Definition delay_ops {A} (zero : A) : unit_ops A A A :=
  mkUnit A A A (fun _ => 1) (fun _ => 1) (delay_tick zero) (fun u size inb out => default_process zero (delay_tick zero) size u inb out)
    (fun _ s => s_par s) (fun _ => zero) (fun _ => 100%N) (fun u _ => u).
