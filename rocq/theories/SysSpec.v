(* What is claimed of dynamical systems. *)
From Coq Require Import Reals SpecFloat.
From Verif Require Export SysModel FloatLink.
Local Open Scope R_scope.

Section Spec.
  Context {A P S X : Type}.
  Variable xo : unit_ops A P X.
  Variable f : S -> R -> R -> X -> S * X.
  (* what may be asked of a node that plays at a fixed sample rate *)
  Inductive sys_op := YTick (i : list A) | YBlock (size : nat) (i o : list (list A)) | YSet (v : setting P) | YReset.
  Inductive sys_out := YFrame (o : list A) | YBlocks (o : list (list A)) | YNone.
  Fixpoint sys_run (x_rate : X -> R -> X) (s : system R S X) (l : list sys_op) : list sys_out * system R S X :=
    match l with
    | [] => ([], s)
    | YTick i :: l => let (s, o) := sys_tick Rnum_ops xo f s i in let (os, s) := sys_run x_rate s l in (YFrame o :: os, s)
    | YBlock size i o :: l => let (s, o) := sys_process Rnum_ops xo f s size i o in let (os, s) := sys_run x_rate s l in (YBlocks o :: os, s)
    | YSet v :: l => let (os, s) := sys_run x_rate (sys_set xo s v) l in (YNone :: os, s)
    | YReset :: l => let (os, s) := sys_run x_rate (sys_reset Rnum_ops xo s) l in (YNone :: os, s)
    end.
  (* the same, told in samples: n of them were played since the start or the last reset, and the last update was before sample u *)
  Variables (sr dt : R).
  Definition due (n u size : nat) : bool := if Rle_dec dt (INR (n - u) / sr) then true else Nat.eqb n 0 && Nat.ltb 0 size.
  Fixpoint reference (n u : nat) (st : S) (x : X) (l : list sys_op) : list sys_out * (S * X) :=
    let updated size := if due n u size then let (st, x) := f st (INR n / sr) (INR (n - u) / sr) x in (n, st, x) else (u, st, x) in
    match l with
    | [] => ([], (st, x))
    | YTick i :: l => let '(u, st, x) := updated 1%nat in let (x, o) := u_tick xo x i in let (os, r) := reference (n + 1) u st x l in (YFrame o :: os, r)
    | YBlock size i o :: l => let '(u, st, x) := updated size in let (x, o) := u_process xo x size i o in let (os, r) := reference (n + size) u st x l in (YBlocks o :: os, r)
    | YSet v :: l => let (os, r) := reference n u st (u_set xo x v) l in (YNone :: os, r)
    | YReset :: l => let (os, r) := reference 0 0 st (u_reset xo x) l in (YNone :: os, r)
    end.
  (* the node played sample by sample with an update before every m-th sample *)
  Fixpoint every (m n : nat) (st : S) (x : X) (l : list (list A)) : list (list A) :=
    match l with
    | [] => []
    | i :: l =>
        let (st, x) := if Nat.eqb (n mod m) 0 then f st (INR n / sr) (if Nat.eqb n 0 then 0 else INR m / sr) x else (st, x) in
        let (x, o) := u_tick xo x i in o :: every m (n + 1) st x l
    end.
End Spec.
Arguments YTick {A P}. Arguments YBlock {A P}. Arguments YSet {A P}. Arguments YReset {A P}.
Arguments YFrame {A}. Arguments YBlocks {A}. Arguments YNone {A}.
(* when the updates are: before which samples, if blocks of these sizes are played *)
Fixpoint updates (sr dt : R) (n u : nat) (sizes : list nat) : list nat :=
  match sizes with
  | [] => []
  | k :: sizes => if due sr dt n u k then n :: updates sr dt (n + k) n sizes else updates sr dt (n + k) u sizes
  end.
(* each sample after the one before at a distance that is within the bounds *)
Fixpoint spaced (ok : nat -> Prop) (u : nat) (l : list nat) : Prop := match l with [] => True | n :: l => (u < n)%nat /\ ok (n - u)%nat /\ spaced ok n l end.
(* a node that plays the number it was last given *)
Definition held_ops : unit_ops R unit R := mkUnit R unit R (fun _ => 0%nat) (fun _ => 1%nat) (fun x _ => (x, [x])) (fun x size i o => default_process 0 (fun x _ => (x, [x])) size x i o) (fun x _ => x) (fun x => x) (fun _ => 0%N) (fun x _ => x).
(* m samples are the time dt, rounded up; updates are at least one sample apart *)
Definition period (sr dt : R) (m : nat) : Prop := (1 <= m)%nat /\ dt <= INR m / sr /\ forall k, (1 <= k < m)%nat -> INR k / sr < dt.
(* the first k samples of an output block *)
Definition heard {A} (zero : A) (k : nat) (o : @sys_out A) : list (list A) := match o with YBlocks o => frames zero o k | _ => [] end.
(* binary32: a time of at most 512 seconds, and a sample rate between 32768 and 65536 Hz (see FloatLink.v for fin32 and real) *)
Definition stepping {S X} (s : system spec_float S X) : Prop :=
  fin32 (y_time s) /\ 0 <= real (y_time s) <= 512 /\ let d := ndiv f32_ops (nofZ f32_ops 1) (y_sr s) in fin32 d /\ / 65536 < real d < / 32768.
