(* What envelopes should do, over the reals. *)
From Coq Require Import Reals Lra.
From Verif Require Export EnvModel.
Local Open Scope R_scope.

(* The sampling points of an envelope: multiples of the interval, spread by the pseudorandom numbers that belong to the hash of the node. *)
Fixpoint seed_at (h : N) (k : nat) : N := match k with 0%nat => h | S k => (((seed_at h k * 6364136223846793005) mod 2 ^ 64 + 1) mod 2 ^ 64)%N end.
Definition spread (h : N) (k : nat) : R := 3 / 4 + 1 / 2 * (IZR (Z.of_N (rnd1_num (seed_at h k))) / IZR (2 ^ 53)).
Fixpoint point (interval : R) (h : N) (k : nat) : R := match k with 0%nat => 0 | S k => point interval h k + spread h k * interval end.
(* the line through two points *)
Definition on_line (t0 y0 t1 y1 t : R) : R := y0 + (y1 - y0) * ((t - t0) / (t1 - t0)).
(* t is in segment k, whose ends are sampled at points k and k + 1 *)
Definition in_segment (interval : R) (h : N) (k : nat) (t : R) : Prop := point interval h k <= t < point interval h (S k).

(* the frames that ticks give, one input frame for each *)
Fixpoint ticks {S I O} (tick : S -> I -> S * O) (s : S) (l : list I) : S * list O :=
  match l with [] => (s, []) | i :: l => let (s', o) := tick s i in let (r, os) := ticks tick s' l in (r, o :: os) end.
(* processing blocks of the given inputs, one after another *)
Fixpoint blocks {S I O} (process : S -> list I -> option (S * list O)) (s : S) (l : list (list I)) : option (list O) :=
  match l with
  | [] => Some []
  | i :: l => match process s i with Some (s', o) => match blocks process s' l with Some os => Some (o ++ os) | None => None end | None => None end
  end.
(* an envelope in the reals; control functions that have no state *)
Definition pure {X} (f : R -> X) : unit -> R -> unit * X := fun _ t => (tt, f t).
Notation idR := (fun x : R => x).
(* the interval is at least 4/3 samples, and not so long that the number of samples in it overflows *)
Definition fits {C} (s : env R R C) : Prop := 0 < e_sd s <= 3 / 4 * e_int s /\ e_int s <= IZR (2 ^ 62) * e_sd s /\ (e_hash s < 2 ^ 64)%N.
(* Envelopes at sample n, after reset: of a function of time, and of a function of time and the input *)
Fixpoint env_state {C} (f : C -> R -> C * list R) (s : env R R C) (n : nat) : env R R C :=
  match n with 0%nat => s | S n => fst (env_tick Rnum_ops Rnum_ops idR f (env_state f s n)) end.
Definition env_at {C} (f : C -> R -> C * list R) (s : env R R C) (n : nat) : list R := snd (env_tick Rnum_ops Rnum_ops idR f (env_state f s n)).
Fixpoint envin_state {C} (f : C -> R -> list R -> C * list R) (s : env R R C) (x : nat -> list R) (n : nat) : env R R C :=
  match n with 0%nat => s | S n => fst (envin_tick Rnum_ops Rnum_ops idR f (envin_state f s x n) (x n)) end.
Definition envin_at {C} (f : C -> R -> list R -> C * list R) (s : env R R C) (x : nat -> list R) (n : nat) : list R :=
  snd (envin_tick Rnum_ops Rnum_ops idR f (envin_state f s x n) (x n)).

(* A function of time and the input is called at each point, with the input of the first sample of the segment before it; at the first two points with
   the first input. This is its state before call k, and the result of call k. *)
Definition first_sample (interval sd : R) (h : N) (k : nat) : nat := Z.to_nat (- Int_part (- (point interval h k / sd))).
Section Calls.
  Context {C : Type} (f : C -> R -> list R -> C * list R) (st : C) (x : nat -> list R) (interval sd : R) (h : N).
  Fixpoint closure (k : nat) : C := match k with 0%nat => st | S k => fst (f (closure k) (point interval h k) (x (first_sample interval sd h (pred k)))) end.
  Definition sample (k : nat) : list R := snd (f (closure k) (point interval h k) (x (first_sample interval sd h (pred k)))).
End Calls.

(* the live ADSR envelope, reset, with control signal x: sample n of its output *)
Definition adsr_at (attack decay sustain release : R) (s : env R R (R * R)) (x : nat -> R) (n : nat) : R :=
  nth 0 (envin_at (adsr_fn Rnum_ops attack decay sustain release) (envin_reset Rnum_ops s) (fun n => [x n]) n) 0.
(* durations are not negative, and levels are in 0 ... 1 *)
Definition adsr_ok (attack decay sustain release : R) : Prop := 0 <= attack /\ 0 <= decay /\ 0 <= sustain <= 1 /\ 0 < release.
