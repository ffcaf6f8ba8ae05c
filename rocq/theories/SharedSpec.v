(* What shared variables, timers and atomic wavetables should do, over the reals. Histories are given newest act first. *)
From Coq Require Import Reals SpecFloat.
From Verif Require Export SharedModel TableSpec FloatLink.
Local Open Scope R_scope.

Section Latest.
  Context {V : Type} (zero : V) (narrow : R -> V).
  Notation act := (act V R).
  (* the number that timer k shares; None if there is no such timer *)
  Fixpoint cell_of (k : nat) (h : list act) : option nat :=
    match h with
    | [] => None
    | ATimer j c :: h => if Nat.eqb j k then Some c else cell_of k h
    | AClone i j :: h => if Nat.eqb j k then match cell_of i h with Some c => Some c | None => cell_of k h end else cell_of k h
    | _ :: h => cell_of k h
    end.
  (* its sample rate: the last one set, 44100 Hz to begin with *)
  Fixpoint rate_of (k : nat) (h : list act) : R :=
    match h with
    | [] => 44100
    | ATimer j _ :: h => if Nat.eqb j k then 44100 else rate_of k h
    | AClone i j :: h => if Nat.eqb j k then match cell_of i h with Some _ => rate_of i h | None => rate_of k h end else rate_of k h
    | ARate j sr :: h => if Nat.eqb j k then sr else rate_of k h
    | _ :: h => rate_of k h
    end.
  (* the time in seconds since it was made or reset: a sample more with every tick, size samples more with every block *)
  Fixpoint elapsed (k : nat) (h : list act) : R :=
    match h with
    | [] => 0
    | ATimer j _ :: h => if Nat.eqb j k then 0 else elapsed k h
    | AClone i j :: h => if Nat.eqb j k then match cell_of i h with Some _ => elapsed i h | None => elapsed k h end else elapsed k h
    | ATimerTick j :: h => if Nat.eqb j k then elapsed k h + 1 / rate_of k h else elapsed k h
    | ATimerBlock j size :: h => if Nat.eqb j k then elapsed k h + INR size / rate_of k h else elapsed k h
    | AReset j :: h => if Nat.eqb j k then 0 else elapsed k h
    | _ :: h => elapsed k h
    end.
  Definition shares (k c : nat) (h : list act) : bool := match cell_of k h with Some d => Nat.eqb d c | None => false end.
  (* what was last stored in a number *)
  Fixpoint latest (c : nat) (h : list act) : V :=
    match h with
    | [] => zero
    | AStore d v :: r => if Nat.eqb d c then v else latest c r
    | ATimer _ d :: r => if Nat.eqb d c then zero else latest c r
    | AReset k :: r => if shares k c r then zero else latest c r
    | ATimerTick k :: r | ATimerBlock k _ :: r => if shares k c r then narrow (elapsed k h) else latest c r
    | _ :: r => latest c r
    end.
  (* The result of an act after a history; buffers are those of the unit, with 64 samples, and blocks have no more than that. *)
  Definition constant_block (frame_ : list V) (size : nat) (out r : list (list V)) : Prop :=
    (size <= MAXB)%nat -> shaped (length frame_) out -> shaped (length frame_) r /\ frames zero r size = repeat frame_ size.
  Definition answer (h : list act) (a : act) (r : result V) : Prop :=
    match a with
    | ALoad c => r = RValue (latest c h)
    | ATick c => r = RFrame [latest c h]
    | ABlock c size out => exists o, r = RBuf o /\ constant_block [latest c h] size out o
    | AFnTick c f => r = RFrame (f (latest c h))
    | AFnBlock c f size out => exists o, r = RBuf o /\ constant_block (f (latest c h)) size out o
    | _ => r = RNothing
    end.
  (* the timer is neither made anew nor reset nor given another rate; so many samples go through it *)
  Definition plain (k : nat) (a : act) : bool :=
    match a with ATimer j _ | AClone _ j | AReset j | ARate j _ => negb (Nat.eqb j k) | _ => true end.
  Fixpoint samples_of (k : nat) (l : list act) : nat :=
    match l with
    | [] => 0
    | ATimerTick j :: l => (if Nat.eqb j k then 1 else 0) + samples_of k l
    | ATimerBlock j size :: l => (if Nat.eqb j k then size else 0) + samples_of k l
    | _ :: l => samples_of k l
    end.
End Latest.
Notation act_runR zero narrow := (act_run Rnum_ops zero narrow 44100).
Notation act_stepR zero narrow := (act_step Rnum_ops zero narrow 44100).

(* ---- atomic tables ---- *)
Definition table_size (n : Z) : Prop := exists k, (k <= 61)%nat /\ n = Z.of_nat (2 ^ k).
Definition same_size {A} (n : Z) (ts : list A * list A * list A * list A) : Prop :=
  let '(t0, t1, t2, t3) := ts in Z.of_nat (length t0) = n /\ Z.of_nat (length t1) = n /\ Z.of_nat (length t2) = n /\ Z.of_nat (length t3) = n.
Definition all_in (lo hi : R) (t : list R) : Prop := Forall (fun x => lo <= x <= hi) t.
(* the value of a table at a phase *)
Definition reading (n : Z) (m : interpolation) (ts : list R * list R * list R * list R) (phase : R) : R :=
  let '(t0, t1, t2, t3) := ts in
  let p := IZR n * phase in let i := Int_part p in let w := p - IZR i in
  match m with
  | Nearest => cyclic t0 i
  | Linear => (1 - w) * cyclic t0 i + w * cyclic t1 (i + 1)
  | Cubic => spline Rnum_ops (cyclic t0 (i - 1)) (cyclic t1 i) (cyclic t2 (i + 1)) (cyclic t3 (i + 2)) w
  end.
Notation synth_actR := (synth_act R).
Fixpoint synth_rate (h : list synth_actR) : R := match h with [] => 44100 | SRate sr :: _ => sr | _ :: h => synth_rate h end.
Fixpoint synth_mode (h : list synth_actR) : interpolation := match h with [] => Nearest | SMode m :: _ => m | _ :: h => synth_mode h end.
Fixpoint start_phase (h : list synth_actR) : R := match h with [] => 0 | SHash p :: _ => p | _ :: h => start_phase h end.
(* the number of turns since the phase was set *)
Fixpoint turned (h : list synth_actR) : R :=
  match h with
  | [] => 0
  | STick f _ :: h => turned h + f / synth_rate h
  | SReset :: h => start_phase h
  | SHash p :: _ => p
  | _ :: h => turned h
  end.
Definition real_floor (x : R) : R := IZR (Int_part x).
Notation asynth_runR := (asynth_run Rnum_ops real_floor).

(* ---- in binary32 ---- *)
(* f32::floor *)
Definition sf_floorf (x : spec_float) : spec_float := match x with S754_finite _ _ _ => nofZ f32_ops (sf_floor x) | _ => x end.
Definition unit32 (x : spec_float) : Prop := fin32 x /\ 0 <= real x <= 1.
(* inputs are finite, sample rates are at least 2 Hz, phases are in 0...1 *)
Definition sane (n : Z) (a : synth_act spec_float) : Prop :=
  match a with
  | STick f ts => fin32 f /\ same_size n ts
  | SRate sr => fin32 sr /\ 2 <= real sr
  | SHash p => unit32 p
  | _ => True
  end.
Definition is_val {A} (o : outcome A) : Prop := exists a, o = Val a.
