(* The pitches of the sound pebbles: /repo/src/sound.rs:20-63, the function that is given to update. No proofs here. The graph of 100 oscillators that plays the pitches: VoicesModel.v. *)
From Verif Require Export Base Num MathModel SoundModel.
From Coq Require Import ZArith NArith.
Local Open Scope nat_scope.

Section Pebbles.
  Context {F : Type} (nm : num F) (exp_ ln_ : F -> F).
  Local Infix "+." := (nadd nm) (at level 50, left associativity).
  Local Infix "-." := (nsub nm) (at level 50, left associativity).
  Local Infix "*." := (nmul nm) (at level 40, left associativity).
  Local Infix "/." := (ndiv nm) (at level 40, left associativity).
  Notation zero := (n0 nm).
  Notation one := (n1 nm).
  Notation "# z" := (nofZ nm z) (at level 1).
  (* sound.rs:27 and 36: the value of the i-th Constant before the first update *)
  Definition first_pitch (seed : N) (i : nat) : F := xerp nm exp_ ln_ #50 #5000 (EnvModel.rnd1 nm (N.lxor (N.of_nat i) seed)).
  (* sound.rs:52: round, for x that is not negative: halves go up *)
  Definition round_up (x : F) : F := nofZ nm (nfloor nm (x +. one /. #2)).
  (* sound.rs:48-60, the body of the two loops; c is dt * speed * 0.001, which the compiler computes once for each assignment *)
  Definition pull (c : F) (d : list F) (i j : nat) : list F :=
    let at_ d i := nth i d zero in
    if nltb nm (at_ d i) (at_ d j) then d else
    let ratio := at_ d i /. at_ d j in
    let goal := nmax nm one (round_up ratio) in
    if nltb nm (goal -. ratio) zero then
      let d := upd d i (at_ d i -. at_ d i *. c *. (#1 /. #10 +. ratio -. goal)) in
      upd d j (at_ d j +. at_ d j *. c *. (#1 /. #10 +. ratio -. goal))
    else
      let d := upd d i (at_ d i +. at_ d i *. c *. (#1 /. #10 +. goal -. ratio)) in
      upd d j (at_ d j -. at_ d j *. c *. (#1 /. #10 +. goal -. ratio)).
  (* sound.rs:46-62 *)
  Definition gravity (c : F) (d : list F) : list F :=
    fold_left (fun d i => fold_left (fun d j => pull c d i j) (seq 0 (length d)) d) (seq 0 (length d)) d.
  (* sound.rs:39-62: an update after the first part; the frequencies that are written to the oscillators, and the pitches for the next update *)
  Definition pebbles_update (c : F) (d : list F) : list F * list F := let d := upd d 0 #110 in (d, gravity c d).
  (* sound.rs:33-62: the frequencies that are written in a number of updates, one after another; cs has c for each, as dt may differ; the first update reads the pitches from the graph *)
  Fixpoint pebbles_run (d : list F) (cs : list F) : list (list F) :=
    match cs with
    | [] => []
    | c :: cs => let (w, d) := pebbles_update c d in w :: pebbles_run d cs
    end.
  (* sound.rs:33-38 *)
  Definition pebbles (seed : N) (cs : list F) : list (list F) := pebbles_run (map (first_pitch seed) (seq 0 100)) cs.
End Pebbles.
