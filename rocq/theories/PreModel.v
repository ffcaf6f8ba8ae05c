(* Opcodes of /repo/src/prelude.rs that build several nodes or a fixed matrix, the names of channel counts, and the methods that play one sample at a time. hacker.rs and hacker32.rs define the same
   functions by calling these, and repeat the names. No proofs here. *)
From Verif Require Export NodeModel FirModel.
Local Open Scope nat_scope.

(* prelude.rs:47-175: pub type U0 ... U128; entry k is what Uk stands for. Line 137 reads `pub type U90 = numeric_array::typenum::U80;`; so do hacker.rs:138 and hacker32.rs:138. *)
Definition size_names : list nat :=
  [0; 1; 2; 3; 4; 5; 6; 7; 8; 9; 10; 11; 12; 13; 14; 15; 16; 17; 18; 19; 20; 21; 22; 23; 24; 25; 26; 27; 28; 29; 30; 31; 32; 33; 34; 35; 36; 37; 38; 39; 40; 41; 42; 43; 44; 45; 46; 47; 48; 49; 50;
   51; 52; 53; 54; 55; 56; 57; 58; 59; 60; 61; 62; 63; 64; 65; 66; 67; 68; 69; 70; 71; 72; 73; 74; 75; 76; 77; 78; 79; 80; 81; 82; 83; 84; 85; 86; 87; 88; 89; 80; 91; 92; 93; 94; 95; 96; 97; 98; 99;
   100; 101; 102; 103; 104; 105; 106; 107; 108; 109; 110; 111; 112; 113; 114; 115; 116; 117; 118; 119; 120; 121; 122; 123; 124; 125; 126; 127; 128].
(* prelude.rs:47-175: the number of channels that a user asks for by writing Uk *)
Definition channels_of (k : nat) : nat := nth k size_names 0.

(* ---- nodes from a generator ---- *)
Section Generated.
  Context {A P U D F : Type} (ar : arith A) (ops : unit_ops A P U).
  Variables (nd : num D) (cast : D -> F).          (* f64, and F::from_f64 *)
  Notation node := (@node A U).
  (* prelude.rs:1367-1380 (Frame::generate) *)
  Definition generate {X} (n : nat) (f : nat -> X) : list X := map f (seq 0 n).                       (* Frame::generate *)
  (* prelude.rs:1390-1411: the argument of f in busf, stackf, branchf, sumf and pipef: for example 1401-1405 *)
  Definition fraction (n i : nat) : F :=
    if Nat.ltb 1 n then cast (ndiv nd (nofZ nd (Z.of_nat i)) (nofZ nd (Z.of_nat (n - 1)))) else cast (ndiv nd (n1 nd) (nofZ nd 2)).
  (* Chain::new, audionode.rs:2359-2367: the index x[0], and the assertion *)
  Definition chain_new (xs : list node) : option node := match xs with [] => None | x :: _ => if Nat.eqb (ins ops x) (outs ops x) then Some (Chain xs) else None end.
  (* the assertions on N::USIZE are in busi, busf, stacki and stackf *)
  Definition busi (n : nat) (f : nat -> node) : option node := if Nat.ltb 0 n then Some (MultiBus (generate n f)) else None.                                  (* prelude.rs:1367-1378 *)
  Definition busf (n : nat) (f : F -> node) : option node := if Nat.ltb 0 n then Some (MultiBus (generate n (fun i => f (fraction n i)))) else None.          (* prelude.rs:1390-1409 *)
  Definition stacki (n : nat) (f : nat -> node) : option node := if Nat.ltb 0 n then Some (MultiStack (generate n f)) else None.                              (* prelude.rs:1430-1443 *)
  Definition stackf (n : nat) (f : F -> node) : option node := if Nat.ltb 0 n then Some (MultiStack (generate n (fun i => f (fraction n i)))) else None.      (* prelude.rs:1449-1470 *)
  Definition branchi (n : nat) (f : nat -> node) : node := MultiBranch (generate n f).                                                                        (* prelude.rs:1489-1500 *)
  Definition branchf (n : nat) (f : F -> node) : node := MultiBranch (generate n (fun i => f (fraction n i))).                                                (* prelude.rs:1506-1525 *)
  Definition sumi (n : nat) (f : nat -> node) : node := Reduce (a_add ar) (generate n f).                                                                     (* prelude.rs:1566-1577 *)
  Definition sumf (n : nat) (f : F -> node) : node := Reduce (a_add ar) (generate n (fun i => f (fraction n i))).                                             (* prelude.rs:1583-1602 *)
  Definition pipei (n : nat) (f : nat -> node) : option node := chain_new (generate n f).                                                                     (* prelude.rs:1618-1626 *)
  Definition pipef (n : nat) (f : F -> node) : option node := chain_new (generate n (fun i => f (fraction n i))).                                             (* prelude.rs:1632-1650 *)
End Generated.

(* ---- rotate and fir3 ---- *)
Section Matrices.
  Context {F : Type} (nm : num F) (cos_ sin_ : F -> F).
  (* prelude.rs:2856-2864, the rows of a Mixer *)
  Definition rotate (angle gain : F) : list (list F) :=
    [[nmul nm (cos_ angle) gain; nmul nm (nneg nm (sin_ angle)) gain]; [nmul nm (sin_ angle) gain; nmul nm (cos_ angle) gain]].
  (* prelude.rs:860-864, the weights of a Fir *)
  Definition fir3 (gain : F) : list F :=
    let alpha := ndiv nm (nadd nm gain (n1 nm)) (nofZ nm 2) in
    let beta := ndiv nm (nsub nm (n1 nm) alpha) (nofZ nm 2) in
    [beta; alpha; beta].
End Matrices.

(* ---- one sample at a time ---- *)
Section Samples.
  Context {A P U : Type} (nm : num A) (ar : arith A) (ops : unit_ops A P U).
  Notation node := (@node A U).
  Notation at_ := (fun i o => nth i o (a_zero ar)).
  Notation two := (nofZ nm 2).
  Notation half := (ndiv nm (n1 nm) (nofZ nm 2)).          (* 0.5 *)
  (* audionode.rs:207-218; a panic is None *)
  Definition get_mono (x : node) : option (node * A) :=
    if Nat.eqb (ins ops x) 0 && (Nat.eqb (outs ops x) 1 || Nat.eqb (outs ops x) 2) then
      let (x', o) := tick ar ops x [] in Some (x', if Nat.eqb (outs ops x) 1 then at_ 0 o else ndiv nm (nadd nm (at_ 0 o) (at_ 1 o)) two)
    else None.
  (* audionode.rs:230-237 *)
  Definition get_stereo (x : node) : option (node * (A * A)) :=
    if Nat.eqb (ins ops x) 0 && (Nat.eqb (outs ops x) 1 || Nat.eqb (outs ops x) 2) then
      let (x', o) := tick ar ops x [] in Some (x', (at_ 0 o, at_ (if Nat.ltb 1 (outs ops x) then 1 else 0) o))
    else None.
  (* audionode.rs:248-252 *)
  Definition filter_mono (x : node) (v : A) : option (node * A) :=
    if Nat.eqb (ins ops x) 1 && Nat.eqb (outs ops x) 1 then let (x', o) := tick ar ops x [v] in Some (x', at_ 0 o) else None.
  (* audionode.rs:263-267 *)
  Definition filter_stereo (x : node) (v w : A) : option (node * (A * A)) :=
    if Nat.eqb (ins ops x) 2 && Nat.eqb (outs ops x) 2 then let (x', o) := tick ar ops x [v; w] in Some (x', (at_ 0 o, at_ 1 o)) else None.
  (* audiounit.rs:108-123; the debug assertions are taken to be checked *)
  Definition unit_get_mono (u : U) : option (U * A) :=
    if Nat.eqb (u_ins ops u) 0 then
      match u_outs ops u with
      | 1 => let (u', o) := u_tick ops u [] in Some (u', at_ 0 o)
      | 2 => let (u', o) := u_tick ops u [] in Some (u', nmul nm (nadd nm (at_ 0 o) (at_ 1 o)) half)
      | _ => None
      end
    else None.
  (* audiounit.rs:136-151 *)
  Definition unit_get_stereo (u : U) : option (U * (A * A)) :=
    if Nat.eqb (u_ins ops u) 0 then
      match u_outs ops u with
      | 1 => let (u', o) := u_tick ops u [] in Some (u', (at_ 0 o, at_ 0 o))
      | 2 => let (u', o) := u_tick ops u [] in Some (u', (at_ 0 o, at_ 1 o))
      | _ => None
      end
    else None.
  (* audiounit.rs:162-167 *)
  Definition unit_filter_mono (u : U) (v : A) : option (U * A) :=
    if Nat.eqb (u_ins ops u) 1 && Nat.eqb (u_outs ops u) 1 then let (u', o) := u_tick ops u [v] in Some (u', at_ 0 o) else None.
  (* audiounit.rs:178-183 *)
  Definition unit_filter_stereo (u : U) (v w : A) : option (U * (A * A)) :=
    if Nat.eqb (u_ins ops u) 2 && Nat.eqb (u_outs ops u) 2 then let (u', o) := u_tick ops u [v; w] in Some (u', (at_ 0 o, at_ 1 o)) else None.
End Samples.
