(* Number operations used by the models, as a record so that one model text can be run with exact rationals, reals,
   or IEEE binary32/binary64 values (Coq.Floats.SpecFloat).
   The record lists the operations of the Num/Float/Real traits of /repo/src/lib.rs:86-121 and 400-520 that the models need. *)
From Coq Require Export ZArith.
From Coq Require Import QArith Qminmax Qabs Qround Reals SpecFloat.

Record num (F : Type) := mkNum {
  nofZ : Z -> F;
  nadd : F -> F -> F;
  nsub : F -> F -> F;
  nmul : F -> F -> F;
  ndiv : F -> F -> F;
  nneg : F -> F;
  nmax : F -> F -> F;
  nmin : F -> F -> F;
  nabs : F -> F;
  nltb : F -> F -> bool;
  nleb : F -> F -> bool;
  nfloor : F -> Z
}.
Arguments nofZ {F}. Arguments nadd {F}. Arguments nsub {F}. Arguments nmul {F}. Arguments ndiv {F}.
Arguments nneg {F}. Arguments nmax {F}. Arguments nmin {F}. Arguments nabs {F}. Arguments nltb {F}.
Arguments nleb {F}. Arguments nfloor {F}.

Definition n0 {F} (n : num F) : F := nofZ n 0.
Definition n1 {F} (n : num F) : F := nofZ n 1.

(* exact rationals *)
Definition Qnum_ops : num Q := {|
  nofZ := inject_Z; nadd := Qplus; nsub := Qminus; nmul := Qmult; ndiv := Qdiv; nneg := Qopp;
  nmax := fun a b => if Qle_bool a b then b else a;
  nmin := fun a b => if Qle_bool a b then a else b;
  nabs := Qabs;
  nltb := fun a b => negb (Qle_bool b a);
  nleb := Qle_bool;
  nfloor := Qfloor |}.

(* reals *)
Definition Rnum_ops : num R := {|
  nofZ := IZR; nadd := Rplus; nsub := Rminus; nmul := Rmult; ndiv := Rdiv; nneg := Ropp;
  nmax := Rmax; nmin := Rmin; nabs := Rabs;
  nltb := fun a b => if Rlt_dec a b then true else false;
  nleb := fun a b => if Rle_dec a b then true else false;
  nfloor := Int_part |}.

(* IEEE binary formats. f32::max / f32::min return the other operand when one is NaN. *)
Definition sf_is_nan (x : spec_float) : bool := match x with S754_nan => true | _ => false end.
Definition sf_max (a b : spec_float) : spec_float :=
  if sf_is_nan a then b else if sf_is_nan b then a else if SFltb a b then b else a.
Definition sf_min (a b : spec_float) : spec_float :=
  if sf_is_nan a then b else if sf_is_nan b then a else if SFltb b a then b else a.
(* floor as an integer; 0 for infinities and NaN *)
Definition sf_floor (x : spec_float) : Z :=
  match x with
  | S754_finite s m e =>
      let v := (if s then Z.neg m else Z.pos m) in
      if (0 <=? e)%Z then (v * 2 ^ e)%Z else (v / 2 ^ (- e))%Z
  | _ => 0%Z
  end.
Definition sf_ofZ (prec emax : Z) (z : Z) : spec_float := binary_normalize prec emax z 0 false.
Definition sf_ops (prec emax : Z) : num spec_float := {|
  nofZ := sf_ofZ prec emax;
  nadd := SFadd prec emax; nsub := SFsub prec emax; nmul := SFmul prec emax; ndiv := SFdiv prec emax;
  nneg := SFopp; nmax := sf_max; nmin := sf_min; nabs := SFabs; nltb := SFltb; nleb := SFleb;
  nfloor := sf_floor |}.
Definition f32_ops : num spec_float := sf_ops 24 128.
Definition f64_ops : num spec_float := sf_ops 53 1024.

Example f32_one_tenth : ndiv f32_ops (nofZ f32_ops 11) (nofZ f32_ops 10) = S754_finite false 9227469 (-23).
Proof. vm_compute. reflexivity. Qed.
