(* Math functions: /repo/src/math.rs:130-760. clamp, lerp and spline are in DelayModel.v, smooth5 and sine_ease in FadeModel.v, the
   integer hashes in HashModel.v. No proofs here. *)
From Coq Require Import ZArith List.
From Verif Require Export DelayModel FadeModel HashModel.
Import ListNotations.

Section Math.
  Context {F : Type}.
  Variable n : num F.
  Local Infix "+." := (nadd n) (at level 50, left associativity).
  Local Infix "-." := (nsub n) (at level 50, left associativity).
  Local Infix "*." := (nmul n) (at level 40, left associativity).
  Local Infix "/." := (ndiv n) (at level 40, left associativity).
  Notation zero := (n0 n).
  Notation one := (n1 n).
  Notation "# z" := (nofZ n z) (at level 1).
  (* math.rs:359-382 *)
  Definition half : F := one /. #2.

  (* math.rs:136-144 *)
  Definition clamp01 (x : F) : F := nmin n (nmax n x zero) one.
  (* math.rs:142-144 *)
  Definition clamp11 (x : F) : F := nmin n (nmax n x (nofZ n (-1))) one.
  (* math.rs:204-206, 218-220, 231-234 *)
  Definition lerp11 (a b t : F) : F := lerp n a b (t *. half +. half).
  (* math.rs:218-220 *)
  Definition delerp (a b x : F) : F := (x -. a) /. (b -. a).
  (* math.rs:232-234 *)
  Definition delerp11 (a b x : F) : F := (x -. a) /. (b -. a) *. #2 -. #1.
  (* lib.rs:196-198 signum is copysign(1, x); a negative zero counts as a zero here *)
  Definition signum (x : F) : F := if nltb n x zero then nofZ n (-1) else one.
  (* math.rs:371-381 *)
  Definition mono_slope (d0 d1 : F) : F := (signum d0 +. signum d1) *. nmin n (d0 +. d1) (nmin n (nabs n d0) (nabs n d1)).
  (* math.rs:371-381 *)
  Definition spline_mono (y0 y1 y2 y3 x : F) : F :=
    let d0 := y1 -. y0 in let d1 := y2 -. y1 in let d2 := y3 -. y2 in
    let d1d := mono_slope d0 d1 in
    let d2d := mono_slope d1 d2 in
    x *. x *. x *. (#2 *. y1 -. #2 *. y2 +. d1d +. d2d) +. x *. x *. (nofZ n (-3) *. y1 +. #3 *. y2 -. #2 *. d1d -. d2d) +. x *. d1d +. y1.
  (* math.rs:385-407 *)
  Definition softsign (x : F) : F := x /. (one +. nabs n x).
  (* math.rs:393-398 *)
  Definition softexp (x : F) : F := let p := nmax n x zero in p *. p +. p +. one /. (one +. p -. x).
  (* math.rs:402-407: epsilon is 1.0e-10 *)
  Definition softmix (x y bias : F) : F :=
    let xw := softexp (x *. bias) in
    let yw := softexp (y *. bias) in
    (x *. xw +. y *. yw) /. (xw +. yw +. one /. #10000000000).
  (* math.rs:411-436 *)
  Definition smooth3 (x : F) : F := (#3 -. #2 *. x) *. x *. x.
  (* math.rs:423-426 *)
  Definition smooth7 (x : F) : F := let x2 := x *. x in x2 *. x2 *. (#35 -. #84 *. x +. (#70 -. #20 *. x) *. x2).
  (* math.rs:430-436 *)
  Definition smooth9 (x : F) : F :=
    let x2 := x *. x in ((((#70 *. x -. #315) *. x +. #540) *. x -. #420) *. x +. #126) *. x2 *. x2 *. x.
  (* math.rs:483-492, 505-510 *)
  Definition sqr_hz (hz t : F) : F := let x := t *. hz in let x := x -. nofZ n (nfloor n x) in if nltb n x half then one else nneg n one.
  (* math.rs:506-510 *)
  Definition tri_hz (hz t : F) : F :=
    let x := t *. hz -. one /. #4 in let x := x -. nofZ n (nfloor n x) in nabs n (x -. half) *. #4 -. one.

  (* functions of the Real trait *)
  Variables (sqrt exp ln : F -> F).
  (* math.rs:440-448 *)
  Definition uparc (x : F) : F := one -. sqrt (nmax n zero (one -. x *. x)).
  (* math.rs:446-448 *)
  Definition downarc (x : F) : F := sqrt (nmax n zero ((#2 -. x) *. x)).
  (* math.rs:237-260 *)
  Definition xerp (a b t : F) : F := exp (lerp n (ln a) (ln b) t).
  (* math.rs:244-246 *)
  Definition xerp11 (a b t : F) : F := exp (lerp n (ln a) (ln b) (t *. half +. half)).
  (* math.rs:251-253 *)
  Definition dexerp (a b x : F) : F := ln (x /. a) /. ln (b /. a).
  (* math.rs:258-260 *)
  Definition dexerp11 (a b x : F) : F := ln (x /. a) /. ln (b /. a) *. #2 -. #1.
  (* math.rs:267-270 *)
  Definition dissonance (f0 f1 : F) : F :=
    let q := nabs n (f0 -. f1) /. (#21 /. #1000 *. nmin n f0 f1 +. #19) in
    #5531753 /. #1000000 *. (exp (nofZ n (-84) /. #100 *. q) -. exp (nofZ n (-138) /. #100 *. q)).
  (* math.rs:76-78, 94-96 (log10 is taken to be ln / ln 10), 293-301 *)
  Definition exp10 (x : F) : F := exp (x *. ln #10).
  (* math.rs:94-96 *)
  Definition log10 (x : F) : F := ln x /. ln #10.
  (* math.rs:293-295 *)
  Definition db_amp (db : F) : F := exp10 (db /. #20).
  (* math.rs:299-301 *)
  Definition amp_db (gain : F) : F := log10 gain *. #20.
  (* math.rs:519-522, 579-581: exp2 is taken to be exp(x ln 2) *)
  Definition exp2 (x : F) : F := exp (x *. ln #2).
  (* math.rs:520-522 *)
  Definition semitone_ratio (x : F) : F := exp2 (x *. (one /. #12)).
  (* math.rs:579-581 *)
  Definition midi_hz (x : F) : F := #440 *. exp2 ((x -. #69) /. #12).
End Math.

Section Noise.
  Context {F : Type}.
  Variable n : num F.
  Local Infix "+." := (nadd n) (at level 50, left associativity).
  Local Infix "-." := (nsub n) (at level 50, left associativity).
  Local Infix "*." := (nmul n) (at level 40, left associativity).
  Local Infix "/." := (ndiv n) (at level 40, left associativity).
  Notation zero := (n0 n).
  Notation one := (n1 n).
  (* funutd::hash::hash64a and hash64g, outside of the repository: functions of words *)
  Variables (hash64a hash64g : N -> N).
  (* math.rs:621-630 AttoHash::hash01, hash11 *)
  Definition hash01 (state : N) : F := nofZ n (Z.of_N (N.shiftr (hash64a state) 11)) /. nofZ n (2 ^ 53).
  (* math.rs:627-630 *)
  Definition hash11 (state : N) : F := nofZ n (Z.of_N (N.shiftr (hash64a state) 10)) /. nofZ n (2 ^ 53) -. one.
  (* math.rs:677-679: i as u64 *)
  Definition word_of (i : Z) : N := Z.to_N (i mod 2 ^ 64).
  (* math.rs:677-679, 698-700 get_point; wrapping_add on i64 is absorbed by word_of *)
  Definition get_point (seed : N) (i : Z) : F := hash11 (atto_hash seed (word_of i)).
  (* math.rs:634-663: an interpolator is an easing function, or a pair of them for rising and falling segments *)
  Inductive easing := Ease (f : F -> F) | Pair (rising falling : easing).
  (* math.rs:634-663 *)
  Fixpoint interpolate (e : easing) (y1 y2 t : F) : F :=
    match e with
    | Ease f => lerp n y1 y2 (f t)
    | Pair r f => if nleb n y1 y2 then interpolate r y1 y2 t else interpolate f y1 y2 t
    end.
  (* math.rs:672-685 ease_noise; floor(x).to_i64() is the floor as an integer, which is right below 2^63 *)
  Definition ease_noise (e : easing) (seed : N) (x : F) : F :=
    let ix := nfloor n x in
    let dx := x -. nofZ n ix in
    interpolate e (get_point seed ix) (get_point seed (ix + 1)) dx.
  (* math.rs:543-546 rnd2 *)
  Definition rnd2 (x : N) : F := nofZ n (Z.of_N (N.shiftr (hash64g x) 11)) *. (one /. nofZ n (2 ^ 53)).
  (* math.rs:691-710 spline_noise *)
  Definition spline_noise (seed : N) (x : F) : F :=
    let x := x +. rnd2 seed in
    let ix := nfloor n x in
    let dx := x -. nofZ n ix in
    spline n (get_point seed (ix - 1)) (get_point seed ix) (get_point seed (ix + 1)) (get_point seed (ix + 2)) dx *. (one /. (nofZ n 5 /. nofZ n 4)).
  (* math.rs:716-732, 738-760 fractal_noise and fractal_ease_noise: the draws of funutd::Rnd are a list, one offset and one seed for each
     octave; noise is spline_noise or ease_noise. None is the assertion. *)
  Fixpoint octaves (noise : N -> F -> F) (draws : list (F * N)) (roughness x weight total freq result : F) : F :=
    match draws with
    | [] => result /. total
    | (r, s) :: draws' =>
        octaves noise draws' roughness x (weight *. roughness) (total +. weight) (freq *. nofZ n 2) (result +. weight *. noise s (x *. freq +. r))
    end.
  (* math.rs:716-732, 738-760 *)
  Definition fractal (noise : N -> F -> F) (draws : list (F * N)) (roughness x : F) : option F :=
    match draws with [] => None | _ => Some (octaves noise draws roughness x one zero one zero) end.
End Noise.
Arguments easing : clear implicits.
