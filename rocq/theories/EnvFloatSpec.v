(* Envelopes whose times are binary32 numbers. fin32 x says that x is a binary32 number, and real x is its value: see FloatLink.v. *)
From Coq Require Import Reals SpecFloat.
From Verif Require Export EnvSpec FloatLink.
Local Open Scope R_scope.

Notation f32 := spec_float.
(* the number 512 *)
Notation C512 := (S754_finite false 8388608 (-14)).
(* An envelope at a sample rate between 32768 and 65536 Hz, with an interval of 1/512 s to 1 s, at a time of at most 512 s, in a segment that ends by 515 s.
   In particular, one that has just been reset. *)
Definition clock {V C} (s : env f32 V C) : Prop :=
  fin32 (e_t s) /\ fin32 (e_t0 s) /\ fin32 (e_t1 s) /\ 0 <= real (e_t s) <= 512 /\ 0 <= real (e_t1 s) <= 515 /\ (e_seed s < 2 ^ 64)%N /\
  (fin32 (e_sd s) /\ / 65536 < real (e_sd s) < / 32768) /\ (fin32 (e_int s) /\ / 512 <= real (e_int s) <= 1).
