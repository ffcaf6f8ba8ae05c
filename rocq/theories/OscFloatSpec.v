(* Oscillators that compute with binary32 numbers. fin32 x says that x is a binary32 number, and real x is its value: see FloatLink.v. *)
From Coq Require Import Reals SpecFloat.
From Verif Require Export OscSpec EnvFloatSpec.
Local Open Scope R_scope.

(* A frequency, and the duration of a sample, whose product is less than 2^-25. *)
Definition slow (sd f : f32) : Prop := let d := nmul f32_ops f sd in fin32 d /\ 0 <= real d < / 33554432.
(* a chaotic oscillator after new or reset with hash 0, at 44100 Hz *)
Definition rossler_start : chaos f32 := chaos_reset f32_ops (rnd1 f32_ops 0) (mkChaos (n0 f32_ops) (n0 f32_ops) (n0 f32_ops) (nofZ f32_ops 44100) 0).
