(* The resonators of the preludes. No proofs here. *)
From Verif Require Export TuneModel.

Section Reson.
  Context {F S X : Type}.
  (* hacker.rs:522-533 and hacker32.rs:522-533 resonator_hz: "fixed `center` frequency (Hz) and `bandwidth` (Hz)" *)
  Definition hacker_resonator_hz (center bandwidth : F) : opcode F S X := OReson center bandwidth.
  (* prelude.rs:521-532 resonator_hz: "fixed `center` frequency (Hz) and Q" *)
  Definition prelude_resonator_hz (center q : F) : opcode F S X := OReson center q.
End Reson.
