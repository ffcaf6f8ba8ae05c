(* What resonators are to do. *)
From Coq Require Import Reals Lra.
From Verif Require Export TuneModel CharSpec.
Local Open Scope R_scope.

(* an impulse and N zeros *)
Definition pulse_in (N : nat) : list (act R) := ATick [1] :: repeat (ATick [0]) N.
(* the sum of the squares of all output samples *)
Definition energy (os : list (list R)) : R := fold_right (fun o e => fold_right (fun y s => y * y + s) e o) 0 os.
(* k samples after a kick, an oscillation at f Hz that loses 1 - 1/e of its amplitude in q / (pi f) seconds; it has the value 1 at the kick *)
Definition ringing (sr f q : R) (k : nat) : R := exp (- (PI * f / q) * (INR k / sr)) * sin (2 * PI * f * (INR (S k) / sr)) / sin (2 * PI * f / sr).
(* ... and after a kick and an opposite kick two samples later *)
Definition two_kicks (sr f q : R) (k : nat) : R := match k with S (S j) => ringing sr f q k - ringing sr f q j | _ => ringing sr f q k end.
(* by what a resonator, set to a sample rate, multiplies the power of a tone of f Hz: the square of its level (CharSpec.v; that this is what happens to a sine wave is C26 and C61) *)
Definition tone_power {G S X} (tl : tools R G S X) (op : opcode R S X) (sr f : R) : option R :=
  match build Rnum_ops tl false op with
  | Some n => match t_rate Rnum_ops tl n sr with TReson _ b _ _ _ => Some (level (FBiquad b) sr f * level (FBiquad b) sr f) | _ => None end
  | None => None
  end.
