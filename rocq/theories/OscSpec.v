(* What oscillators should do, over the reals. *)
From Coq Require Import Reals.
From Verif Require Export OscModel ResampleSpec OverSpec.
Local Open Scope R_scope.

(* the fractional part *)
Definition frac (x : R) : R := x - IZR (Int_part x).
(* how many periods have passed after the frequencies l *)
Fixpoint turns (sd : R) (l : list R) : R := match l with [] => 0 | f :: l => f * sd + turns sd l end.
Definition in_phase {s} (o : s) (phase : s -> R) : Prop := 0 <= phase o < 1.
(* the ideal waveforms with jumps, at phase p *)
Definition naive_saw (p : R) : R := 2 * p - 1.
Definition naive_pulse (w p : R) : R := if Rlt_dec p w then 1 else -1.
(* how far phase p is from a jump at phase j, on the circle of length 1 *)
Definition far_from (d p j : R) : Prop := d <= frac (p - j) <= 1 - d.
(* the sum, of i from 0 to n, of r ^ i * sin (f + i * d) *)
Definition partials (r f d : R) (n : nat) : R := total (S n) (fun i => r ^ i * sin (f + INR i * d)).
Notation oscR := (osc R).
Notation sine_tickR := (sine_tick Rnum_ops Rnum_ops idR idR sin (2 * PI)).
Notation sine_processR := (sine_process Rnum_ops Rnum_ops idR idR sin (2 * PI)).
Notation ramp_tickR := (ramp_tick Rnum_ops idR idR).
Notation saw_tickR := (saw_tick Rnum_ops idR idR).
Notation square_tickR := (square_tick Rnum_ops idR idR).
Notation pulse_tickR := (fun s i => pulse_tick Rnum_ops idR idR s (fst i) (snd i)).
Notation dsfR := (dsf Rnum_ops sin cos Rpower).
Notation floorR := (fun x => IZR (Int_part x)).
Notation dsf_tickR := (dsf_tick Rnum_ops sin cos Rpower (2 * PI) floorR).
(* a list of blocks, one after another *)
Fixpoint osc_blocks {S V I} (process : S -> list I -> S * list V) (s : S) (bs : list (list I)) : S * list V :=
  match bs with [] => (s, []) | b :: bs => let (s, o) := process s b in let (s, o') := osc_blocks process s bs in (s, o ++ o') end.
(* what roughness is limited to *)
Definition rough_ok (r : R) : Prop := 1 / 10000 <= r <= 9999 / 10000.
(* the state after a run *)
Definition dsf_after (s : dsfs R) (l : list (R * option R)) : dsfs R := fold_left (fun s i => fst (dsf_tickR s (fst i) (snd i))) l s.
Notation pluck_runR draw := (pluck_run Rnum_ops Rnum_ops idR idR draw).
Notation pluck_newR := (pluck_new Rnum_ops Rnum_ops idR idR Rpower).
Notation pluck_resetR := (pluck_reset Rnum_ops).
(* A plucked string with a line of samples, a gain, weights of the damping filter and a coefficient of the tuning filter: inputs l, outputs o.
   The line holds exc at first. late f k t is f, k samples before t, and 0 before the start. *)
Definition late (f : nat -> R) (k t : nat) : R := if (k <=? t)%nat then f (t - k)%nat else 0.
Definition returned (exc o : list R) (t : nat) : R := if (t <? length exc)%nat then nth t exc 0 else nth (t - length exc) o 0.
Definition excited (gain : R) (exc l o : list R) (t : nat) : R := returned exc o t * gain + nth t l 0.
Definition damped (w : R * R * R) (v : nat -> R) (t : nat) : R := let '(a, b, c) := w in c * v t + b * late v 1 t + a * late v 2 t.
Definition is_string (gain : R) (w : R * R * R) (eta : R) (exc l o : list R) : Prop := length o = length l /\
  forall t, (t < length l)%nat -> let d := damped w (excited gain exc l o) in nth t o 0 = eta * (d t - late (fun i => nth i o 0) 1 t) + late d 1 t.
