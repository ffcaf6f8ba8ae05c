(* What modulating a filter within ranges means. No proofs here. *)
From Coq Require Import Reals.
From Verif Require Export TuneSpec.
Local Open Scope R_scope.

(* ranges of sample rates, cutoff frequencies, Q and gain, with the frequencies below half of the sample rates, and a bound of the audio input *)
Record ranges := mkRanges { r_sr0 : R; r_sr1 : R; r_f0 : R; r_f1 : R; r_q0 : R; r_q1 : R; r_g0 : R; r_g1 : R; r_x : R }.
Definition proper (r : ranges) : Prop := r_sr0 r <= r_sr1 r /\ 0 < r_f0 r <= r_f1 r /\ r_f1 r < r_sr0 r / 2 /\ 0 < r_q0 r <= r_q1 r /\ 0 < r_g0 r <= r_g1 r /\ 0 <= r_x r.
Definition in_sr (r : ranges) (v : R) : Prop := r_sr0 r <= v <= r_sr1 r.
Definition in_f (r : ranges) (v : R) : Prop := r_f0 r <= v <= r_f1 r.
Definition in_q (r : ranges) (v : R) : Prop := r_q0 r <= v <= r_q1 r.
Definition in_g (r : ranges) (v : R) : Prop := r_g0 r <= v <= r_g1 r.
(* what is done with a filter stays within the ranges; w: the filter has inputs for its parameters; g: one of them is the gain *)
Definition steered (r : ranges) (w g : bool) (a : act R) : Prop :=
  match a with
  | ATick i => Rabs (nth 0 i 0) <= r_x r /\ (w = true -> in_f r (nth 1 i 0) /\ in_q r (nth 2 i 0) /\ (g = true -> in_g r (nth 3 i 0)))
  | ASet st => match s_par st with PCenter f => in_f r f | PCenterQ f q => in_f r f /\ in_q r q | PCenterQGain f q g => in_f r f /\ in_q r q /\ in_g r g | _ => True end
  | ARate sr => in_sr r sr
  | AReset => True
  end.
(* the same without audio *)
Definition silently (r : ranges) : ranges := mkRanges (r_sr0 r) (r_sr1 r) (r_f0 r) (r_f1 r) (r_q0 r) (r_q1 r) (r_g0 r) (r_g1 r) 0.
(* how many samples it takes *)
Definition ticks_of (l : list (act R)) : nat := length (filter (fun a => match a with ATick _ => true | _ => false end) l).
Definition bounded (C : R) (os : list (list R)) : Prop := Forall (Forall (fun y => Rabs y <= C)) os.
(* the same for the filters whose only parameter is a frequency or a delay: the parameter stays within lo ... hi, the sample rate within s0 ... s1 and the audio input within -b ... b *)
Definition swept (lo hi s0 s1 b : R) (w : bool) (a : act R) : Prop :=
  match a with
  | ATick i => Rabs (nth 0 i 0) <= b /\ (w = true -> lo <= nth 1 i 0 <= hi)
  | ASet st => match s_par st with PCenter f => lo <= f <= hi | PDelay d => lo <= d <= hi | _ => True end
  | ARate sr => s0 <= sr <= s1
  | AReset => True
  end.
(* the coefficient of an allpole filter with delay d is (1 - d) / (1 + d); the largest magnitude of those of delays lo ... hi *)
Definition steepest (lo hi : R) : R := Rmax (Rabs ((1 - lo) / (1 + lo))) (Rabs ((1 - hi) / (1 + hi))).
