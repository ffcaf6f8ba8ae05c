(* What is claimed of reverb2_stereo and of taps that move. *)
From Coq Require Import Reals.
From Verif Require Export RevSpec HallModel.
Local Open Scope R_scope.

(* from each number to the next the list rises by e or less *)
Fixpoint rises_by (e : R) (l : list R) : Prop := match l with a :: (b :: _) as l' => b <= a + e /\ rises_by e l' | _ => True end.
(* the output of tap_linear(lo, hi) at the sample rate sr for the samples xs with the delays dls, in seconds *)
Definition tapped (sr lo hi : R) (xs dls : list R) : list (list R) :=
  snd (ticks (linear_tick Rnum_ops lo hi sr) (line_new 0 (linear_length Rnum_ops sr hi)) (zipw (fun x d => [x; d]) xs dls)).
(* the delays that are read, in samples *)
Definition read_at_delay (sr lo hi : R) (dls : list R) : list R := map (fun d => clamp Rnum_ops lo hi d * sr) dls.

(* reverb2_stereo over real numbers; the scale is that of FrameHadamard for 32 channels, as f32 *)
Definition hallR {P X} (xo : unit_ops R P X) : R -> R -> R -> R -> (nat -> R -> R -> nat -> R) -> X -> option (node R (hleaf R X)) :=
  reverb2_stereo Rnum_ops Rpower (Rpower 10) cos sin (PI / 4) (f32_scale 5).
Definition hops {P X} (xo : unit_ops R P X) : unit_ops R P (hleaf R X) := h_ops Rnum_ops xo.
(* the attenuation of one pass *)
Definition hall_gainR : R -> R -> R := hall_gain Rnum_ops Rpower (Rpower 10).
