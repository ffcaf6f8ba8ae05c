(* What the filters should do to a constant, at their cutoff or center frequency, and at half of the sample rate. *)
From Coq Require Import Reals.
From Verif Require Export FreqSpec.
Local Open Scope R_scope.

(* the complex factor that the filter reports for a frequency (C60: it is the true one), and its absolute value *)
Definition factor (f : filt R) (sr freq : R) : R * R := filt_response Rnum_ops R_elem f sr freq.
Definition level (f : filt R) (sr freq : R) : R := sqrt (fst (factor f sr freq) * fst (factor f sr freq) + snd (factor f sr freq) * snd (factor f sr freq)).
(* state variable filters: the factor for a constant, for half of the sample rate, and the level at the cutoff frequency *)
Definition svf_dc (m : svmode) (gain : R) : R :=
  match m with MLowpass | MNotch | MAllpass | MBell | MHighshelf => 1 | MHighpass | MBandpass => 0 | MPeak => -1 | MLowshelf => gain end.
Definition svf_nyquist (m : svmode) (gain : R) : R :=
  match m with MHighpass | MNotch | MPeak | MAllpass | MBell | MLowshelf => 1 | MLowpass | MBandpass => 0 | MHighshelf => gain end.
Definition svf_level (m : svmode) (q gain : R) : R :=
  match m with MLowpass | MHighpass | MBandpass => q | MNotch => 0 | MPeak => 2 * q | MAllpass => 1 | MBell => gain | MLowshelf | MHighshelf => sqrt gain end.
(* a biquad filter in any state *)
Definition of_coefs (c : bicoefs R) (s : R * R * R * R) : filt R := let '(x1, x2, y1, y2) := s in FBiquad (mkBiquad c x1 x2 y1 y2).
(* what a filter makes of a constant: the factor, for the filters with a simple one *)
Definition dc_gain (f : filt R) : option R :=
  match f with
  | FTick _ | FDelay _ _ | FLow _ _ | FAll _ _ _ | FFollow _ => Some 1
  | FHigh _ _ _ | FDc _ _ _ => Some 0
  | FSvf s => Some (svf_dc (vf_mode s) (sp_gain (vf_par s)))
  | FFir s => Some (fold_right Rplus 0 (f_w s))
  | FPink _ | FBiquad _ => None
  end.
(* the complex number of absolute value 1 and angle a *)
Definition unit_at (a : R) : R * R := (cos a, sin a).
