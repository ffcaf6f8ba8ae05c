(* How much the state variable filters may amplify. No proofs here. *)
From Coq Require Import Reals.
From Verif Require Export FilterModel.
Local Open Scope R_scope.

(* for a signal within -X ... X, a quality of q and cutoff frequencies up to top: the most that the lowpass and the bandpass outputs of the filter reach *)
Definition resonance (sr top q X : R) : R :=
  let T := tan (PI * top / sr) in X * sqrt ((4 * (q * q) + T * q + T * T * ((1 + 2 * q) * (1 + 2 * q))) / (1 - 1 / (4 * (q * q)))).
(* and the most that each mode reaches *)
Definition peak_of (m : svmode) (sr top q X : R) : R :=
  let N := resonance sr top q X in
  match m with
  | MLowpass | MBandpass => N
  | MHighpass => X + 5 / 4 * N
  | MNotch => X + N / q
  | MPeak => X + 9 / 4 * N
  | MAllpass => X + 2 * N / q
  | _ => 0
  end.
