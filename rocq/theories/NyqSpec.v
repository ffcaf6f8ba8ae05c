(* Which state variable filters C85 speaks of. No proofs here. *)
From Coq Require Import Reals.
From Coquelicot Require Import Complex.
From Verif Require Export ModSpec.
Local Open Scope R_scope.

(* The cutoff frequency f is not a multiple of half of the sample rate, where the tangent is 0 or infinite. The coefficients do not divide by zero. And the filter does something that the signal goes through: not a bell or
   shelf of gain 1, nor a peak filter of Q = 1/2, nor a shelf of the one Q below 1/2 at which a zero and a pole cancel. *)
Definition generic (m : svmode) (sr f q gain : R) : Prop :=
  (forall N : nat, f <> INR N * (sr / 2)) /\
  match m with
  | MLowpass | MHighpass | MBandpass | MNotch | MAllpass => sin (2 * PI * f / sr) <> - 2 * q
  | MPeak => sin (2 * PI * f / sr) <> - 2 * q /\ q <> 1 / 2
  | MBell => sin (2 * PI * f / sr) <> - 2 * (q * sqrt gain) /\ gain <> 1
  | MLowshelf => let w := PI * f / sr in q * (sqrt gain * (cos w * cos w) + sin w * sin w) <> - (sqrt (sqrt gain) * (sin w * cos w)) /\ q * (1 + sqrt gain) <> sqrt (sqrt gain) /\ gain <> 1
  | MHighshelf => let w := PI * f / sr in q * (cos w * cos w + sqrt gain * (sin w * sin w)) <> - (sqrt (sqrt gain) * (sin w * cos w)) /\ q * (1 + sqrt gain) <> sqrt (sqrt gain) /\ gain <> 1
  end.
(* f is above a multiple of the sample rate by less than half of the sample rate *)
Definition aliased_low (sr f : R) : Prop := exists N : nat, INR N * sr < f < (INR N + 1 / 2) * sr.
(* whatever the inputs between -1 and 1, the outputs stay within some bound *)
Definition stable_filter {G S X : Type} (tl : tools R G S X) (n : tnode R G S X) : Prop :=
  exists C, forall acts os, Forall (fun a => exists x, a = ATick [x] /\ Rabs x <= 1) acts -> t_outs Rnum_ops tl n acts = Some os -> bounded C os.
(* no pole of a biquad is a zero of it *)
Definition coprime (c : bicoefs R) : Prop :=
  forall p : C, (p * p + RtoC (bi_a1 c) * p + RtoC (bi_a2 c) = 0)%C -> (RtoC (bi_b0 c) * p * p + RtoC (bi_b1 c) * p + RtoC (bi_b2 c) <> 0)%C.
