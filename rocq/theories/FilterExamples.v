(* An expression over filters, with its reported response. *)
From Coq Require Import Reals Lra Lia.
From Verif Require Import FreqSpec.
From Verif Require Export DesignProofs.
Local Open Scope R_scope.

(* (a one-pole lowpass into a second order lowpass, times two) beside a tick, added; then panned *)
Definition demo_low : filt R := FLow (pole_coeff nmR elR 8 1) 0.
Definition demo_svf : filt R := FSvf (fold_left (svf_do nmR elR) [OpRate 8; OpTick 3; OpCenterQ 2 1] (svf_new nmR elR MLowpass (mkSvp 44100 1000 1 1))).
Definition demo_filter : expr R (lunit R) :=
  XPipe (XBus (XUnop (KMulScalar 2) (XPipe (XLeaf (Bank [demo_low])) (XLeaf (Bank [demo_svf])))) (XLeaf (Bank [FTick 0]))) (XLeaf (Pan (1 / 2) (1 / 3))).
Lemma demo_built : lu_built 8 (Bank [demo_low]) /\ lu_built 8 (Bank [demo_svf]) /\ lu_built 8 (Bank [FTick 0]).
Proof.
  split; [|split]; (constructor; [|constructor]).
  - apply B_lowpole. lra.
  - apply (B_svf 8 MLowpass (mkSvp 44100 1000 1 1) [OpRate 8; OpTick 3; OpCenterQ 2 1]); [repeat constructor|reflexivity|]. unfold params_ok; cbn; lra.
  - apply B_tick.
Qed.
