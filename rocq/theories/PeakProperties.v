(* C84: how much filters amplify while their cutoff frequency moves. *)
From Coq Require Import Reals Lra.
From Verif Require Import TuneProofs TuneReal ModSpec PeakSpec PeakProofs.
Import ListNotations.
Local Open Scope R_scope.

(* C84: lowpass, highpass, bandpass, notch, peak and allpass with a steady Q above 1/2 amplify a signal within -A ... A by no more than a factor that depends on Q and on the highest cutoff frequency, however the cutoff
   frequency moves from sample to sample between 0 Hz and half of the sample rate. With low cutoff frequencies the factor of the lowpass is twice the gain q / sqrt(1 - 1/(4 q^2)) of its resonance. *)
Theorem C84_peak : forall (G S X : Type) (tl : tools R G S X), tl_elem tl = R_elem -> forall m sr top q A f0 q0 n xs os, 0 < sr -> 0 <= top -> 2 * top < sr -> 1 / 2 < q -> In m [MLowpass; MHighpass; MBandpass; MNotch; MPeak; MAllpass] ->
  build Rnum_ops tl true (OSvf m f0 q0 1) = Some n -> Forall (fun xf => Rabs (fst xf) <= A /\ 0 <= snd xf <= top) xs ->
  t_outs Rnum_ops tl (t_rate Rnum_ops tl n sr) (map (fun xf => ATick [fst xf; snd xf; q]) xs) = Some os -> bounded (peak_of m sr top q A) os.
Proof. exact peak_bounded. Qed.
Print Assumptions C84_peak.
(* at a quarter of the sample rate the tangent is 1, and with Q of 1 the lowpass gains less than 4.33 *)
Example C84_peak_case : peak_of MLowpass 48000 12000 1 1 < 4.33 /\ exists n os, build Rnum_ops real_tools true (OSvf MLowpass 440 1 1) = Some n /\
  Forall (fun xf => Rabs (fst xf) <= 1 /\ 0 <= snd xf <= 12000) [(1, 12000); (-1, 0); (1, 440)] /\
  t_outs Rnum_ops real_tools (t_rate Rnum_ops real_tools n 48000) (map (fun xf => ATick [fst xf; snd xf; 1]) [(1, 12000); (-1, 0); (1, 440)]) = Some os.
Proof.
  split.
  - unfold peak_of, resonance. cbv zeta. replace (PI * 12000 / 48000) with (PI / 4) by lra. rewrite tan_PI4. match goal with |- 1 * sqrt ?z < _ => replace z with (56 / 3) by lra end. rewrite Rmult_1_l. rewrite <- (sqrt_square 4.33) by lra. apply sqrt_lt_1_alt. lra.
  - eexists. match goal with |- context [t_outs _ _ _ ?h] => destruct (runs_rate Rnum_ops real_tools true (OSvf MLowpass 440 1 1) _ 48000 h ltac:(discriminate) eq_refl) as (m & os & E) end.
    exists os. split; [reflexivity|]. split; [repeat (apply Forall_cons; [cbn [fst snd]; split; [apply Rabs_le; lra|lra]|]); apply Forall_nil|unfold t_outs; rewrite E; reflexivity].
Qed.
