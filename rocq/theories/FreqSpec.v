(* What frequency responses mean, over the reals. *)
From Coq Require Import Reals.
From Verif Require Export FilterModel SignalSpec.

(* The sinusoid with complex amplitude h and w radians per sample: the real part of h * exp (i w t). *)
Definition wave (w : R) (h : R * R) (t : nat) : R := (fst h * cos (w * INR t) - snd h * sin (w * INR t))%R.
(* A signal settles to a sinusoid with amplitude h, on top of a constant: the difference tends to zero. *)
Definition settles (w : R) (h : R * R) (f : nat -> R) : Prop := exists k, Un_cv (fun t => f t - k - wave w h t)%R 0%R.
(* radians per sample *)
Definition radians (sr freq : R) : R := (2 * PI * freq / sr)%R.

(* The meaning of labels: a response is what a signal settles to when all inputs are the cosine of the frequency, and a value is a constant. *)
Definition responds (w : R) : meaning unit := fun s f =>
  match s with
  | Value v => forall t, f tt t = v
  | Response r _ => settles w r (f tt)
  | _ => True
  end.

(* Stable linear filters. *)
(* both roots of x^2 + a1 x + a2 are inside the unit circle *)
Definition stable2 (a1 a2 : R) : Prop := (Rabs a2 < 1 /\ Rabs a1 < 1 + a2)%R.
(* a filter whose coefficients are those of its parameters *)
Definition svf_matches (s : svf R) : Prop := vf_c s = sv_coefs Rnum_ops R_elem (vf_mode s) (vf_par s).
(* the parameters are in range: a frequency below half of the sample rate, a positive Q, and a positive gain *)
Definition params_ok (p : svparams R) : Prop := (0 < sp_cutoff p < sp_sr p / 2 /\ 0 < sp_q p /\ 0 < sp_gain p)%R.
Definition stable (sr : R) (f : filt R) : Prop :=
  match f with
  | FTick _ | FPink _ | FFir _ => True
  | FDelay l n => length (l_buf l) = S n /\ l_i l < S n
  | FLow c _ | FDc c _ _ | FHigh c _ _ | FAll c _ _ => (Rabs c < 1)%R
  | FFollow s => (0 < fo_coeff s < 2)%R
  | FBiquad s => stable2 (bi_a1 (bq_c s)) (bi_a2 (bq_c s))
  | FSvf s => sp_sr (vf_par s) = sr /\ svf_matches s /\ params_ok (vf_par s)
  end.
Definition lu_stable (sr : R) (u : lunit R) : Prop :=
  match u with
  | Bank fs => Forall (stable sr) fs
  | Mix n m => Forall (fun row => length row = n) m
  | Pan _ _ => True
  end.

(* Filters as they are made by their constructors and changed by their settings, in any state that they can get into, for sample rate sr.
   The frequencies are positive and below half of the sample rate; for DCBlock below 1/pi of it. *)
Definition not_gain (op : @svf_op R) : Prop := match op with OpGain _ => False | _ => True end.
Inductive built (sr : R) : filt R -> Prop :=
| B_tick x1 : built sr (FTick x1)
| B_delay l n : length (l_buf l) = S n -> l_i l < S n -> built sr (FDelay l n)
| B_lowpole cutoff v : (0 < cutoff)%R -> built sr (FLow (pole_coeff Rnum_ops R_elem sr cutoff) v)
| B_highpole cutoff x1 y1 : (0 < cutoff)%R -> built sr (FHigh (pole_coeff Rnum_ops R_elem sr cutoff) x1 y1)
| B_dcblock cutoff x1 y1 : (0 < cutoff < sr / PI)%R -> built sr (FDc (dc_coeff Rnum_ops R_elem sr cutoff) x1 y1)
| B_allpole delay x1 y1 : (0 < delay)%R -> built sr (FAll (all_eta Rnum_ops delay) x1 y1)
| B_pink s : built sr (FPink s)
| B_follow s : (0 < fo_coeff s < 2)%R -> built sr (FFollow s)
| B_butterpass cutoff x1 x2 y1 y2 : (0 < cutoff < sr / 2)%R -> built sr (FBiquad (mkBiquad (butter_lowpass Rnum_ops R_elem sr cutoff) x1 x2 y1 y2))
| B_resonator center q x1 x2 y1 y2 : (0 < center)%R -> (0 < q)%R -> built sr (FBiquad (mkBiquad (resonator Rnum_ops R_elem sr center q) x1 x2 y1 y2))
| B_lowpass cutoff q x1 x2 y1 y2 : (0 < cutoff < sr / 2)%R -> (0 < q)%R -> built sr (FBiquad (mkBiquad (bi_lowpass Rnum_ops R_elem sr cutoff q) x1 x2 y1 y2))
| B_highpass cutoff q x1 x2 y1 y2 : (0 < cutoff < sr / 2)%R -> (0 < q)%R -> built sr (FBiquad (mkBiquad (bi_highpass Rnum_ops R_elem sr cutoff q) x1 x2 y1 y2))
| B_bell center q gain x1 x2 y1 y2 : (0 < center < sr / 2)%R -> (0 < q)%R -> (0 < gain)%R ->
    built sr (FBiquad (mkBiquad (bi_bell Rnum_ops R_elem sr center q gain) x1 x2 y1 y2))
| B_fir s : built sr (FFir s)
| B_svf m p ops : Forall not_gain ops ->
    let s := fold_left (svf_do Rnum_ops R_elem) ops (svf_new Rnum_ops R_elem m p) in sp_sr (vf_par s) = sr -> params_ok (vf_par s) -> built sr (FSvf s).
Definition lu_built (sr : R) (u : lunit R) : Prop :=
  match u with
  | Bank fs => Forall (built sr) fs
  | Mix n m => Forall (fun row => length row = n) m
  | Pan _ _ => True
  end.
(* a one channel filter, run on a signal: its state before sample t, and its output at sample t *)
Fixpoint filt_at (f : filt R) (x : nat -> R) (t : nat) : filt R := match t with 0 => f | S t => fst (filt_step Rnum_ops (filt_at f x t) (x t)) end.
Definition filt_out (f : filt R) (x : nat -> R) (t : nat) : R := snd (filt_step Rnum_ops (filt_at f x t) (x t)).
(* the same for a morphing filter whose morph input is m *)
Fixpoint morph_at (s : svf R * R) (x : nat -> R) (m : R) (t : nat) : svf R * R :=
  match t with 0 => s | S t => fst (morph_step Rnum_ops (morph_at s x m t) (x t) m) end.
Definition morph_out (s : svf R * R) (x : nat -> R) (m : R) (t : nat) : R := snd (morph_step Rnum_ops (morph_at s x m t) (x t) m).
(* none of these units minds being given more labels than it has inputs *)
Definition lu_copes (u : lunit R) : bool := true.
