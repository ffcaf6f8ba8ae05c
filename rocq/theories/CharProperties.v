(* C61: what filters do to constants, at their cutoff or center frequency and at the edges. Levels and factors are those of C60, which are what is heard. *)
From Coq Require Import Reals Lra.
From Verif Require Import CharSpec CharProofs.
Local Open Scope R_scope.

(* Whatever its state, a filter takes a constant, or a signal that tends to one, to the factor that it reports at frequency zero ... *)
Theorem C61_constant : forall sr f x l, 0 < sr -> built sr f -> Un_cv x l -> Un_cv (filt_out f x) (l * fst (factor f sr 0)).
Proof. exact constant_limit. Qed.
Print Assumptions C61_constant.
(* ... which is one for lowpole, follow, allpole and delays; zero for highpole and dcblock; the sum of the weights for fir;
   and that of the table svf_dc for state variable filters. *)
Theorem C61_constant_gain : forall sr f x l g, 0 < sr -> built sr f -> dc_gain f = Some g -> Un_cv x l -> Un_cv (filt_out f x) (l * g).
Proof. exact constant_settles. Qed.
Print Assumptions C61_constant_gain.
Example C61_constant_example : exists f, built 8 f /\ dc_gain f = Some 0 /\ Un_cv (fun _ => 5) 5.
Proof.
  exists (FHigh (pole_coeff Rnum_ops R_elem 8 1) 3 4). split; [constructor; lra|]. split; [reflexivity|].
  intros e He. exists 0%nat. intros. unfold R_dist. now rewrite Rminus_eq_0, Rabs_R0.
Qed.

(* State variable filters, at zero frequency, at half of the sample rate and at the cutoff or center. *)
Theorem C61_svf_edges : forall s sr, sp_sr (vf_par s) = sr -> params_ok (vf_par s) ->
  factor (FSvf s) sr 0 = (svf_dc (vf_mode s) (sp_gain (vf_par s)), 0) /\ factor (FSvf s) sr (sr / 2) = (svf_nyquist (vf_mode s) (sp_gain (vf_par s)), 0).
Proof. intros s sr H K. split; [exact (svf_at_dc s sr H K)|exact (svf_at_nyquist s sr H K)]. Qed.
Print Assumptions C61_svf_edges.
Example C61_svf_edges_case : let s := svf_new Rnum_ops R_elem MHighshelf (mkSvp 48000 1000 2 4) in sp_sr (vf_par s) = 48000 /\ params_ok (vf_par s) /\ svf_dc MHighshelf 4 <> svf_nyquist MHighshelf 4.
Proof. cbv zeta. split; [reflexivity|]. split; [cbn; unfold params_ok; cbn; lra|]. cbn. lra. Qed.
Theorem C61_svf_cutoff : forall s sr, sp_sr (vf_par s) = sr -> params_ok (vf_par s) ->
  level (FSvf s) sr (sp_cutoff (vf_par s)) = svf_level (vf_mode s) (sp_q (vf_par s)) (sp_gain (vf_par s)).
Proof. exact svf_at_cutoff. Qed.
Print Assumptions C61_svf_cutoff.
Example C61_svf_example : params_ok (vf_par (svf_new Rnum_ops R_elem MLowshelf (mkSvp 8 1 2 4))) /\ svf_level MLowshelf 2 4 = 2.
Proof. split; [cbn; unfold params_ok; cbn; lra|]. cbn. replace 4 with (2 * 2) by ring. apply sqrt_square. lra. Qed.

(* The biquad designs are the state variable ones in another form: from the start they give the same signal for the same input ... *)
Theorem C61_biquad_same : forall sr cutoff q gain x t, 0 < cutoff < sr / 2 -> 0 < q -> 0 < gain ->
  filt_out (of_coefs (bi_lowpass Rnum_ops R_elem sr cutoff q) (0, 0, 0, 0)) x t = filt_out (FSvf (svf_new Rnum_ops R_elem MLowpass (mkSvp sr cutoff q gain))) x t /\
  filt_out (of_coefs (bi_highpass Rnum_ops R_elem sr cutoff q) (0, 0, 0, 0)) x t = filt_out (FSvf (svf_new Rnum_ops R_elem MHighpass (mkSvp sr cutoff q gain))) x t /\
  filt_out (of_coefs (bi_bell Rnum_ops R_elem sr cutoff q gain) (0, 0, 0, 0)) x t = filt_out (FSvf (svf_new Rnum_ops R_elem MBell (mkSvp sr cutoff q gain))) x t /\
  filt_out (of_coefs (butter_lowpass Rnum_ops R_elem sr cutoff) (0, 0, 0, 0)) x t = filt_out (FSvf (svf_new Rnum_ops R_elem MLowpass (mkSvp sr cutoff (/ sqrt 2) gain))) x t.
Proof. exact biquad_same. Qed.
Print Assumptions C61_biquad_same.
Example C61_biquad_same_case : 0 < 1000 < 48000 / 2 /\ filt_out (of_coefs (butter_lowpass Rnum_ops R_elem 48000 1000) (0, 0, 0, 0)) (fun _ => 1) 3 = filt_out (FSvf (svf_new Rnum_ops R_elem MLowpass (mkSvp 48000 1000 (/ sqrt 2) 1))) (fun _ => 1) 3.
Proof. split; [lra|]. apply (C61_biquad_same 48000 1000 1 1); lra. Qed.
(* ... and have the same characteristics; in particular, the cutoff of butterpass is where the level is 1 / sqrt 2, or -3 dB. *)
Theorem C61_biquad_levels : forall sr cutoff q gain s, 0 < cutoff < sr / 2 -> 0 < q -> 0 < gain ->
  level (of_coefs (bi_lowpass Rnum_ops R_elem sr cutoff q) s) sr cutoff = q /\ level (of_coefs (bi_highpass Rnum_ops R_elem sr cutoff q) s) sr cutoff = q /\
  level (of_coefs (bi_bell Rnum_ops R_elem sr cutoff q gain) s) sr cutoff = gain /\ level (of_coefs (butter_lowpass Rnum_ops R_elem sr cutoff) s) sr cutoff = / sqrt 2.
Proof. exact biquad_levels. Qed.
Print Assumptions C61_biquad_levels.
Theorem C61_biquad_edges : forall sr cutoff q gain s, 0 < cutoff < sr / 2 -> 0 < q -> 0 < gain ->
  map (fun c => (factor (of_coefs c s) sr 0, factor (of_coefs c s) sr (sr / 2)))
    [bi_lowpass Rnum_ops R_elem sr cutoff q; bi_highpass Rnum_ops R_elem sr cutoff q; bi_bell Rnum_ops R_elem sr cutoff q gain;
     butter_lowpass Rnum_ops R_elem sr cutoff; resonator Rnum_ops R_elem sr cutoff q] =
    [((1, 0), (0, 0)); ((0, 0), (1, 0)); ((1, 0), (1, 0)); ((1, 0), (0, 0)); ((0, 0), (0, 0))].
Proof. exact biquad_edges. Qed.
Print Assumptions C61_biquad_edges.
Example C61_biquad_example : 0 < 1 < 8 / 2 /\ filt_out (of_coefs (bi_bell Rnum_ops R_elem 8 1 2 4) (0, 0, 0, 0)) (fun _ => 0) 0 = 0.
Proof. split; [lra|]. cbn. ring. Qed.

(* An allpole filter changes only phase: by 2 atan (delay * tan (w / 2)), where w is the frequency in radians per sample,
   which for slow signals is a delay of that many samples. *)
Theorem C61_allpole : forall d x1 y1 sr freq, 0 < d -> 0 < sr -> 0 <= freq < sr / 2 ->
  factor (FAll (all_eta Rnum_ops d) x1 y1) sr freq = unit_at (- (2 * atan (d * tan (PI * freq / sr)))).
Proof. exact all_phase. Qed.
Print Assumptions C61_allpole.
Theorem C61_allpole_delay : forall d, 0 < d -> forall e, 0 < e -> exists b, 0 < b /\ forall w, 0 < w < b -> Rabs (2 * atan (d * tan (w / 2)) / w - d) < e.
Proof. exact all_slow. Qed.
Print Assumptions C61_allpole_delay.
Example C61_allpole_example : unit_at (- (2 * atan (1 * tan (PI * 1 / 4)))) = (0, -1).
Proof.
  replace (PI * 1 / 4) with (PI / 4) by field. rewrite tan_PI4, Rmult_1_l, atan_1. replace (- (2 * (PI / 4))) with (- (PI / 2)) by field.
  unfold unit_at. rewrite cos_neg, sin_neg, cos_PI2, sin_PI2. reflexivity.
Qed.

(* lowpole favors low frequencies, and highpole high ones *)
Theorem C61_pole_slope : forall sr cutoff x1 y1 f g, 0 < sr -> 0 < cutoff -> 0 <= f <= g -> g <= sr / 2 ->
  level (FLow (pole_coeff Rnum_ops R_elem sr cutoff) x1) sr g <= level (FLow (pole_coeff Rnum_ops R_elem sr cutoff) x1) sr f /\
  level (FHigh (pole_coeff Rnum_ops R_elem sr cutoff) x1 y1) sr f <= level (FHigh (pole_coeff Rnum_ops R_elem sr cutoff) x1 y1) sr g.
Proof. exact pole_slope. Qed.
Print Assumptions C61_pole_slope.
Example C61_pole_slope_example : 0 < 8 /\ 0 < 1 /\ 0 <= 1 <= 2 /\ 2 <= 8 / 2.
Proof. lra. Qed.
