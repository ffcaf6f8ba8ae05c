(* C60: reported frequency responses. *)
From Coq Require Import Reals Lra Lia.
From Verif Require Import FreqSpec FilterExamples.
Local Open Scope R_scope.

(* The reported response is the true one. If an expression over filters, delays, mixers and panners reports response r on output i at a
   frequency, then the output settles to r times the input, in amplitude and in phase, when the inputs are cosines of that frequency. *)
Theorem C60_response_heard : forall sr freq (x : expr R (lunit R)), 0 < sr ->
  wf (lu_ops Rnum_ops) (node_of Rnum_ops x) -> safe lu_copes true x = true -> over (lu_built sr) Rnum_ops x ->
  forall i r, response Rnum_ops (lu_ops Rnum_ops) (lu_route Rnum_ops R_elem sr) x freq i = Some (Some r) ->
  settles (radians sr freq) r
    (fun t => nth i (output R_arith (lu_ops Rnum_ops) (node_of Rnum_ops x) (fun t => repeat (cos (radians sr freq * INR t)) (xins Rnum_ops (lu_ops Rnum_ops) x)) t) 0).
Proof. exact built_response. Qed.
Print Assumptions C60_response_heard.
Example C60_response_heard_example : wf (lu_ops Rnum_ops) (node_of Rnum_ops demo_filter) /\ safe lu_copes true demo_filter = true /\ over (lu_built 8) Rnum_ops demo_filter /\
  exists r, response Rnum_ops (lu_ops Rnum_ops) (lu_route Rnum_ops R_elem 8) demo_filter 1 1 = Some (Some r).
Proof.
  split; [cbn; auto 10|]. split; [reflexivity|]. split.
  - destruct demo_built as (H1 & H2 & H3). cbn [over demo_filter]. repeat split; assumption.
  - eexists. reflexivity.
Qed.

(* The same for any coefficients with which the filters are stable. *)
Theorem C60_response_stable : forall sr freq (x : expr R (lunit R)),
  wf (lu_ops Rnum_ops) (node_of Rnum_ops x) -> safe lu_copes true x = true -> over (lu_stable sr) Rnum_ops x ->
  forall i r, response Rnum_ops (lu_ops Rnum_ops) (lu_route Rnum_ops R_elem sr) x freq i = Some (Some r) ->
  settles (radians sr freq) r
    (fun t => nth i (output R_arith (lu_ops Rnum_ops) (node_of Rnum_ops x) (fun t => repeat (cos (radians sr freq * INR t)) (xins Rnum_ops (lu_ops Rnum_ops) x)) t) 0).
Proof. exact response_sound. Qed.
Print Assumptions C60_response_stable.
Example C60_response_stable_example : lu_stable 8 (Bank [FBiquad (mkBiquad (mkBi (-1) (1 / 2) 1 0 0) 0 0 0 0); FHigh (-1 / 2) 0 0]).
Proof. constructor; [|constructor; [|constructor]]; cbn; repeat split; apply Rabs_def1; lra. Qed.

(* One filter, on any input that settles to a sinusoid. *)
Theorem C60_filter_heard : forall sr freq h x f, 0 < sr -> built sr f -> settles (radians sr freq) h x ->
  settles (radians sr freq) (Complex.Cmult h (filt_response Rnum_ops R_elem f sr freq)) (filt_out f x).
Proof. exact one_filter. Qed.
Print Assumptions C60_filter_heard.
Example C60_filter_heard_example : built 8 demo_svf /\ settles (radians 8 1) (1, 0) (fun t => cos (radians 8 1 * INR t)).
Proof. split; [destruct demo_built as (_ & H & _); inversion H; assumption|apply settles_cos]. Qed.

(* Below half of the sample rate there is only one amplitude and phase that a signal can settle to. *)
Theorem C60_response_unique : forall w h g f, 0 < w < PI -> settles w h f -> settles w g f -> h = g.
Proof. intros w h g f [H1 H2]. apply settles_unique. apply Rgt_not_eq, sin_gt_0; assumption. Qed.
Print Assumptions C60_response_unique.
Example C60_response_unique_example : settles (PI / 2) (1, 0) (fun t => cos (PI / 2 * INR t)).
Proof. apply settles_cos. Qed.

(* It is false of a morphing filter: what it reports is right only without morphing, or when its input is that of the whole expression. *)
Theorem C60_morph_partial : forall sr freq h x (s : svf R * R), stable sr (FSvf (fst s)) -> settles (radians sr freq) h x -> sin (radians sr freq) <> 0 ->
  settles (radians sr freq) (morph_response Rnum_ops R_elem s freq h) (morph_out s x (snd s)) <-> snd s = 0 \/ h = (1, 0).
Proof. exact morph_reported. Qed.
Print Assumptions C60_morph_partial.
Example C60_morph_case : stable 8 demo_svf /\ settles (radians 8 1) (1, 0) (fun t => cos (radians 8 1 * INR t)) /\ sin (radians 8 1) <> 0.
Proof.
  split; [|split; [apply settles_cos|]].
  - destruct demo_built as (_ & H & _). apply DesignProofs.built_stable; [lra|]. now inversion H.
  - unfold radians. apply Rgt_not_eq, sin_gt_0; pose proof PI_RGT_0; lra.
Qed.
Theorem C60_morph_refuted : exists sr freq h x (s : svf R * R), stable sr (FSvf (fst s)) /\ settles (radians sr freq) h x /\
  ~ settles (radians sr freq) (morph_response Rnum_ops R_elem s freq h) (morph_out s x (snd s)).
Proof. exact morph_witness. Qed.
Print Assumptions C60_morph_refuted.

(* It is false after FixedSvf::set_gain, which changes what is reported, but not the sound. *)
Theorem C60_set_gain_refuted : exists s g x h, stable 4 (FSvf s) /\ params_ok (vf_par (svf_do Rnum_ops R_elem s (OpGain g))) /\ settles (radians 4 1) h x /\
  ~ settles (radians 4 1) (Complex.Cmult h (filt_response Rnum_ops R_elem (FSvf (svf_do Rnum_ops R_elem s (OpGain g))) 4 1)) (filt_out (FSvf (svf_do Rnum_ops R_elem s (OpGain g))) x).
Proof. exact gain_witness. Qed.
Print Assumptions C60_set_gain_refuted.
Theorem C60_set_gain_inaudible : forall s g x t, filt_out (FSvf (svf_do Rnum_ops R_elem s (OpGain g))) x t = filt_out (FSvf s) x t.
Proof. exact gain_ignored. Qed.
Print Assumptions C60_set_gain_inaudible.
Example C60_set_gain_inaudible_example : exists s g x, filt_out (FSvf s) x 0 = 1 /\ sp_gain (vf_par (svf_do Rnum_ops R_elem s (OpGain g))) = 4 /\ sp_gain (vf_par s) = 1.
Proof. exists (mkSvf MBell (mkSvp 4 1 1 1) (mkSv 0 0 0 1 0 0) 0 0), 4, (fun _ => 1). cbn. repeat split; lra. Qed.
