(* The filters that the constructors make are stable; where the reported response is wrong. *)
From Coq Require Import Reals Lra Lia.
From Verif Require Import FreqSpec FirSpec.
From Verif Require Export ResponseProofs.
From Coquelicot Require Import Complex.
Local Open Scope R_scope.

Lemma pole_bound sr c : 0 < sr -> 0 < c -> Rabs (pole_coeff nmR elR sr c) < 1.
Proof.
  intros Hs Hc. unfold pole_coeff, tau. cbn. pose proof PI_RGT_0.
  assert (0 < 2 * PI * c / sr) by (apply Rdiv_lt_0_compat; [nra|auto]).
  assert (E : - (2 * PI) * c / sr = - (2 * PI * c / sr)) by (unfold Rdiv; ring). rewrite E.
  pose proof (exp_pos (- (2 * PI * c / sr))). rewrite Rabs_pos_eq by lra. apply (Rlt_le_trans _ (exp 0)); [apply exp_increasing; lra|rewrite exp_0; lra].
Qed.
Lemma dc_bound sr c : 0 < sr -> 0 < c < sr / PI -> Rabs (dc_coeff nmR elR sr c) < 1.
Proof.
  intros Hs [Hc Hd]. unfold dc_coeff, tau. cbn. pose proof PI_RGT_0.
  assert (E : 2 * PI / sr * c = 2 * (PI * c / sr)) by (unfold Rdiv; ring). rewrite E.
  assert (0 < PI * c / sr) by (apply Rdiv_lt_0_compat; nra).
  assert (PI * c / sr < 1). { apply (Rmult_lt_reg_r sr); auto. unfold Rdiv. rewrite Rmult_assoc, Rinv_l, Rmult_1_r, Rmult_1_l by lra.
    apply (Rmult_lt_compat_l PI) in Hd; auto. unfold Rdiv in Hd. replace (PI * (sr * / PI)) with sr in Hd by (field; lra). auto. }
  apply Rabs_def1; lra.
Qed.
Lemma ratio_bound a b : 0 < b -> - b < a < b -> Rabs (a / b) < 1.
Proof.
  intros Hb [H1 H2]. unfold Rdiv. pose proof (Rinv_0_lt_compat b Hb) as Hi. assert (E : b * / b = 1) by (field; lra).
  apply Rabs_def1; nra.
Qed.
Lemma all_bound d : 0 < d -> Rabs (all_eta nmR d) < 1.
Proof. intros H. unfold all_eta. cbn. apply ratio_bound; lra. Qed.
(* the shape that all the second order designs but the resonator have *)
Lemma ratio_stable n1 n2 d : 0 < d -> - d < n2 < d -> - (d + n2) < n1 < d + n2 -> stable2 (n1 * / d) (n2 * / d).
Proof.
  intros Hd H2 [H1 H1']. split; [now apply ratio_bound|]. pose proof (Rinv_0_lt_compat d Hd) as Hi. assert (E : d * / d = 1) by (field; lra). apply Rabs_def1; nra.
Qed.
Lemma omega_range sr c : 0 < c < sr / 2 -> 0 < 2 * PI * c / sr < PI.
Proof.
  intros [H1 H2]. pose proof PI_RGT_0. assert (0 < sr) by lra. split; [apply Rdiv_lt_0_compat; nra|].
  apply (Rmult_lt_reg_r sr); auto. unfold Rdiv. rewrite Rmult_assoc, Rinv_l, Rmult_1_r by lra. nra.
Qed.
Lemma cos_inside w : 0 < w < PI -> -1 < cos w < 1.
Proof.
  intros [H1 H2]. pose proof (sin_gt_0 w H1 H2). pose proof (sin2_cos2 w) as E. unfold Rsqr in E. nra.
Qed.
Lemma alpha_pos sr c q : 0 < c < sr / 2 -> 0 < q -> 0 < sin (2 * PI * c / sr) / (2 * q).
Proof. intros H Hq. apply omega_range in H. apply Rdiv_lt_0_compat; [now apply sin_gt_0|lra]. Qed.
Lemma alpha_stable b al : -1 < b < 1 -> 0 < al -> stable2 (-2 * b * / (1 + al)) ((1 - al) * / (1 + al)).
Proof. intros Hb Ha. apply ratio_stable; lra. Qed.

Lemma built_svf m p ops : Forall (@not_gain) ops -> svf_matches (fold_left (svf_do nmR elR) ops (svf_new nmR elR m p)).
Proof.
  assert (H : forall s, svf_matches s -> Forall (@not_gain) ops -> svf_matches (fold_left (svf_do nmR elR) ops s)).
  { induction ops as [|o r IH]; intros s Hs Hf; cbn [fold_left]; auto. apply Forall_cons_iff in Hf as [Ho Hf]. apply IH; auto.
    destruct o; try contradiction; unfold svf_do, svf_matches, svf_update; try reflexivity; exact Hs. }
  intros. apply H; auto. reflexivity.
Qed.
Lemma built_stable sr f : 0 < sr -> built sr f -> stable sr f.
Proof.
  intros Hs H. pose proof PI_RGT_0 as HPI. destruct H; cbn [stable bq_c]; auto.
  - now apply pole_bound.
  - now apply pole_bound.
  - now apply dc_bound.
  - now apply all_bound.
  - unfold butter_lowpass. cbn -[sqrt tan]. set (f := tan (cutoff * PI / sr)).
    assert (0 < f). { apply tan_gt_0; apply omega_range in H; lra. }
    assert (0 < sqrt 2) by (apply sqrt_lt_R0; lra). unfold Rdiv. rewrite Rmult_1_l. apply ratio_stable; nra.
  - unfold resonator, tau. cbn -[cos exp]. set (r := exp _).
    assert (0 < r < 1). { split; [apply exp_pos|]. unfold r. apply (Rlt_le_trans _ (exp 0)); [apply exp_increasing|rewrite exp_0; lra].
      assert (0 < PI * center / (q * sr)) by (apply Rdiv_lt_0_compat; nra). unfold Rdiv in *. nra. }
    pose proof (COS_bound (2 * PI * center / sr)) as Hb. split; cbn.
    + rewrite Rabs_pos_eq; nra.
    + assert (0 < (1 - r) * (1 - r)) by nra. apply Rabs_def1; nra.
  - unfold bi_lowpass, tau. cbn -[cos sin]. set (al := sin (2 * PI * cutoff / sr) / (2 * q)). replace (1 / (1 + al)) with (/ (1 + al)) by (unfold Rdiv; ring).
    apply alpha_stable; [apply cos_inside; now apply omega_range|now apply alpha_pos].
  - unfold bi_highpass, tau. cbn -[cos sin]. set (al := sin (2 * PI * cutoff / sr) / (2 * q)). replace (1 / (1 + al)) with (/ (1 + al)) by (unfold Rdiv; ring).
    apply alpha_stable; [apply cos_inside; now apply omega_range|now apply alpha_pos].
  - unfold bi_bell, tau. cbn -[cos sin sqrt]. set (al := sin (2 * PI * center / sr) / (2 * q) / sqrt gain).
    assert (0 < al) by (apply Rdiv_lt_0_compat; [now apply alpha_pos|now apply sqrt_lt_R0]).
    replace (1 / (1 + al)) with (/ (1 + al)) by (unfold Rdiv; ring). apply alpha_stable; auto. apply cos_inside. now apply omega_range.
  - split; auto. split; auto. now apply built_svf.
Qed.

Lemma one_filter sr freq h x f : 0 < sr -> built sr f -> settles (radians sr freq) h x ->
  settles (radians sr freq) (Cmult h (filt_response nmR elR f sr freq)) (filt_out f x).
Proof. intros. apply filt_settles; auto. now apply built_stable. Qed.
Lemma built_response sr freq (x : expr R (lunit R)) : 0 < sr -> wf (lu_ops nmR) (node_of nmR x) -> safe lu_copes true x = true -> over (lu_built sr) nmR x ->
  forall i r, response nmR (lu_ops nmR) (lu_route nmR elR sr) x freq i = Some (Some r) ->
  settles (radians sr freq) r (fun t => nth i (output R_arith (lu_ops nmR) (node_of nmR x) (fun t => repeat (cos (radians sr freq * INR t)) (xins nmR (lu_ops nmR) x)) t) 0).
Proof.
  intros Hs Hw Hf Ho. apply response_sound; auto. revert Ho. apply over_impl. intros [fs|n m|l r]; cbn; auto.
  apply Forall_impl. intros f. now apply built_stable.
Qed.

(* ---- where the reported response is wrong ---- *)
Lemma morph_run s x m t : fst (morph_at s x m t) = match filt_at (FSvf (fst s)) x t with FSvf f => f | _ => fst s end /\ morph_out s x m t = (filt_out (FSvf (fst s)) x t + m * x t) * (1 / 2).
Proof.
  assert (H : forall t, FSvf (fst (morph_at s x m t)) = filt_at (FSvf (fst s)) x t).
  { clear t. induction t as [|t IH]; [reflexivity|]. cbn [morph_at filt_at]. rewrite <- IH. unfold morph_step. cbn [filt_step].
    destruct (svf_step nmR (fst (morph_at s x m t)) (x t)). reflexivity. }
  rewrite <- H. split; auto. unfold morph_out, filt_out, morph_step. rewrite <- H. cbn [filt_step].
  destruct (svf_step nmR (fst (morph_at s x m t)) (x t)). reflexivity.
Qed.
Lemma morph_settles sr freq h x (s : svf R * R) : stable sr (FSvf (fst s)) -> settles (radians sr freq) h x -> forall m,
  settles (radians sr freq) (Cmult (Cplus (Cmult h (filt_response nmR elR (FSvf (fst s)) sr freq)) (Cmult (RtoC m) h)) (RtoC (1 / 2))) (morph_out s x m).
Proof.
  intros Hs Hx m. apply (settles_ext _ _ (fun t => (1 / 2) * (filt_out (FSvf (fst s)) x t + m * x t))).
  { intros t. destruct (morph_run s x m t) as [_ ->]. ring. }
  eapply settles_to; [|apply settles_scale, settles_plus; [apply filt_settles; eassumption|apply settles_scale; eassumption]].
  now rewrite Cmult_comm.
Qed.
Lemma half_inj (a b : C) : (a * RtoC (1 / 2) = b * RtoC (1 / 2) -> a = b)%C.
Proof.
  intros H. apply (f_equal (fun z => (z * RtoC 2)%C)) in H. rewrite <- !Cmult_assoc, <- !RtoC_mult in H.
  replace (1 / 2 * 2) with 1 in H by field. now rewrite !Cmult_1_r in H.
Qed.
Lemma morph_reported sr freq h x (s : svf R * R) : stable sr (FSvf (fst s)) -> settles (radians sr freq) h x -> sin (radians sr freq) <> 0 ->
  settles (radians sr freq) (morph_response nmR elR s freq h) (morph_out s x (snd s)) <-> snd s = 0 \/ h = RtoC 1.
Proof.
  intros Hs Hx Hw. pose proof (morph_settles sr freq h x s Hs Hx (snd s)) as HT.
  assert (E : morph_response nmR elR s freq h = Cmult (Cplus (Cmult h (filt_response nmR elR (FSvf (fst s)) sr freq)) (RtoC (snd s))) (RtoC (1 / 2))).
  { unfold morph_response. rewrite cscale_eq, Cmult_comm. reflexivity. }
  rewrite E. split.
  - intros H. pose proof (settles_unique _ _ _ _ Hw H HT) as U. apply half_inj in U.
    assert (U' : RtoC (snd s) = (RtoC (snd s) * h)%C). { apply (f_equal (fun z => (z - h * filt_response nmR elR (FSvf (fst s)) sr freq)%C)) in U. ring_simplify in U. rewrite Cmult_comm. exact U. }
    destruct (Req_dec (snd s) 0) as [|Hm]; auto. right. apply (f_equal (fun z => (z * RtoC (/ snd s))%C)) in U'.
    replace (RtoC (snd s) * h * RtoC (/ snd s))%C with (h * (RtoC (snd s) * RtoC (/ snd s)))%C in U' by ring. rewrite <- RtoC_mult, Rinv_r, Cmult_1_r in U' by auto. auto.
  - intros H. eapply settles_to; [|exact HT]. f_equal. f_equal. destruct H as [-> | ->]; ring.
Qed.
Lemma gain_ignored s g x t : filt_out (FSvf (svf_do nmR elR s (OpGain g))) x t = filt_out (FSvf s) x t.
Proof.
  assert (H : forall t, exists a, filt_at (FSvf s) x t = FSvf a /\ filt_at (FSvf (svf_do nmR elR s (OpGain g))) x t = FSvf (svf_do nmR elR a (OpGain g))).
  { clear t. induction t as [|t (a & E1 & E2)]; [exists s; auto|]. exists (fst (svf_step nmR a (x t))). cbn [filt_at]. rewrite E1, E2. split; reflexivity. }
  destruct (H t) as (a & E1 & E2). unfold filt_out. rewrite E1, E2. reflexivity.
Qed.

(* a bell filter at a quarter of the sample rate, where its response is its gain *)
Lemma bell_at_center q gain ic1 ic2 c : 0 < q -> 0 < gain -> filt_response nmR elR (FSvf (mkSvf MBell (mkSvp 4 1 q gain) c ic1 ic2)) 4 1 = RtoC gain.
Proof.
  intros Hq Hg. cbn [filt_response vf_mode vf_par sp_sr]. rewrite polar_eq.
  assert (EZ : cis (nmul nmR 1 (tau nmR elR) / 4) = (0, 1)).
  { unfold cis, tau. cbn -[cos sin]. replace (1 * (2 * PI) / 4) with (PI / 2) by field. now rewrite cos_PI2, sin_PI2. }
  change (ndiv nmR (nmul nmR 1 (tau nmR elR)) 4) with (nmul nmR 1 (tau nmR elR) / 4). rewrite EZ.
  unfold sv_response. cbn [sp_cutoff sp_sr sp_q sp_gain e_tan e_pi e_sqrt elR R_elem].
  replace (tan (ndiv nmR (nmul nmR PI 1) 4)) with 1. 2:{ change (1 = tan (PI * 1 / 4)). replace (PI * 1 / 4) with (PI / 4) by field. now rewrite tan_PI4. }
  assert (Ha : 0 < sqrt gain) by (now apply sqrt_lt_R0). assert (Hs : sqrt gain * sqrt gain = gain) by (apply sqrt_sqrt; lra). set (a := sqrt gain) in *. clearbody a. subst gain.
  apply injective_projections; cbn; field; lra.
Qed.
Lemma gain_witness : exists s g x h, stable 4 (FSvf s) /\ params_ok (vf_par (svf_do nmR elR s (OpGain g))) /\ settles (radians 4 1) h x /\
  ~ settles (radians 4 1) (Cmult h (filt_response nmR elR (FSvf (svf_do nmR elR s (OpGain g))) 4 1)) (filt_out (FSvf (svf_do nmR elR s (OpGain g))) x).
Proof.
  exists (svf_new nmR elR MBell (mkSvp 4 1 1 1)), 4, (fun t => cos (radians 4 1 * INR t)), (RtoC 1).
  assert (Hs : stable 4 (FSvf (svf_new nmR elR MBell (mkSvp 4 1 1 1)))) by (cbn; unfold svf_matches, params_ok; cbn; repeat split; lra).
  split; auto. split; [unfold params_ok; cbn; repeat split; lra|]. split; [exact (settles_cos _)|]. intros H.
  pose proof (filt_settles 4 1 _ _ _ Hs (settles_cos (radians 4 1))) as H1.
  apply (settles_ext _ _ _ (filt_out (FSvf (svf_new nmR elR MBell (mkSvp 4 1 1 1))) (fun t => cos (radians 4 1 * INR t)))) in H; [|intros; apply gain_ignored].
  assert (Hw : sin (radians 4 1) <> 0). { unfold radians. replace (2 * PI * 1 / 4) with (PI / 2) by field. rewrite sin_PI2. lra. }
  pose proof (settles_unique _ _ _ _ Hw H H1) as U. unfold svf_do, svf_new in U. cbn [vf_mode vf_par sp_sr sp_cutoff sp_q] in U.
  rewrite !bell_at_center in U by lra. apply (f_equal fst) in U. cbn in U. lra.
Qed.
Lemma morph_witness : exists sr freq h x (s : svf R * R), stable sr (FSvf (fst s)) /\ settles (radians sr freq) h x /\
  ~ settles (radians sr freq) (morph_response nmR elR s freq h) (morph_out s x (snd s)).
Proof.
  exists 4, 1, (Cmult (RtoC 2) (RtoC 1)), (fun t => 2 * cos (radians 4 1 * INR t)), (svf_new nmR elR MPeak (mkSvp 4 1 1 1), 1).
  assert (Hs : stable 4 (FSvf (svf_new nmR elR MPeak (mkSvp 4 1 1 1)))) by (cbn; unfold svf_matches, params_ok; cbn; repeat split; lra).
  assert (Hx : settles (radians 4 1) (Cmult (RtoC 2) (RtoC 1)) (fun t => 2 * cos (radians 4 1 * INR t))) by (apply settles_scale, settles_cos).
  split; auto. split; auto. intros H. apply (morph_reported 4 1 _ _ (svf_new nmR elR MPeak (mkSvp 4 1 1 1), 1) Hs Hx) in H as [H|H].
  - cbn in H. lra.
  - apply (f_equal fst) in H. cbn in H. lra.
  - unfold radians. replace (2 * PI * 1 / 4) with (PI / 2) by field. rewrite sin_PI2. lra.
Qed.
