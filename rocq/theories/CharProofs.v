(* The characteristics of the filters. *)
From Coq Require Import Reals Lra Lia.
From Verif Require Import CharSpec FirSpec.
From Verif Require Export DesignProofs.
From Coquelicot Require Import Complex.
Local Open Scope R_scope.

Lemma level_eq f sr freq : level f sr freq = Cmod (factor f sr freq).
Proof. unfold level, Cmod. f_equal. cbn. ring. Qed.

(* ---- constants ---- *)
Definition tends (f : nat -> R) (l : R) : Prop := vanishes (fun t => f t - l).
Lemma tends_cv f l : tends f l <-> Un_cv f l.
Proof.
  unfold tends, vanishes, Un_cv, R_dist. split; intros H e He; destruct (H e He) as [N HN]; exists N; intros n Hn; apply HN; lia.
Qed.
Lemma tends_ext f g l : (forall t, f t = g t) -> tends f l -> tends g l.
Proof. intros E. apply vanishes_ext. intros; cbn; now rewrite E. Qed.
Lemma tends_to f l m : l = m -> tends f l -> tends f m.
Proof. now intros ->. Qed.
Lemma tends_plus f g l m : tends f l -> tends g m -> tends (fun t => f t + g t) (l + m).
Proof. intros H1 H2. eapply vanishes_ext; [|exact (vanishes_plus _ _ H1 H2)]. intros; cbn; ring. Qed.
Lemma tends_scale c f l : tends f l -> tends (fun t => c * f t) (c * l).
Proof. intros H. eapply vanishes_ext; [|exact (vanishes_scale c _ H)]. intros; cbn; ring. Qed.
Lemma tends_delay n f g l : (forall t, g (n + t)%nat = f t) -> tends f l -> tends g l.
Proof. intros E H. apply (vanishes_back n). eapply vanishes_ext; [|exact H]. intros; cbn. now rewrite E. Qed.
Lemma tends_late f g l N : (forall t, (N <= t)%nat -> f t = g t) -> tends f l -> tends g l.
Proof. intros E. apply (vanishes_late _ _ N). intros t Ht. now rewrite E. Qed.
Lemma order2_tends a1 a2 b0 b1 b2 x y l : stable2 a1 a2 ->
  (forall t, y (S (S t)) = - a1 * y (S t) - a2 * y t + (b0 * x (S (S t)) + b1 * x (S t) + b2 * x t)) -> tends x l -> tends y (l * ((b0 + b1 + b2) / (1 + a1 + a2))).
Proof.
  intros Hs Hr Hx. assert (Hk : 1 + a1 + a2 <> 0). { destruct Hs as [S2 S1]. apply Rabs_def2 in S1. lra. }
  set (k := l * ((b0 + b1 + b2) / (1 + a1 + a2))).
  apply (second_real a1 a2 _ (fun t => b0 * (x (S (S t)) - l) + b1 * (x (S t) - l) + b2 * (x t - l)) Hs).
  - intros t. rewrite Hr. assert (K : k = - a1 * k - a2 * k + (b0 * l + b1 * l + b2 * l)) by (unfold k; field; auto). lra.
  - apply vanishes_plus; [apply vanishes_plus|]; apply vanishes_scale; [exact (vanishes_shift 2 _ Hx)|exact (vanishes_shift 1 _ Hx)|exact Hx].
Qed.
Lemma order1_tends c b0 b1 x y l : Rabs c < 1 -> (forall t, y (S t) = c * y t + (b0 * x (S t) + b1 * x t)) -> tends x l -> tends y (l * ((b0 + b1) / (1 - c))).
Proof.
  intros Hc Hr Hx. eapply tends_to; [|apply (order2_tends (- c) 0 b0 b1 0 x y l); [| |exact Hx]].
  - replace (1 + - c + 0) with (1 - c) by ring. now replace (b0 + b1 + 0) with (b0 + b1) by ring.
  - split; [rewrite Rabs_R0; lra|]. rewrite Rabs_Ropp. lra.
  - intros t. rewrite (Hr (S t)). ring.
Qed.

Section Constant.
  Variable sr : R.
  Variable x : nat -> R.
  Variable l : R.
  Hypothesis Hx : tends x l.
  Local Notation goal f := (tends (filt_out f x) (l * fst (factor f sr 0))).
  Lemma cis0 a : a = 0 -> cis a = RtoC 1.
  Proof. intros ->. apply cis_0. Qed.
  Ltac atzero := unfold factor; cbn [filt_response]; cplx; rewrite ?cis0 by (unfold tau; cbn; unfold Rdiv; ring).
  Lemma tick_tends x1 : goal (FTick x1).
  Proof.
    eapply tends_to; [|apply (tends_delay 1 x _ l); [|exact Hx]].
    - atzero. cbn. ring.
    - intros t. unfold filt_out. cbn [Nat.add]. rewrite frun_tick. reflexivity.
  Qed.
  Lemma delay_tends k n : length (l_buf k) = S n -> (l_i k < S n)%nat -> goal (FDelay k n).
  Proof.
    intros Hl Hi.
    eapply tends_to; [|apply (tends_delay n x _ l); [|exact Hx]].
    - atzero. cbn. ring.
    - intros t. exact (delay_out x k n Hl Hi t).
  Qed.
  Lemma low_tends c v : Rabs c < 1 -> goal (FLow c v).
  Proof.
    intros Hc. assert (1 - c <> 0) by (apply Rabs_def2 in Hc; lra). eapply tends_to; [|apply (order1_tends c (1 - c) 0 x _ l Hc); [|exact Hx]].
    - f_equal. atzero. change (nsub nmR) with Rminus. cbn. field; repeat split; try lra; intros E; nra.
    - intros t. unfold filt_out at 1. rewrite frun_low. cbn. unfold low_step. cbn. ring.
  Qed.
  Lemma dc_tends c x1 y1 : Rabs c < 1 -> goal (FDc c x1 y1).
  Proof.
    intros Hc. assert (1 - c <> 0) by (apply Rabs_def2 in Hc; lra). eapply tends_to; [|apply (order1_tends c 1 (-1) x _ l Hc); [|exact Hx]].
    - f_equal. atzero. cbn. field; repeat split; try lra; intros E; nra.
    - intros t. unfold filt_out at 1. rewrite frun_dc. cbn. unfold dc_step. cbn. ring.
  Qed.
  Lemma high_tends c x1 y1 : Rabs c < 1 -> goal (FHigh c x1 y1).
  Proof.
    intros Hc. assert (1 - c <> 0) by (apply Rabs_def2 in Hc; lra). eapply tends_to; [|apply (order1_tends c c (- c) x _ l Hc); [|exact Hx]].
    - f_equal. atzero. cbn. field; repeat split; try lra; intros E; nra.
    - intros t. unfold filt_out at 1. rewrite frun_high. cbn. unfold high_step. cbn. ring.
  Qed.
  Lemma all_tends c x1 y1 : Rabs c < 1 -> goal (FAll c x1 y1).
  Proof.
    intros Hc. assert (1 + c <> 0) by (apply Rabs_def2 in Hc; lra). eapply tends_to; [|apply (order1_tends (- c) c 1 x _ l); [now rewrite Rabs_Ropp| |exact Hx]].
    - f_equal. atzero. cbn. field; repeat split; try lra; intros E; nra.
    - intros t. unfold filt_out at 1. rewrite frun_all. cbn. unfold all_step. cbn. ring.
  Qed.
  Notation dec p q := (IZR p / IZR q).
  Lemma pole_tends c b v : Rabs c < 1 -> (forall t, v (S t) = c * v t + x t * b) -> tends (fun t => v (S t)) (l * (b / (1 - c))).
  Proof.
    intros Hc Hr. eapply tends_to; [|apply (order1_tends c b 0 x (fun t => v (S t)) l Hc); [|exact Hx]].
    - f_equal. unfold Rdiv. f_equal. ring.
    - intros t. rewrite (Hr (S t)). ring.
  Qed.
  Lemma pink_tends s : goal (FPink s).
  Proof.
    set (v := pinks x s).
    assert (Hv : forall t, v (S t) = fst (pink_step nmR (v t) (x t))) by (intros; apply frun_pink).
    assert (Ho : forall t, filt_out (FPink s) x t = (((((((k0 (v (S t)) + k1 (v (S t))) + k2 (v (S t))) + k3 (v (S t))) + k4 (v (S t))) + k5 (v (S t))) + k6 (v t)) + x t * dec 5362 10000) * dec 115830421 1000000000).
    { intros t. unfold filt_out. rewrite (proj1 (frun_pink x s t)), Hv. reflexivity. }
    assert (P0 := pole_tends (dec 99886 100000) (dec 555179 10000000) (fun t => k0 (v t))). assert (P1 := pole_tends (dec 99332 100000) (dec 750759 10000000) (fun t => k1 (v t))).
    assert (P2 := pole_tends (dec 96900 100000) (dec 1538520 10000000) (fun t => k2 (v t))). assert (P3 := pole_tends (dec 86650 100000) (dec 3104856 10000000) (fun t => k3 (v t))).
    assert (P4 := pole_tends (dec 55000 100000) (dec 5329522 10000000) (fun t => k4 (v t))). assert (P5 := pole_tends (- dec 7616 10000) (- dec 168980 10000000) (fun t => k5 (v t))).
    specialize (P0 ltac:(apply Rabs_def1; lra) ltac:(intros; cbv beta; rewrite Hv; reflexivity)). specialize (P1 ltac:(apply Rabs_def1; lra) ltac:(intros; cbv beta; rewrite Hv; reflexivity)).
    specialize (P2 ltac:(apply Rabs_def1; lra) ltac:(intros; cbv beta; rewrite Hv; reflexivity)). specialize (P3 ltac:(apply Rabs_def1; lra) ltac:(intros; cbv beta; rewrite Hv; reflexivity)).
    specialize (P4 ltac:(apply Rabs_def1; lra) ltac:(intros; cbv beta; rewrite Hv; reflexivity)).
    specialize (P5 ltac:(apply Rabs_def1; lra) ltac:(intros; cbv beta; rewrite Hv; cbn; ring)).
    assert (P6 : tends (fun t => k6 (v t)) (dec 115926 1000000 * l)).
    { apply (tends_delay 1 (fun t => dec 115926 1000000 * x t)); [|apply tends_scale, Hx]. intros t. cbn [Nat.add]. rewrite Hv. cbn. ring. }
    assert (P7 := tends_scale (dec 5362 10000) _ _ Hx).
    assert (P := tends_plus _ _ _ _ (tends_plus _ _ _ _ (tends_plus _ _ _ _ (tends_plus _ _ _ _ (tends_plus _ _ _ _ (tends_plus _ _ _ _ (tends_plus _ _ _ _ P0 P1) P2) P3) P4) P5) P6) P7).
    apply (tends_scale (dec 115830421 1000000000)) in P.
    eapply tends_to; [|eapply tends_ext; [|exact P]].
    - atzero. change (ndiv nmR) with Rdiv. change (nneg nmR) with Ropp. change (nofZ nmR) with IZR. cbn. field.
    - intros t. cbv beta. rewrite Ho. ring.
  Qed.
  Lemma follow_tends s : 0 < fo_coeff s < 2 -> goal (FFollow s).
  Proof.
    intros Hc. set (c := fo_coeff s) in *. set (v := follows x s).
    assert (Hv : forall t, v (S t) = fo_tick nmR (v t) (x t)) by (intros; apply frun_follow).
    assert (Hk : forall t, fo_coeff (v t) = c). { intros t. induction t as [|t IH]; [reflexivity|]. rewrite Hv. exact IH. }
    assert (Hn : forall t, fo_coeff_now (v (S t)) = c). { intros t. rewrite Hv. cbn. apply Hk. }
    assert (Hs : Rabs (1 - c) < 1) by (apply Rabs_def1; lra).
    assert (P : forall y u, (forall t, u (S (S t)) = c * y (S t) + (1 - c) * u (S t)) -> tends y l -> tends (fun t => u (S t)) l).
    { intros y u Hr Hy. eapply tends_to; [|apply (order1_tends (1 - c) c 0 y (fun t => u (S t)) l Hs); [|exact Hy]]; [field; lra|]. intros t. rewrite Hr. ring. }
    assert (P1 : tends (fun t => fo_v1 (v (S t))) l). { apply (P x (fun t => fo_v1 (v t))); auto. intros t. rewrite (Hv (S t)). cbn. rewrite Hn. reflexivity. }
    assert (P2 : tends (fun t => fo_v2 (v (S t))) l). { apply (P (fun t => fo_v1 (v (S t))) (fun t => fo_v2 (v t))); auto. intros t. rewrite (Hv (S t)). cbn. rewrite Hn. reflexivity. }
    assert (P3 : tends (fun t => fo_v3 (v (S t))) l). { apply (P (fun t => fo_v2 (v (S t))) (fun t => fo_v3 (v t))); auto. intros t. rewrite (Hv (S t)). cbn. rewrite Hn. reflexivity. }
    eapply tends_to; [|eapply tends_ext; [|exact P3]].
    - atzero. fold c. change (nsub nmR) with Rminus. cbn. field; repeat split; try lra; intros E; nra.
    - intros t. unfold filt_out. rewrite (proj1 (frun_follow x s t)). cbn [filt_step snd]. fold v. now rewrite <- Hv.
  Qed.
  Lemma biquad_tends s : stable2 (bi_a1 (bq_c s)) (bi_a2 (bq_c s)) -> goal (FBiquad s).
  Proof.
    destruct s as [c x1 x2 y1 y2]. cbn [bq_c]. intros Hs. assert (Hk : 1 + bi_a1 c + bi_a2 c <> 0). { destruct Hs as [S2 S1]. apply Rabs_def2 in S1. lra. }
    eapply tends_to; [|apply (order2_tends (bi_a1 c) (bi_a2 c) (bi_b0 c) (bi_b1 c) (bi_b2 c) x _ l Hs); [|exact Hx]].
    - f_equal. unfold factor. cbn [filt_response bq_c]. unfold bi_response. cplx. rewrite cis0 by (unfold tau; cbn; unfold Rdiv; ring). cbn.
      field; repeat split; auto; intros E; apply Hk; nra.
    - intros t. unfold filt_out at 1. rewrite frun_biquad. cbn. ring.
  Qed.
  Lemma fir_tends s : goal (FFir s).
  Proof.
    destruct s as [ws v]. set (n := length ws).
    assert (P : forall m (a : nat -> R), tends (fun t => sigma m (fun i => a i * x (t - i)%nat)) (l * sigma m a)).
    { intros m a. induction m as [|m IH]; [apply (vanishes_ext (fun _ => 0)); [intros; cbn; ring|apply vanishes_0]|].
      cbn [sigma]. eapply tends_to; [|apply tends_plus; [exact IH|apply tends_scale; apply (tends_delay m x); [|exact Hx]]]; [ring|]. intros t. f_equal. lia. }
    eapply tends_to; [|apply (tends_late (fun t => sigma n (fun i => nth (n - 1 - i) ws 0 * x (t - i)%nat)) _ _ n); [|apply P]].
    - f_equal. unfold factor. cbn [filt_response f_w]. fold n. rewrite polar_eq, cis0 by (unfold tau; cbn; unfold Rdiv; ring).
      assert (F : forall m, fold_left (fun acc i => (cadd nmR (fst acc) (cmul nmR (cre nmR (nth (n - 1 - i) ws (n0 nmR))) (snd acc)), cmul nmR (snd acc) (RtoC 1))) (seq 0 m) ((n0 nmR, n0 nmR), cre nmR (n1 nmR)) =
        (RtoC (sigma m (fun i => nth (n - 1 - i) ws 0)), RtoC 1)).
      { intros m. induction m as [|m IH]; [reflexivity|]. rewrite seq_S, fold_left_app, IH. cbn [fold_left fst snd Nat.add sigma]. f_equal; apply injective_projections; cbn; ring. }
      rewrite F. reflexivity.
    - intros t Ht. rewrite fir_out by auto. fold n. cbv beta. rewrite <- (sigma_rev n). apply sigma_ext. intros i Hi.
      do 2 f_equal. lia.
  Qed.
  Lemma svf_tends s : sp_sr (vf_par s) = sr -> svf_matches s -> params_ok (vf_par s) -> goal (FSvf s).
  Proof.
    intros Hr Hm Hp. set (p := vf_par s) in *.
    pose proof (sv_shape_pos (vf_mode s) p Hp) as Hpos. pose proof (sv_coefs_shape (vf_mode s) p) as Hc. pose proof (sv_mode_response (vf_mode s) p (cis 0) Hp (cis_mod 0)) as HR.
    unfold svf_matches in Hm. fold p in Hm. destruct (sv_shape (vf_mode s) p) as [[[[g k] m0] m1] m2]. destruct Hpos as [Hg Hk]. rewrite Hc in Hm.
    pose proof (sv_stable g k Hg Hk m0 m1 m2) as Hst. pose proof (sv_transfer g k Hg Hk m0 m1 m2 (cis 0) (cis_mod 0)) as HT. cbv zeta in HT.
    rewrite <- Hm in *. set (c := vf_c s) in *.
    assert (Hd : 1 + - sv_tr c + sv_det c <> 0). { destruct Hst as [S2 S1]. apply Rabs_def2 in S1. lra. }
    eapply tends_to; [|apply (order2_tends _ _ _ _ _ x (filt_out (FSvf s) x) l Hst (svf_recurrence x s)); exact Hx]. f_equal.
    assert (E : factor (FSvf s) sr 0 = RtoC ((sv_b0 c + sv_b1 c + sv_b2 c) / (1 + - sv_tr c + sv_det c))).
    { unfold factor. cbn [filt_response]. fold p. rewrite polar_eq. replace (ndiv nmR (nmul nmR 0 (tau nmR elR)) (sp_sr p)) with 0 by (unfold tau; cbn; unfold Rdiv; ring).
      rewrite HR, <- HT. rewrite cis_0. rewrite RtoC_div by auto. rewrite !RtoC_plus. replace (/ RtoC 1)%C with (RtoC 1) by (apply injective_projections; cbn; field).
      unfold Cdiv. f_equal; [ring|]. f_equal. ring. }
    rewrite E. reflexivity.
  Qed.
End Constant.
Lemma constant_tends sr f x l : stable sr f -> tends x l -> tends (filt_out f x) (l * fst (factor f sr 0)).
Proof.
  intros Hs Hx. destruct f; cbn [stable] in Hs.
  - now apply tick_tends.
  - destruct Hs. now apply delay_tends.
  - now apply low_tends.
  - now apply dc_tends.
  - now apply all_tends.
  - now apply high_tends.
  - now apply pink_tends.
  - now apply follow_tends.
  - now apply biquad_tends.
  - destruct Hs as (? & ? & ?). now apply svf_tends.
  - now apply fir_tends.
Qed.

(* ---- state variable filters ---- *)
Lemma half_angle th : cos th <> 0 -> (cis (2 * th) - 1 = Ci * RtoC (tan th) * (cis (2 * th) + 1))%C.
Proof.
  intros Hc. pose proof (sin2_cos2 th) as E. unfold Rsqr in E. set (s := sin th) in *. set (c := cos th) in *.
  unfold cis. rewrite sin_2a. rewrite cos_2a. fold s c. unfold tan. fold s c.
  apply injective_projections; cbn.
  - replace (c * c - s * s + - (1)) with (- (2 * (s * s))) by lra. field. auto.
  - replace (c * c - s * s + 1) with (2 * (c * c)) by lra. field. auto.
Qed.
Lemma plus_one_neq th : cos th <> 0 -> (cis (2 * th) + 1 <> 0)%C.
Proof.
  intros Hc E. apply (f_equal fst) in E. unfold cis in E. rewrite cos_2a in E. cbn in E. pose proof (sin2_cos2 th) as E'. unfold Rsqr in E'. apply Hc. nra.
Qed.
Lemma sv_analog g k m0 m1 m2 th : 0 < g -> 0 < k -> cos th <> 0 -> let T := tan th in let z := cis (2 * th) in
  ((RtoC m0 * sv_den g k z + RtoC m1 * (RtoC g * (z * z - 1)) + RtoC m2 * (RtoC g * RtoC g * (1 + z) * (1 + z))) / sv_den g k z =
   RtoC m0 + (m2 * (g * g), m1 * (g * T))%R / (g * g - T * T, g * k * T)%R)%C.
Proof.
  intros Hg Hk Hc T z. pose proof (half_angle th Hc) as E. pose proof (plus_one_neq th Hc) as HP. fold z T in E, HP. set (P := (z + 1)%C) in *.
  assert (Ed : sv_den g k z = (P * P * (g * g - T * T, g * k * T)%R)%C).
  { unfold sv_den. replace (1 + z)%C with P by (unfold P; ring). replace (z * z - 1)%C with ((z - 1) * P)%C by (unfold P; ring). rewrite E.
    generalize P. intros Q. apply injective_projections; cbn; ring. }
  assert (HD : ((g * g - T * T, g * k * T)%R : C) <> RtoC 0).
  { intros HD. pose proof (sv_den_neq g k Hg Hk z (cis_mod _)) as N. apply N. rewrite Ed, HD. apply Cmult_0_r. }
  rewrite Ed. replace (1 + z)%C with P by (unfold P; ring). replace (z * z - 1)%C with ((z - 1) * P)%C by (unfold P; ring). rewrite E.
  set (D := (g * g - T * T, g * k * T)%R) in *. clearbody D P. 
  replace ((m2 * (g * g), m1 * (g * T))%R : C) with (RtoC m2 * RtoC g * RtoC g + Ci * RtoC m1 * RtoC g * RtoC T)%C by (apply injective_projections; cbn; ring).
  field. auto.
Qed.
Lemma svf_factor s sr freq th : sp_sr (vf_par s) = sr -> params_ok (vf_par s) -> freq * (2 * PI) / sr = 2 * th -> cos th <> 0 ->
  let '(g, k, m0, m1, m2) := sv_shape (vf_mode s) (vf_par s) in let T := tan th in
  factor (FSvf s) sr freq = (RtoC m0 + (m2 * (g * g), m1 * (g * T))%R / (g * g - T * T, g * k * T)%R)%C.
Proof.
  intros Hr Hp Ha Hc. set (p := vf_par s) in *.
  pose proof (sv_shape_pos (vf_mode s) p Hp) as Hpos. pose proof (sv_mode_response (vf_mode s) p (cis (2 * th)) Hp (cis_mod _)) as HR.
  destruct (sv_shape (vf_mode s) p) as [[[[g k] m0] m1] m2]. destruct Hpos as [Hg Hk]. intros T.
  unfold factor. cbn [filt_response]. fold p. rewrite polar_eq.
  replace (ndiv nmR (nmul nmR freq (tau nmR elR)) (sp_sr p)) with (2 * th) by (rewrite <- Ha, Hr; reflexivity).
  rewrite HR. apply sv_analog; auto.
Qed.
Lemma Cmod_pair a b : Cmod (a, b) = sqrt (a * a + b * b).
Proof. unfold Cmod. cbn. f_equal. ring. Qed.
Lemma svf_at_dc s sr : sp_sr (vf_par s) = sr -> params_ok (vf_par s) -> factor (FSvf s) sr 0 = RtoC (svf_dc (vf_mode s) (sp_gain (vf_par s))).
Proof.
  intros Hr Hp. pose proof (svf_factor s sr 0 0 Hr Hp) as H. pose proof (sv_shape_pos (vf_mode s) (vf_par s) Hp) as Hpos.
  assert (Hq : 0 < sp_q (vf_par s)) by apply Hp. assert (Ha : 0 < sp_gain (vf_par s)) by apply Hp.
  assert (Hsq : sqrt (sp_gain (vf_par s)) * sqrt (sp_gain (vf_par s)) = sp_gain (vf_par s)) by (apply sqrt_sqrt; lra).
  destruct (sv_shape (vf_mode s) (vf_par s)) as [[[[g k] m0] m1] m2] eqn:E. destruct Hpos as [Hg Hk].
  rewrite H; [|unfold Rdiv; ring|rewrite cos_0; lra]. rewrite tan_0.
  transitivity (RtoC (m0 + m2)). { apply injective_projections; cbn; field; repeat split; nra. }
  f_equal. unfold sv_shape in E. destruct (vf_mode s); cbn [svf_dc];
    assert (E0 : m0 = snd (fst (fst (g, k, m0, m1, m2)))) by reflexivity; assert (E2 : m2 = snd (g, k, m0, m1, m2)) by reflexivity;
    rewrite <- E in E0, E2; cbn [fst snd] in E0, E2; rewrite E0, E2; lra.
Qed.
Lemma svf_at_nyquist s sr : sp_sr (vf_par s) = sr -> params_ok (vf_par s) -> factor (FSvf s) sr (sr / 2) = RtoC (svf_nyquist (vf_mode s) (sp_gain (vf_par s))).
Proof.
  intros Hr Hp. set (p := vf_par s) in *. pose proof (sv_shape_pos (vf_mode s) p Hp) as Hpos. pose proof (sv_mode_response (vf_mode s) p (cis PI) Hp (cis_mod _)) as HR.
  assert (Hs : 0 < sr) by (destruct Hp as (H1 & _); rewrite <- Hr; lra).
  assert (Hq : 0 < sp_q p) by apply Hp. assert (Ha : 0 < sp_gain p) by apply Hp.
  assert (Hsq : sqrt (sp_gain p) * sqrt (sp_gain p) = sp_gain p) by (apply sqrt_sqrt; lra).
  destruct (sv_shape (vf_mode s) p) as [[[[g k] m0] m1] m2] eqn:E. destruct Hpos as [Hg Hk].
  unfold factor. cbn [filt_response]. fold p. rewrite polar_eq.
  replace (ndiv nmR (nmul nmR (sr / 2) (tau nmR elR)) (sp_sr p)) with PI by (rewrite Hr; unfold tau; cbn; field; lra).
  rewrite HR. transitivity (RtoC m0).
  { unfold cis, sv_den. rewrite cos_PI, sin_PI. apply injective_projections; cbn; field. }
  f_equal. unfold sv_shape in E. destruct (vf_mode s); cbn [svf_nyquist];
    assert (E0 : m0 = snd (fst (fst (g, k, m0, m1, m2)))) by reflexivity; rewrite <- E in E0; cbn [fst snd] in E0; rewrite E0; lra.
Qed.
Lemma squares_neq a b : 0 < b -> a * a + b * b <> 0.
Proof. intros Hb. assert (0 < b * b) by nra. pose proof (Rle_0_sqr a) as E. unfold Rsqr in E. lra. Qed.
Lemma squares_pos a b : 0 < b -> 0 < a * a + b * b.
Proof. intros Hb. assert (0 < b * b) by nra. pose proof (Rle_0_sqr a) as E. unfold Rsqr in E. lra. Qed.
Ltac nz := repeat split; try lra; apply squares_neq; repeat (apply Rmult_lt_0_compat || apply Rdiv_lt_0_compat); lra.
Lemma Cmod_pos_real a : 0 <= a -> Cmod (RtoC a) = a.
Proof. intros H. rewrite Cmod_R. now apply Rabs_pos_eq. Qed.
Lemma svf_at_cutoff s sr : sp_sr (vf_par s) = sr -> params_ok (vf_par s) -> level (FSvf s) sr (sp_cutoff (vf_par s)) = svf_level (vf_mode s) (sp_q (vf_par s)) (sp_gain (vf_par s)).
Proof.
  intros Hr Hp. rewrite level_eq. set (p := vf_par s) in *. set (th := PI * sp_cutoff p / sr).
  assert (Ht : 0 < th < PI / 2). { destruct Hp as (H1 & _). rewrite Hr in H1. apply omega_range in H1. unfold th. replace (2 * PI * sp_cutoff p / sr) with (2 * (PI * sp_cutoff p / sr)) in H1 by (unfold Rdiv; ring). lra. }
  assert (Hc : cos th <> 0) by (apply Rgt_not_eq, cos_gt_0; lra).
  pose proof (svf_factor s sr (sp_cutoff p) th Hr Hp) as H. pose proof (sv_shape_pos (vf_mode s) p Hp) as Hpos. fold p in H.
  assert (Hq : 0 < sp_q p) by apply Hp. assert (Ha : 0 < sp_gain p) by apply Hp.
  assert (Hs0 : 0 < sqrt (sp_gain p)) by (now apply sqrt_lt_R0). assert (Hs1 : 0 < sqrt (sqrt (sp_gain p))) by (now apply sqrt_lt_R0).
  assert (Hsq : sqrt (sp_gain p) * sqrt (sp_gain p) = sp_gain p) by (apply sqrt_sqrt; lra).
  assert (Hsq2 : sqrt (sqrt (sp_gain p)) * sqrt (sqrt (sp_gain p)) = sqrt (sp_gain p)) by (apply sqrt_sqrt; lra).
  destruct (sv_shape (vf_mode s) p) as [[[[g k] m0] m1] m2] eqn:E. destruct Hpos as [Hg Hk].
  rewrite H; auto. 2:{ unfold th, Rdiv. ring. } clear H.
  assert (EG : tan (PI * sp_cutoff p / sp_sr p) = tan th) by (now rewrite Hr).
  assert (Eg : g = fst (fst (fst (fst (g, k, m0, m1, m2))))) by reflexivity. assert (Ek : k = snd (fst (fst (fst (g, k, m0, m1, m2))))) by reflexivity.
  assert (E0 : m0 = snd (fst (fst (g, k, m0, m1, m2)))) by reflexivity. assert (E1 : m1 = snd (fst (g, k, m0, m1, m2))) by reflexivity. assert (E2 : m2 = snd (g, k, m0, m1, m2)) by reflexivity.
  rewrite <- E in Eg, Ek, E0, E1, E2. clear E. set (T := tan th) in *.
  (* modes whose g is that of the cutoff *)
  assert (Same : g = T -> (RtoC m0 + (m2 * (g * g), m1 * (g * T))%R / (g * g - T * T, g * k * T)%R)%C = (m0 + m1 / k, - m2 / k)).
  { intros <-. apply injective_projections; cbn; field; nz. }
  unfold sv_shape in Eg, Ek, E0, E1, E2. rewrite EG in *. set (q := sp_q p) in *. set (a := sqrt (sp_gain p)) in *. set (r := sqrt a) in *. assert (Ea : sqrt (sp_gain p) = a) by reflexivity. clearbody T q a r.
  destruct (vf_mode s); cbn [svf_level fst snd] in *; try (rewrite Same by auto; rewrite E0, E1, E2, Ek; rewrite Cmod_pair).
  - replace ((0 + 0 / (1 / q)) * (0 + 0 / (1 / q)) + - (1) / (1 / q) * (- (1) / (1 / q))) with (q * q) by (field; lra). apply sqrt_square. lra.
  - replace ((1 + - (1 / q) / (1 / q)) * (1 + - (1 / q) / (1 / q)) + - - (1) / (1 / q) * (- - (1) / (1 / q))) with (q * q) by (field; lra). apply sqrt_square. lra.
  - replace ((0 + 1 / (1 / q)) * (0 + 1 / (1 / q)) + - 0 / (1 / q) * (- 0 / (1 / q))) with (q * q) by (field; lra). apply sqrt_square. lra.
  - replace ((1 + - (1 / q) / (1 / q)) * (1 + - (1 / q) / (1 / q)) + - 0 / (1 / q) * (- 0 / (1 / q))) with 0 by (field; lra). apply sqrt_0.
  - replace ((1 + - (1 / q) / (1 / q)) * (1 + - (1 / q) / (1 / q)) + - -2 / (1 / q) * (- -2 / (1 / q))) with ((2 * q) * (2 * q)) by (field; lra). apply sqrt_square. lra.
  - replace ((1 + -2 * (1 / q) / (1 / q)) * (1 + -2 * (1 / q) / (1 / q)) + - 0 / (1 / q) * (- 0 / (1 / q))) with (1 * 1) by (field; lra). apply sqrt_square. lra.
  - rewrite <- Hsq. set (k' := 1 / (q * a)) in *. assert (0 < k') by (rewrite <- Ek; auto).
    replace ((1 + k' * (a * a - 1) / k') * (1 + k' * (a * a - 1) / k') + - 0 / k' * (- 0 / k')) with ((a * a) * (a * a)) by (field; lra). apply sqrt_square. nra.
  - (* low shelf *)
    assert (ET : T = g * r) by (rewrite Eg; field; lra). rewrite ET, E0, E1, E2, <- Ek. rewrite Ea, <- Hsq2.
    transitivity (Cmod ((r * r * (r * r - 1), r * r * (k * r))%R / (- (r * r - 1), k * r)%R)%C).
    { f_equal. assert (0 < g * g) by nra. assert (0 < k * r) by nra.
      apply injective_projections; cbn; field; nz. }
    rewrite Cmod_div. 2:{ intros HH. apply (f_equal snd) in HH. cbn in HH. nra. }
    rewrite !Cmod_pair. replace (r * r * (r * r - 1) * (r * r * (r * r - 1)) + r * r * (k * r) * (r * r * (k * r))) with ((r * r) * (r * r) * (- (r * r - 1) * - (r * r - 1) + k * r * (k * r))) by ring.
    assert (0 < - (r * r - 1) * - (r * r - 1) + k * r * (k * r)). { apply squares_pos. nra. }
    rewrite sqrt_mult_alt by nra. rewrite sqrt_square by nra. field. apply Rgt_not_eq, sqrt_lt_R0. auto.
  - (* high shelf *)
    assert (HT : 0 < T) by (rewrite Eg in Hg; nra). rewrite Eg, E0, E1, E2, <- Ek. rewrite Ea, <- Hsq2.
    transitivity (Cmod ((r * r * (1 - r * r), r * r * (k * r))%R / (r * r - 1, k * r)%R)%C).
    { f_equal.
      apply injective_projections; cbn; field; nz. }
    rewrite Cmod_div. 2:{ intros HH. apply (f_equal snd) in HH. cbn in HH. nra. }
    rewrite !Cmod_pair. replace (r * r * (1 - r * r) * (r * r * (1 - r * r)) + r * r * (k * r) * (r * r * (k * r))) with ((r * r) * (r * r) * ((r * r - 1) * (r * r - 1) + k * r * (k * r))) by ring.
    assert (0 < (r * r - 1) * (r * r - 1) + k * r * (k * r)). { apply squares_pos. nra. }
    rewrite sqrt_mult_alt by nra. rewrite sqrt_square by nra. field. apply Rgt_not_eq, sqrt_lt_R0. auto.
Qed.

(* ---- biquads are state variable filters ---- *)
Definition as_biquad (c : svcoefs R) : bicoefs R := mkBi (- sv_tr c) (sv_det c) (sv_b0 c) (sv_b1 c) (sv_b2 c).
Lemma bicoefs_eq (a b : bicoefs R) : bi_a1 a = bi_a1 b -> bi_a2 a = bi_a2 b -> bi_b0 a = bi_b0 b -> bi_b1 a = bi_b1 b -> bi_b2 a = bi_b2 b -> a = b.
Proof. destruct a, b; cbn; intros; subst; reflexivity. Qed.
Lemma rat th : 0 < cos th -> let g := tan th in sin (2 * th) = 2 * g / (1 + g * g) /\ cos (2 * th) = (1 - g * g) / (1 + g * g).
Proof.
  intros Hc g. rewrite sin_2a, cos_2a. pose proof (sin2_cos2 th) as E. unfold Rsqr in E.
  assert (Eg : sin th = g * cos th) by (unfold g, tan; field; lra). rewrite Eg in *. set (c := cos th) in *. clearbody c g.
  assert (Ec : c * c * (1 + g * g) = 1) by lra. assert (0 < 1 + g * g) by nra.
  split; apply (Rmult_eq_reg_r (1 + g * g)); try lra.
  - unfold Rdiv. rewrite (Rmult_assoc (2 * g)), Rinv_l, Rmult_1_r by lra. transitivity (2 * g * (c * c * (1 + g * g))); [ring|rewrite Ec; ring].
  - unfold Rdiv. rewrite (Rmult_assoc (1 - g * g)), Rinv_l, Rmult_1_r by lra. transitivity ((1 - g * g) * (c * c * (1 + g * g))); [ring|rewrite Ec; ring].
Qed.
Lemma angle_pieces sr c : 0 < c < sr / 2 -> let g := tan (PI * c / sr) in 0 < g /\
  sin (2 * PI * c / sr) = 2 * g / (1 + g * g) /\ cos (2 * PI * c / sr) = (1 - g * g) / (1 + g * g).
Proof.
  intros H g. set (th := PI * c / sr) in g. assert (Ht : 0 < th < PI / 2). { apply omega_range in H. unfold th. replace (2 * PI * c / sr) with (2 * (PI * c / sr)) in H by (unfold Rdiv; ring). lra. }
  replace (2 * PI * c / sr) with (2 * th) by (unfold th, Rdiv; ring). split; [apply tan_gt_0; lra|]. apply rat, cos_gt_0; lra.
Qed.
Lemma with_biquad g k m0 m1 m2 : 0 < g -> 0 < k -> let D := 1 + g * (g + k) in
  as_biquad (sv_with Rnum_ops g k m0 m1 m2) =
  mkBi (- (2 * (1 - g * g) / D)) ((1 + g * g - g * k) / D) ((m0 * D + m1 * g + m2 * (g * g)) / D)
    ((m0 * (2 * (g * g) - 2) + 2 * m2 * (g * g)) / D) ((m0 * (1 + g * g - g * k) - m1 * g + m2 * (g * g)) / D).
Proof.
  intros Hg Hk D. assert (HD : 1 < D) by (unfold D; nra). unfold D in *. unfold as_biquad. rewrite sv_tr_eq, sv_det_eq by auto. f_equal.
  - unfold sv_b0, sv_with. cbn. field. lra.
  - unfold sv_b1, sv_cb, sv_tr, sv_b0, sv_c1, sv_c2, sv_with; cbn; field; lra.
  - unfold sv_b2, sv_cab, sv_cb, sv_tr, sv_det, sv_b0, sv_c1, sv_c2, sv_with; cbn; field; lra.
Qed.
Lemma lowpass_is sr c q gain : 0 < c < sr / 2 -> 0 < q -> bi_lowpass Rnum_ops R_elem sr c q = as_biquad (sv_coefs Rnum_ops R_elem MLowpass (mkSvp sr c q gain)).
Proof.
  intros Hc Hq. destruct (angle_pieces sr c Hc) as (Hg & Es & Ec). unfold bi_lowpass, tau. cbn -[as_biquad sv_with IZR]. rewrite Es, Ec.
  set (g := tan (PI * c / sr)) in *. clearbody g. rewrite with_biquad; auto. 2:{ apply Rdiv_lt_0_compat; lra. }
  assert (0 < g * g) by nra. assert (0 < g * g * q) by nra. f_equal; field; repeat split; nra.
Qed.
Lemma highpass_is sr c q gain : 0 < c < sr / 2 -> 0 < q -> bi_highpass Rnum_ops R_elem sr c q = as_biquad (sv_coefs Rnum_ops R_elem MHighpass (mkSvp sr c q gain)).
Proof.
  intros Hc Hq. destruct (angle_pieces sr c Hc) as (Hg & Es & Ec). unfold bi_highpass, tau. cbn -[as_biquad sv_with IZR]. rewrite Es, Ec.
  set (g := tan (PI * c / sr)) in *. clearbody g. rewrite with_biquad; auto. 2:{ apply Rdiv_lt_0_compat; lra. }
  assert (0 < g * g) by nra. assert (0 < g * g * q) by nra. f_equal; field; repeat split; nra.
Qed.
Lemma bell_is sr c q gain : 0 < c < sr / 2 -> 0 < q -> 0 < gain -> bi_bell Rnum_ops R_elem sr c q gain = as_biquad (sv_coefs Rnum_ops R_elem MBell (mkSvp sr c q gain)).
Proof.
  intros Hc Hq Ha. destruct (angle_pieces sr c Hc) as (Hg & Es & Ec). unfold bi_bell, tau. cbn -[as_biquad sv_with IZR]. rewrite Es, Ec.
  set (g := tan (PI * c / sr)) in *. clearbody g. assert (Hs : 0 < sqrt gain) by (now apply sqrt_lt_R0). set (a := sqrt gain) in *. clearbody a.
  assert (0 < q * a) by nra. rewrite with_biquad; auto. 2:{ apply Rdiv_lt_0_compat; lra. }
  assert (0 < g * g) by nra. assert (0 < g * g * (q * a)) by nra. f_equal; field; repeat split; nra.
Qed.
Lemma butter_is sr c gain : 0 < c < sr / 2 -> butter_lowpass Rnum_ops R_elem sr c = as_biquad (sv_coefs Rnum_ops R_elem MLowpass (mkSvp sr c (/ sqrt 2) gain)).
Proof.
  intros Hc. destruct (angle_pieces sr c Hc) as (Hg & _). unfold butter_lowpass. cbn -[as_biquad sv_with IZR]. rewrite (Rmult_comm c PI).
  set (g := tan (PI * c / sr)) in *. clearbody g. assert (0 < sqrt 2) by (apply sqrt_lt_R0; lra). set (r := sqrt 2) in *. clearbody r. rewrite with_biquad; auto. 2:{ apply Rdiv_lt_0_compat; [lra|]. now apply Rinv_0_lt_compat. }
  assert (0 < g * g) by nra. assert (0 < g * r) by nra. f_equal; field; repeat split; nra.
Qed.
(* from the zero state they give the same signal *)
Lemma biquad_recurrence c x1 x2 y1 y2 x t : let y := filt_out (FBiquad (mkBiquad c x1 x2 y1 y2)) x in
  y (S (S t)) = bi_b0 c * x (S (S t)) + bi_b1 c * x (S t) + bi_b2 c * x t - bi_a1 c * y (S t) - bi_a2 c * y t.
Proof.
  intros y. assert (H : forall t, exists x1' x2' y1' y2', filt_at (FBiquad (mkBiquad c x1 x2 y1 y2)) x t = FBiquad (mkBiquad c x1' x2' y1' y2')).
  { clear. intros t. induction t as [|t (a & b & d & e & IH)]; [cbn; eauto 6|]. cbn [filt_at]. rewrite IH. cbn. eauto 6. }
  destruct (H t) as (a & b & d & e & E). unfold y, filt_out. cbn [filt_at]. rewrite E. reflexivity.
Qed.
Lemma same_signal m p x t : filt_out (FBiquad (mkBiquad (as_biquad (sv_coefs Rnum_ops R_elem m p)) 0 0 0 0)) x t = filt_out (FSvf (svf_new Rnum_ops R_elem m p)) x t.
Proof.
  set (c := sv_coefs Rnum_ops R_elem m p).
  enough (forall t, filt_out (FBiquad (mkBiquad (as_biquad c) 0 0 0 0)) x t = filt_out (FSvf (svf_new Rnum_ops R_elem m p)) x t /\
    filt_out (FBiquad (mkBiquad (as_biquad c) 0 0 0 0)) x (S t) = filt_out (FSvf (svf_new Rnum_ops R_elem m p)) x (S t)) as H by apply H.
  clear t. intros t. induction t as [|t [IH1 IH2]].
  - unfold svf_new. fold c. clearbody c. destruct c as [a1 a2 a3 m0 m1 m2].
    split; cbn; unfold sv_b2, sv_b1, sv_cab, sv_cb, sv_b0, sv_c1, sv_c2, sv_tr, sv_det; cbn; unfold sv_cb, sv_b0, sv_c1, sv_c2, sv_tr; cbn; ring.
  - split; auto. rewrite biquad_recurrence, svf_recurrence. cbn [vf_c svf_new]. fold c. rewrite <- IH1, <- IH2. cbn. ring.
Qed.
Lemma same_factor m p sr freq s : sp_sr p = sr -> params_ok p -> factor (of_coefs (as_biquad (sv_coefs Rnum_ops R_elem m p)) s) sr freq = factor (FSvf (svf_new Rnum_ops R_elem m p)) sr freq.
Proof.
  intros Hr Hp. destruct s as [[[x1 x2] y1] y2]. unfold factor. cbn [of_coefs filt_response bq_c vf_mode vf_par svf_new]. rewrite !polar_eq.
  set (w := freq * (2 * PI) / sr). replace (ndiv nmR (nmul nmR freq (tau nmR elR)) (sp_sr p)) with w by (unfold w; rewrite Hr; reflexivity).
  replace (nmul nmR (nneg nmR (tau nmR elR)) (ndiv nmR freq sr)) with (- w) by (unfold w, tau; cbn; unfold Rdiv; ring).
  pose proof (sv_shape_pos m p Hp) as Hpos. pose proof (sv_mode_response m p (cis w) Hp (cis_mod _)) as HR. rewrite sv_coefs_shape.
  destruct (sv_shape m p) as [[[[g k] m0] m1] m2]. destruct Hpos as [Hg Hk]. rewrite HR. rewrite <- sv_transfer by (auto using cis_mod). cbn zeta.
  assert (Hi : (/ cis w = cis (- w))%C). { pose proof (cis_neg w) as E. pose proof (cis_neq w). rewrite <- (Cmult_1_l (/ cis w)%C), <- E. field. auto. }
  rewrite Hi. unfold bi_response, as_biquad. cplx. cbn [bi_a1 bi_a2 bi_b0 bi_b1 bi_b2]. f_equal; [|f_equal]; ring.
Qed.

(* ---- first order filters ---- *)
Lemma all_pass c x1 y1 sr freq : Rabs c < 1 -> level (FAll c x1 y1) sr freq = 1.
Proof.
  intros Hc. rewrite level_eq. unfold factor. cbn [filt_response]. cplx. set (w := nneg _ _). clearbody w.
  assert (HD : (1 + RtoC c * cis w)%C <> 0).
  { intros E. assert (Cmod (RtoC c * cis w)%C = 1). { replace (RtoC c * cis w)%C with (- RtoC 1)%C by (rewrite <- (Cplus_0_r (-(1))%C), <- E; ring). rewrite Cmod_opp, Cmod_1. reflexivity. }
    rewrite Cmod_mult, cis_mod, Cmod_R in H. lra. }
  rewrite Cmod_div by auto. assert (E : Cmod (RtoC c + cis w)%C = Cmod (1 + RtoC c * cis w)%C). { rewrite (surjective_pairing (cis w)). unfold Cmod. f_equal. pose proof (sin2_cos2 w) as E2. unfold Rsqr in E2. unfold cis. cbn. nra. }
  rewrite E. field. now apply Cmod_gt_0 in HD; lra.
Qed.
Lemma all_phase d x1 y1 sr freq : 0 < d -> 0 < sr -> 0 <= freq < sr / 2 ->
  factor (FAll (all_eta Rnum_ops d) x1 y1) sr freq = unit_at (- (2 * atan (d * tan (PI * freq / sr)))).
Proof.
  intros Hd Hs Hf. unfold factor. cbn [filt_response]. cplx. set (th := PI * freq / sr).
  assert (Ht : 0 <= th < PI / 2). { pose proof PI_RGT_0. unfold th. split; [apply Rmult_le_pos; [nra|left; now apply Rinv_0_lt_compat]|]. apply (Rmult_lt_reg_r sr); auto. unfold Rdiv. rewrite Rmult_assoc, Rinv_l by lra. nra. }
  replace (nneg nmR (ndiv nmR (nmul nmR freq (tau nmR elR)) sr)) with (- (2 * th)) by (unfold th, tau; cbn; unfold Rdiv; ring).
  assert (Hc : 0 < cos th) by (apply cos_gt_0; pose proof PI_RGT_0; lra). destruct (rat th Hc) as [Es Ec]. set (g := tan th) in *.
  assert (H2 : 0 < cos (atan (d * g))) by (pose proof (atan_bound (d * g)); apply cos_gt_0; lra). destruct (rat _ H2) as [Es2 Ec2]. rewrite tan_atan in Es2, Ec2.
  assert (Ez : cis (- (2 * th)) = ((1 - Ci * RtoC g) / (1 + Ci * RtoC g))%C).
  { unfold cis. rewrite cos_neg, sin_neg, Es, Ec. clear. assert (0 < 1 + g * g) by nra. apply injective_projections; cbn; field; repeat split; nra. }
  assert (Eu : unit_at (- (2 * atan (d * g))) = ((1 - Ci * RtoC d * RtoC g) / (1 + Ci * RtoC d * RtoC g))%C).
  { unfold unit_at. rewrite cos_neg, sin_neg, Es2, Ec2. clear. assert (0 < 1 + d * g * (d * g)) by nra. apply injective_projections; cbn; field; repeat split; nra. }
  rewrite Ez, Eu. unfold all_eta. change (ndiv nmR (nsub nmR (n1 nmR) d) (nadd nmR (n1 nmR) d)) with ((1 - d) / (1 + d)). rewrite RtoC_div, RtoC_minus, RtoC_plus by lra.
  match goal with |- ?a = ?b => change (@eq C a b) end. field. repeat split.
  - intros E. apply (f_equal fst) in E. cbn in E. lra.
  - intros E. apply (f_equal fst) in E. cbn in E. lra.
  - intros E. apply (f_equal fst) in E. cbn in E. lra.
  - intros E. apply (f_equal fst) in E. cbn in E. lra.
Qed.
(* the delay of a slow sinusoid, in samples *)
Lemma all_delay d : derivable_pt_lim (fun w => 2 * atan (d * tan (w / 2))) 0 d.
Proof.
  assert (H1 : derivable_pt_lim (fun w => w / 2) 0 (/ 2)).
  { intros e He. exists (mkposreal 1 Rlt_0_1). intros h Hh _. replace (((0 + h) / 2 - 0 / 2) / h - / 2) with 0 by (field; auto). now rewrite Rabs_R0. }
  assert (H2 : derivable_pt_lim tan (0 / 2) 1).
  { replace (0 / 2) with 0 by field. replace 1 with ((cos 0 * cos 0 - - sin 0 * sin 0) / Rsqr (cos 0)) by (rewrite cos_0, sin_0; unfold Rsqr; field).
    apply (derivable_pt_lim_div sin cos); [apply derivable_pt_lim_sin|apply derivable_pt_lim_cos|rewrite cos_0; lra]. }
  pose proof (derivable_pt_lim_comp _ _ _ _ _ H1 H2) as H3.
  pose proof (derivable_pt_lim_scal _ d _ _ H3) as H4.
  pose proof (derivable_pt_lim_comp _ atan _ _ _ H4 (derivable_pt_lim_atan _)) as H5.
  pose proof (derivable_pt_lim_scal _ 2 _ _ H5) as H6.
  match type of H6 with derivable_pt_lim _ _ ?v => assert (E : v = d); [|rewrite E in H6; exact H6] end.
  unfold mult_real_fct, comp, Rsqr. replace (0 / 2) with 0 by field. rewrite tan_0. field.
Qed.
Lemma all_slow d : 0 < d -> forall e, 0 < e -> exists b, 0 < b /\ forall w, 0 < w < b -> Rabs (2 * atan (d * tan (w / 2)) / w - d) < e.
Proof.
  intros Hd e He. destruct (all_delay d e He) as [b Hb]. exists b. split; [apply cond_pos|]. intros w Hw.
  specialize (Hb w ltac:(lra) ltac:(rewrite Rabs_right; lra)). rewrite Rplus_0_l in Hb. replace (0 / 2) with 0 in Hb by field. rewrite tan_0, Rmult_0_r, atan_0, Rmult_0_r, Rminus_0_r in Hb. exact Hb.
Qed.
(* squared levels of the one pole filters *)
Lemma low_level c v sr freq : 0 < c < 1 -> level (FLow c v) sr freq = (1 - c) / sqrt (1 + c * c - 2 * c * cos (2 * PI * freq / sr)).
Proof.
  intros Hc. rewrite level_eq. unfold factor. cbn [filt_response]. cplx. replace (nneg _ _) with (- (2 * PI * freq / sr)) by (unfold tau; cbn; unfold Rdiv; ring).
  set (w := 2 * PI * freq / sr). clearbody w. pose proof (COS_bound w) as B.
  assert (E : Cmod (1 - RtoC c * cis (- w))%C = sqrt (1 + c * c - 2 * c * cos w)).
  { unfold Cmod. f_equal. unfold cis. rewrite cos_neg, sin_neg. pose proof (sin2_cos2 w) as E2. unfold Rsqr in E2. cbn. nra. }
  assert (P : 0 < 1 + c * c - 2 * c * cos w) by nra. rewrite Cmod_div. 2:{ intros HH. rewrite HH, Cmod_0 in E. symmetry in E. apply sqrt_eq_0 in E; lra. }
  rewrite E. change (nsub nmR) with Rminus. rewrite Cmod_pos_real by lra. reflexivity.
Qed.
Lemma high_level c x1 y1 sr freq : 0 < c < 1 -> level (FHigh c x1 y1) sr freq = c * sqrt ((2 - 2 * cos (2 * PI * freq / sr)) / (1 + c * c - 2 * c * cos (2 * PI * freq / sr))).
Proof.
  intros Hc. rewrite level_eq. unfold factor. cbn [filt_response]. cplx. replace (nneg _ _) with (- (2 * PI * freq / sr)) by (unfold tau; cbn; unfold Rdiv; ring).
  set (w := 2 * PI * freq / sr). clearbody w. pose proof (COS_bound w) as B.
  assert (E : Cmod (1 - RtoC c * cis (- w))%C = sqrt (1 + c * c - 2 * c * cos w)).
  { unfold Cmod. f_equal. unfold cis. rewrite cos_neg, sin_neg. pose proof (sin2_cos2 w) as E2. unfold Rsqr in E2. cbn. nra. }
  assert (E' : Cmod (1 - cis (- w))%C = sqrt (2 - 2 * cos w)).
  { unfold Cmod. f_equal. unfold cis. rewrite cos_neg, sin_neg. pose proof (sin2_cos2 w) as E2. unfold Rsqr in E2. cbn. nra. }
  assert (P : 0 < 1 + c * c - 2 * c * cos w) by nra. rewrite Cmod_div. 2:{ intros HH. rewrite HH, Cmod_0 in E. symmetry in E. apply sqrt_eq_0 in E; lra. }
  rewrite Cmod_mult, E, E', Cmod_pos_real by lra. rewrite sqrt_div_alt by auto. unfold Rdiv. ring.
Qed.
Lemma falls sr f g : 0 < sr -> 0 <= f <= g -> g <= sr / 2 -> cos (2 * PI * g / sr) <= cos (2 * PI * f / sr).
Proof.
  intros Hs Hf Hg. pose proof PI_RGT_0. assert (0 < / sr) by (now apply Rinv_0_lt_compat).
  assert (M : forall h, 0 <= h <= sr / 2 -> 0 <= 2 * PI * h / sr <= PI).
  { intros h Hh. split; [apply Rmult_le_pos; [nra|lra]|]. apply (Rmult_le_reg_r sr); auto. unfold Rdiv. rewrite Rmult_assoc, Rinv_l by lra. nra. }
  apply cos_decr_1; try apply M; try lra. apply Rmult_le_compat_r; [lra|]. nra.
Qed.
Lemma low_falls c v sr f g : 0 < c < 1 -> 0 < sr -> 0 <= f <= g -> g <= sr / 2 -> level (FLow c v) sr g <= level (FLow c v) sr f.
Proof.
  intros Hc Hs Hf Hg. rewrite !low_level by auto. pose proof (falls sr f g Hs Hf Hg) as H. pose proof (COS_bound (2 * PI * f / sr)). pose proof (COS_bound (2 * PI * g / sr)).
  set (u := cos _) in *. set (v' := cos _) in *. apply Rmult_le_compat_l; [lra|]. apply Rinv_le_contravar; [apply sqrt_lt_R0; nra|]. apply sqrt_le_1_alt. nra.
Qed.
Lemma high_rises c x1 y1 sr f g : 0 < c < 1 -> 0 < sr -> 0 <= f <= g -> g <= sr / 2 -> level (FHigh c x1 y1) sr f <= level (FHigh c x1 y1) sr g.
Proof.
  intros Hc Hs Hf Hg. rewrite !high_level by auto. pose proof (falls sr f g Hs Hf Hg) as H. pose proof (COS_bound (2 * PI * f / sr)). pose proof (COS_bound (2 * PI * g / sr)).
  set (u := cos (2 * PI * f / sr)) in *. set (v := cos (2 * PI * g / sr)) in *. apply Rmult_le_compat_l; [lra|]. apply sqrt_le_1_alt.
  assert (Pu : 0 < 1 + c * c - 2 * c * u) by nra. assert (Pv : 0 < 1 + c * c - 2 * c * v) by nra.
  apply (Rmult_le_reg_r (1 + c * c - 2 * c * u)); auto. unfold Rdiv at 1. rewrite Rmult_assoc, Rinv_l, Rmult_1_r by lra.
  apply (Rmult_le_reg_r (1 + c * c - 2 * c * v)); auto. replace ((2 - 2 * v) / (1 + c * c - 2 * c * v) * (1 + c * c - 2 * c * u) * (1 + c * c - 2 * c * v)) with ((2 - 2 * v) * (1 + c * c - 2 * c * u)) by (field; lra).
  assert (0 <= (1 - c) * (1 - c) * (u - v)) by (apply Rmult_le_pos; nra). nra.
Qed.
Lemma pole_open sr cutoff : 0 < sr -> 0 < cutoff -> 0 < pole_coeff Rnum_ops R_elem sr cutoff < 1.
Proof.
  intros Hs Hc. pose proof (pole_bound sr cutoff Hs Hc) as H. apply Rabs_def2 in H. split; [apply exp_pos|lra].
Qed.

Lemma sigma_sum ws : sigma (length ws) (fun i => nth i ws 0) = fold_right Rplus 0 ws.
Proof.
  induction ws as [|w ws IH]; [reflexivity|]. cbn [length fold_right]. rewrite <- IH. clear IH. generalize (length ws) as n. intros n.
  induction n as [|n IH]; [cbn; ring|]. cbn [sigma] in *. rewrite IH. cbn [nth]. ring.
Qed.
Lemma fir_dc s sr : fst (factor (FFir s) sr 0) = fold_right Rplus 0 (f_w s).
Proof.
  destruct s as [ws v]. set (n := length ws). unfold factor. cbn [filt_response f_w]. fold n. rewrite polar_eq, cis0 by (unfold tau; cbn; unfold Rdiv; ring).
  assert (F : forall m, fold_left (fun acc i => (cadd nmR (fst acc) (cmul nmR (cre nmR (nth (n - 1 - i) ws (n0 nmR))) (snd acc)), cmul nmR (snd acc) (RtoC 1))) (seq 0 m) ((n0 nmR, n0 nmR), cre nmR (n1 nmR)) =
    (RtoC (sigma m (fun i => nth (n - 1 - i) ws 0)), RtoC 1)).
  { intros m. induction m as [|m IH]; [reflexivity|]. rewrite seq_S, fold_left_app, IH. cbn [fold_left fst snd Nat.add sigma]. f_equal; apply injective_projections; cbn; ring. }
  rewrite F. cbn [fst RtoC]. rewrite <- sigma_sum. fold n. rewrite <- (sigma_rev n). apply sigma_ext. intros i Hi. f_equal. lia.
Qed.
Lemma gain_dc sr f g : 0 < sr -> built sr f -> dc_gain f = Some g -> fst (factor f sr 0) = g.
Proof.
  intros Hs Hb Hg. pose proof (built_stable sr f Hs Hb) as H. destruct f; cbn [dc_gain stable] in *; try discriminate Hg; apply (f_equal (fun o => match o with Some v => v | None => 0 end)) in Hg; cbn in Hg; subst g; clear Hb;
    try apply fir_dc; try (rewrite svf_at_dc by (apply H); reflexivity);
    unfold factor; cbn [filt_response]; cplx; rewrite cis0 by (unfold tau; cbn; unfold Rdiv; ring); change (nsub nmR) with Rminus; change (nadd nmR) with Rplus; cbn; try reflexivity;
    try (apply Rabs_def2 in H); field; repeat split; nra.
Qed.
Lemma constant_settles sr f x l g : 0 < sr -> built sr f -> dc_gain f = Some g -> Un_cv x l -> Un_cv (filt_out f x) (l * g).
Proof. intros Hs Hb Hg Hx. apply tends_cv. rewrite <- (gain_dc sr f g Hs Hb Hg). apply constant_tends; [now apply built_stable|now apply tends_cv]. Qed.
Lemma constant_limit sr f x l : 0 < sr -> built sr f -> Un_cv x l -> Un_cv (filt_out f x) (l * fst (factor f sr 0)).
Proof. intros Hs Hb Hx. apply tends_cv. apply constant_tends; [now apply built_stable|now apply tends_cv]. Qed.
Lemma resonator_edges sr center q s : 0 < sr -> 0 < center -> 0 < q -> factor (of_coefs (resonator Rnum_ops R_elem sr center q) s) sr 0 = (0, 0) /\ factor (of_coefs (resonator Rnum_ops R_elem sr center q) s) sr (sr / 2) = (0, 0).
Proof.
  intros Hs Hc Hq. destruct s as [[[x1 x2] y1] y2].
  assert (N : (bi_b0 (resonator Rnum_ops R_elem sr center q) + bi_b2 (resonator Rnum_ops R_elem sr center q) = 0 /\ bi_b1 (resonator Rnum_ops R_elem sr center q) = 0)) by (cbn; split; ring).
  unfold factor. cbn [of_coefs filt_response bq_c]. rewrite !polar_eq. generalize dependent (resonator Rnum_ops R_elem sr center q). intros c [N0 N1].
  assert (G : forall z : C, (z * z = 1)%C -> bi_response nmR c z = (0, 0)).
  { intros z Hz. unfold bi_response. cplx. rewrite N1. rewrite Hz. replace (RtoC (bi_b0 c) + 0 * z + RtoC (bi_b2 c) * 1)%C with (RtoC (bi_b0 c + bi_b2 c)) by (rewrite RtoC_plus; ring). rewrite N0. unfold Cdiv. rewrite Cmult_0_l. reflexivity. }
  split; apply G; rewrite <- cis_add.
  - rewrite cis0 by (unfold tau; cbn; unfold Rdiv; ring). reflexivity.
  - replace (_ + _) with (- (2 * PI)) by (unfold tau; cbn; field; lra). unfold cis. rewrite cos_neg, sin_neg, cos_2PI, sin_2PI. apply injective_projections; cbn; ring.
Qed.
Lemma pole_slope sr cutoff x1 y1 f g : 0 < sr -> 0 < cutoff -> 0 <= f <= g -> g <= sr / 2 ->
  level (FLow (pole_coeff Rnum_ops R_elem sr cutoff) x1) sr g <= level (FLow (pole_coeff Rnum_ops R_elem sr cutoff) x1) sr f /\
  level (FHigh (pole_coeff Rnum_ops R_elem sr cutoff) x1 y1) sr f <= level (FHigh (pole_coeff Rnum_ops R_elem sr cutoff) x1 y1) sr g.
Proof. intros Hs Hc Hf Hg. pose proof (pole_open sr cutoff Hs Hc). split; [now apply low_falls|now apply high_rises]. Qed.
Lemma half_root : 0 < / sqrt 2. Proof. apply Rinv_0_lt_compat, sqrt_lt_R0. lra. Qed.
Lemma biquad_same sr cutoff q gain x t : 0 < cutoff < sr / 2 -> 0 < q -> 0 < gain ->
  filt_out (of_coefs (bi_lowpass Rnum_ops R_elem sr cutoff q) (0, 0, 0, 0)) x t = filt_out (FSvf (svf_new Rnum_ops R_elem MLowpass (mkSvp sr cutoff q gain))) x t /\
  filt_out (of_coefs (bi_highpass Rnum_ops R_elem sr cutoff q) (0, 0, 0, 0)) x t = filt_out (FSvf (svf_new Rnum_ops R_elem MHighpass (mkSvp sr cutoff q gain))) x t /\
  filt_out (of_coefs (bi_bell Rnum_ops R_elem sr cutoff q gain) (0, 0, 0, 0)) x t = filt_out (FSvf (svf_new Rnum_ops R_elem MBell (mkSvp sr cutoff q gain))) x t /\
  filt_out (of_coefs (butter_lowpass Rnum_ops R_elem sr cutoff) (0, 0, 0, 0)) x t = filt_out (FSvf (svf_new Rnum_ops R_elem MLowpass (mkSvp sr cutoff (/ sqrt 2) gain))) x t.
Proof.
  intros Hc Hq Ha. rewrite (lowpass_is sr cutoff q gain), (highpass_is sr cutoff q gain), bell_is, (butter_is sr cutoff gain) by auto.
  cbn [of_coefs]. repeat split; apply same_signal.
Qed.
Lemma biquad_levels sr cutoff q gain s : 0 < cutoff < sr / 2 -> 0 < q -> 0 < gain ->
  level (of_coefs (bi_lowpass Rnum_ops R_elem sr cutoff q) s) sr cutoff = q /\ level (of_coefs (bi_highpass Rnum_ops R_elem sr cutoff q) s) sr cutoff = q /\
  level (of_coefs (bi_bell Rnum_ops R_elem sr cutoff q gain) s) sr cutoff = gain /\ level (of_coefs (butter_lowpass Rnum_ops R_elem sr cutoff) s) sr cutoff = / sqrt 2.
Proof.
  intros Hc Hq Ha. rewrite (lowpass_is sr cutoff q gain), (highpass_is sr cutoff q gain), bell_is, (butter_is sr cutoff gain) by auto.
  assert (P : forall m q, 0 < q -> level (of_coefs (as_biquad (sv_coefs Rnum_ops R_elem m (mkSvp sr cutoff q gain))) s) sr cutoff = svf_level m q gain).
  { intros m q' Hq'. assert (Hp : params_ok (mkSvp sr cutoff q' gain)) by (repeat split; cbn; lra). unfold level. rewrite same_factor by auto. exact (svf_at_cutoff (svf_new Rnum_ops R_elem m (mkSvp sr cutoff q' gain)) sr eq_refl Hp). }
  rewrite !P by (auto using half_root). repeat split.
Qed.
Lemma biquad_edges sr cutoff q gain s : 0 < cutoff < sr / 2 -> 0 < q -> 0 < gain ->
  map (fun c => (factor (of_coefs c s) sr 0, factor (of_coefs c s) sr (sr / 2)))
    [bi_lowpass Rnum_ops R_elem sr cutoff q; bi_highpass Rnum_ops R_elem sr cutoff q; bi_bell Rnum_ops R_elem sr cutoff q gain;
     butter_lowpass Rnum_ops R_elem sr cutoff; resonator Rnum_ops R_elem sr cutoff q] =
    [((1, 0), (0, 0)); ((0, 0), (1, 0)); ((1, 0), (1, 0)); ((1, 0), (0, 0)); ((0, 0), (0, 0))].
Proof.
  intros Hc Hq Ha. rewrite (lowpass_is sr cutoff q gain), (highpass_is sr cutoff q gain), bell_is, (butter_is sr cutoff gain) by auto.
  assert (P : forall m q, 0 < q -> factor (of_coefs (as_biquad (sv_coefs Rnum_ops R_elem m (mkSvp sr cutoff q gain))) s) sr 0 = (svf_dc m gain, 0) /\
    factor (of_coefs (as_biquad (sv_coefs Rnum_ops R_elem m (mkSvp sr cutoff q gain))) s) sr (sr / 2) = (svf_nyquist m gain, 0)).
  { intros m q' Hq'. assert (Hp : params_ok (mkSvp sr cutoff q' gain)) by (repeat split; cbn; lra). rewrite !same_factor by auto.
    split; [exact (svf_at_dc (svf_new Rnum_ops R_elem m (mkSvp sr cutoff q' gain)) sr eq_refl Hp)|exact (svf_at_nyquist (svf_new Rnum_ops R_elem m (mkSvp sr cutoff q' gain)) sr eq_refl Hp)]. }
  destruct (resonator_edges sr cutoff q s) as [E1 E2]; try lra. cbn [map]. rewrite E1, E2.
  destruct (P MLowpass q Hq) as [-> ->]. destruct (P MHighpass q Hq) as [-> ->]. destruct (P MBell q Hq) as [-> ->]. destruct (P MLowpass (/ sqrt 2) half_root) as [-> ->]. reflexivity.
Qed.
