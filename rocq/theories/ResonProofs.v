(* Proofs about resonators. *)
From Coq Require Import Reals Lra Lia.
From Coquelicot Require Import Complex.
From Verif Require Import ResonSpec ResonModel DesignProofs CharProofs.
Local Open Scope R_scope.

Section Reson.
  Variables sr f q : R.
  Hypothesis Hf : 0 < f < sr / 2.
  Hypothesis Hq : 0 < q.
  Let r := exp (- (PI * f / q) * (1 / sr)).
  Let w := 2 * PI * f / sr.
  Let c := resonator Rnum_ops R_elem sr f q.
  Notation H k := (bi_b0 c * two_kicks sr f q k).
  Lemma sr_pos : 0 < sr. Proof. lra. Qed.
  Lemma r_range : 0 < r < 1.
  Proof.
    split; [apply exp_pos|]. rewrite <- exp_0. apply exp_increasing. pose proof PI_RGT_0. pose proof sr_pos.
    assert (0 < PI * f / q * (1 / sr)); [|lra]. apply Rmult_lt_0_compat; apply Rdiv_lt_0_compat; try lra. apply Rmult_lt_0_compat; lra.
  Qed.
  Lemma r_code : exp (- PI * f / (q * sr)) = r.
  Proof. unfold r. f_equal. field. pose proof sr_pos. split; lra. Qed.
  Lemma c_a1 : bi_a1 c = -2 * r * cos w.
  Proof. unfold c, resonator. cbn. rewrite r_code. unfold w, tau. cbn. reflexivity. Qed.
  Lemma c_a2 : bi_a2 c = r * r.
  Proof. unfold c, resonator. cbn. now rewrite r_code. Qed.
  Lemma c_b0 : bi_b0 c = sqrt (1 - r * r) * (1 / 2).
  Proof. unfold c, resonator. cbn. now rewrite r_code. Qed.
  Lemma c_b1 : bi_b1 c = 0. Proof. reflexivity. Qed.
  Lemma c_b2 : bi_b2 c = - bi_b0 c. Proof. reflexivity. Qed.
  Lemma sin_w : 0 < sin w.
  Proof. destruct (omega_range sr f Hf). apply sin_gt_0; unfold w; lra. Qed.
  Lemma ring_pow k : ringing sr f q k = r ^ k * sin (INR (S k) * w) / sin w.
  Proof.
    unfold ringing. fold w. f_equal. f_equal.
    - unfold r. induction k as [|k IH]; [cbn; rewrite <- exp_0; f_equal; unfold Rdiv; ring|]. cbn [pow]. rewrite <- IH, <- exp_plus. f_equal. rewrite S_INR. pose proof sr_pos. field. lra.
    - f_equal. unfold w. pose proof sr_pos. field. lra.
  Qed.
  Lemma ring_0 : ringing sr f q 0 = 1.
  Proof. rewrite ring_pow. cbn [pow INR]. rewrite !Rmult_1_l. field. pose proof sin_w. lra. Qed.
  Lemma ring_1 : ringing sr f q 1 = 2 * r * cos w.
  Proof. rewrite ring_pow. replace (INR 2 * w) with (2 * w) by (cbn; ring). rewrite sin_2a. field. pose proof sin_w. lra. Qed.
  Lemma ring_SS k : ringing sr f q (S (S k)) = 2 * r * cos w * ringing sr f q (S k) - r * r * ringing sr f q k.
  Proof.
    rewrite !ring_pow. cbn [pow]. assert (E : sin (INR (S (S (S k))) * w) = 2 * cos w * sin (INR (S (S k)) * w) - sin (INR (S k) * w)).
    { replace (INR (S (S (S k))) * w) with (INR (S (S k)) * w + w) by (rewrite (S_INR (S (S k))); ring). replace (INR (S k) * w) with (INR (S (S k)) * w - w) by (rewrite (S_INR (S k)); ring).
      rewrite sin_plus, sin_minus. ring. }
    rewrite E. field. pose proof sin_w. lra.
  Qed.
  Lemma kick_rec k : two_kicks sr f q (S (S (S k))) = - bi_a1 c * two_kicks sr f q (S (S k)) - bi_a2 c * two_kicks sr f q (S k).
  Proof. rewrite c_a1, c_a2. destruct k as [|k]; cbn [two_kicks]; [|rewrite (ring_SS (S (S k))), !(ring_SS k), (ring_SS (S k)), (ring_SS k); ring]. rewrite (ring_SS 1), (ring_SS 0), ring_1, ring_0. ring. Qed.
  Lemma kick_2 : two_kicks sr f q 2 = - bi_a1 c * two_kicks sr f q 1 - bi_a2 c * two_kicks sr f q 0 - 1.
  Proof. rewrite c_a1, c_a2. cbn [two_kicks]. rewrite (ring_SS 0), ring_0. ring. Qed.
  Lemma kick_1 : two_kicks sr f q 1 = - bi_a1 c * two_kicks sr f q 0.
  Proof. rewrite c_a1. cbn [two_kicks]. rewrite ring_1, ring_0. ring. Qed.

  (* the node *)
  Context {G S' X : Type}.
  Variable tl_ : tools R G S' X.
  Notation outs := (t_outs Rnum_ops tl_).
  Notation nod y1 y2 := (TReson false (mkBiquad c 0 0 y1 y2) sr f q).
  Lemma silence N : forall k, outs (nod (H (S (S k))) (H (S k))) (repeat (ATick [0]) N) = Some (map (fun j => [H j]) (seq (S (S (S k))) N)).
  Proof.
    induction N as [|N IH]; intros k; [reflexivity|]. unfold t_outs in *. cbn [repeat t_run t_tick nth andb]. unfold bi_step. cbn [bq_c bq_x1 bq_x2 bq_y1 bq_y2].
    match goal with |- context [TReson false (mkBiquad c 0 0 ?y ?z) sr f q] => replace y with (H (S (S (S k)))) end.
    - specialize (IH (S k)). destruct (t_run _ _ _ _) as [[m os]|]; [|discriminate]. cbn [seq map]. congruence.
    - rewrite kick_rec. cbn [nadd nsub nmul Rnum_ops]. ring.
  Qed.
  Lemma tick_reson x x1 x2 y1 y2 : t_tick Rnum_ops tl_ (TReson false (mkBiquad c x1 x2 y1 y2) sr f q) [x] =
    let y := bi_b0 c * x + bi_b1 c * x1 + bi_b2 c * x2 - bi_a1 c * y1 - bi_a2 c * y2 in (TReson false (mkBiquad c x x1 y y1) sr f q, [y]).
  Proof. reflexivity. Qed.
  Lemma pulse N n : tl_elem tl_ = R_elem -> build Rnum_ops tl_ false (OReson f q) = Some n -> outs (t_rate Rnum_ops tl_ n sr) (pulse_in N) = Some (map (fun k => [H k]) (seq 0 (S N))).
  Proof.
    intros He [= <-]. unfold reson_tune. cbn [t_rate]. unfold reson_tune, with_coefs, bi_zero. cbn [bq_x1 bq_x2 bq_y1 bq_y2]. rewrite He. fold c. cbn [n0 nofZ Rnum_ops].
    unfold pulse_in, t_outs. cbn [t_run]. rewrite tick_reson. cbv zeta.
    replace (bi_b0 c * 1 + bi_b1 c * 0 + bi_b2 c * 0 - bi_a1 c * 0 - bi_a2 c * 0) with (H 0) by (cbn [two_kicks]; rewrite ring_0; ring).
    destruct N as [|N]; [reflexivity|]. cbn [repeat t_run]. rewrite tick_reson. cbv zeta.
    replace (bi_b0 c * 0 + bi_b1 c * 1 + bi_b2 c * 0 - bi_a1 c * H 0 - bi_a2 c * 0) with (H 1) by (rewrite kick_1; cbn [two_kicks]; rewrite ring_0, c_b1; ring).
    destruct N as [|N]; [reflexivity|]. cbn [repeat t_run]. rewrite tick_reson. cbv zeta.
    replace (bi_b0 c * 0 + bi_b1 c * 0 + bi_b2 c * 1 - bi_a1 c * H 1 - bi_a2 c * H 0) with (H 2) by (rewrite kick_2; cbn [two_kicks]; rewrite ring_0, c_b2; ring).
    pose proof (silence N 0) as S0. unfold t_outs in S0. destruct (t_run _ _ _ _) as [[m os]|]; [|discriminate]. injection S0 as ->. reflexivity.
  Qed.

  (* energy: what is still to come when the last two outputs are y1 and y2 *)
  Let a1 := bi_a1 c.
  Let a2 := bi_a2 c.
  Let K := (1 + a2) / ((1 - a2) * ((1 + a2) * (1 + a2) - a1 * a1)).
  Definition to_come (y1 y2 : R) : R := (K - 1) * (y1 * y1) + 2 * (K * a1 * a2 / (1 + a2)) * (y1 * y2) + K * (a2 * a2) * (y2 * y2).
  Lemma a_range : 0 < a2 < 1 /\ a1 * a1 < (1 + a2) * (1 + a2).
  Proof.
    unfold a1, a2. rewrite c_a1, c_a2. pose proof r_range. destruct (omega_range sr f Hf) as [W1 W2]. pose proof (cos_inside w (conj W1 W2)) as [C1 C2]. split; [nra|].
    assert (cos w * cos w < 1) by nra. assert (0 < (1 - r * r) * (1 - r * r)) by (apply Rmult_lt_0_compat; nra). nra.
  Qed.
  Lemma dens : 1 - a2 <> 0 /\ (1 + a2) * (1 + a2) - a1 * a1 <> 0 /\ 1 + a2 <> 0.
  Proof. pose proof a_range. repeat split; lra. Qed.
  Lemma come_step y1 y2 : let y := - a1 * y1 - a2 * y2 in to_come y1 y2 = y * y + to_come y y1.
  Proof. cbv zeta. destruct dens as (D1 & D2 & D3). unfold to_come, K. field. repeat split; auto. Qed.
  Lemma b0_sq : bi_b0 c * bi_b0 c = (1 - a2) / 4.
  Proof. rewrite c_b0. unfold a2. rewrite c_a2. pose proof r_range. assert (Q : sqrt (1 - r * r) * sqrt (1 - r * r) = 1 - r * r) by (apply sqrt_sqrt; nra). set (t := sqrt _) in *. nra. Qed.
  Lemma come_start : H 0 * H 0 + H 1 * H 1 + H 2 * H 2 + to_come (H 2) (H 1) = 1 / 2.
  Proof.
    rewrite kick_2, kick_1. replace (two_kicks sr f q 0) with 1 by (cbn [two_kicks]; now rewrite ring_0). fold a1 a2. destruct dens as (D1 & D2 & D3).
    transitivity (2 * (bi_b0 c * bi_b0 c) / (1 - a2)).
    - unfold to_come, K. field. repeat split; auto.
    - rewrite b0_sq. field. auto.
  Qed.
  Fixpoint spent (k : nat) : R := match k with O => 0 | S k => spent k + H k * H k end.
  Lemma spent_come k : spent (S (S (S k))) + to_come (H (S (S k))) (H (S k)) = 1 / 2.
  Proof.
    induction k as [|k IH]; [rewrite <- come_start; cbn [spent]; ring|]. rewrite <- IH, (come_step (H (S (S k))) (H (S k))). cbv zeta.
    replace (- a1 * H (S (S k)) - a2 * H (S k)) with (H (S (S (S k)))) by (rewrite kick_rec; unfold a1, a2; ring). cbn [spent]. ring.
  Qed.
  Lemma energy_app xs y : energy (xs ++ [[y]]) = energy xs + y * y.
  Proof. induction xs as [|x xs IH]; cbn [app]; [cbn; ring|]. unfold energy in *. cbn [fold_right]. rewrite IH. clear IH. set (e := fold_right _ 0 xs). clearbody e. induction x as [|z x IH]; cbn [fold_right]; [ring|]. rewrite IH. ring. Qed.
  Lemma energy_spent N : energy (map (fun k => [H k]) (seq 0 N)) = spent N.
  Proof. induction N as [|N IH]; [reflexivity|]. rewrite seq_S, map_app. cbn [map]. rewrite energy_app, IH. reflexivity. Qed.
  Lemma quiet_end : vanishes (fun k => H k).
  Proof.
    apply (vanishes_back 1). apply (second_real a1 a2 _ (fun _ => 0)).
    - pose proof a_range as [A B]. split; [rewrite Rabs_pos_eq; lra|]. apply Rsqr_incrst_0; [|apply Rabs_pos|lra]. rewrite <- Rsqr_abs. exact B.
    - intros t. cbn [Nat.add]. rewrite kick_rec. unfold a1, a2. ring.
    - apply vanishes_0.
  Qed.
  Lemma constant_gain n eps : tl_elem tl_ = R_elem -> build Rnum_ops tl_ false (OReson f q) = Some n -> 0 < eps ->
    exists N0, forall N, (N0 <= N)%nat -> exists os, outs (t_rate Rnum_ops tl_ n sr) (pulse_in N) = Some os /\ Rabs (energy os - 1 / 2) < eps.
  Proof.
    intros He Hn Hp. assert (V : vanishes (fun k => to_come (H (S (S k))) (H (S k)))).
    { pose proof quiet_end as Q. assert (Q2 : vanishes (fun k => H (S (S k)))) by exact (vanishes_shift 2 _ Q). assert (Q1 : vanishes (fun k => H (S k))) by exact (vanishes_shift 1 _ Q).
      assert (M : forall u v, vanishes u -> vanishes v -> vanishes (fun k => u k * v k)).
      { intros u v Hu Hv. apply vanishes_cv in Hu, Hv. apply vanishes_cv. replace 0 with (0 * 0) by ring. now apply CV_mult. }
      unfold to_come. apply vanishes_plus; [apply vanishes_plus|]; apply vanishes_scale; now apply M. }
    destruct (V eps Hp) as [N0 HN]. exists (N0 + 2)%nat. intros N HNN. exists (map (fun k => [H k]) (seq 0 (S N))). split; [now apply pulse|]. rewrite energy_spent.
    specialize (HN (N - 2)%nat ltac:(lia)). pose proof (spent_come (N - 2)) as E. replace (S (S (S (N - 2)))) with (S N) in E by lia.
    replace (spent (S N) - 1 / 2) with (- to_come (H (S (S (N - 2)))) (H (S (N - 2)))) by lra. now rewrite Rabs_Ropp.
  Qed.
End Reson.

Section Quarter.
  Variables sr q : R.
  Hypothesis Hs : 0 < sr.
  Hypothesis Hq : 0 < q.
  Let r := exp (- (PI / (4 * q))).
  Lemma qr_range : 0 < r < 1.
  Proof. split; [apply exp_pos|]. rewrite <- exp_0. apply exp_increasing. pose proof PI_RGT_0. assert (0 < PI / (4 * q)) by (apply Rdiv_lt_0_compat; lra). lra. Qed.
  Notation lev s f := (level (of_coefs (resonator Rnum_ops R_elem sr (sr / 4) q) s) sr f).
  Lemma quarter_level s f : let t := 4 * PI * f / sr in lev s f * lev s f = (1 - r * r) / 4 * ((2 - 2 * cos t) / (1 + r * r * (r * r) + 2 * (r * r) * cos t)).
  Proof.
    intros t. rewrite level_eq. assert (Hf : 0 < sr / 4 < sr / 2) by lra. pose proof qr_range as Hr.
    assert (Er : exp (- (PI * (sr / 4) / q) * (1 / sr)) = r) by (unfold r; f_equal; field; lra).
    assert (Ew : cos (2 * PI * (sr / 4) / sr) = 0) by (replace (2 * PI * (sr / 4) / sr) with (PI / 2) by (field; lra); apply cos_PI2).
    pose proof (c_a1 sr (sr / 4) q Hf Hq) as A1. pose proof (c_a2 sr (sr / 4) q Hf Hq) as A2. pose proof (b0_sq sr (sr / 4) q Hf Hq) as B0. pose proof (c_b1 sr (sr / 4) q) as B1. pose proof (c_b2 sr (sr / 4) q) as B2.
    rewrite Er in A1, A2. rewrite Ew in A1. rewrite A2 in B0. rewrite Rmult_0_r in A1.
    unfold factor. destruct s as [[[x1 x2] y1] y2]. cbn [of_coefs filt_response bq_c]. unfold bi_response. cplx. rewrite A1, A2, B1, B2. set (b := bi_b0 _) in *. clearbody b. clear A1 A2 B1 B2.
    rewrite <- cis_add. replace (_ + _) with (- t) by (unfold t, tau; cbn; field; lra). assert (Z : cis (- t) = (cos t, - sin t)) by (unfold cis; rewrite cos_neg, sin_neg; reflexivity). rewrite Z. clear Z. generalize (cis (nmul nmR (nneg nmR (tau nmR elR)) (ndiv nmR f sr))). intros [z1 z2].
    match goal with |- Cmod (?x / ?y)%C * _ = _ => replace x with ((b * (1 - cos t), b * sin t) : C) by (apply injective_projections; cbn; ring); replace y with ((1 + r * r * cos t, - (r * r * sin t)) : C) by (apply injective_projections; cbn; ring) end.
    pose proof (sin2_cos2 t) as SC. unfold Rsqr in SC. pose proof (COS_bound t) as CB.
    assert (P2 : 1 + r * r * (r * r) + 2 * (r * r) * cos t > 0).
    { assert (0 < r * r < 1) by nra. set (u := r * r) in *. clearbody u. nra. }
    assert (Q2 : (1 + r * r * cos t) * (1 + r * r * cos t) + - (r * r * sin t) * - (r * r * sin t) = 1 + r * r * (r * r) + 2 * (r * r) * cos t).
    { set (u := r * r). set (S := sin t) in *. set (C := cos t) in *. assert (SS : S * S = 1 - C * C) by lra. replace (- (u * S) * - (u * S)) with (u * u * (S * S)) by ring. rewrite SS. ring. }
    assert (Q1 : b * (1 - cos t) * (b * (1 - cos t)) + b * sin t * (b * sin t) = b * b * (2 - 2 * cos t)).
    { set (S := sin t) in *. set (C := cos t) in *. replace (b * S * (b * S)) with (b * b * (S * S)) by ring. replace (S * S) with (1 - C * C) by lra. ring. }
    rewrite Cmod_div. 2:{ intros HH. injection HH. intros H1 H2. rewrite H1, H2 in Q2. lra. }
    rewrite !Cmod_pair, Q1, Q2. rewrite B0. set (d := 1 + r * r * (r * r) + 2 * (r * r) * cos t) in *.
    assert (N0 : 0 <= (1 - r * r) / 4 * (2 - 2 * cos t)) by (apply Rmult_le_pos; nra).
    pose proof (sqrt_sqrt _ N0) as S1. pose proof (sqrt_sqrt d ltac:(lra)) as S2. assert (sqrt d <> 0) by (apply Rgt_not_eq, sqrt_lt_R0; lra).
    transitivity ((sqrt ((1 - r * r) / 4 * (2 - 2 * cos t)) * sqrt ((1 - r * r) / 4 * (2 - 2 * cos t))) / (sqrt d * sqrt d)); [field; auto|]. rewrite S1, S2. field. lra.
  Qed.

  Context {G S X : Type} (tl_ : tools R G S X).
  Hypothesis Htl : tl_elem tl_ = R_elem.
  Let u := r * r.
  Lemma u_range : 0 < u < 1. Proof. pose proof qr_range. unfold u. nra. Qed.
  Lemma quarter_power f : tone_power tl_ (OReson (sr / 4) q) sr f = Some ((1 - u) / 2 * (1 + cos (4 * PI * (f - sr / 4) / sr)) / (1 + u * u - 2 * u * cos (4 * PI * (f - sr / 4) / sr))).
  Proof.
    unfold tone_power. cbn [build t_rate]. unfold reson_tune. cbn [t_rate]. unfold reson_tune. rewrite Htl. f_equal.
    match goal with |- level (FBiquad (with_coefs ?b _)) _ _ * _ = _ => destruct b as [c0 y1 y2 y3 y4] eqn:E end. clear E. unfold with_coefs.
    change (FBiquad _) with (of_coefs (resonator Rnum_ops R_elem sr (sr / 4) q) (y1, y2, y3, y4)). rewrite quarter_level.
    replace (4 * PI * f / sr) with (4 * PI * (f - sr / 4) / sr + PI) by (field; lra). rewrite neg_cos. fold u. set (k := cos (4 * PI * (f - sr / 4) / sr)).
    pose proof u_range. assert (-1 <= k <= 1) by apply COS_bound. assert (1 + u * u - 2 * u * k > 0) by nra. assert (1 + u * u + 2 * u * - k <> 0) by lra. field. lra.
  Qed.
  Lemma quarter_center : tone_power tl_ (OReson (sr / 4) q) sr (sr / 4) = Some (1 / (1 - u)).
  Proof. rewrite quarter_power. f_equal. replace (4 * PI * (sr / 4 - sr / 4) / sr) with 0 by (field; lra). rewrite cos_0. pose proof u_range. field. nra. Qed.
  Lemma u_exp : u = exp (- (PI / (2 * q))).
  Proof. unfold u, r. rewrite <- exp_plus. f_equal. field. lra. Qed.
  Lemma half_iff f p pc : tone_power tl_ (OReson (sr / 4) q) sr f = Some p -> tone_power tl_ (OReson (sr / 4) q) sr (sr / 4) = Some pc ->
    (pc / 2 <= p <-> 1 <= cos (4 * PI * (f - sr / 4) / sr) * cosh (PI / (2 * q))).
  Proof.
    rewrite quarter_center, quarter_power. intros [= <-] [= <-]. set (k := cos _). assert (K : -1 <= k <= 1) by apply COS_bound. pose proof u_range as U.
    assert (Ec : cosh (PI / (2 * q)) = (1 + u * u) / (2 * u)).
    { unfold cosh. rewrite <- u_exp. replace (exp (PI / (2 * q))) with (/ u); [field; lra|]. rewrite u_exp, <- exp_Ropp. f_equal. ring. }
    rewrite Ec. clearbody k. clear Ec. set (d := 1 + u * u - 2 * u * k). assert (D : 0 < d) by (unfold d; nra).
    assert (E1 : (1 - u) / 2 * (1 + k) / d - 1 / (1 - u) / 2 = ((1 + u * u) * k - 2 * u) / (2 * d * (1 - u))) by (unfold d in *; field; split; lra).
    assert (E2 : k * ((1 + u * u) / (2 * u)) - 1 = ((1 + u * u) * k - 2 * u) / (2 * u)) by (field; lra).
    set (n := (1 + u * u) * k - 2 * u) in *.
    assert (P1 : 0 < / (2 * d * (1 - u))) by (apply Rinv_0_lt_compat; nra). assert (P2 : 0 < / (2 * u)) by (apply Rinv_0_lt_compat; lra). 
    split; intros L.
    - assert (0 <= n / (2 * d * (1 - u))) by lra. assert (0 <= n) by (unfold Rdiv in *; nra). assert (0 <= n / (2 * u)) by (apply Rmult_le_pos; lra). lra.
    - assert (0 <= n / (2 * u)) by lra. assert (0 <= n) by (unfold Rdiv in *; nra). assert (0 <= n / (2 * d * (1 - u))) by (apply Rmult_le_pos; lra). lra.
  Qed.
End Quarter.


(* a band of "5 Hz" around 11025 Hz lets 11576 Hz through *)
Lemma not_hertz {G S X : Type} (tl : tools R G S X) : tl_elem tl = R_elem -> exists p pc,
  tone_power tl (hacker_resonator_hz (44100 / 4) 5) 44100 (44100 / 4 + 44100 / 80) = Some p /\ tone_power tl (hacker_resonator_hz (44100 / 4) 5) 44100 (44100 / 4) = Some pc /\ pc / 2 < p.
Proof.
  intros Ht. unfold hacker_resonator_hz. assert (H5 : 0 < 5) by lra. assert (H44 : 0 < 44100) by lra.
  eexists. eexists. split; [apply quarter_power; auto|]. split; [apply quarter_center; auto|].
  set (r := exp (- (PI / (4 * 5)))). set (u := r * r). pose proof (qr_range 5 H5) as Rr. fold r in Rr. assert (U : 0 < u < 1) by (unfold u; nra).
  replace (4 * PI * (44100 / 4 + 44100 / 80 - 44100 / 4) / 44100) with (PI / 20) by field. set (a := PI / 20) in *. set (k := cos a).
  assert (A : 0 < a <= 1 / 5) by (unfold a; pose proof PI_RGT_0; pose proof PI_4; lra).
  assert (K : 1 - a * a / 2 <= k). { unfold k. replace (cos a) with (cos (2 * (a / 2))) by (f_equal; field). rewrite cos_2a_sin. assert (sin (a / 2) < a / 2) by (apply sin_lt_x; lra). assert (0 < sin (a / 2)) by (apply sin_gt_0; [lra|pose proof PI_RGT_0; unfold a in *; lra]). nra. }
  assert (E : r * (1 + a) <= 1).
  { assert (1 + a < exp a) by (apply exp_ineq1; lra). assert (r * exp a = 1) by (unfold r; rewrite <- exp_plus; replace (- (PI / (4 * 5)) + a) with 0 by (unfold a; field); apply exp_0). nra. }
  assert (K1 : k <= 1) by apply COS_bound.
  assert (L : 2 * u < (1 + u * u) * k).
  { assert (M : 9 / 5 * a * r <= 1 - u). { unfold u. assert (r <= 1 / (1 + a)) by (apply Rmult_le_reg_r with (1 + a); [lra|]; unfold Rdiv; rewrite Rmult_assoc, Rinv_l by lra; lra). nra. }
    assert (81 / 25 * (a * a) * u <= (1 - u) * (1 - u)) by (unfold u at 1; assert (0 <= 9 / 5 * a * r) by nra; nra).
    assert (98 / 100 <= k) by nra. assert (0 < a * a) by nra. set (aa := a * a) in *. set (v := (1 - u) * (1 - u)) in *. assert (V : (1 + u * u) * k - 2 * u = k * v - 2 * u * (1 - k)) by (unfold v; ring).
    assert (98 / 100 * (81 / 25 * aa * u) <= k * v) by (apply Rmult_le_compat; nra). assert (2 * u * (1 - k) <= 2 * u * (aa / 2)) by (apply Rmult_le_compat_l; lra). assert (0 < aa * u) by nra. lra. }
  set (d := 1 + u * u - 2 * u * k). assert (D : 0 < d) by (unfold d; nra).
  assert (E1 : (1 - u) / 2 * (1 + k) / d - 1 / (1 - u) / 2 = ((1 + u * u) * k - 2 * u) / (2 * d * (1 - u))) by (unfold d in *; field; split; lra).
  assert (0 < ((1 + u * u) * k - 2 * u) / (2 * d * (1 - u))) by (apply Rdiv_lt_0_compat; [lra|nra]). lra.
Qed.
Lemma b0_pos sr f q : 0 < f < sr / 2 -> 0 < q -> 0 < bi_b0 (resonator Rnum_ops R_elem sr f q).
Proof. intros Hf Hq. rewrite c_b0 by auto. pose proof (r_range sr f q Hf Hq) as Hr. set (r := exp _) in *. assert (0 < sqrt (1 - r * r)) by (apply sqrt_lt_R0; nra). lra. Qed.
Lemma center_power_above q : 0 < q -> 1 < 1 / (1 - exp (- (PI / (2 * q)))).
Proof.
  intros Hq. rewrite <- (u_exp q Hq). pose proof (u_range q Hq) as U. set (u := _ * _) in *. apply Rmult_lt_reg_r with (1 - u); [lra|]. unfold Rdiv. rewrite Rmult_assoc, Rinv_l by lra. lra.
Qed.
Lemma tone_gain_unbounded {G S X : Type} (tl : tools R G S X) : tl_elem tl = R_elem ->
  ~ (exists g, forall (sr center q p : R), 0 < q -> 0 < center < sr / 2 -> tone_power tl (prelude_resonator_hz center q) sr center = Some p -> p <= g).
Proof.
  intros He [g H]. set (h := Rmax g 1). assert (H1 : 1 <= h) by apply Rmax_r. assert (H2 : g <= h) by apply Rmax_l.
  assert (Hq : 0 < PI * h) by (pose proof PI_RGT_0; nra).
  pose proof (H 4 (4 / 4) (PI * h) _ Hq ltac:(lra) (quarter_center 4 (PI * h) ltac:(lra) Hq tl He)) as L. rewrite (u_exp _ Hq) in L.
  replace (PI / (2 * (PI * h))) with (/ (2 * h)) in L by (field; pose proof PI_RGT_0; lra).
  pose proof (exp_ineq1_le (- / (2 * h))) as I. assert (P : 0 < / (2 * h)) by (apply Rinv_0_lt_compat; lra). assert (Q : h * / (2 * h) = 1 / 2) by (field; lra).
  assert (E : exp (- / (2 * h)) < 1) by (rewrite <- exp_0; apply exp_increasing; lra). set (e := exp _) in *.
  assert (1 / (1 - e) * (1 - e) = 1) by (field; lra). nra.
Qed.
