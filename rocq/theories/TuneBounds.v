(* Filters that are not linear stay bounded; the lanes of a bank of biquads are biquads; shaped biquads whose shape does nothing are biquads. *)
From Coq Require Import Reals Lra.
From Verif Require Import ShapeProofs TuneProofs TuneReal TuneSpec.
Local Open Scope R_scope.

Lemma sin_part sr f : 0 < f < sr / 2 -> 0 < PI * f / sr < PI / 2.
Proof.
  intros H. assert (0 < sr) by lra. pose proof PI_RGT_0. replace (PI * f / sr) with (PI * (f / sr)) by (field; lra).
  assert (0 < f / sr < 1 / 2). { split; [apply Rdiv_lt_0_compat; lra|]. apply (Rmult_lt_reg_r sr); [lra|]. replace (f / sr * sr) with f by (field; lra). lra. }
  nra.
Qed.
Lemma sin_order sr lo hi f : 0 < lo -> hi < sr / 2 -> lo <= f <= hi ->
  0 < sin (PI * lo / sr) <= sin (PI * f / sr) /\ sin (PI * f / sr) <= sin (PI * hi / sr) < 1.
Proof.
  intros L H B. assert (0 < sr) by lra. pose proof PI_RGT_0.
  pose proof (sin_part sr lo ltac:(lra)). pose proof (sin_part sr f ltac:(lra)). pose proof (sin_part sr hi ltac:(lra)).
  assert (PI * lo / sr <= PI * f / sr <= PI * hi / sr).
  { unfold Rdiv. split; apply Rmult_le_compat_r; try (apply Rlt_le, Rinv_0_lt_compat; lra); nra. }
  repeat split.
  - apply sin_gt_0; lra.
  - apply sin_incr_1; lra.
  - apply sin_incr_1; lra.
  - rewrite <- sin_PI2. apply sin_increasing_1; lra.
Qed.
Lemma abs_le x b : Rabs x <= b <-> - b <= x <= b.
Proof. unfold Rabs. destruct (Rcase_abs x); lra. Qed.
Lemma abs_mul x y a b : Rabs x <= a -> Rabs y <= b -> Rabs (x * y) <= a * b.
Proof. intros. rewrite Rabs_mult. apply Rmult_le_compat; auto using Rabs_pos. Qed.
Lemma abs_sum x y a b : Rabs x <= a -> Rabs y <= b -> Rabs (x + y) <= a + b.
Proof. intros. eapply Rle_trans; [apply Rabs_triang|lra]. Qed.
Lemma abs_diff x y a b : Rabs x <= a -> Rabs y <= b -> Rabs (x - y) <= a + b.
Proof. intros. apply abs_sum; [auto|]. now rewrite Rabs_Ropp. Qed.

Section Bounds.
  Context {G S X : Type}.
  Variable tl : tools R G S X.
  Hypothesis Hel : tl_elem tl = R_elem.
  Notation nm := Rnum_ops.
  Notation tnode := (tnode R G S X).

  (* moog *)
  Hypothesis Ht : forall x, -1 < tl_tanh tl x < 1.
  Section Moog.
    Variables sr lo hi Q B : R.
    Hypothesis L : 0 < lo. Hypothesis Hi : hi < sr / 2. Hypothesis HQ : 0 <= Q. Hypothesis HB : 0 <= B.
    Let kap := Rmax (Rabs (2 * sin (PI * lo / sr) - 1)) (Rabs (2 * sin (PI * hi / sr) - 1)).
    Let X0 := 4 * Q + B. 
    Let S0 := 2 * X0 / (1 - kap). Let S1 := 2 * S0 / (1 - kap). Let S2 := 2 * S1 / (1 - kap).
    Definition mtuned (s : moog R) : Prop := mg_sr s = sr /\ lo <= mg_cutoff s <= hi /\ Rabs (mg_q s) <= Q /\ 0 <= mg_p s <= 1 /\ Rabs (mg_k s) <= kap /\ Rabs (mg_rez s) <= 4 * Q.
    Definition mstate (s : moog R) : Prop := Rabs (mg_s0 s) <= S0 /\ Rabs (mg_s1 s) <= S1 /\ Rabs (mg_s2 s) <= S2 /\ -1 < mg_s3 s < 1 /\
      Rabs (mg_px s) <= X0 /\ Rabs (mg_ps0 s) <= S0 /\ Rabs (mg_ps1 s) <= S1 /\ Rabs (mg_ps2 s) <= S2.
    Lemma kap_lt : lo <= hi -> 0 <= kap < 1.
    Proof.
      intro LH. pose proof (sin_order sr lo hi lo L Hi ltac:(lra)). pose proof (sin_order sr lo hi hi L Hi ltac:(lra)). unfold kap. split.
      - eapply Rle_trans; [apply Rabs_pos|apply Rmax_l].
      - apply Rmax_lub_lt; apply Rabs_def1; lra.
    Qed.
    Lemma moog_tuned s f q : lo <= f <= hi -> Rabs q <= Q -> mstate s -> mtuned (moog_tune nm tl s sr f q) /\ mstate (moog_tune nm tl s sr f q).
    Proof.
      intros Hf Hq St. split; [|exact St]. unfold mtuned, moog_tune. cbn. rewrite Hel. cbn.
      assert (0 < sr) by lra.
      assert (C : 0 < 2 * f / sr < 1).
      { split; [apply Rdiv_lt_0_compat; lra|]. apply (Rmult_lt_reg_r sr); [lra|]. replace (2 * f / sr * sr) with (2 * f) by (field; lra). lra. }
      replace (2 * f / sr * PI * (1 / 2)) with (PI * f / sr) by (field; lra). set (c := 2 * f / sr) in *. clearbody c.
      assert (P : 0 <= c * (18 / 10 - 8 / 10 * c) <= 1) by nra. set (p := c * (18 / 10 - 8 / 10 * c)) in *. clearbody p.
      repeat (split; [first [reflexivity|assumption|lra]|]). split.
      - pose proof (sin_order sr lo hi f L Hi Hf) as [[? ?] [? ?]]. unfold kap. apply abs_le.
        pose proof (Rmax_l (Rabs (2 * sin (PI * lo / sr) - 1)) (Rabs (2 * sin (PI * hi / sr) - 1))). pose proof (Rmax_r (Rabs (2 * sin (PI * lo / sr) - 1)) (Rabs (2 * sin (PI * hi / sr) - 1))).
        pose proof (Rle_abs (2 * sin (PI * hi / sr) - 1)). pose proof (Rle_abs (- (2 * sin (PI * lo / sr) - 1))) as A. rewrite Rabs_Ropp in A. lra.
      - set (t := (1 - p) * (1386249 / 1000000)). assert (T : 0 <= t <= 1387 / 1000) by (unfold t; lra). clearbody t.
        assert (D : 5 < 12 + t * t - 6 * t) by nra. unfold Rdiv. rewrite Rmult_assoc, (Rmult_comm 4).
        apply abs_mul; [exact Hq|]. apply abs_le. split.
        + assert (0 <= (12 + t * t + 6 * t) * / (12 + t * t - 6 * t)); [|lra]. apply Rmult_le_pos; [nra|]. apply Rlt_le, Rinv_0_lt_compat. lra.
        + apply (Rmult_le_reg_r (12 + t * t - 6 * t)); [lra|]. rewrite Rmult_assoc, Rinv_l by lra. nra.
    Qed.
    Lemma stage x y s p k U V : 0 <= p <= 1 -> 0 <= kap < 1 -> Rabs k <= kap -> Rabs x <= U -> Rabs y <= U -> V = 2 * U / (1 - kap) -> Rabs s <= V -> Rabs ((x + y) * p - k * s) <= V.
    Proof.
      intros P K Hk Hx Hy -> Hs. eapply Rle_trans.
      - apply abs_diff; [apply (abs_mul _ _ (U + U) 1); [now apply abs_sum|apply abs_le; lra]|apply abs_mul; [exact Hk|exact Hs]].
      - set (V := 2 * U / (1 - kap)) in *. assert (2 * U = V * (1 - kap)) by (unfold V; field; lra). nra.
    Qed.
    Lemma moog_stepped s x : lo <= hi -> Rabs x <= B -> mtuned s -> mstate s -> mtuned (fst (moog_step nm tl s x)) /\ mstate (fst (moog_step nm tl s x)).
    Proof.
      intros LH Hx T (H0 & H1 & H2 & H3 & Hp & H4 & H5 & H6). split; [exact T|]. destruct T as (_ & _ & _ & P & K & Z). pose proof (kap_lt LH) as K1.
      unfold moog_step. cbn. set (x' := - mg_rez s * mg_s3 s + x).
      assert (Hx' : Rabs x' <= X0).
      { unfold x', X0. replace (4 * Q) with (4 * Q * 1) by ring. apply abs_sum; [|exact Hx]. apply abs_mul; [now rewrite Rabs_Ropp|apply abs_le; lra]. }
      set (s0 := (x' + mg_px s) * mg_p s - mg_k s * mg_s0 s). assert (Hs0 : Rabs s0 <= S0) by (apply stage with X0; auto).
      set (s1 := (s0 + mg_ps0 s) * mg_p s - mg_k s * mg_s1 s). assert (Hs1 : Rabs s1 <= S1) by (apply stage with S0; auto).
      set (s2 := (s1 + mg_ps1 s) * mg_p s - mg_k s * mg_s2 s). assert (Hs2 : Rabs s2 <= S2) by (apply stage with S1; auto).
      unfold mstate. cbn. repeat (split; [first [assumption|apply Ht]|]). assumption.
    Qed.
    Lemma mzero : lo <= hi -> 0 <= S0 /\ 0 <= S1 /\ 0 <= S2 /\ 0 <= X0.
    Proof.
      intro LH. pose proof (kap_lt LH). assert (A : forall u, 0 <= u -> 0 <= 2 * u / (1 - kap)). { intros u Hu. apply Rmult_le_pos; [lra|]. apply Rlt_le, Rinv_0_lt_compat. lra. }
      assert (0 <= X0) by (unfold X0; lra). assert (0 <= S0) by (now apply A). assert (0 <= S1) by (now apply A). assert (0 <= S2) by (now apply A). tauto.
    Qed.
    Lemma moog_zero s : lo <= hi -> mstate (moog_reset nm s).
    Proof. intro LH. destruct (mzero LH) as (? & ? & ? & ?). unfold mstate, moog_reset. cbn. rewrite Rabs_R0. repeat (split; [first [assumption|lra]|]). assumption. Qed.
    Lemma moog_run acts : lo <= hi -> forall w s n os, mtuned s -> mstate s -> Forall (tame lo hi Q B) acts -> t_run nm tl (TMoog w s) acts = Some (n, os) ->
      exists s', n = TMoog w s' /\ mstate s'.
    Proof.
      intro LH. induction acts as [|a acts IH]; intros w s n os T St Hf; cbn [t_run].
      - intro E; injection E as <- <-. now exists s.
      - inversion Hf as [|? ? Ha Hf']; subst. destruct a as [i|st|r|]; cbn [tame] in Ha.
        + destruct Ha as (A0 & A1 & A2). cbn [t_tick].
          assert (T1 : mtuned (if w then moog_tune nm tl s (mg_sr s) (nth 1 i (n0 nm)) (nth 2 i (n0 nm)) else s) /\ mstate (if w then moog_tune nm tl s (mg_sr s) (nth 1 i (n0 nm)) (nth 2 i (n0 nm)) else s)).
          { destruct w; [|now split]. destruct T as (-> & _). now apply moog_tuned. }
          destruct T1 as [T1 St1]. pose proof (moog_stepped _ (nth 0 i (n0 nm)) LH A0 T1 St1) as [T2 St2].
          destruct (moog_step nm tl _ _) as [s2 y]. cbn [fst] in *. destruct (t_run nm tl (TMoog w s2) acts) as [[m' os']|] eqn:E1; [|discriminate].
          intro E; injection E as <- <-. exact (IH w s2 m' os' T2 St2 Hf' E1).
        + destruct (t_set nm tl (TMoog w s) st) as [m|] eqn:E1; [|discriminate]. intro E. cbn [t_set] in E1.
          assert (T1 : exists s1, m = TMoog w s1 /\ mtuned s1 /\ mstate s1).
          { pose proof T as (Esr & Hc & Hq & _). destruct (s_par st); try (injection E1 as <-; exists s; split; [reflexivity|now split]); injection E1 as <-; rewrite Esr.
            - destruct (moog_tuned s f (mg_q s) Ha Hq St). eexists; split; [reflexivity|now split].
            - destruct Ha as [Ha1 Ha2]. destruct (moog_tuned s f q Ha1 Ha2 St). eexists; split; [reflexivity|now split]. }
          destruct T1 as (s1 & -> & T1 & St1). exact (IH w s1 n os T1 St1 Hf' E).
        + contradiction.
        + apply IH; [exact T|now apply moog_zero|exact Hf'].
    Qed.
    Lemma moog_bounded : lo <= hi -> exists C, forall w f q n m os acts, lo <= f <= hi -> Rabs q <= Q -> build nm tl w (OMoog f q) = Some n -> Forall (tame lo hi Q B) acts ->
      t_run nm tl (t_rate nm tl n sr) acts = Some (m, os) ->
      exists s, m = TMoog w s /\ Forall (fun v => Rabs v <= C) [mg_s0 s; mg_s1 s; mg_s2 s; mg_s3 s; mg_px s; mg_ps0 s; mg_ps1 s; mg_ps2 s].
    Proof.
      intro LH. exists (Rmax (Rmax S0 S1) (Rmax S2 (Rmax X0 1))). intros w f q n m os acts Hf Hq Bn Ha R. cbn in Bn. injection Bn as <-. cbn [t_rate] in R.
      assert (Z : mstate (moog_new nm tl f q)) by exact (moog_zero (moog_new nm tl f q) LH).
      destruct (moog_tuned (moog_new nm tl f q) f q Hf Hq Z) as [T1 St1].
      destruct (moog_run acts LH w _ m os T1 St1 Ha R) as (s & -> & H0 & H1 & H2 & H3 & Hp & H4 & H5 & H6). exists s. split; [reflexivity|].
      pose proof (Rmax_l (Rmax S0 S1) (Rmax S2 (Rmax X0 1))). pose proof (Rmax_r (Rmax S0 S1) (Rmax S2 (Rmax X0 1))). pose proof (Rmax_l S0 S1). pose proof (Rmax_r S0 S1).
      pose proof (Rmax_l S2 (Rmax X0 1)). pose proof (Rmax_r S2 (Rmax X0 1)). pose proof (Rmax_l X0 1). pose proof (Rmax_r X0 1).
      assert (Rabs (mg_s3 s) <= 1) by (apply abs_le; lra). repeat (apply Forall_cons; [lra|]). apply Forall_nil.
    Qed.
  End Moog.
  Lemma moog_output w f q n : build nm tl w (OMoog f q) = Some n -> forall acts os, t_outs nm tl n acts = Some os -> Forall (Forall (fun y => -1 < y < 1)) os.
  Proof.
    intros B acts os. cbn in B. injection B as <-. generalize (moog_new nm tl f q). intro s. unfold t_outs. revert s os.
    induction acts as [|a acts IH]; intros s os; cbn [t_run].
    - intro E; injection E as <-. constructor.
    - destruct a as [i|st|r|].
      + cbn [t_tick]. set (s1 := if w then _ else s). unfold moog_step at 1. cbv zeta. match goal with |- context [t_run nm tl (TMoog w ?s2) acts] => specialize (IH s2); set (s3 := s2) in * end.
        destruct (t_run nm tl (TMoog w s3) acts) as [[m' os']|]; [|discriminate]. intro E; injection E as <-. constructor; [|now apply IH]. constructor; [apply Ht|constructor].
      + cbn [t_set]. destruct (s_par st); apply IH.
      + apply IH.
      + apply IH.
  Qed.

  (* rez *)
  Section Rez.
    Variables sr lo hi Q B : R.
    Hypothesis L : 0 < lo. Hypothesis Hi : hi < sr / 2. Hypothesis HQ : 0 <= Q. Hypothesis HB : 0 <= B. Hypothesis LH : lo <= hi.
    Hypothesis Away : hi < sr / 6 \/ sr / 6 < lo.
    Let fl := 2 * sin (PI * lo / sr). Let fh := 2 * sin (PI * hi / sr).
    Let rho := Rmax (Rabs (1 - fl)) (Rabs (1 - fh)).
    Let del := Rmin (Rabs (1 - fl)) (Rabs (1 - fh)).
    Let FB := Q + Q / del.
    Let B0 := 2 * (B + FB) / (1 - rho). Let B1 := 2 * B0 / (1 - rho).
    Lemma sin_sixth : sin (PI * (sr / 6) / sr) = 1 / 2.
    Proof. replace (PI * (sr / 6) / sr) with (PI / 6) by (field; lra). apply sin_PI6. Qed.
    Lemma between f : lo <= f <= hi -> 0 < fl <= 2 * sin (PI * f / sr) /\ 2 * sin (PI * f / sr) <= fh < 2.
    Proof. intro Hf. pose proof (sin_order sr lo hi f L Hi Hf). unfold fl, fh. lra. Qed.
    Lemma sides : fh < 1 \/ 1 < fl.
    Proof.
      destruct Away as [A|A].
      - left. unfold fh. pose proof sin_sixth as S6. assert (sin (PI * hi / sr) < sin (PI * (sr / 6) / sr)); [|lra].
        pose proof PI_RGT_0. pose proof (sin_part sr hi ltac:(lra)). pose proof (sin_part sr (sr / 6) ltac:(lra)).
        apply sin_increasing_1; try lra. unfold Rdiv. apply Rmult_lt_compat_r; [apply Rinv_0_lt_compat; lra|nra].
      - right. unfold fl. pose proof sin_sixth as S6. assert (sin (PI * (sr / 6) / sr) < sin (PI * lo / sr)); [|lra].
        pose proof PI_RGT_0. pose proof (sin_part sr lo ltac:(lra)). pose proof (sin_part sr (sr / 6) ltac:(lra)).
        apply sin_increasing_1; try lra. unfold Rdiv. apply Rmult_lt_compat_r; [apply Rinv_0_lt_compat; lra|nra].
    Qed.
    Lemma rates : 0 <= rho < 1 /\ 0 < del.
    Proof.
      pose proof (between lo ltac:(lra)). pose proof (between hi ltac:(lra)). pose proof sides. unfold rho, del. repeat split.
      - eapply Rle_trans; [apply Rabs_pos|apply Rmax_l].
      - apply Rmax_lub_lt; apply Rabs_def1; lra.
      - apply Rmin_glb_lt; apply Rabs_pos_lt; lra.
    Qed.
    Lemma coef f : lo <= f <= hi -> let g := 2 * sin (PI * f / sr) in 0 <= g <= 2 /\ Rabs (1 - g) <= rho /\ del <= Rabs (1 - g).
    Proof.
      intros Hf g. pose proof (between f Hf) as [? ?]. fold g in H, H0. split; [lra|]. split.
      - unfold rho. apply abs_le. pose proof (Rmax_l (Rabs (1 - fl)) (Rabs (1 - fh))). pose proof (Rmax_r (Rabs (1 - fl)) (Rabs (1 - fh))).
        pose proof (Rle_abs (1 - fl)). pose proof (Rle_abs (- (1 - fh))) as A. rewrite Rabs_Ropp in A. lra.
      - unfold del. pose proof (Rmin_l (Rabs (1 - fl)) (Rabs (1 - fh))). pose proof (Rmin_r (Rabs (1 - fl)) (Rabs (1 - fh))). destruct sides.
        + assert (A : Rabs (1 - fh) = 1 - fh) by (apply Rabs_pos_eq; lra). assert (A2 : Rabs (1 - g) = 1 - g) by (apply Rabs_pos_eq; lra). lra.
        + assert (A : Rabs (1 - fl) = - (1 - fl)) by (apply Rabs_left; lra). assert (A2 : Rabs (1 - g) = - (1 - g)) by (apply Rabs_left; lra). lra.
    Qed.
    Definition rtuned (bp : R) (s : rez R) : Prop := rz_sr s = sr /\ rz_bp s = bp /\ lo <= rz_cutoff s <= hi /\ Rabs (rz_q s) <= Q /\ 0 <= rz_f s <= 2 /\ Rabs (1 - rz_f s) <= rho /\ Rabs (rz_fb s) <= FB.
    Definition rstate (s : rez R) : Prop := Rabs (rz_buf0 s) <= B0 /\ Rabs (rz_buf1 s) <= B1.
    Lemma rez_tuned bp s f q : lo <= f <= hi -> Rabs q <= Q -> rz_bp s = bp -> rtuned bp (rez_tune nm tl s sr f q).
    Proof.
      intros Hf Hq Hb. unfold rtuned, rez_tune. cbn. rewrite Hel. cbn. destruct (coef f Hf) as (C1 & C2 & C3). destruct rates as [_ D].
      repeat (split; [first [reflexivity|assumption]|]). unfold FB, Rdiv. apply abs_sum; [exact Hq|]. apply abs_mul; [exact Hq|].
      rewrite Rabs_inv. apply Rinv_le_contravar; assumption.
    Qed.
    Lemma rez_stepped bp s x : Rabs x <= B -> rtuned bp s -> rstate s -> let (s', y) := rez_step nm tl s x in rtuned bp s' /\ rstate s' /\ Rabs y <= B1 + Rabs bp * B0.
    Proof.
      intros Hx T [H0 H1]. unfold rez_step. cbn. pose proof T as (_ & Eb & _ & _ & F1 & F2 & F3). destruct rates as [Rh _].
      set (t := tl_tanh tl (rz_buf0 s - rz_buf1 s)). assert (Tt : Rabs t <= 1) by (apply abs_le; pose proof (Ht (rz_buf0 s - rz_buf1 s)); fold t in H; lra).
      set (b0 := rz_buf0 s + rz_f s * (x - rz_buf0 s + rz_fb s * t)).
      assert (Hb0 : Rabs b0 <= B0).
      { unfold b0. replace (rz_buf0 s + rz_f s * (x - rz_buf0 s + rz_fb s * t)) with ((1 - rz_f s) * rz_buf0 s + rz_f s * (x + rz_fb s * t)) by ring.
        eapply Rle_trans. { apply abs_sum; [apply abs_mul; [exact F2|exact H0]|apply (abs_mul _ _ 2 (B + FB * 1)); [apply abs_le; lra|apply abs_sum; [exact Hx|now apply abs_mul]]]. }
        assert (2 * (B + FB) = B0 * (1 - rho)) by (unfold B0; field; lra). lra. }
      set (b1 := rz_buf1 s + rz_f s * (b0 - rz_buf1 s)).
      assert (Hb1 : Rabs b1 <= B1).
      { unfold b1. replace (rz_buf1 s + rz_f s * (b0 - rz_buf1 s)) with ((1 - rz_f s) * rz_buf1 s + rz_f s * b0) by ring.
        eapply Rle_trans. { apply abs_sum; [apply abs_mul; [exact F2|exact H1]|apply (abs_mul _ _ 2 B0); [apply abs_le; lra|exact Hb0]]. }
        assert (2 * B0 = B1 * (1 - rho)) by (unfold B1; field; lra). lra. }
      split; [exact T|]. split; [now split|]. apply abs_diff; [exact Hb1|]. rewrite Eb. apply abs_mul; [lra|exact Hb0].
    Qed.
    Lemma rez_zero s : rstate (rez_reset nm s).
    Proof.
      destruct rates as [Rh D]. assert (0 <= FB). { unfold FB. assert (0 <= Q / del); [|lra]. apply Rmult_le_pos; [lra|]. apply Rlt_le, Rinv_0_lt_compat. lra. }
      assert (A : forall u, 0 <= u -> 0 <= 2 * u / (1 - rho)). { intros u Hu. apply Rmult_le_pos; [lra|]. apply Rlt_le, Rinv_0_lt_compat. lra. }
      assert (0 <= B0) by (apply A; lra). assert (0 <= B1) by (now apply A). unfold rstate, rez_reset. cbn. rewrite Rabs_R0. now split.
    Qed.
    Lemma rez_run bp acts : forall w s os, rtuned bp s -> rstate s -> Forall (tame lo hi Q B) acts -> t_outs nm tl (TRez w s) acts = Some os ->
      Forall (Forall (fun y => Rabs y <= B1 + Rabs bp * B0)) os.
    Proof.
      unfold t_outs. induction acts as [|a acts IH]; intros w s os T St Hf; cbn [t_run].
      - intro E; injection E as <-. constructor.
      - inversion Hf as [|? ? Ha Hf']; subst. destruct a as [i|st|r|]; cbn [tame] in Ha.
        + destruct Ha as (A0 & A1 & A2). cbn [t_tick].
          set (s1 := if w && _ then _ else s).
          assert (T1 : rtuned bp s1 /\ rstate s1).
          { unfold s1. destruct (w && _); [|now split]. destruct T as (-> & Eb & _). split; [now apply rez_tuned|exact St]. }
          destruct T1 as [T1 St1]. pose proof (rez_stepped bp s1 (nth 0 i (n0 nm)) A0 T1 St1) as P. destruct (rez_step nm tl s1 _) as [s2 y]. destruct P as (T2 & St2 & Hy).
          specialize (IH w s2). destruct (t_run nm tl (TRez w s2) acts) as [[m' os']|] eqn:E1; [|discriminate].
          intro E; injection E as <-. constructor; [|now apply IH]. constructor; [exact Hy|constructor].
        + destruct (t_set nm tl (TRez w s) st) as [m|] eqn:E1; [|discriminate]. intro E. cbn [t_set] in E1.
          assert (T1 : exists s1, m = TRez w s1 /\ rtuned bp s1 /\ rstate s1).
          { pose proof T as (Esr & Eb & Hc & Hq & _). destruct (s_par st); try (injection E1 as <-; exists s; split; [reflexivity|now split]); injection E1 as <-; rewrite Esr.
            - eexists; split; [reflexivity|split; [now apply rez_tuned|exact St]].
            - destruct Ha as [Ha1 Ha2]. eexists; split; [reflexivity|split; [now apply rez_tuned|exact St]]. }
          destruct T1 as (s1 & -> & T1 & St1). exact (IH w s1 os T1 St1 Hf' E).
        + contradiction.
        + apply IH; [exact T|apply rez_zero|exact Hf'].
    Qed.
    Lemma rez_bounded : exists C, forall w bp f q n os acts, lo <= f <= hi -> Rabs q <= Q -> Rabs bp <= 1 -> build nm tl w (ORez bp f q) = Some n -> Forall (tame lo hi Q B) acts ->
      t_outs nm tl (t_rate nm tl n sr) acts = Some os -> Forall (Forall (fun y => Rabs y <= C)) os.
    Proof.
      exists (B1 + 1 * B0). intros w bp f q n os acts Hf Hq Hb Bn Ha R. cbn in Bn. injection Bn as <-. cbn [t_rate] in R.
      assert (Z : rstate (rez_tune nm tl (rez_new nm tl bp f q) sr f q)) by exact (rez_zero (rez_new nm tl bp f q)).
      assert (T : rtuned bp (rez_tune nm tl (rez_new nm tl bp f q) sr f q)) by (now apply rez_tuned).
      pose proof (rez_run bp acts w _ os T Z Ha R) as H. destruct Z as [Z0 _]. pose proof (Rabs_pos (rz_buf0 (rez_tune nm tl (rez_new nm tl bp f q) sr f q))).
      eapply Forall_impl; [|exact H]. intros o Ho. eapply Forall_impl; [|exact Ho]. cbn. intros y Hy. assert (Rabs bp * B0 <= 1 * B0) by (apply Rmult_le_compat_r; lra). lra.
    Qed.
  End Rez.
End Bounds.

(* biquads with shapes *)
Section Shaped.
  Context {G S X : Type}.
  Variable tl : tools R G S X.
  Notation nm := Rnum_ops.
  Notation tnode := (tnode R G S X).
  Section Saturating.
    Variables (fb : bool) (c : bicoefs R) (B : R).
    Hypothesis Hs : forall s x, Rabs (snd (tl_shape tl s x)) <= 1.
    Hypothesis HB : 0 <= B.
    Let M1 := if fb then (Rabs (bi_b1 c) + Rabs (bi_b2 c)) * B + Rabs (bi_a1 c) + Rabs (bi_a2 c) else 1.
    Let M2 := if fb then Rabs (bi_b2 c) * B + Rabs (bi_a2 c) else 1.
    Let M0 := if fb then (Rabs (bi_b0 c) + Rabs (bi_b1 c) + Rabs (bi_b2 c)) * B + Rabs (bi_a1 c) + Rabs (bi_a2 c) else Rabs (bi_b0 c) * B + 1.
    Definition dstate (s : dirty R S) : Prop := dt_fb s = fb /\ dt_c s = c /\ Rabs (dt_s1 s) <= M1 /\ Rabs (dt_s2 s) <= M2.
    Lemma dirty_stepped s x : Rabs x <= B -> dstate s -> let (s', y) := dirty_step nm tl s x in dstate s' /\ Rabs y <= M0.
    Proof.
      intros Hx (E1 & E2 & H1 & H2). unfold dirty_step. cbn. rewrite E1, E2.
      assert (Y : Rabs (bi_b0 c * x + dt_s1 s) <= M0).
      { eapply Rle_trans; [apply abs_sum; [apply abs_mul; [apply Rle_refl|exact Hx]|exact H1]|]. unfold M0, M1. destruct fb; lra. }
      unfold dstate, M1, M2 in *. destruct fb.
      - destruct (tl_shape tl (dt_sh1 s) _) as [s' v] eqn:E. pose proof (Hs (dt_sh1 s) (bi_b0 c * x + dt_s1 s)) as V. cbn in E. rewrite E in V. cbn in V |- *. rewrite ?E1. split; [|exact Y].
        repeat split.
        + eapply Rle_trans; [apply abs_diff; [apply abs_sum; [exact H2|apply abs_mul; [apply Rle_refl|exact Hx]]|apply abs_mul; [exact V|apply Rle_refl]]|]. lra.
        + eapply Rle_trans; [apply abs_diff; [apply abs_mul; [apply Rle_refl|exact Hx]|apply abs_mul; [exact V|apply Rle_refl]]|]. lra.
      - match goal with |- context [tl_shape tl (dt_sh1 s) ?v] => pose proof (Hs (dt_sh1 s) v) as V1; destruct (tl_shape tl (dt_sh1 s) v) as [a1 v1] end.
        match goal with |- context [tl_shape tl (dt_sh2 s) ?v] => pose proof (Hs (dt_sh2 s) v) as V2; destruct (tl_shape tl (dt_sh2 s) v) as [a2 v2] end.
        cbn in *. rewrite ?E1. split; [|exact Y]. now repeat split.
    Qed.
    Lemma dirty_run acts : forall s os, dstate s -> Forall (quiet B) acts -> t_outs nm tl (TDirty false s) acts = Some os -> Forall (Forall (fun y => Rabs y <= M0)) os.
    Proof.
      unfold t_outs. induction acts as [|a acts IH]; intros s os St Hf; cbn [t_run].
      - intro E; injection E as <-. constructor.
      - inversion Hf as [|? ? Ha Hf']; subst. destruct a as [i|st|r|]; cbn [quiet] in Ha; try contradiction.
        + cbn [t_tick]. pose proof (dirty_stepped s (nth 0 i (n0 nm)) Ha St) as P. destruct (dirty_step nm tl s _) as [s2 y]. destruct P as (St2 & Hy).
          specialize (IH s2). destruct (t_run nm tl (TDirty false s2) acts) as [[m' os']|] eqn:E1; [|discriminate].
          intro E; injection E as <-. constructor; [|now apply IH]. constructor; [exact Hy|constructor].
        + cbn [t_reset]. apply IH; [|exact Hf']. destruct St as (E1 & E2 & H1 & H2). pose proof (Rabs_pos (dt_s1 s)). pose proof (Rabs_pos (dt_s2 s)). unfold dstate. cbn. rewrite Rabs_R0. repeat split; auto; lra.
    Qed.
  End Saturating.
  Lemma dirty_bounded fb m sh f q g sr B n os acts : (forall s x, Rabs (snd (tl_shape tl s x)) <= 1) -> 0 <= B ->
    build nm tl false (ODirty fb m sh f q g) = Some n -> Forall (quiet B) acts -> t_outs nm tl (t_rate nm tl n sr) acts = Some os ->
    let c := bi_coefs nm tl m (mkSvp sr f q g) in
    Forall (Forall (fun y => Rabs y <= if fb then (Rabs (bi_b0 c) + Rabs (bi_b1 c) + Rabs (bi_b2 c)) * B + Rabs (bi_a1 c) + Rabs (bi_a2 c) else Rabs (bi_b0 c) * B + 1)) os.
  Proof.
    intros Hs HB Bn Ha R c. cbn in Bn. injection Bn as <-. refine (dirty_run fb c B Hs acts _ os _ Ha R).
    pose proof (Rabs_pos (bi_b1 c)). pose proof (Rabs_pos (bi_b2 c)). pose proof (Rabs_pos (bi_a1 c)). pose proof (Rabs_pos (bi_a2 c)).
    unfold dstate, dirty_tune, dirty_new. cbn. rewrite Rabs_R0. repeat split; destruct fb; try lra; nra.
  Qed.

  (* a shape that does nothing *)
  Definition tsame (s : dirty R S) (b : biquad R) : Prop :=
    dt_c s = bq_c b /\ let c := bq_c b in dt_s1 s = bi_b1 c * bq_x1 b + bi_b2 c * bq_x2 b - bi_a1 c * bq_y1 b - bi_a2 c * bq_y2 b /\ dt_s2 s = bi_b2 c * bq_x1 b - bi_a2 c * bq_y1 b.
  Lemma linear_run acts : (forall s x, snd (tl_shape tl s x) = x) -> forall s b, tsame s b -> Forall (fun a => exists B, quiet B a) acts ->
    t_outs nm tl (TDirty false s) acts = t_outs nm tl (TBiquad b) acts.
  Proof.
    intros Hs. unfold t_outs. induction acts as [|a acts IH]; intros s b (E1 & E2 & E3) Hf; [reflexivity|]. inversion Hf as [|? ? [B Ha] Hf']; subst.
    destruct a as [i|st|r|]; cbn [quiet] in Ha; try contradiction.
    - cbn [t_run t_tick]. set (x := nth 0 i (n0 nm)). clearbody x.
      assert (P : tsame (fst (dirty_step nm tl s x)) (fst (bi_step nm b x)) /\ snd (dirty_step nm tl s x) = snd (bi_step nm b x)).
      { unfold dirty_step, tsame, bi_step. cbn. rewrite E1. destruct (dt_fb s); cbn.
        - match goal with |- context [tl_shape tl (dt_sh1 s) ?v] => pose proof (Hs (dt_sh1 s) v) as V1; destruct (tl_shape tl (dt_sh1 s) v) as [a1 v1] end. cbn in *. subst v1. rewrite E2, E3. repeat split; ring.
        - match goal with |- context [tl_shape tl (dt_sh1 s) ?v] => pose proof (Hs (dt_sh1 s) v) as V1; destruct (tl_shape tl (dt_sh1 s) v) as [a1 v1] end.
          match goal with |- context [tl_shape tl (dt_sh2 s) ?v] => pose proof (Hs (dt_sh2 s) v) as V2; destruct (tl_shape tl (dt_sh2 s) v) as [a2 v2] end.
          cbn in *. subst v1 v2. rewrite E2, E3. repeat split; ring. }
      destruct P as [P1 P2]. destruct (dirty_step nm tl s x) as [s' y], (bi_step nm b x) as [b' y']. cbn in P1, P2. subst y'.
      specialize (IH s' b' P1 Hf'). destruct (t_run nm tl (TDirty false s') acts) as [[? ?]|], (t_run nm tl (TBiquad b') acts) as [[? ?]|]; congruence.
    - cbn [t_run t_reset]. apply IH; [|exact Hf']. unfold tsame. cbn. repeat split; [exact E1|ring|ring].
  Qed.
  Lemma dirty_linear fb m sh f q g sr n k acts : (forall s x, snd (tl_shape tl s x) = x) -> build nm tl false (ODirty fb m sh f q g) = Some n ->
    build nm tl false (OBiquad (bi_coefs nm tl m (mkSvp sr f q g))) = Some k -> Forall (fun a => exists B, quiet B a) acts ->
    t_outs nm tl (t_rate nm tl n sr) acts = t_outs nm tl k acts.
  Proof.
    intros Hs Bn Bk Ha. cbn in Bn, Bk. injection Bn as <-. injection Bk as <-. cbn [t_rate]. apply linear_run; [exact Hs| |exact Ha].
    unfold tsame. cbn. repeat split; ring.
  Qed.
End Shaped.

(* banks of biquads *)
Section Bank.
  Local Open Scope nat_scope.
  Context {F G S X : Type}.
  Variable nm : num F.
  Variable tl : tools F G S X.
  Notation at_ i l := (nth i l (n0 nm)).
  Definition lane (i : nat) (s : bank F) : biquad F :=
    mkBiquad (mkBi (at_ i (bk_a1 s)) (at_ i (bk_a2 s)) (at_ i (bk_b0 s)) (at_ i (bk_b1 s)) (at_ i (bk_b2 s))) (at_ i (bk_x1 s)) (at_ i (bk_x2 s)) (at_ i (bk_y1 s)) (at_ i (bk_y2 s)).
  Definition sized (n : nat) (s : bank F) : Prop :=
    length (bk_a1 s) = n /\ length (bk_a2 s) = n /\ length (bk_b0 s) = n /\ length (bk_b1 s) = n /\ length (bk_b2 s) = n /\
    length (bk_x1 s) = n /\ length (bk_x2 s) = n /\ length (bk_y1 s) = n /\ length (bk_y2 s) = n.
  Lemma length_lanes2 f (a b : list F) : length a = length b -> length (lanes2 f a b) = length a.
  Proof. intro H. unfold lanes2. rewrite map_length, combine_length. lia. Qed.
  Lemma nth_lanes2 f (a b : list F) i : i < length a -> length a = length b -> at_ i (lanes2 f a b) = f (at_ i a) (at_ i b).
  Proof.
    revert b i. induction a as [|x a IH]; intros [|y b] [|i] L E; cbn in *; try lia; [reflexivity|]. apply IH; lia.
  Qed.
  Lemma bank_ticked n i s x : i < n -> sized n s -> length x = n ->
    sized n (fst (bank_tick nm s x)) /\ length (snd (bank_tick nm s x)) = n /\ bi_step nm (lane i s) (at_ i x) = (lane i (fst (bank_tick nm s x)), at_ i (snd (bank_tick nm s x))).
  Proof.
    intros L (H1 & H2 & H3 & H4 & H5 & H6 & H7 & H8 & H9) Hx. unfold bank_tick. cbn [fst snd]. cbv zeta.
    set (y := lanes2 (nsub nm) _ _). assert (Y : length y = n /\ at_ i y = snd (bi_step nm (lane i s) (at_ i x))).
    { unfold y. split; [repeat (rewrite length_lanes2; [|rewrite ?length_lanes2; rewrite ?length_lanes2; rewrite ?length_lanes2; rewrite ?length_lanes2; lia]); lia|].
      repeat (rewrite nth_lanes2; [|rewrite ?length_lanes2; rewrite ?length_lanes2; rewrite ?length_lanes2; rewrite ?length_lanes2; lia|rewrite ?length_lanes2; rewrite ?length_lanes2; rewrite ?length_lanes2; rewrite ?length_lanes2; lia]).
      reflexivity. }
    destruct Y as [Y1 Y2]. clearbody y. split; [unfold sized; cbn; tauto|]. split; [exact Y1|]. unfold bi_step in *. cbn in Y2 |- *. rewrite Y2. unfold lane. cbn. now rewrite Y2.
  Qed.
  Lemma nth_upd_same (l : list F) i j x : i < length l -> at_ j (upd l i x) = if Nat.eqb i j then x else at_ j l.
  Proof.
    revert i j. induction l as [|y l IH]; intros i j L; cbn in L; [lia|]. destruct i, j; cbn; try reflexivity. apply IH. lia.
  Qed.
  Lemma bank_run n i acts : i < n -> forall s b os, sized n s -> b = lane i s -> Forall (framed n) acts -> t_outs nm tl (TBank s) acts = Some os ->
    t_outs nm tl (TBiquad b) (flat_map (lane_act nm i) acts) = Some (map (fun o => [at_ i o]) os).
  Proof.
    intros L. unfold t_outs. induction acts as [|a acts IH]; intros s b os Sz -> Hf.
    - cbn. intro E; injection E as <-. reflexivity.
    - inversion Hf as [|? ? Ha Hf']; subst. destruct a as [x|st|r|]; cbn [flat_map lane_act framed] in *.
      + cbn [t_run t_tick app]. destruct (bank_ticked n i s x L Sz Ha) as (Sz' & _ & E). destruct (bank_tick nm s x) as [s' y]. cbn [fst snd] in *.
        change (at_ 0 [at_ i x]) with (at_ i x). rewrite E. destruct (t_run nm tl (TBank s') acts) as [[? os']|] eqn:E1; [|discriminate]. intro E2; injection E2 as <-.
        specialize (IH s' _ os' Sz' eq_refl Hf'). rewrite E1 in IH. specialize (IH eq_refl). destruct (t_run nm tl (TBiquad (lane i s')) _) as [[? ?]|]; [|discriminate]. injection IH as ->. reflexivity.
      + cbn [t_run t_set]. destruct (s_par st) eqn:P; try (intro E; cbn [app]; exact (IH s _ os Sz eq_refl Hf' E)).
        destruct (direction st) as [| | |j|]; try (intro E; cbn [app]; exact (IH s _ os Sz eq_refl Hf' E)).
        unfold bank_set. destruct (Nat.ltb_spec j (length (bk_a1 s))) as [J|J]; [|discriminate]. intro E.
        pose proof Sz as (H1 & H2 & H3 & H4 & H5 & H6 & H7 & H8 & H9).
        match type of E with context [TBank ?s2] => set (s' := s2) in E end.
        assert (Sz' : sized n s') by (unfold s', sized; cbn; rewrite !length_upd; tauto).
        destruct (Nat.eqb_spec j i) as [->|N]; cbn [app t_run t_set s_par].
        * apply (IH s' _ os Sz'); [|exact Hf'|exact E]. unfold s', lane, with_coefs. cbn. rewrite !nth_upd_same by lia. now rewrite !Nat.eqb_refl.
        * apply (IH s' _ os Sz'); [|exact Hf'|exact E]. unfold s', lane. cbn. rewrite !nth_upd_same by lia. destruct (Nat.eqb_spec j i); [contradiction|reflexivity].
      + cbn [t_run t_rate app]. intro E. exact (IH s _ os Sz eq_refl Hf' E).
      + cbn [t_run t_reset app]. intro E. pose proof Sz as (H1 & H2 & H3 & H4 & H5 & H6 & H7 & H8 & H9).
        refine (IH (bank_reset nm s) _ os _ _ Hf' E).
        * unfold sized, bank_reset. cbn. rewrite !repeat_length. tauto.
        * unfold lane, bank_reset, bi_zero. cbn. now rewrite !nth_repeat.
  Qed.
  Lemma bank_lanes cs i n m acts os d : i < length cs -> build nm tl false (OBank cs) = Some n -> build nm tl false (OBiquad (nth i cs d)) = Some m ->
    Forall (framed (length cs)) acts -> t_outs nm tl n acts = Some os -> t_outs nm tl m (flat_map (lane_act nm i) acts) = Some (map (fun o => [at_ i o]) os).
  Proof.
    intros L Bn Bm Hf E. cbn in Bn, Bm. injection Bn as <-. injection Bm as <-. refine (bank_run (length cs) i acts L (bank_new nm cs) _ os _ _ Hf E).
    - unfold sized, bank_new. cbn. rewrite !map_length, !repeat_length. tauto.
    - unfold lane, bank_new. cbn. rewrite !nth_repeat. assert (M : forall f : bicoefs F -> F, at_ i (map f cs) = f (nth i cs d)).
      { intro f. rewrite (nth_indep _ (n0 nm) (f d)) by now rewrite map_length. apply map_nth. }
      rewrite !M. now destruct (nth i cs d).
  Qed.
End Bank.
