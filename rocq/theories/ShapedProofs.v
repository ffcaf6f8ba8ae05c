(* Filters with shaped states that blow up. *)
From Coq Require Import Reals Lra Lia.
From Verif Require Import ShapedSpec TuneBounds.
Local Open Scope R_scope.

Section Blow.
  Notation nm := Rnum_ops.
  Let c := bi_lowpass Rnum_ops R_elem 12 1 1.
  Let p := mkSvp 12 1 1 1.
  Lemma k_cos : cos (2 * PI * 1 / 12) = sqrt 3 / 2. Proof. replace (2 * PI * 1 / 12) with (PI / 6) by field. apply cos_PI6. Qed.
  Lemma k_sin : sin (2 * PI * 1 / 12) = 1 / 2. Proof. replace (2 * PI * 1 / 12) with (PI / 6) by field. apply sin_PI6. Qed.
  Lemma k_coefs : 5 / 4 <= - bi_a1 c <= 7 / 5 /\ bi_a1 c * bi_a1 c = 48 / 25 /\ bi_a2 c = 3 / 5 /\ 0 < bi_b0 c /\ bi_b1 c = 2 * bi_b0 c /\ bi_b2 c = bi_b0 c.
  Proof.
    assert (E : c = let w := 2 * PI * 1 / 12 in let k := 1 / (1 + sin w / (2 * 1)) in mkBi (-2 * cos w * k) ((1 - sin w / (2 * 1)) * k) ((1 - cos w) * k * (1 / 2)) ((1 - cos w) * k) ((1 - cos w) * k * (1 / 2))) by reflexivity.
    cbv zeta in E. rewrite k_cos, k_sin in E.
    rewrite E. cbn [bi_a1 bi_a2 bi_b0 bi_b1 bi_b2]. clear E. replace (1 / (1 + 1 / 2 / (2 * 1))) with (4 / 5) by field.
    assert (Q : sqrt 3 * sqrt 3 = 3) by (apply sqrt_sqrt; lra).
    assert (S : 13 / 8 <= sqrt 3 <= 7 / 4) by (split; [apply Rsqr_incr_0_var; [rewrite Rsqr_sqrt by lra; unfold Rsqr; lra|apply sqrt_pos]|apply Rsqr_incr_0_var; [rewrite Rsqr_sqrt by lra; unfold Rsqr; lra|lra]]).
    set (s := sqrt 3) in *. split; [lra|]. split; [nra|]. split; [field|]. split; [lra|]. split; field.
  Qed.
  Definition node (fb : bool) (s1 s2 : R) : tnode R unit unit R := TDirty false (mkDirty fb BLowpass p c tt tt s1 s2).
  Definition sh_of (fb : bool) : R -> R := if fb then Ropp else Rabs.
  Notation tl_ fb := (shaping (sh_of fb)).
  Lemma shapes fb : nonexpansive (sh_of fb).
  Proof. intros x y. destruct fb; cbn [sh_of]; [|apply Rabs_triang_inv2]. replace (- x - - y) with (- (x - y)) by ring. rewrite Rabs_Ropp. lra. Qed.
  Lemma node_tick fb s1 s2 x : t_tick nm (tl_ fb) (node fb s1 s2) [x] =
    (node fb (if fb then s2 + bi_b1 c * x + (bi_b0 c * x + s1) * bi_a1 c else Rabs (s2 + bi_b1 c * x - (bi_b0 c * x + s1) * bi_a1 c))
             (if fb then bi_b2 c * x + (bi_b0 c * x + s1) * bi_a2 c else Rabs (bi_b2 c * x - (bi_b0 c * x + s1) * bi_a2 c)), [bi_b0 c * x + s1]).
  Proof.
    unfold node. cbn [t_tick]. unfold dirty_step. destruct fb; cbn [dt_fb dt_c dt_sh1 dt_sh2 dt_s1 dt_s2 dt_mode dt_par tl_shape shaping sh_of nth]; cbn [nmul nadd nsub Rnum_ops]; [|reflexivity].
    do 3 f_equal; ring.
  Qed.
  (* the sizes of the states grow *)
  Definition grown (fb : bool) (m : R) (s1 s2 : R) : Prop := if fb then (m <= s1 /\ s2 <= 0) \/ (m <= - s1 /\ 0 <= s2) else m <= s1 /\ 0 <= s2.
  Lemma grows fb m s1 s2 : 0 < m -> grown fb m s1 s2 -> exists s1' s2', t_tick nm (tl_ fb) (node fb s1 s2) [0] = (node fb s1' s2', [s1]) /\ grown fb (5 / 4 * m) s1' s2' /\ m <= Rabs s1.
  Proof.
    intros Hm H. destruct k_coefs as ((A1 & A1') & AA & A2 & B0 & _ & _). rewrite node_tick, !Rmult_0_r, !Rplus_0_r, !Rplus_0_l. do 2 eexists. split; [reflexivity|]. destruct fb; cbn [grown] in *.
    - destruct H as [[H1 H2]|[H1 H2]].
      + split; [right; split; nra|]. rewrite Rabs_right; lra.
      + split; [left; split; nra|]. rewrite Rabs_left; lra.
    - destruct H as [H1 H2]. split; [|rewrite Rabs_right; lra]. split; [|apply Rabs_pos]. eapply Rle_trans; [|apply Rle_abs]. nra.
  Qed.
  Lemma keeps fb N : forall m s1 s2, 0 < m -> grown fb m s1 s2 -> exists os y, t_outs nm (tl_ fb) (node fb s1 s2) (repeat (ATick [0]) (S N)) = Some (os ++ [[y]]) /\ m * (5 / 4) ^ N <= Rabs y.
  Proof.
    induction N as [|N IH]; intros m s1 s2 Hm H; destruct (grows fb m s1 s2 Hm H) as (s1' & s2' & E & G & L).
    - exists [], s1. split; [|cbn; lra]. unfold t_outs. cbn [repeat t_run]. now rewrite E.
    - destruct (IH (5 / 4 * m) s1' s2' ltac:(lra) G) as (os & y & E1 & L1). exists ([s1] :: os), y. split; [|cbn [pow]; lra].
      unfold t_outs in *. change (repeat (ATick [0]) (S (S N))) with (ATick [0] :: repeat (ATick [0]) (S N)). cbn [t_run]. rewrite E. destruct (t_run nm (tl_ fb) (node fb s1' s2') _) as [[n' os']|]; [|discriminate]. cbn in *. congruence.
  Qed.
  Lemma starts fb n : build nm (tl_ fb) false (ODirty fb BLowpass tt 1 1 1) = Some n -> exists s1 s2 s1' s2' y1 y2 m, t_rate nm (tl_ fb) n 12 = node fb 0 0 /\
    t_tick nm (tl_ fb) (node fb 0 0) [1] = (node fb s1 s2, [y1]) /\ t_tick nm (tl_ fb) (node fb s1 s2) [-1] = (node fb s1' s2', [y2]) /\ 0 < m /\ grown fb m s1' s2'.
  Proof.
    intros [= <-]. destruct k_coefs as ((A1 & A1') & AA & A2 & B0 & B1 & B2). do 4 eexists. eexists. eexists. exists (bi_b0 c / 10).
    split; [reflexivity|]. split; [apply node_tick|]. split; [apply node_tick|]. split; [lra|]. rewrite B1, B2, A2. set (b := bi_b0 c) in *. set (a := bi_a1 c) in *. clearbody a b.
    destruct fb; cbn [grown].
    - left. replace (0 + 2 * b * 1 + (b * 1 + 0) * a) with (b * (2 + a)) by ring. replace (b * 1 + (b * 1 + 0) * (3 / 5)) with (b * (8 / 5)) by field.
      split; [|nra]. replace (b * (8 / 5) + 2 * b * -1 + (b * -1 + b * (2 + a)) * a) with (b * (a * a + a - 2 / 5)) by field. rewrite AA. nra.
    - split; [|apply Rabs_pos]. rewrite (Rabs_right (0 + 2 * b * 1 - (b * 1 + 0) * a)) by nra. rewrite (Rabs_right (b * 1 - (b * 1 + 0) * (3 / 5))) by nra.
      eapply Rle_trans; [|apply Rle_abs]. replace (b * 1 - (b * 1 + 0) * (3 / 5) + 2 * b * -1 - (b * -1 + (0 + 2 * b * 1 - (b * 1 + 0) * a)) * a) with (b * (a * a - a - 8 / 5)) by field. rewrite AA. nra.
  Qed.
  Lemma blows fb n B : build nm (tl_ fb) false (ODirty fb BLowpass tt 1 1 1) = Some n -> exists acts os, Forall (quiet 1) acts /\ t_outs nm (tl_ fb) (t_rate nm (tl_ fb) n 12) acts = Some os /\
    ~ Forall (Forall (fun y => Rabs y <= B)) os.
  Proof.
    intros Hb. destruct (starts fb n Hb) as (s1 & s2 & s1' & s2' & y1 & y2 & m & -> & E1 & E2 & Hm & G).
    destruct (Pow_x_infinity (5 / 4) ltac:(rewrite Rabs_right; lra) ((Rmax B 0 + 1) / m)) as [N HN].
    specialize (HN N (le_n N)). destruct (keeps fb N m s1' s2' Hm G) as (os & y & E & L).
    exists (ATick [1] :: ATick [-1] :: repeat (ATick [0]) (S N)), ([y1] :: [y2] :: os ++ [[y]]). split; [|split].
    - constructor; [cbn; rewrite Rabs_right; lra|]. constructor; [cbn; rewrite Rabs_left; lra|]. apply Forall_forall. intros a Ha. apply repeat_spec in Ha. subst a. cbn. rewrite Rabs_R0. lra.
    - unfold t_outs in *. remember (repeat (ATick [0]) (S N)) as l eqn:El. cbn [t_run]. rewrite E1. cbn [t_run]. rewrite E2. destruct (t_run nm (tl_ fb) (node fb s1' s2') l) as [[n' os']|]; [|discriminate]. cbn in *. congruence.
    - intros HF. apply Forall_inv_tail, Forall_inv_tail in HF. apply Forall_app in HF as [_ HF]. apply Forall_inv, Forall_inv in HF.
      rewrite Rabs_right in HN by (apply Rle_ge, pow_le; lra). pose proof (Rmax_l B 0). assert ((Rmax B 0 + 1) / m * m = Rmax B 0 + 1) by (field; lra). set (P := (5 / 4) ^ N) in *. nra.
  Qed.
End Blow.

(* where they cannot *)
Section Stable.
  Variables (sh : R -> R) (c : bicoefs R) (B : R).
  Hypothesis Hsh : nonexpansive sh.
  Hypothesis H0 : sh 0 = 0.
  Hypothesis HB : 0 <= B.
  Hypothesis Hc : Rabs (bi_a1 c) + Rabs (bi_a2 c) < 1.
  Notation nm := Rnum_ops.
  Notation tl_ := (shaping sh).
  Let K := (Rabs (bi_b0 c) + Rabs (bi_b1 c) + Rabs (bi_b2 c)) * B / (1 - Rabs (bi_a1 c) - Rabs (bi_a2 c)).
  Lemma K_eq : K = (Rabs (bi_b0 c) + Rabs (bi_b1 c) + Rabs (bi_b2 c)) * B + (Rabs (bi_a1 c) + Rabs (bi_a2 c)) * K. Proof. unfold K. field. lra. Qed.
  Lemma K_pos : 0 <= K.
  Proof. unfold K. apply Rmult_le_pos; [|apply Rlt_le, Rinv_0_lt_compat; lra]. apply Rmult_le_pos; auto. pose proof (Rabs_pos (bi_b0 c)). pose proof (Rabs_pos (bi_b1 c)). pose proof (Rabs_pos (bi_b2 c)). lra. Qed.
  Lemma sh_le x : Rabs (sh x) <= Rabs x. Proof. pose proof (Hsh x 0) as H. now rewrite H0, !Rminus_0_r in H. Qed.
  Definition mild (n : tnode R unit unit R) : Prop := exists s, n = TDirty false s /\ dt_c s = c /\ Rabs (dt_s2 s) <= Rabs (bi_b2 c) * B + Rabs (bi_a2 c) * K /\ Rabs (dt_s1 s) <= Rabs (bi_b1 c) * B + Rabs (bi_b2 c) * B + (Rabs (bi_a1 c) + Rabs (bi_a2 c)) * K.
  Lemma mild_tick n i : mild n -> Rabs (nth 0 i 0) <= B -> mild (fst (t_tick nm tl_ n i)) /\ Forall (fun y => Rabs y <= K) (snd (t_tick nm tl_ n i)).
  Proof.
    intros (s & -> & Ec & H2 & H1) Hx. cbn [t_tick]. change (n0 nm) with 0. set (x := nth 0 i 0) in *. unfold dirty_step. rewrite Ec. destruct s as [fb md pr c' u1 u2 s1 s2]. cbn [dt_fb dt_c dt_sh1 dt_sh2 dt_s1 dt_s2 dt_mode dt_par tl_shape shaping] in *.
    cbn [nmul nadd nsub Rnum_ops]. set (y := bi_b0 c * x + s1). pose proof K_eq as KE. pose proof K_pos as KP.
    assert (M : forall a, Rabs (a * x) <= Rabs a * B) by (intros a; rewrite Rabs_mult; apply Rmult_le_compat_l; auto; apply Rabs_pos).
    assert (Y : Rabs y <= K) by (unfold y; eapply Rle_trans; [apply Rabs_triang|]; pose proof (M (bi_b0 c)); lra).
    assert (N : forall a z, Rabs z <= K -> Rabs (z * a) <= Rabs a * K) by (intros a z Hz; rewrite Rabs_mult, Rmult_comm; apply Rmult_le_compat_l; auto; apply Rabs_pos).
    assert (P1 : forall z, Rabs z <= K -> Rabs (s2 + bi_b1 c * x - z * bi_a1 c) <= Rabs (bi_b1 c) * B + Rabs (bi_b2 c) * B + (Rabs (bi_a1 c) + Rabs (bi_a2 c)) * K).
    { intros z Hz. unfold Rminus. eapply Rle_trans; [apply Rabs_triang|]. rewrite Rabs_Ropp. pose proof (Rabs_triang s2 (bi_b1 c * x)). pose proof (M (bi_b1 c)). pose proof (N (bi_a1 c) z Hz). lra. }
    assert (P2 : forall z, Rabs z <= K -> Rabs (bi_b2 c * x - z * bi_a2 c) <= Rabs (bi_b2 c) * B + Rabs (bi_a2 c) * K).
    { intros z Hz. unfold Rminus. eapply Rle_trans; [apply Rabs_triang|]. rewrite Rabs_Ropp. pose proof (M (bi_b2 c)). pose proof (N (bi_a2 c) z Hz). lra. }
    assert (SY : Rabs (sh y) <= K) by (eapply Rle_trans; [apply sh_le|exact Y]).
    destruct fb; cbn [fst snd]; (split; [|constructor; [exact Y|constructor]]); (eexists; split; [reflexivity|]; cbn [dt_c dt_s1 dt_s2]; split; [reflexivity|]; split); auto; (eapply Rle_trans; [apply sh_le|]); auto.
  Qed.
  Lemma mild_reset n : mild n -> mild (t_reset nm tl_ n).
  Proof.
    intros (s & -> & Ec & H2 & H1). cbn [t_reset]. eexists. split; [reflexivity|]. unfold dirty_reset. cbn [dt_c dt_s1 dt_s2]. split; auto. cbn. rewrite Rabs_R0.
    pose proof K_pos. pose proof (Rabs_pos (bi_b1 c)). pose proof (Rabs_pos (bi_b2 c)). pose proof (Rabs_pos (bi_a1 c)). pose proof (Rabs_pos (bi_a2 c)). split; nra.
  Qed.
  Lemma mild_run : forall acts n os, mild n -> Forall (quiet B) acts -> t_outs nm tl_ n acts = Some os -> Forall (Forall (fun y => Rabs y <= K)) os.
  Proof.
    unfold t_outs. induction acts as [|a acts IH]; intros n os T Q; [intros [= <-]; constructor|]. inversion Q as [|a' l' Qa Ql]; subst. destruct a as [i|st|r|]; cbn [quiet] in Qa; try contradiction; cbn [t_run].
    - destruct (mild_tick n i T Qa) as [T' Y]. destruct (t_tick nm tl_ n i) as [n' y]. cbn [fst snd] in *. specialize (IH n').
      destruct (t_run nm tl_ n' acts) as [[n2 os2]|]; [|discriminate]. intros [= <-]. constructor; auto.
    - apply IH; auto. now apply mild_reset.
  Qed.
  Lemma mild_start fb m pr : mild (TDirty false (mkDirty fb m pr c tt tt 0 0)).
  Proof.
    eexists. split; [reflexivity|]. cbn [dt_c dt_s1 dt_s2]. split; auto. rewrite Rabs_R0.
    pose proof K_pos. pose proof (Rabs_pos (bi_b1 c)). pose proof (Rabs_pos (bi_b2 c)). pose proof (Rabs_pos (bi_a1 c)). pose proof (Rabs_pos (bi_a2 c)). split; nra.
  Qed.
End Stable.
Lemma shaped_stable sh fb m f q g sr B n acts os : nonexpansive sh -> sh 0 = 0 -> 0 <= B -> let c := plain_coefs R_elem m sr f q g in Rabs (bi_a1 c) + Rabs (bi_a2 c) < 1 ->
  build Rnum_ops (shaping sh) false (ODirty fb m tt f q g) = Some n -> Forall (quiet B) acts -> t_outs Rnum_ops (shaping sh) (t_rate Rnum_ops (shaping sh) n sr) acts = Some os ->
  Forall (Forall (fun y => Rabs y <= (Rabs (bi_b0 c) + Rabs (bi_b1 c) + Rabs (bi_b2 c)) * B / (1 - Rabs (bi_a1 c) - Rabs (bi_a2 c)))) os.
Proof.
  intros Hs H0 HB c Hc [= <-] Q E. refine (mild_run sh c B Hs H0 HB Hc acts _ os _ Q E). cbn [t_rate]. unfold dirty_tune, dirty_new.
  cbn [dt_fb dt_mode dt_par dt_sh1 dt_sh2 dt_s1 dt_s2 sp_cutoff sp_q sp_gain]. replace (bi_coefs _ _ _ _) with c by (unfold c; destruct m; reflexivity). now apply mild_start.
Qed.
Lemma sh_zero fb : sh_of fb 0 = 0. Proof. destruct fb; cbn; [ring|apply Rabs_R0]. Qed.
Lemma quarter_small : let c := plain_coefs R_elem BLowpass 4 1 1 1 in Rabs (bi_a1 c) + Rabs (bi_a2 c) < 1.
Proof.
  assert (E : plain_coefs R_elem BLowpass 4 1 1 1 = let w := 2 * PI * 1 / 4 in let k := 1 / (1 + sin w / (2 * 1)) in mkBi (-2 * cos w * k) ((1 - sin w / (2 * 1)) * k) ((1 - cos w) * k * (1 / 2)) ((1 - cos w) * k) ((1 - cos w) * k * (1 / 2))) by reflexivity.
  rewrite E. cbv zeta. cbn [bi_a1 bi_a2]. replace (2 * PI * 1 / 4) with (PI / 2) by field. rewrite cos_PI2, sin_PI2. rewrite Rmult_0_r, Rmult_0_l, Rabs_R0.
  rewrite Rabs_right; [|apply Rle_ge]; replace ((1 - 1 / (2 * 1)) * (1 / (1 + 1 / (2 * 1)))) with (1 / 3) by field; lra.
Qed.
