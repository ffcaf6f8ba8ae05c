(* One-pole and first order allpass filters while their parameter moves; how resonators and Butterworth filters blow up. *)
From Coq Require Import Reals Lra Lia Psatz.
From Verif Require Import ShapeProofs TuneProofs TuneReal TuneBounds.
From Verif Require Export ModSvf.
Local Open Scope R_scope.

Section Swept.
  Context {G S X : Type}.
  Variable tl : tools R G S X.
  Notation nm := Rnum_ops.
  Variables lo hi s0 s1 : R.
  Variable w : bool.
  Variable Inv : R -> tnode R G S X -> Prop.
  Variables rho k ka kb : R.
  Hypothesis Hrho : 0 <= rho.
  Hypothesis more : forall W W' n, W <= W' -> Inv W n -> Inv W' n.
  Hypothesis set_ok : forall W n st n', Inv W n -> swept lo hi s0 s1 0 w (ASet st) -> t_set nm tl n st = Some n' -> Inv W n'.
  Hypothesis rate_ok : forall W n sr, Inv W n -> s0 <= sr <= s1 -> Inv W (t_rate nm tl n sr).
  Hypothesis reset_ok : forall W n, 0 <= W -> Inv W n -> Inv W (t_reset nm tl n).
  Hypothesis tick_ok : forall W b n i, 0 <= b -> b <= W -> Inv W n -> swept lo hi s0 s1 b w (ATick i) -> Inv (rho * W + k * b) (fst (t_tick nm tl n i)) /\ exists y, snd (t_tick nm tl n i) = [y] /\ Rabs y <= ka * W + kb * b.
  Lemma sw_bounded W b acts : 0 <= b -> b <= W -> rho * W + k * b <= W -> forall n n' os, Inv W n -> Forall (swept lo hi s0 s1 b w) acts -> t_run nm tl n acts = Some (n', os) -> Inv W n' /\ bounded (ka * W + kb * b) os /\ length os = ticks_of acts.
  Proof.
    intros B0 BW HW. induction acts as [|a acts IH]; intros n n' os O F E; cbn [t_run] in E.
    - injection E as <- <-. split; [exact O|]. split; [apply Forall_nil|reflexivity].
    - inversion F as [|? ? Fa Fr]; subst. destruct a as [i|st|sr|].
      + destruct (tick_ok W b n i B0 BW O Fa) as [O1 (y & Ey & Hy)]. destruct (t_tick nm tl n i) as [n1 o]. cbn [fst snd] in *. subst o.
        destruct (t_run nm tl n1 acts) as [[n2 os2]|] eqn:E2; [|discriminate]. injection E as <- <-.
        destruct (IH n1 n2 os2 (more _ _ _ HW O1) Fr E2) as (A & B & C).
        split; [exact A|]. split; [apply Forall_cons; [apply Forall_cons; [exact Hy|apply Forall_nil]|exact B]|]. cbn [length]. rewrite C. reflexivity.
      + destruct (t_set nm tl n st) as [n1|] eqn:E1; [|discriminate]. exact (IH n1 n' os (set_ok W n st n1 O Fa E1) Fr E).
      + exact (IH _ n' os (rate_ok W n sr O Fa) Fr E).
      + exact (IH _ n' os (reset_ok W n ltac:(lra) O) Fr E).
  Qed.
  Lemma sw_silent acts : forall W n n' os, 0 <= W -> Inv W n -> Forall (swept lo hi s0 s1 0 w) acts -> t_run nm tl n acts = Some (n', os) -> forall i o, nth_error os i = Some o -> Forall (fun y => Rabs y <= ka * W * rho ^ i) o.
  Proof.
    induction acts as [|a acts IH]; intros W n n' os W0 O F E; cbn [t_run] in E.
    - injection E as <- <-. intros [|i] o N; discriminate.
    - inversion F as [|? ? Fa Fr]; subst. destruct a as [i|st|sr|].
      + destruct (tick_ok W 0 n i (Rle_refl 0) W0 O Fa) as [O1 (y & Ey & Hy)]. destruct (t_tick nm tl n i) as [n1 o]. cbn [fst snd] in *. subst o.
        destruct (t_run nm tl n1 acts) as [[n2 os2]|] eqn:E2; [|discriminate]. injection E as <- <-. rewrite Rmult_0_r, Rplus_0_r in O1, Hy.
        intros [|j] o' N; cbn [nth_error] in N.
        * injection N as <-. apply Forall_cons; [|apply Forall_nil]. cbn [pow]. lra.
        * pose proof (IH (rho * W) n1 n2 os2 ltac:(apply Rmult_le_pos; lra) O1 Fr E2 j o' N) as Q. eapply Forall_impl; [|exact Q]. intros z Hz. cbn beta in *. cbn [pow]. lra.
      + destruct (t_set nm tl n st) as [n1|] eqn:E1; [|discriminate]. exact (IH W n1 n' os W0 (set_ok W n st n1 O Fa E1) Fr E).
      + exact (IH W _ n' os W0 (rate_ok W n sr O Fa) Fr E).
      + exact (IH W _ n' os W0 (reset_ok W n W0 O) Fr E).
  Qed.
  Lemma sw_after W b before acts n n' os : 0 <= b -> b <= W -> rho * W + k * b <= W -> Inv W n -> Forall (swept lo hi s0 s1 b w) before -> Forall (swept lo hi s0 s1 0 w) acts -> t_run nm tl n (before ++ acts) = Some (n', os) ->
    forall i o, nth_error os (ticks_of before + i) = Some o -> Forall (fun y => Rabs y <= ka * W * rho ^ i) o.
  Proof.
    intros B0 BW HW O F1 F2 E i o N. destruct (t_run_app _ _ _ _ _ _ _ E) as (m1 & o1 & o2 & A1 & A2 & ->). destruct (sw_bounded W b before B0 BW HW n m1 o1 O F1 A1) as (O1 & _ & Len).
    rewrite <- Len, nth_error_app2 in N by lia. replace (length o1 + i - length o1)%nat with i in N by lia. exact (sw_silent acts W m1 n' o2 ltac:(lra) O1 F2 A2 i o N).
  Qed.
End Swept.

(* ---- lowpole and highpole ---- *)
Section Pole.
  Context {G S X : Type}.
  Variable tl : tools R G S X.
  Hypothesis Hel : tl_elem tl = R_elem.
  Notation nm := Rnum_ops.
  Variables lo hi s0 s1 : R.
  Hypothesis Hlo : 0 <= lo <= hi. Hypothesis Hs : 0 < s0 <= s1.
  Definition pole_top : R := exp (- (2 * PI * lo / s1)).
  Lemma pole_top_range : 0 <= pole_top <= 1.
  Proof.
    unfold pole_top. split; [apply Rlt_le, exp_pos|]. rewrite <- exp_0. pose proof PI_RGT_0. assert (0 <= 2 * PI * lo / s1) by (apply Rmult_le_pos; [apply Rmult_le_pos; lra|apply Rlt_le, Rinv_0_lt_compat; lra]).
    destruct (Req_dec (2 * PI * lo / s1) 0) as [E|N]; [rewrite E, Ropp_0; lra|]. apply Rlt_le, exp_increasing. lra.
  Qed.
  Lemma pole_below : 0 < lo -> pole_top < 1.
  Proof. intros L. unfold pole_top. rewrite <- exp_0. apply exp_increasing. pose proof PI_RGT_0. assert (0 < 2 * PI * lo / s1) by (apply Rdiv_lt_0_compat; [apply Rmult_lt_0_compat; lra|lra]). lra. Qed.
  Lemma pole_range sr f : s0 <= sr <= s1 -> lo <= f <= hi -> 0 <= pole_coeff nm R_elem sr f <= pole_top.
  Proof.
    intros A B. unfold pole_coeff, tau. cbn [e_exp e_pi R_elem nneg nmul ndiv nofZ Rnum_ops]. unfold pole_top. split; [apply Rlt_le, exp_pos|]. pose proof PI_RGT_0.
    assert (2 * PI * lo / s1 <= 2 * PI * f / sr). { unfold Rdiv. apply Rmult_le_compat; [apply Rmult_le_pos; lra|apply Rlt_le, Rinv_0_lt_compat; lra|apply Rmult_le_compat_l; lra|apply Rinv_le_contravar; lra]. }
    match goal with |- exp ?a <= exp ?b => assert (L : a <= b) by (unfold Rdiv in *; lra) end.
    destruct L as [L| ->]; [apply Rlt_le, exp_increasing, L|apply Rle_refl].
  Qed.
  Definition tuned (c f sr : R) : Prop := 0 <= c <= pole_top /\ lo <= f <= hi /\ s0 <= sr <= s1.
  Definition low_inv (w : bool) (W : R) (n : tnode R G S X) : Prop := exists v c f sr, n = TLow w v c f sr /\ tuned c f sr /\ Rabs v <= W.
  Definition high_inv (w : bool) (W : R) (n : tnode R G S X) : Prop := exists x1 y1 c f sr, n = THigh w x1 y1 c f sr /\ tuned c f sr /\ Rabs (y1 - x1) <= W.
  Lemma low_more w W W' n : W <= W' -> low_inv w W n -> low_inv w W' n.
  Proof. intros H (v & c & f & sr & E & T & A). exists v, c, f, sr. split; [exact E|]. split; [exact T|lra]. Qed.
  Lemma high_more w W W' n : W <= W' -> high_inv w W n -> high_inv w W' n.
  Proof. intros H (v & u & c & f & sr & E & T & A). exists v, u, c, f, sr. split; [exact E|]. split; [exact T|lra]. Qed.
  Lemma low_set w W n st n' : low_inv w W n -> swept lo hi s0 s1 0 w (ASet st) -> t_set nm tl n st = Some n' -> low_inv w W n'.
  Proof.
    intros (v & c & f & sr & -> & T & A) Sw. cbn [t_set swept] in *. rewrite ?Hel. destruct (s_par st); intros E; injection E as <-; try (exists v, c, f, sr; tauto).
    unfold low_tune. rewrite Hel. destruct T as (T1 & T2 & T3). eexists v, _, _, sr. split; [reflexivity|]. split; [|exact A]. split; [apply pole_range; assumption|]. split; assumption.
  Qed.
  Lemma high_set w W n st n' : high_inv w W n -> swept lo hi s0 s1 0 w (ASet st) -> t_set nm tl n st = Some n' -> high_inv w W n'.
  Proof.
    intros (v & u & c & f & sr & -> & T & A) Sw. cbn [t_set swept] in *. rewrite ?Hel. destruct (s_par st); intros E; injection E as <-; try (exists v, u, c, f, sr; tauto).
    unfold high_tune. rewrite Hel. destruct T as (T1 & T2 & T3). eexists v, u, _, _, sr. split; [reflexivity|]. split; [|exact A]. split; [apply pole_range; assumption|]. split; assumption.
  Qed.
  Lemma low_rate w W n sr : low_inv w W n -> s0 <= sr <= s1 -> low_inv w W (t_rate nm tl n sr).
  Proof. intros (v & c & f & sr' & -> & (T1 & T2 & T3) & A) Q. cbn [t_rate]. unfold low_tune. rewrite Hel. eexists v, _, _, sr. split; [reflexivity|]. split; [|exact A]. split; [apply pole_range; assumption|]. split; assumption. Qed.
  Lemma high_rate w W n sr : high_inv w W n -> s0 <= sr <= s1 -> high_inv w W (t_rate nm tl n sr).
  Proof. intros (v & u & c & f & sr' & -> & (T1 & T2 & T3) & A) Q. cbn [t_rate]. unfold high_tune. rewrite Hel. eexists v, u, _, _, sr. split; [reflexivity|]. split; [|exact A]. split; [apply pole_range; assumption|]. split; assumption. Qed.
  Lemma low_reset w W n : 0 <= W -> low_inv w W n -> low_inv w W (t_reset nm tl n).
  Proof. intros H (v & c & f & sr & -> & T & A). cbn [t_reset]. eexists _, c, f, sr. split; [reflexivity|]. split; [exact T|]. change (n0 nm) with 0. rewrite Rabs_R0. exact H. Qed.
  Lemma high_reset w W n : 0 <= W -> high_inv w W n -> high_inv w W (t_reset nm tl n).
  Proof. intros H (v & u & c & f & sr & -> & T & A). cbn [t_reset]. eexists _, _, c, f, sr. split; [reflexivity|]. split; [exact T|]. change (n0 nm) with 0. rewrite Rminus_0_r, Rabs_R0. exact H. Qed.
  Lemma mixed c x v b W : 0 <= c <= pole_top -> Rabs x <= b -> b <= W -> Rabs v <= W -> (1 - c) * Rabs x + c * Rabs v <= pole_top * W + (1 - pole_top) * b.
  Proof.
    intros C B H V. pose proof pole_top_range. assert ((1 - c) * Rabs x <= (1 - c) * b) by (apply Rmult_le_compat_l; lra). assert (c * Rabs v <= c * W) by (apply Rmult_le_compat_l; lra). assert (0 <= (pole_top - c) * (W - b)) by (apply Rmult_le_pos; lra). nra.
  Qed.
  Lemma retuned (w : bool) c f sr i b : tuned c f sr -> swept lo hi s0 s1 b w (ATick i) -> tuned (if w && neqb nm (nth 1 i 0) f then pole_coeff nm R_elem sr (nth 1 i 0) else c) (if w && neqb nm (nth 1 i 0) f then nth 1 i 0 else f) sr.
  Proof. intros (T1 & T2 & T3) [_ Q]. destruct w; [|split; [exact T1|]; split; [exact T2|exact T3]]. specialize (Q eq_refl). cbn [andb]. destruct (neqb _ _ _); [|split; [exact T1|]; split; [exact T2|exact T3]]. split; [apply pole_range; assumption|]. split; assumption. Qed.
  Lemma low_tick w W b n i : 0 <= b -> b <= W -> low_inv w W n -> swept lo hi s0 s1 b w (ATick i) -> low_inv w (pole_top * W + (1 - pole_top) * b) (fst (t_tick nm tl n i)) /\ exists y, snd (t_tick nm tl n i) = [y] /\ Rabs y <= pole_top * W + (1 - pole_top) * b.
  Proof.
    intros B0 BW (v & c & f & sr & -> & T & A) Sw. pose proof (retuned w c f sr i b T Sw) as T'. destruct Sw as [Hx _]. cbn [t_tick]. change (n0 nm) with 0. rewrite Hel. set (c' := if w && neqb nm (nth 1 i 0) f then _ else c) in *. set (f' := if w && neqb nm (nth 1 i 0) f then _ else f) in *.
    cbn [fst snd]. assert (L : Rabs (low_step nm c' v (nth 0 i 0)) <= pole_top * W + (1 - pole_top) * b).
    { unfold low_step. cbn [nadd nmul nsub n1 nofZ Rnum_ops]. eapply Rle_trans; [|exact (mixed c' (nth 0 i 0) v b W (proj1 T') Hx BW A)]. pose proof pole_top_range. pose proof (proj1 T'). eapply Rle_trans; [apply Rabs_triang|]. rewrite !Rabs_mult, (Rabs_pos_eq (1 - c')), (Rabs_pos_eq c') by lra. lra. }
    split; [|eexists; split; [reflexivity|exact L]]. eexists _, _, _, sr. split; [reflexivity|]. split; [exact T'|exact L].
  Qed.
  Lemma high_tick w W b n i : 0 <= b -> b <= W -> high_inv w W n -> swept lo hi s0 s1 b w (ATick i) -> high_inv w (pole_top * W + (1 - pole_top) * b) (fst (t_tick nm tl n i)) /\ exists y, snd (t_tick nm tl n i) = [y] /\ Rabs y <= pole_top * W + pole_top * b.
  Proof.
    intros B0 BW (x1 & y1 & c & f & sr & -> & T & A) Sw. pose proof (retuned w c f sr i b T Sw) as T'. destruct Sw as [Hx _]. cbn [t_tick]. change (n0 nm) with 0. rewrite Hel. set (c' := if w && neqb nm (nth 1 i 0) f then _ else c) in *. set (f' := if w && neqb nm (nth 1 i 0) f then _ else f) in *.
    cbn [fst snd]. set (x := nth 0 i 0) in *. pose proof pole_top_range as PT. pose proof (proj1 T') as C.
    assert (L : Rabs (high_step nm c' x1 y1 x - x) <= pole_top * W + (1 - pole_top) * b).
    { unfold high_step. cbn [nadd nmul nsub n1 nofZ Rnum_ops]. eapply Rle_trans; [|exact (mixed c' x (y1 - x1) b W C Hx BW A)]. replace (c' * (y1 + x - x1) - x) with (- ((1 - c') * x) + c' * (y1 - x1)) by ring. eapply Rle_trans; [apply Rabs_triang|]. rewrite Rabs_Ropp, !Rabs_mult, (Rabs_pos_eq (1 - c')), (Rabs_pos_eq c') by lra. lra. }
    assert (L2 : Rabs (high_step nm c' x1 y1 x) <= pole_top * W + pole_top * b).
    { unfold high_step. cbn [nadd nmul nsub n1 nofZ Rnum_ops]. replace (c' * (y1 + x - x1)) with (c' * ((y1 - x1) + x)) by ring. rewrite Rabs_mult, (Rabs_pos_eq c') by lra. pose proof (Rabs_triang (y1 - x1) x). rewrite <- Rmult_plus_distr_l. apply Rmult_le_compat; try lra. apply Rabs_pos. }
    split; [|eexists; split; [reflexivity|exact L2]]. eexists _, _, _, _, sr. split; [reflexivity|]. split; [exact T'|exact L].
  Qed.
End Pole.
Arguments pole_top : clear implicits.

Lemma lowpole_swept : forall (G S X : Type) (tl : tools R G S X), tl_elem tl = R_elem -> forall lo hi s0 s1 b w f sr n acts os, 0 <= lo -> 0 < s0 -> 0 <= b -> lo <= f <= hi -> s0 <= sr <= s1 ->
  build Rnum_ops tl w (OLowpole f) = Some n -> Forall (swept lo hi s0 s1 b w) acts -> t_outs Rnum_ops tl (t_rate Rnum_ops tl n sr) acts = Some os -> bounded b os.
Proof.
  intros G S X tl Hel lo hi s0 s1 b w f sr n acts os L S0 B Hf Hs Bd F E. unfold t_outs in E. destruct (t_run _ _ _ _) as [[n' os']|] eqn:E1; [|discriminate]. injection E as <-.
  assert (Hlo : 0 <= lo <= hi) by lra. assert (HS : 0 < s0 <= s1) by lra. set (t := pole_top lo s1). pose proof (pole_top_range lo hi s0 s1 Hlo HS) as PT. fold t in PT.
  destruct (sw_bounded tl lo hi s0 s1 w (low_inv lo hi s0 s1 w) t (1 - t) t (1 - t) (low_more lo hi s0 s1 w) (low_set tl Hel lo hi s0 s1 Hlo HS w) (low_rate tl Hel lo hi s0 s1 Hlo HS w) (low_reset tl lo hi s0 s1 w) (low_tick tl Hel lo hi s0 s1 Hlo HS w) b b acts B (Rle_refl b) ltac:(lra) (t_rate Rnum_ops tl n sr) n' os') as (_ & Q & _); try assumption.
  - cbn [build] in Bd. injection Bd as <-. cbn [t_rate low_tune]. unfold low_tune. rewrite Hel. eexists _, _, _, sr. split; [reflexivity|]. split; [split; [apply (pole_range lo hi s0 s1); assumption|split; assumption]|]. change (n0 Rnum_ops) with 0. rewrite Rabs_R0. exact B.
  - replace b with (t * b + (1 - t) * b) by ring. exact Q.
Qed.
Lemma lowpole_quiets : forall (G S X : Type) (tl : tools R G S X), tl_elem tl = R_elem -> forall lo hi s0 s1 b w f sr n before acts os, 0 <= lo -> 0 < s0 -> 0 <= b -> lo <= f <= hi -> s0 <= sr <= s1 ->
  build Rnum_ops tl w (OLowpole f) = Some n -> Forall (swept lo hi s0 s1 b w) before -> Forall (swept lo hi s0 s1 0 w) acts -> t_outs Rnum_ops tl (t_rate Rnum_ops tl n sr) (before ++ acts) = Some os ->
  forall i o, nth_error os (ticks_of before + i) = Some o -> Forall (fun y => Rabs y <= b * exp (- (2 * PI * lo / s1)) ^ (i + 1)) o.
Proof.
  intros G S X tl Hel lo hi s0 s1 b w f sr n before acts os L S0 B Hf Hs Bd F1 F2 E i o N. unfold t_outs in E. destruct (t_run _ _ _ _) as [[n' os']|] eqn:E1; [|discriminate]. injection E as <-.
  assert (Hlo : 0 <= lo <= hi) by lra. assert (HS : 0 < s0 <= s1) by lra. set (t := pole_top lo s1). change (exp (- (2 * PI * lo / s1))) with t. pose proof (pole_top_range lo hi s0 s1 Hlo HS) as PT. fold t in PT.
  assert (Q : Forall (fun y => Rabs y <= t * b * t ^ i) o).
  { refine (sw_after tl lo hi s0 s1 w (low_inv lo hi s0 s1 w) t (1 - t) t (1 - t) (proj1 PT) (low_more lo hi s0 s1 w) (low_set tl Hel lo hi s0 s1 Hlo HS w) (low_rate tl Hel lo hi s0 s1 Hlo HS w) (low_reset tl lo hi s0 s1 w) (low_tick tl Hel lo hi s0 s1 Hlo HS w) b b before acts (t_rate Rnum_ops tl n sr) n' os' B (Rle_refl b) _ _ F1 F2 E1 i o N); [lra|].
    cbn [build] in Bd. injection Bd as <-. cbn [t_rate low_tune]. unfold low_tune. rewrite Hel. eexists _, _, _, sr. split; [reflexivity|]. split; [split; [apply (pole_range lo hi s0 s1); assumption|split; assumption]|]. change (n0 Rnum_ops) with 0. rewrite Rabs_R0. exact B. }
  eapply Forall_impl; [|exact Q]. intros y Hy. cbn beta in *. rewrite Nat.add_1_r. cbn [pow]. lra.
Qed.
Lemma highpole_swept : forall (G S X : Type) (tl : tools R G S X), tl_elem tl = R_elem -> forall lo hi s0 s1 b w f sr n acts os, 0 <= lo -> 0 < s0 -> 0 <= b -> lo <= f <= hi -> s0 <= sr <= s1 ->
  build Rnum_ops tl w (OHighpole f) = Some n -> Forall (swept lo hi s0 s1 b w) acts -> t_outs Rnum_ops tl (t_rate Rnum_ops tl n sr) acts = Some os -> bounded (2 * b * exp (- (2 * PI * lo / s1))) os.
Proof.
  intros G S X tl Hel lo hi s0 s1 b w f sr n acts os L S0 B Hf Hs Bd F E. unfold t_outs in E. destruct (t_run _ _ _ _) as [[n' os']|] eqn:E1; [|discriminate]. injection E as <-.
  assert (Hlo : 0 <= lo <= hi) by lra. assert (HS : 0 < s0 <= s1) by lra. set (t := pole_top lo s1). change (exp (- (2 * PI * lo / s1))) with t. pose proof (pole_top_range lo hi s0 s1 Hlo HS) as PT. fold t in PT.
  destruct (sw_bounded tl lo hi s0 s1 w (high_inv lo hi s0 s1 w) t (1 - t) t t (high_more lo hi s0 s1 w) (high_set tl Hel lo hi s0 s1 Hlo HS w) (high_rate tl Hel lo hi s0 s1 Hlo HS w) (high_reset tl lo hi s0 s1 w) (high_tick tl Hel lo hi s0 s1 Hlo HS w) b b acts B (Rle_refl b) ltac:(lra) (t_rate Rnum_ops tl n sr) n' os') as (_ & Q & _); try assumption.
  - cbn [build] in Bd. injection Bd as <-. cbn [t_rate high_tune]. unfold high_tune. rewrite Hel. eexists _, _, _, _, sr. split; [reflexivity|]. split; [split; [apply (pole_range lo hi s0 s1); assumption|split; assumption]|]. change (n0 Rnum_ops) with 0. rewrite Rminus_0_r, Rabs_R0. exact B.
  - replace (2 * b * t) with (t * b + t * b) by ring. exact Q.
Qed.
Lemma highpole_quiets : forall (G S X : Type) (tl : tools R G S X), tl_elem tl = R_elem -> forall lo hi s0 s1 b w f sr n before acts os, 0 <= lo -> 0 < s0 -> 0 <= b -> lo <= f <= hi -> s0 <= sr <= s1 ->
  build Rnum_ops tl w (OHighpole f) = Some n -> Forall (swept lo hi s0 s1 b w) before -> Forall (swept lo hi s0 s1 0 w) acts -> t_outs Rnum_ops tl (t_rate Rnum_ops tl n sr) (before ++ acts) = Some os ->
  forall i o, nth_error os (ticks_of before + i) = Some o -> Forall (fun y => Rabs y <= b * exp (- (2 * PI * lo / s1)) ^ (i + 1)) o.
Proof.
  intros G S X tl Hel lo hi s0 s1 b w f sr n before acts os L S0 B Hf Hs Bd F1 F2 E i o N. unfold t_outs in E. destruct (t_run _ _ _ _) as [[n' os']|] eqn:E1; [|discriminate]. injection E as <-.
  assert (Hlo : 0 <= lo <= hi) by lra. assert (HS : 0 < s0 <= s1) by lra. set (t := pole_top lo s1). change (exp (- (2 * PI * lo / s1))) with t. pose proof (pole_top_range lo hi s0 s1 Hlo HS) as PT. fold t in PT.
  assert (Q : Forall (fun y => Rabs y <= t * b * t ^ i) o).
  { refine (sw_after tl lo hi s0 s1 w (high_inv lo hi s0 s1 w) t (1 - t) t t (proj1 PT) (high_more lo hi s0 s1 w) (high_set tl Hel lo hi s0 s1 Hlo HS w) (high_rate tl Hel lo hi s0 s1 Hlo HS w) (high_reset tl lo hi s0 s1 w) (high_tick tl Hel lo hi s0 s1 Hlo HS w) b b before acts (t_rate Rnum_ops tl n sr) n' os' B (Rle_refl b) _ _ F1 F2 E1 i o N); [lra|].
    cbn [build] in Bd. injection Bd as <-. cbn [t_rate high_tune]. unfold high_tune. rewrite Hel. eexists _, _, _, _, sr. split; [reflexivity|]. split; [split; [apply (pole_range lo hi s0 s1); assumption|split; assumption]|]. change (n0 Rnum_ops) with 0. rewrite Rminus_0_r, Rabs_R0. exact B. }
  eapply Forall_impl; [|exact Q]. intros y Hy. cbn beta in *. rewrite Nat.add_1_r. cbn [pow]. lra.
Qed.

(* ---- allpole ---- *)
Section AllP.
  Context {G S X : Type}.
  Variable tl : tools R G S X.
  Notation nm := Rnum_ops.
  Variables lo hi s0 s1 : R.
  Hypothesis Hlo : 0 < lo <= hi.
  Definition eta_top : R := Rmax (Rabs (all_eta nm lo)) (Rabs (all_eta nm hi)).
  Lemma eta_dec d : 0 < d -> all_eta nm d = 2 / (1 + d) - 1. Proof. intros. unfold all_eta. cbn [nsub nadd ndiv n1 nofZ Rnum_ops]. field. lra. Qed.
  Lemma eta_in d : 0 < d -> Rabs (all_eta nm d) < 1.
  Proof. intros H. rewrite eta_dec by exact H. assert (0 < 2 / (1 + d)) by (apply Rdiv_lt_0_compat; lra). assert (2 / (1 + d) < 2) by (apply Rmult_lt_reg_r with (1 + d); [lra|]; unfold Rdiv; rewrite Rmult_assoc, Rinv_l by lra; lra). apply Rabs_def1; lra. Qed.
  Lemma eta_top_range : 0 <= eta_top < 1.
  Proof. unfold eta_top. split; [eapply Rle_trans; [apply Rabs_pos|apply Rmax_l]|]. apply Rmax_lub_lt; apply eta_in; lra. Qed.
  Lemma eta_range d : lo <= d <= hi -> Rabs (all_eta nm d) <= eta_top.
  Proof.
    intros H. assert (all_eta nm hi <= all_eta nm d <= all_eta nm lo). { rewrite !eta_dec by lra. split; apply Rplus_le_compat_r; unfold Rdiv; apply Rmult_le_compat_l; try lra; apply Rinv_le_contravar; lra. }
    unfold eta_top. apply Rabs_le. pose proof (Rmax_l (Rabs (all_eta nm lo)) (Rabs (all_eta nm hi))). pose proof (Rmax_r (Rabs (all_eta nm lo)) (Rabs (all_eta nm hi))). pose proof (Rle_abs (all_eta nm lo)). pose proof (Rle_abs (- all_eta nm hi)) as R4. rewrite Rabs_Ropp in R4. lra.
  Qed.
  Definition all_inv (w : bool) (W : R) (n : tnode R G S X) : Prop := exists e x1 y1, n = TAll w e x1 y1 /\ Rabs e <= eta_top /\ eta_top * Rabs y1 + Rabs x1 <= W.
  Lemma all_more w W W' n : W <= W' -> all_inv w W n -> all_inv w W' n.
  Proof. intros H (e & x1 & y1 & E & T & A). exists e, x1, y1. split; [exact E|]. split; [exact T|lra]. Qed.
  Lemma all_set w W n st n' : all_inv w W n -> swept lo hi s0 s1 0 w (ASet st) -> t_set nm tl n st = Some n' -> all_inv w W n'.
  Proof.
    intros (e & x1 & y1 & -> & T & A) Sw. cbn [t_set swept] in *. destruct (s_par st); intros E; injection E as <-; try (exists e, x1, y1; tauto).
    eexists _, x1, y1. split; [reflexivity|]. split; [|exact A]. now apply eta_range.
  Qed.
  Lemma all_rate w W n sr : all_inv w W n -> s0 <= sr <= s1 -> all_inv w W (t_rate nm tl n sr).
  Proof. intros (e & x1 & y1 & -> & T & A) _. exists e, x1, y1. split; [reflexivity|]. split; assumption. Qed.
  Lemma all_reset w W n : 0 <= W -> all_inv w W n -> all_inv w W (t_reset nm tl n).
  Proof. intros H (e & x1 & y1 & -> & T & A). cbn [t_reset]. eexists e, _, _. split; [reflexivity|]. split; [exact T|]. change (n0 nm) with 0. rewrite Rabs_R0. lra. Qed.
  Lemma all_tick w W b n i : 0 <= b -> b <= W -> all_inv w W n -> swept lo hi s0 s1 b w (ATick i) -> all_inv w (eta_top * W + (1 + eta_top * eta_top) * b) (fst (t_tick nm tl n i)) /\ exists y, snd (t_tick nm tl n i) = [y] /\ Rabs y <= 1 * W + eta_top * b.
  Proof.
    intros B0 BW (e & x1 & y1 & -> & T & A) [Hx Hd]. cbn [t_tick]. change (n0 nm) with 0. set (e' := if w then all_eta nm (nth 1 i 0) else e).
    assert (T' : Rabs e' <= eta_top). { unfold e'. destruct w; [apply eta_range; apply Hd; reflexivity|exact T]. } cbn [fst snd]. set (x := nth 0 i 0) in *. pose proof eta_top_range as ET.
    assert (L : Rabs (all_step nm e' x1 y1 x) <= 1 * W + eta_top * b).
    { unfold all_step. cbn [nadd nmul nsub n1 nofZ Rnum_ops]. eapply Rle_trans; [apply Rabs_triang|]. rewrite Rabs_mult. assert (Rabs (x - y1) <= b + Rabs y1). { unfold Rminus. eapply Rle_trans; [apply Rabs_triang|]. rewrite Rabs_Ropp. lra. }
      assert (Rabs e' * Rabs (x - y1) <= eta_top * (b + Rabs y1)) by (apply Rmult_le_compat; try lra; apply Rabs_pos). lra. }
    split; [|eexists; split; [reflexivity|exact L]]. eexists _, _, _. split; [reflexivity|]. split; [exact T'|]. assert (eta_top * Rabs (all_step nm e' x1 y1 x) <= eta_top * (1 * W + eta_top * b)) by (apply Rmult_le_compat_l; lra). lra.
  Qed.
End AllP.
Arguments eta_top : clear implicits.
Lemma allpole_swept : forall (G S X : Type) (tl : tools R G S X) lo hi s0 s1 b w d n, 0 < lo -> 0 <= b -> lo <= d <= hi -> build Rnum_ops tl w (OAllpole d) = Some n ->
  (forall acts os, Forall (swept lo hi s0 s1 b w) acts -> t_outs Rnum_ops tl n acts = Some os -> bounded ((1 + eta_top lo hi) / (1 - eta_top lo hi) * b) os) /\
  (forall before acts os, Forall (swept lo hi s0 s1 b w) before -> Forall (swept lo hi s0 s1 0 w) acts -> t_outs Rnum_ops tl n (before ++ acts) = Some os ->
    forall i o, nth_error os (ticks_of before + i) = Some o -> Forall (fun y => Rabs y <= (1 + eta_top lo hi) / (1 - eta_top lo hi) * b * eta_top lo hi ^ i) o).
Proof.
  intros G S X tl lo hi s0 s1 b w d n L B Hd Bd. assert (Hlo : 0 < lo <= hi) by lra. pose proof (eta_top_range lo hi Hlo) as ET. set (e := eta_top lo hi) in *.
  set (W := (1 + e * e) / (1 - e) * b). assert (P : 0 < / (1 - e)) by (apply Rinv_0_lt_compat; lra). assert (W1 : W * (1 - e) = (1 + e * e) * b) by (unfold W; field; lra).
  assert (BW : b <= W). { apply Rmult_le_reg_r with (1 - e); [lra|]. rewrite W1. assert (0 <= b * e) by (apply Rmult_le_pos; lra). assert (0 <= b * (e * e)) by (apply Rmult_le_pos; [lra|apply Rle_0_sqr]). lra. }
  assert (HW : e * W + (1 + e * e) * b <= W) by lra.
  assert (O : all_inv lo hi w W n). { cbn [build] in Bd. destruct (nltb _ _ _); [|discriminate]. injection Bd as <-. eexists _, _, _. split; [reflexivity|]. split; [exact (eta_range lo hi Hlo d Hd)|]. change (n0 Rnum_ops) with 0. rewrite Rabs_R0. lra. }
  assert (EW : 1 * W + e * b = (1 + e) / (1 - e) * b) by (unfold W; field; lra).
  split.
  - intros acts os F E. unfold t_outs in E. destruct (t_run _ _ _ _) as [[n' os']|] eqn:E1; [|discriminate]. injection E as <-. rewrite <- EW.
    exact (proj1 (proj2 (sw_bounded tl lo hi s0 s1 w (all_inv lo hi w) e (1 + e * e) 1 e (all_more lo hi w) (all_set tl lo hi s0 s1 Hlo w) (all_rate tl lo hi s0 s1 w) (all_reset tl lo hi w) (all_tick tl lo hi s0 s1 Hlo w) W b acts B BW HW n n' os' O F E1))).
  - intros before acts os F1 F2 E i o N. unfold t_outs in E. destruct (t_run _ _ _ _) as [[n' os']|] eqn:E1; [|discriminate]. injection E as <-.
    assert (Q : Forall (fun y => Rabs y <= 1 * W * e ^ i) o) by exact (sw_after tl lo hi s0 s1 w (all_inv lo hi w) e (1 + e * e) 1 e (proj1 ET) (all_more lo hi w) (all_set tl lo hi s0 s1 Hlo w) (all_rate tl lo hi s0 s1 w) (all_reset tl lo hi w) (all_tick tl lo hi s0 s1 Hlo w) W b before acts n n' os' B BW HW O F1 F2 E1 i o N).
    eapply Forall_impl; [|exact Q]. intros y Hy. cbn beta in *. eapply Rle_trans; [exact Hy|]. apply Rmult_le_compat_r; [apply pow_le; lra|]. rewrite <- EW. assert (0 <= e * b) by (apply Rmult_le_pos; lra). lra.
Qed.
