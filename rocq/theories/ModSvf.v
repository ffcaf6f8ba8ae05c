(* State variable filters stay bounded and fall silent while their parameters move within ranges. *)
From Coq Require Import Reals Lra Lia Psatz.
From Verif Require Import ShapeProofs TuneProofs TuneReal TuneBounds.
From Verif Require Export ModProofs.
Local Open Scope R_scope.

Lemma tan_range r sr f : proper r -> in_sr r sr -> in_f r f -> 0 < tan (PI * r_f0 r / r_sr1 r) <= tan (PI * f / sr) /\ tan (PI * f / sr) <= tan (PI * r_f1 r / r_sr0 r).
Proof.
  intros (H1 & H2 & H3 & _) [S1 S2] [F1 F2]. pose proof PI_RGT_0 as P.
  assert (M : forall u v, 0 < u <= v -> v < PI / 2 -> tan u <= tan v). { intros u v [A B] C. destruct (Req_dec u v) as [-> |N]; [lra|]. apply Rlt_le, tan_increasing; lra. }
  assert (Q : forall a b c d, 0 < a <= b -> 0 < d <= c -> PI * a / c <= PI * b / d).
  { intros a b c d A C. unfold Rdiv. rewrite !Rmult_assoc. apply Rmult_le_compat_l; [lra|]. apply Rmult_le_compat; try lra; [apply Rlt_le, Rinv_0_lt_compat; lra|]. apply Rinv_le_contravar; lra. }
  assert (PI * r_f0 r / r_sr1 r <= PI * f / sr) by (apply Q; lra). assert (PI * f / sr <= PI * r_f1 r / r_sr0 r) by (apply Q; lra).
  assert (0 < PI * r_f0 r / r_sr1 r) by (apply Rdiv_lt_0_compat; nra). pose proof (sin_part (r_sr0 r) (r_f1 r) ltac:(lra)) as T.
  split; [split|]; [apply tan_gt_0; lra|apply M; lra|apply M; lra].
Qed.
Definition sv_like (G0 G1 K0 K1 M : R) (c : svcoefs R) : Prop := exists g k m0 m1 m2, c = sv_with Rnum_ops g k m0 m1 m2 /\ G0 <= g <= G1 /\ K0 <= k <= K1 /\ Rabs m0 <= M /\ Rabs m1 <= M /\ Rabs m2 <= M.
Definition in_params (r : ranges) (p : svparams R) : Prop := in_sr r (sp_sr p) /\ in_f r (sp_cutoff p) /\ in_q r (sp_q p) /\ in_g r (sp_gain p).
Lemma mul_up a b : 0 <= a -> 1 <= b -> a <= a * b. Proof. intros. nra. Qed.
Lemma mul_down a b : 0 <= a -> b <= 1 -> a * b <= a. Proof. intros. nra. Qed.
Lemma coefs_range r : proper r -> exists G0 G1 K0 K1 M, 0 < G0 <= G1 /\ 0 < K0 <= K1 /\ 0 <= M /\ forall m p, in_params r p -> sv_like G0 G1 K0 K1 M (sv_coefs Rnum_ops R_elem m p).
Proof.
  intros Hr. pose proof Hr as (HS & HF & HN & HQ & HGn & HX).
  set (T0 := tan (PI * r_f0 r / r_sr1 r)). set (T1 := tan (PI * r_f1 r / r_sr0 r)).
  assert (HT : 0 < T0 <= T1). { pose proof (tan_range r (r_sr0 r) (r_f0 r) Hr ltac:(unfold in_sr; lra) ltac:(unfold in_f; lra)) as [A B]. fold T0 T1 in A, B. lra. }
  set (u0 := Rmin 1 (sqrt (sqrt (r_g0 r)))). set (u1 := Rmax 1 (sqrt (sqrt (r_g1 r)))).
  assert (U0 : 0 < u0 <= 1). { unfold u0. split; [apply Rmin_glb_lt; [lra|]; apply sqrt_lt_R0, sqrt_lt_R0; lra|apply Rmin_l]. }
  assert (U1 : 1 <= u1) by apply Rmax_l.
  assert (U : forall g, in_g r g -> u0 <= sqrt (sqrt g) <= u1).
  { intros g [A B]. split; [apply Rle_trans with (1 := Rmin_r _ _)|apply Rle_trans with (2 := Rmax_r _ _)]; apply sqrt_le_1_alt, sqrt_le_1_alt; lra. }
  set (K0 := 1 / (r_q1 r * (u1 * u1))). set (K1 := 1 / (r_q0 r * (u0 * u0))). set (A := u1 * u1).
  assert (A1 : 1 <= A) by (unfold A; nra).
  assert (IV : forall a b, 0 < a <= b -> 1 / b <= 1 / a). { intros a b H. unfold Rdiv. rewrite !Rmult_1_l. apply Rinv_le_contravar; lra. }
  assert (IP : forall a, 0 < a -> 0 < 1 / a) by (intros; apply Rdiv_lt_0_compat; lra).
  assert (u00 : 0 < u0 * u0 <= 1) by nra.
  exists (T0 * u0 / u1), (T1 * u1 / u0), K0, K1, ((2 + 2 * K1) * (A * A)).
  assert (Q0 : 0 < r_q0 r <= r_q1 r) by exact HQ. assert (U11 : 1 <= u1 * u1) by exact A1.
  assert (P0 : 0 < K0). { apply IP. apply Rmult_lt_0_compat; lra. } assert (PK : K0 <= K1). { apply IV. split; [apply Rmult_lt_0_compat; lra|]. apply Rmult_le_compat; lra. }
  assert (G0p : 0 < T0 * u0 / u1) by (apply Rdiv_lt_0_compat; [apply Rmult_lt_0_compat|]; lra).
  assert (L0 : T0 * u0 / u1 <= T0 * u0). { apply Rmult_le_reg_r with u1; [lra|]. unfold Rdiv. rewrite Rmult_assoc, Rinv_l by lra. rewrite Rmult_1_r. apply mul_up; [apply Rmult_le_pos|]; lra. }
  assert (L1 : T0 * u0 / u1 <= T0 / u1). { unfold Rdiv. apply Rmult_le_compat_r; [apply Rlt_le, Rinv_0_lt_compat; lra|apply mul_down; lra]. }
  assert (L2 : T1 * u1 <= T1 * u1 / u0). { apply Rmult_le_reg_r with u0; [lra|]. unfold Rdiv. rewrite (Rmult_assoc (T1 * u1)), Rinv_l by lra. rewrite Rmult_1_r. apply mul_down; [apply Rmult_le_pos|]; lra. }
  assert (L3 : T1 / u0 <= T1 * u1 / u0). { unfold Rdiv. apply Rmult_le_compat_r; [apply Rlt_le, Rinv_0_lt_compat; lra|apply mul_up; lra]. }
  assert (T0u : T0 * u0 <= T0) by (apply mul_down; lra). assert (T1u : T1 <= T1 * u1) by (apply mul_up; lra).
  split; [split; [exact G0p|]; lra|]. split; [split; [exact P0|exact PK]|]. assert (M1 : 1 <= A * A). { apply Rle_trans with (1 := A1). apply mul_up; lra. } split; [apply Rmult_le_pos; lra|].
  intros m p (Hsr & Hf & Hq & Hg). pose proof (tan_range r _ _ Hr Hsr Hf) as [[_ G1] G2]. fold T0 T1 in G1, G2. specialize (U _ Hg). set (g := tan (PI * sp_cutoff p / sp_sr p)) in *.
  set (u := sqrt (sqrt (sp_gain p))) in *. assert (Ea : sqrt (sp_gain p) = u * u). { unfold u. symmetry. apply sqrt_sqrt, sqrt_pos. }
  assert (Eq1 : K0 <= 1 / sp_q p <= K1). { destruct Hq as [Q1 Q2]. split; apply IV; (split; [nra|]); unfold A in *; nra. }
  set (k := 1 / sp_q p) in *. assert (Ha : 0 < u * u <= A). { unfold A. split; [apply Rmult_lt_0_compat; lra|]. apply Rmult_le_compat; lra. } set (a := u * u) in *.
  assert (Ekb : K0 <= 1 / (sp_q p * a) <= K1).
  { destruct Hq as [Q1 Q2]. assert (a <= u1 * u1) by apply Ha. assert (u0 * u0 <= a) by (unfold a; apply Rmult_le_compat; lra). split; apply IV; (split; [apply Rmult_lt_0_compat; lra|]); apply Rmult_le_compat; lra. }
  assert (gA : T0 * u0 / u1 <= g <= T1 * u1 / u0) by lra.
  assert (gB : T0 * u0 / u1 <= g / u <= T1 * u1 / u0).
  { split.
    - apply Rle_trans with (1 := L1). unfold Rdiv. apply Rmult_le_compat; [lra|apply Rlt_le, Rinv_0_lt_compat; lra|lra|apply Rinv_le_contravar; lra].
    - apply Rle_trans with (2 := L3). unfold Rdiv. apply Rmult_le_compat; [lra|apply Rlt_le, Rinv_0_lt_compat; lra|lra|apply Rinv_le_contravar; lra]. }
  assert (gC : T0 * u0 / u1 <= g * u <= T1 * u1 / u0). { split; [apply Rle_trans with (1 := L0)|apply Rle_trans with (2 := L2)]; apply Rmult_le_compat; lra. }
  assert (AA : 0 <= a * a <= A * A) by (split; [apply Rmult_le_pos; lra|apply Rmult_le_compat; lra]). assert (K10 : 0 <= K1) by lra. assert (AAA : A <= A * A) by (apply mul_up; lra).
  set (MM := (2 + 2 * K1) * (A * A)). assert (KA : 0 <= K1 * (A * A)) by (apply Rmult_le_pos; lra). assert (MMe : MM = 2 * (A * A) + 2 * (K1 * (A * A))) by (unfold MM; ring). assert (KA1 : K1 <= K1 * (A * A)) by (apply mul_up; lra).
  assert (B0 : Rabs 0 <= MM) by (rewrite Rabs_R0; lra). assert (B1 : Rabs 1 <= MM) by (rewrite Rabs_R1; lra).
  assert (Bk : Rabs (- k) <= MM) by (rewrite Rabs_Ropp, Rabs_pos_eq; lra).
  assert (PR : forall c d, 0 <= c <= K1 -> Rabs d <= A * A -> Rabs (c * d) <= MM).
  { intros c d C D. rewrite Rabs_mult, (Rabs_pos_eq c) by lra. apply Rle_trans with (K1 * (A * A)); [|lra]. apply Rmult_le_compat; try lra. apply Rabs_pos. }
  assert (Esq : sqrt a = u) by (unfold a; apply sqrt_square; lra).
  unfold sv_coefs. cbn [e_tan e_pi e_sqrt R_elem nmul ndiv nsub nneg n1 n0 nofZ Rnum_ops]. rewrite ?Ea. fold g k. fold a. rewrite ?Esq.
  assert (FIN : forall g' k' m0 m1 m2, T0 * u0 / u1 <= g' <= T1 * u1 / u0 -> K0 <= k' <= K1 -> Rabs m0 <= MM -> Rabs m1 <= MM -> Rabs m2 <= MM -> sv_like (T0 * u0 / u1) (T1 * u1 / u0) K0 K1 MM (sv_with Rnum_ops g' k' m0 m1 m2)).
  { intros g' k' m0 m1 m2 ? ? ? ? ?. exists g', k', m0, m1, m2. tauto. }
  destruct m; apply FIN; try assumption.
  - apply abs_le. lra.
  - apply abs_le. lra.
  - apply abs_le. lra.
  - apply PR; [lra|]. apply abs_le. lra.
  - apply PR; [lra|]. apply abs_le. lra.
  - apply abs_le. lra.
  - apply abs_le. lra.
  - rewrite Rmult_assoc. apply PR; [lra|]. apply abs_le. nra.
  - apply abs_le. lra.
Qed.

Section Run.
  Context {G S X : Type}.
  Variable tl : tools R G S X.
  Hypothesis Hel : tl_elem tl = R_elem.
  Variables G0 G1 K0 K1 M : R.
  Hypothesis HG : 0 < G0 <= G1. Hypothesis HK : 0 < K0 <= K1. Hypothesis HM : 0 <= M.
  Notation nm := Rnum_ops.
  Notation V := (form K0 K1).
  Notation d := (loss G0 G1 K0 K1).
  Notation p := (push G1 K0 K1).
  Definition reach (x w : R) : R := M * (x + (w + G1 * (x + w)) + (w + G1 * (w + G1 * (x + w)))).
  Lemma svf_stepped s x W B : sv_like G0 G1 K0 K1 M (vf_c s) -> V (vf_ic1 s) (vf_ic2 s) <= W -> Rabs x <= B ->
    let (s', y) := svf_step nm s x in vf_mode s' = vf_mode s /\ vf_par s' = vf_par s /\ vf_c s' = vf_c s /\ V (vf_ic1 s') (vf_ic2 s') <= (1 - d) * W + p * (B * B) /\ Rabs y <= reach B (sqrt (2 * W)).
  Proof.
    intros (g & k & m0 & m1 & m2 & Ec & Hg & Hk & M0 & M1 & M2) HV Hx. unfold svf_step. rewrite Ec. cbn [sv_with sv_a1 sv_a2 sv_a3 sv_m0 sv_m1 sv_m2 nmul nadd nsub ndiv n1 nofZ Rnum_ops].
    set (a := vf_ic1 s) in *. set (b := vf_ic2 s) in *. assert (D : 1 <= 1 + g * (g + k)) by (assert (0 <= g * (g + k)) by (apply Rmult_le_pos; lra); lra).
    set (v1 := 1 / (1 + g * (g + k)) * a + g * (1 / (1 + g * (g + k))) * (x - b)). set (v2 := b + g * (1 / (1 + g * (g + k))) * a + g * (g * (1 / (1 + g * (g + k)))) * (x - b)).
    assert (E1 : v1 * (1 + g * (g + k)) = a + g * (x - b)) by (unfold v1; field; lra). assert (E2 : v2 = b + g * v1) by (unfold v1, v2; ring).
    cbn [vf_mode vf_par vf_c vf_ic1 vf_ic2]. split; [reflexivity|]. split; [reflexivity|]. split; [reflexivity|].
    pose proof (shrinks G0 G1 K0 K1 HG HK g k x a b v1 v2 Hg Hk E1 E2) as Sh. pose proof (loss_range G0 G1 K0 K1 HG HK) as L. pose proof (push_pos G0 G1 K0 K1 HG HK) as P.
    assert (XX : x * x <= B * B). { rewrite <- (Rabs_pos_eq (x * x)) by nra. rewrite Rabs_mult. pose proof (Rabs_pos x). apply Rmult_le_compat; lra. }
    split. { eapply Rle_trans; [exact Sh|]. apply Rplus_le_compat; apply Rmult_le_compat_l; lra. }
    pose proof (form_low K0 K1 HK a b) as FL. assert (AB : Rabs a <= sqrt (2 * W) /\ Rabs b <= sqrt (2 * W)).
    { split; rewrite <- sqrt_Rsqr_abs; apply sqrt_le_1_alt; unfold Rsqr; nra. }
    destruct AB as [Aa Ab]. pose proof (v_bounds G0 G1 K0 K1 HG HK g k x a b v1 v2 Hg Hk E1 E2) as [V1 V2]. set (w := sqrt (2 * W)) in *.
    assert (GXB : G1 * (Rabs x + Rabs b) <= G1 * (B + w)) by (apply Rmult_le_compat_l; lra).
    assert (V1' : Rabs v1 <= w + G1 * (B + w)) by lra.
    assert (V2' : Rabs v2 <= w + G1 * (w + G1 * (B + w))). { eapply Rle_trans; [exact V2|]. apply Rplus_le_compat; [lra|]. apply Rmult_le_compat_l; lra. }
    unfold reach. rewrite 2!Rmult_plus_distr_l. eapply Rle_trans; [apply Rabs_triang|]. apply Rplus_le_compat; [eapply Rle_trans; [apply Rabs_triang|]; apply Rplus_le_compat|]; apply abs_mul; assumption.
  Qed.

  Variable r : ranges.
  Hypothesis coefs : forall m q, in_params r q -> sv_like G0 G1 K0 K1 M (sv_coefs nm R_elem m q).
  Definition in_tune (s : svf R) : Prop := in_params r (vf_par s) /\ vf_c s = sv_coefs nm R_elem (vf_mode s) (vf_par s).
  Definition held_by (n : tnode R G S X) : option (svf R) := match n with TFix s => Some s | TSvf s _ _ => Some s | _ => None end.
  Definition wide_of (n : tnode R G S X) : bool := match n with TSvf _ _ _ => true | _ => false end.
  Variable md : svmode.
  Definition okay (W : R) (n : tnode R G S X) (w : bool) : Prop := exists s, held_by n = Some s /\ (wide_of n = w /\ vf_mode s = md) /\ in_tune s /\ V (vf_ic1 s) (vf_ic2 s) <= W.
  Lemma updated s q : in_params r q -> in_tune (svf_update nm R_elem s q).
  Proof. intros H. split; [exact H|reflexivity]. Qed.
  Lemma form_0 : V 0 0 = 0. Proof. unfold form. ring. Qed.
  (* settings, rates and resets *)
  Lemma okay_set W n w st n' : okay W n w -> steered r w (sv_gained md) (ASet st) -> t_set nm tl n st = Some n' -> okay W n' w.
  Proof.
    intros (s & Hs & Hw & T & HV) Ha. destruct n; try discriminate; injection Hs as ->; cbn [t_set wide_of] in *; rewrite ?Hel; cbn [steered] in Ha; pose proof T as [(P1 & P2 & P3 & P4) _].
    - destruct (s_par st); intros E; injection E as <-; try (exists s; tauto); cbn [svf_do]; (eexists; split; [reflexivity|]; split; [exact Hw|]; split; [apply updated|exact HV]); split; try tauto; cbn [sp_cutoff sp_q sp_gain]; tauto.
    - destruct (s_par st); intros E; injection E as <-; try (exists s; tauto).
  Qed.
  Lemma okay_rate W n w sr : okay W n w -> in_sr r sr -> okay W (t_rate nm tl n sr) w.
  Proof.
    intros (s & Hs & Hw & T & HV) Ha. destruct n; try discriminate; injection Hs as ->; cbn [t_rate wide_of] in *; rewrite ?Hel; pose proof T as [(P1 & P2 & P3 & P4) _]; (eexists; split; [reflexivity|]; split; [exact Hw|]; split; [apply updated|exact HV]); split; cbn [sp_sr sp_cutoff sp_q sp_gain]; tauto.
  Qed.
  Lemma okay_reset W n w : 0 <= W -> okay W n w -> okay W (t_reset nm tl n) w.
  Proof.
    intros H0 (s & Hs & Hw & T & HV). destruct n; try discriminate; injection Hs as ->; cbn [t_reset wide_of] in *; rewrite ?Hel; (eexists; split; [reflexivity|]; split; [exact Hw|]; split; [exact T|]); cbn [svf_do vf_ic1 vf_ic2]; change (n0 nm) with 0; rewrite form_0; exact H0.
  Qed.
  Lemma inputs_tuned s i : in_tune s -> in_f r (nth 1 i 0) /\ in_q r (nth 2 i 0) /\ (sv_gained (vf_mode s) = true -> in_g r (nth 3 i 0)) -> in_tune (sv_inputs nm tl s i) /\ vf_mode (sv_inputs nm tl s i) = vf_mode s /\ vf_ic1 (sv_inputs nm tl s i) = vf_ic1 s /\ vf_ic2 (sv_inputs nm tl s i) = vf_ic2 s.
  Proof.
    intros T (F & Q & Gn). pose proof T as [(P1 & P2 & P3 & P4) _]. unfold sv_inputs. rewrite Hel. change (n0 nm) with 0. destruct (sv_gained (vf_mode s)); destruct (_ || _); (split; [|split; [|split]; reflexivity]); try exact T; apply updated; split; cbn [sp_sr sp_cutoff sp_q sp_gain]; tauto.
  Qed.
  Lemma okay_tick W n w i : okay W n w -> steered r w (sv_gained md) (ATick i) -> let (n', o) := t_tick nm tl n i in okay ((1 - d) * W + p * (r_x r * r_x r)) n' w /\ exists y, o = [y] /\ Rabs y <= reach (r_x r) (sqrt (2 * W)).
  Proof.
    intros (s & Hs & Hw & T & HV) [Hx Hp]. destruct n as [| | | | | | | |s0|s0 per cnt| | | | | | | | | | ]; try discriminate; injection Hs as ->; cbn [t_tick wide_of] in *; change (n0 nm) with 0.
    - pose proof (svf_stepped s (nth 0 i 0) W (r_x r)) as St. rewrite (proj2 T) in St at 1. specialize (St (coefs _ _ (proj1 T)) HV Hx). destruct (svf_step nm s (nth 0 i 0)) as [s' y]. destruct St as (A1 & A2 & A3 & A4 & A5).
      split; [|exists y; split; [reflexivity|exact A5]]. exists s'. split; [reflexivity|]. split; [rewrite A1; exact Hw|]. split; [|exact A4]. split; [rewrite A2; apply T|]. rewrite A3, A1, A2. apply T.
    - destruct Hw as [Hw Hm]. subst w. specialize (Hp eq_refl). rewrite <- Hm in Hp. pose proof (inputs_tuned s i T Hp) as (IT & IM & I1 & I2). set (s1 := if Nat.leb per (cnt + 1) then sv_inputs nm tl s i else s).
      assert (Hm1 : vf_mode s1 = md) by (unfold s1; destruct (Nat.leb _ _); [rewrite IM|]; assumption). assert (T1 : in_tune s1) by (unfold s1; destruct (Nat.leb _ _); assumption). assert (V1 : V (vf_ic1 s1) (vf_ic2 s1) <= W) by (unfold s1; destruct (Nat.leb _ _); rewrite ?I1, ?I2; assumption).
      pose proof (svf_stepped s1 (nth 0 i 0) W (r_x r)) as St. rewrite (proj2 T1) in St at 1. specialize (St (coefs _ _ (proj1 T1)) V1 Hx). clearbody s1. destruct (svf_step nm s1 (nth 0 i 0)) as [s' y]. destruct St as (A1 & A2 & A3 & A4 & A5).
      split; [|exists y; split; [reflexivity|exact A5]]. exists s'. split; [reflexivity|]. split; [split; [reflexivity|rewrite A1; exact Hm1]|]. split; [|exact A4]. split; [rewrite A2; apply T1|]. rewrite A3, A1, A2. apply T1.
  Qed.
  (* histories *)
  Lemma okay_more W W' n w : W <= W' -> okay W n w -> okay W' n w.
  Proof. intros H (s & A & B & C & D). exists s. split; [exact A|]. split; [exact B|]. split; [exact C|lra]. Qed.
  Lemma run_bounded W acts : 0 <= W -> p * (r_x r * r_x r) <= d * W -> forall n w n' os, okay W n w -> Forall (steered r w (sv_gained md)) acts -> t_run nm tl n acts = Some (n', os) -> okay W n' w /\ bounded (reach (r_x r) (sqrt (2 * W))) os /\ length os = ticks_of acts.
  Proof.
    intros W0 HW. induction acts as [|a acts IH]; intros n w n' os O F E; cbn [t_run] in E.
    - injection E as <- <-. split; [exact O|]. split; [apply Forall_nil|reflexivity].
    - inversion F as [|? ? Fa Fr]; subst. destruct a as [i|st|sr|].
      + pose proof (okay_tick W n w i O Fa) as T. destruct (t_tick nm tl n i) as [n1 o]. destruct T as [O1 (y & -> & Hy)].
        destruct (t_run nm tl n1 acts) as [[n2 os2]|] eqn:E2; [|discriminate]. injection E as <- <-.
        assert (O1' : okay W n1 w) by (apply okay_more with (2 := O1); lra). destruct (IH n1 w n2 os2 O1' Fr E2) as (A & B & C).
        split; [exact A|]. split; [apply Forall_cons; [apply Forall_cons; [exact Hy|apply Forall_nil]|exact B]|]. cbn [length]. rewrite C. reflexivity.
      + destruct (t_set nm tl n st) as [n1|] eqn:E1; [|discriminate]. exact (IH n1 w n' os (okay_set W n w st n1 O Fa E1) Fr E).
      + exact (IH _ w n' os (okay_rate W n w sr O Fa) Fr E).
      + exact (IH _ w n' os (okay_reset W n w W0 O) Fr E).
  Qed.
  Lemma reach_0 w : reach 0 w = reach 0 1 * w. Proof. unfold reach. ring. Qed.
  Lemma reach_pos x w : 0 <= x -> 0 <= w -> 0 <= reach x w.
  Proof. intros. unfold reach. apply Rmult_le_pos; [exact HM|]. assert (0 <= G1 * (x + w)) by (apply Rmult_le_pos; lra). assert (0 <= G1 * (w + G1 * (x + w))) by (apply Rmult_le_pos; lra). lra. Qed.
  Lemma run_silent acts : r_x r = 0 -> forall W n w n' os, 0 <= W -> okay W n w -> Forall (steered r w (sv_gained md)) acts -> t_run nm tl n acts = Some (n', os) ->
    forall i o, nth_error os i = Some o -> Forall (fun y => Rabs y <= reach 0 1 * sqrt (2 * W) * sqrt (1 - d) ^ i) o.
  Proof.
    intros X0. induction acts as [|a acts IH]; intros W n w n' os W0 O F E; cbn [t_run] in E.
    - injection E as <- <-. intros [|i] o N; discriminate.
    - inversion F as [|? ? Fa Fr]; subst. destruct a as [i|st|sr|].
      + pose proof (okay_tick W n w i O Fa) as T. destruct (t_tick nm tl n i) as [n1 o]. destruct T as [O1 (y & -> & Hy)]. rewrite X0 in O1, Hy. rewrite Rmult_0_l, Rmult_0_r, Rplus_0_r in O1.
        destruct (t_run nm tl n1 acts) as [[n2 os2]|] eqn:E2; [|discriminate]. injection E as <- <-. pose proof (loss_range G0 G1 K0 K1 HG HK) as L.
        intros [|j] o' N; cbn [nth_error] in N.
        * injection N as <-. apply Forall_cons; [|apply Forall_nil]. rewrite reach_0 in Hy. cbn [pow]. lra.
        * pose proof (IH ((1 - d) * W) n1 w n2 os2 ltac:(apply Rmult_le_pos; lra) O1 Fr E2 j o' N) as Q. replace (2 * ((1 - d) * W)) with ((1 - d) * (2 * W)) in Q by ring. rewrite sqrt_mult in Q by lra. eapply Forall_impl; [|exact Q]. intros z Hz. cbn beta in *. cbn [pow]. lra.
      + destruct (t_set nm tl n st) as [n1|] eqn:E1; [|discriminate]. exact (IH W n1 w n' os W0 (okay_set W n w st n1 O Fa E1) Fr E).
      + exact (IH W _ w n' os W0 (okay_rate W n w sr O Fa) Fr E).
      + exact (IH W _ w n' os W0 (okay_reset W n w W0 O) Fr E).
  Qed.
End Run.

Lemma t_run_app {F G S X} (nm : num F) (tl : tools F G S X) l1 : forall n l2 n' os, t_run nm tl n (l1 ++ l2) = Some (n', os) -> exists m o1 o2, t_run nm tl n l1 = Some (m, o1) /\ t_run nm tl m l2 = Some (n', o2) /\ os = o1 ++ o2.
Proof.
  induction l1 as [|a l1 IH]; intros n l2 n' os E.
  - exists n, [], os. repeat split; try reflexivity. exact E.
  - destruct a; cbn [app t_run] in *.
    + destruct (t_tick nm tl n i) as [n1 o]. destruct (t_run nm tl n1 (l1 ++ l2)) as [[n2 os2]|] eqn:E2; [|discriminate]. injection E as <- <-. destruct (IH _ _ _ _ E2) as (m & o1 & o2 & A & B & ->). exists m, (o :: o1), o2. rewrite A. repeat split; auto.
    + destruct (t_set nm tl n s) as [n1|]; [|discriminate]. now apply IH.
    + now apply IH.
    + now apply IH.
Qed.
Lemma svf_okay {G S X} (tl : tools R G S X) K0 K1 r w m f q g sr n : 0 < K0 <= K1 -> tl_elem tl = R_elem -> in_sr r sr -> in_f r f -> in_q r q -> in_g r g -> build Rnum_ops tl w (OSvf m f q g) = Some n -> okay K0 K1 r m 0 (t_rate Rnum_ops tl n sr) w.
Proof.
  intros HK Hel Hs Hf Hq Hg E. cbn [build] in E. rewrite Hel in E. injection E as <-. destruct w; cbn [t_rate]; rewrite ?Hel; (eexists; split; [reflexivity|]; split; [split; reflexivity|]; split; [apply updated; split; cbn [sp_sr sp_cutoff sp_q sp_gain svf_new vf_par]; tauto|]); cbn [svf_do svf_update svf_new vf_ic1 vf_ic2]; change (n0 Rnum_ops) with 0; rewrite form_0; apply Rle_refl.
Qed.
Lemma svf_bounded : forall (G S X : Type) (tl : tools R G S X), tl_elem tl = R_elem -> forall r, proper r -> exists C, forall w m f q g sr n acts os,
  in_sr r sr -> in_f r f -> in_q r q -> in_g r g -> build Rnum_ops tl w (OSvf m f q g) = Some n -> Forall (steered r w (sv_gained m)) acts -> t_outs Rnum_ops tl (t_rate Rnum_ops tl n sr) acts = Some os -> bounded C os.
Proof.
  intros G S X tl Hel r Hr. destruct (coefs_range r Hr) as (G0 & G1 & K0 & K1 & M & HG & HK & HM & Co). set (d := loss G0 G1 K0 K1). set (p := push G1 K0 K1).
  pose proof (loss_range G0 G1 K0 K1 HG HK) as L. pose proof (push_pos G0 G1 K0 K1 HG HK) as P. fold d in L. fold p in P. set (W := p * (r_x r * r_x r) / d).
  assert (W0 : 0 <= W). { apply Rmult_le_pos; [apply Rmult_le_pos; [lra|apply Rle_0_sqr]|apply Rlt_le, Rinv_0_lt_compat; lra]. }
  assert (HW : p * (r_x r * r_x r) <= d * W) by (unfold W; apply Req_le; field; lra).
  exists (reach G1 M (r_x r) (sqrt (2 * W))). intros w m f q g sr n acts os Hs Hf Hq Hg B F E. unfold t_outs in E. destruct (t_run _ _ _ _) as [[n' os']|] eqn:E1; [|discriminate]. injection E as <-.
  eapply (run_bounded tl Hel G0 G1 K0 K1 M HG HK r Co m W acts W0 HW); [|exact F|exact E1]. apply okay_more with 0; [exact W0|]. eapply svf_okay; eassumption.
Qed.
Lemma svf_silent : forall (G S X : Type) (tl : tools R G S X), tl_elem tl = R_elem -> forall r, proper r -> exists C rho, 0 <= rho < 1 /\ forall w m f q g sr n before acts os,
  in_sr r sr -> in_f r f -> in_q r q -> in_g r g -> build Rnum_ops tl w (OSvf m f q g) = Some n -> Forall (steered r w (sv_gained m)) before -> Forall (steered (silently r) w (sv_gained m)) acts ->
  t_outs Rnum_ops tl (t_rate Rnum_ops tl n sr) (before ++ acts) = Some os -> forall i o, nth_error os (ticks_of before + i) = Some o -> Forall (fun y => Rabs y <= C * rho ^ i) o.
Proof.
  intros G S X tl Hel r Hr. destruct (coefs_range r Hr) as (G0 & G1 & K0 & K1 & M & HG & HK & HM & Co). set (d := loss G0 G1 K0 K1). set (p := push G1 K0 K1).
  pose proof (loss_range G0 G1 K0 K1 HG HK) as L. pose proof (push_pos G0 G1 K0 K1 HG HK) as P. fold d in L. fold p in P. set (W := p * (r_x r * r_x r) / d).
  assert (W0 : 0 <= W). { apply Rmult_le_pos; [apply Rmult_le_pos; [lra|apply Rle_0_sqr]|apply Rlt_le, Rinv_0_lt_compat; lra]. }
  assert (HW : p * (r_x r * r_x r) <= d * W) by (unfold W; apply Req_le; field; lra).
  exists (reach G1 M 0 1 * sqrt (2 * W)), (sqrt (1 - d)). split. { split; [apply sqrt_pos|]. rewrite <- sqrt_1 at 2. apply sqrt_lt_1_alt. lra. }
  intros w m f q g sr n before acts os Hs Hf Hq Hg B F1 F2 E i o N. unfold t_outs in E. destruct (t_run _ _ _ _) as [[n' os']|] eqn:E1; [|discriminate]. injection E as <-.
  destruct (t_run_app _ _ _ _ _ _ _ E1) as (m1 & o1 & o2 & A1 & A2 & ->).
  destruct (run_bounded tl Hel G0 G1 K0 K1 M HG HK r Co m W before W0 HW _ w m1 o1 (okay_more _ _ _ m 0 W _ _ W0 (svf_okay tl K0 K1 r w m f q g sr n HK Hel Hs Hf Hq Hg B)) F1 A1) as (O & _ & Len).
  rewrite <- Len, nth_error_app2 in N by lia. replace (length o1 + i - length o1)%nat with i in N by lia.
  exact (run_silent tl Hel G0 G1 K0 K1 M HG HK (silently r) Co m acts eq_refl W m1 w n' o2 W0 O F2 A2 i o N).
Qed.
