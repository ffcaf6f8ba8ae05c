(* Filters whose cutoff frequency is above half of the sample rate are unstable. *)
From Coq Require Import Reals Lra Lia Psatz List.
From Verif Require Import ShapeProofs TuneProofs TuneReal TuneBounds.
From Verif Require Export ModBlow.
Import ListNotations.
Local Open Scope R_scope.

(* a second order recurrence with complex roots outside the unit circle is unbounded *)
Section Recurrence.
  Variables (y : nat -> R) (T D : R).
  Hypothesis rec : forall n, y (S (S n)) = T * y (S n) - D * y n.
  Hypothesis HD : 1 < D.
  Hypothesis HT : T * T < 4 * D.
  Let E n := y (S n) * y (S n) - T * (y n * y (S n)) + D * (y n * y n).
  Lemma rec_energy n : E n = D ^ n * E 0.
  Proof. induction n as [|n IH]; [cbn [pow]; ring|]. cbn [pow]. rewrite Rmult_assoc, <- IH. unfold E. rewrite rec. ring. Qed.
  Lemma rec_positive : y 0%nat <> 0 \/ y 1%nat <> 0 -> 0 < E 0.
  Proof.
    intros N. unfold E. set (u := y 1%nat) in *. set (v := y 0%nat) in *.
    assert (I : u * u - T * (v * u) + D * (v * v) = (u - T / 2 * v) * (u - T / 2 * v) + (D - T * T / 4) * (v * v)) by field. rewrite I.
    destruct (Req_dec v 0) as [Z|Z].
    - rewrite Z in *. destruct N as [N|N]; [lra|]. assert (0 < u * u) by nra. nra.
    - assert (0 < v * v) by nra. assert (0 < (D - T * T / 4) * (v * v)) by (apply Rmult_lt_0_compat; lra). pose proof (Rle_0_sqr (u - T / 2 * v)) as Q. unfold Rsqr in Q. lra.
  Qed.
  Lemma rec_unbounded C : y 0%nat <> 0 \/ y 1%nat <> 0 -> exists n, C < Rabs (y n).
  Proof.
    intros N. pose proof (rec_positive N) as P. set (B := Rabs C + 1). set (W := (1 + Rabs T + D) * (B * B)).
    destruct (Pow_x_infinity D ltac:(rewrite Rabs_pos_eq; lra) ((W + 1) / E 0)) as [j Hj]. specialize (Hj j (Nat.le_refl j)).
    rewrite Rabs_pos_eq in Hj by (apply pow_le; lra). apply Rge_le in Hj. apply (Rmult_le_compat_r (E 0)) in Hj; [|lra]. unfold Rdiv in Hj. rewrite Rmult_assoc, Rinv_l, Rmult_1_r, <- rec_energy in Hj by lra.
    pose proof (Rle_abs C) as AC. destruct (Rlt_dec C (Rabs (y j))) as [L|L]; [exists j; exact L|]. exists (S j). apply Rnot_le_lt. intros L2. apply Rnot_lt_le in L.
    assert (A : Rabs (y j) <= B) by (unfold B; lra). assert (A2 : Rabs (y (S j)) <= B) by (unfold B; lra).
    assert (M : forall u v, Rabs u <= B -> Rabs v <= B -> Rabs (u * v) <= B * B). { intros u v U V. rewrite Rabs_mult. apply Rmult_le_compat; auto using Rabs_pos. }
    assert (E j <= W).
    { unfold E, W. pose proof (Rle_trans _ _ _ (Rle_abs _) (M _ _ A2 A2)). pose proof (Rle_trans _ _ _ (Rle_abs _) (M _ _ A A)).
      assert (- (T * (y j * y (S j))) <= Rabs T * (B * B)). { eapply Rle_trans; [apply Rle_abs|]. rewrite Rabs_Ropp, Rabs_mult. apply Rmult_le_compat_l; [apply Rabs_pos|]. apply M; assumption. }
      assert (D * (y j * y j) <= D * (B * B)) by (apply Rmult_le_compat_l; lra). lra. }
    lra.
  Qed.
End Recurrence.

(* above half of the sample rate the tangent is negative *)
Lemma tan_above sr f : 0 < sr -> sr / 2 < f < sr -> tan (PI * f / sr) < 0.
Proof.
  intros H [A B]. pose proof PI_RGT_0 as P. assert (X : PI / 2 < PI * f / sr < PI).
  { split; apply Rmult_lt_reg_r with sr; try lra; unfold Rdiv; rewrite ?Rmult_assoc, ?Rinv_l by lra; nra. }
  unfold tan. assert (0 < sin (PI * f / sr)) by (apply sin_gt_0; lra). assert (cos (PI * f / sr) < 0) by (apply cos_lt_0; lra).
  apply Ropp_lt_cancel. rewrite Ropp_0. replace (- (sin (PI * f / sr) / cos (PI * f / sr))) with (sin (PI * f / sr) / - cos (PI * f / sr)) by (field; lra). apply Rdiv_lt_0_compat; lra.
Qed.

(* the silent run of a state variable filter *)
Definition sv_next (c : svcoefs R) (p : R * R) : R * R :=
  let (a, b) := p in let v3 := 0 - b in let v1 := sv_a1 c * a + sv_a2 c * v3 in let v2 := b + sv_a2 c * a + sv_a3 c * v3 in (2 * v1 - a, 2 * v2 - b).
Definition sv_heard (c : svcoefs R) (p : R * R) : R :=
  let (a, b) := p in let v3 := 0 - b in let v1 := sv_a1 c * a + sv_a2 c * v3 in let v2 := b + sv_a2 c * a + sv_a3 c * v3 in sv_m0 c * 0 + sv_m1 c * v1 + sv_m2 c * v2.
Fixpoint sv_iter (c : svcoefs R) (p : R * R) (n : nat) : R * R := match n with O => p | S n => sv_iter c (sv_next c p) n end.
Lemma sv_iter_S c n : forall p, sv_iter c p (S n) = sv_next c (sv_iter c p n). Proof. induction n as [|n IH]; intros p; [reflexivity|]. cbn [sv_iter] in *. rewrite IH. reflexivity. Qed.
Section Silent.
  Context {G Sh X : Type}.
  Variable tl : tools R G Sh X.
  Lemma silent_run j : forall s, exists n os, t_run Rnum_ops tl (TFix s) (repeat (ATick [0]) j) = Some (n, os) /\ forall i, (i < j)%nat -> nth_error os i = Some [sv_heard (vf_c s) (sv_iter (vf_c s) (vf_ic1 s, vf_ic2 s) i)].
  Proof.
    induction j as [|j IH]; intros s; [exists (TFix s), []; split; [reflexivity|intros; lia]|]. cbn [repeat t_run t_tick nth]. unfold svf_step. cbn [nadd nsub nmul nofZ Rnum_ops].
    match goal with |- context [t_run _ _ (TFix ?s') _] => destruct (IH s') as (n & os & E & H); rewrite E end. eexists _, _. split; [reflexivity|]. intros [|i] L; [reflexivity|]. cbn [nth_error]. rewrite H by lia. reflexivity.
  Qed.
End Silent.

Section Above.
  Variables g k : R.
  Hypothesis Hk : 0 < k < 2.
  Let D := 1 + g * (g + k).
  Lemma D_pos : 0 < D. Proof. unfold D. replace (1 + g * (g + k)) with ((g + k / 2) * (g + k / 2) + (1 - k * k / 4)) by field. pose proof (Rle_0_sqr (g + k / 2)) as Q. unfold Rsqr in Q. nra. Qed.
End Above.

(* biquads in direct form *)
Section Direct.
  Context {G Sh X : Type}.
  Variable tl : tools R G Sh X.
  Notation nm := Rnum_ops.
  Variable N : biquad R -> tnode R G Sh X.
  Variable c : bicoefs R.
  Hypothesis HN : forall b x, bq_c b = c -> t_tick nm tl (N b) [x] = let (b', y) := bi_step nm b x in (N b', [y]).
  Fixpoint bq_seq (p : R * R) (n : nat) : R := match n with O => fst p | S n => bq_seq (snd p, - bi_a1 c * snd p - bi_a2 c * fst p) n end.
  Lemma bq_seq_rec n : forall p, bq_seq p (S (S n)) = - bi_a1 c * bq_seq p (S n) - bi_a2 c * bq_seq p n.
  Proof. induction n as [|n IH]; intros p; [reflexivity|]. change (bq_seq p (S (S (S n)))) with (bq_seq (snd p, - bi_a1 c * snd p - bi_a2 c * fst p) (S (S n))). rewrite IH. reflexivity. Qed.
  Lemma bq_silent j : forall b, bq_c b = c -> bq_x1 b = 0 -> bq_x2 b = 0 -> exists n os, t_run nm tl (N b) (repeat (ATick [0]) j) = Some (n, os) /\ forall i, (i < j)%nat -> nth_error os i = Some [bq_seq (bq_y2 b, bq_y1 b) (S (S i))].
  Proof.
    induction j as [|j IH]; intros b Hc H1 H2; [exists (N b), []; split; [reflexivity|intros; lia]|]. cbn [repeat t_run]. rewrite HN by exact Hc. unfold bi_step. rewrite Hc, H1, H2. cbn [nadd nsub nmul Rnum_ops].
    match goal with |- context [t_run _ _ (N ?b') _] => destruct (IH b' eq_refl eq_refl eq_refl) as (n & os & E & H); rewrite E end. eexists _, _. split; [reflexivity|]. intros [|i] L.
    - cbn [nth_error bq_seq fst snd]. do 2 f_equal. ring.
    - cbn [nth_error]. rewrite H by lia. cbn [bq_y1 bq_y2 bq_seq fst snd]. do 4 f_equal; ring.
  Qed.
  Hypothesis H2 : 1 < bi_a2 c.
  Hypothesis H1 : bi_a1 c * bi_a1 c < 4 * bi_a2 c.
  Hypothesis Hb : bi_b1 c <> bi_a1 c * bi_b0 c \/ bi_b2 c <> bi_a2 c * bi_b0 c.
  Lemma bq_impulse b x C : bq_c b = c -> bq_x1 b = 0 -> bq_x2 b = 0 -> bq_y1 b = 0 -> bq_y2 b = 0 -> x <> 0 -> exists j os, t_outs nm tl (N b) (ATick [x] :: repeat (ATick [0]) j) = Some os /\ ~ bounded C os.
  Proof.
    intros Hc X1 X2 Y1 Y2 Nx. set (y0 := bi_b0 c * x). set (y1 := bi_b1 c * x - bi_a1 c * y0). set (y2 := bi_b2 c * x - bi_a1 c * y1 - bi_a2 c * y0).
    assert (Nz : y1 <> 0 \/ y2 <> 0).
    { destruct (Req_dec y1 0) as [Z|Z]; [|left; exact Z]. right. intros Z2. unfold y2 in Z2. rewrite Z in Z2. unfold y1, y0 in Z, Z2.
      assert (A : (bi_b1 c - bi_a1 c * bi_b0 c) * x = 0) by lra. assert (B : (bi_b2 c - bi_a2 c * bi_b0 c) * x = 0) by lra.
      apply Rmult_integral in A. apply Rmult_integral in B. destruct A as [A|A]; [|contradiction]. destruct B as [B|B]; [|contradiction]. destruct Hb as [Q|Q]; apply Q; lra. }
    destruct (rec_unbounded (bq_seq (y1, y2)) (- bi_a1 c) (bi_a2 c)) with (C := Rmax C (Rmax (Rabs y1) (Rabs y2))) as [i Hi].
    { intros n. apply bq_seq_rec. } { exact H2. } { lra. } { exact Nz. }
    pose proof (Rmax_l C (Rmax (Rabs y1) (Rabs y2))) as M0. pose proof (Rmax_r C (Rmax (Rabs y1) (Rabs y2))) as M. pose proof (Rmax_l (Rabs y1) (Rabs y2)) as M1. pose proof (Rmax_r (Rabs y1) (Rabs y2)) as M2.
    destruct i as [|[|i]]; [cbn [bq_seq fst] in Hi; lra|cbn [bq_seq fst snd] in Hi; lra|].
    exists (S (S (S i))). unfold t_outs. change (repeat (ATick [0]) (S (S (S i)))) with (ATick [0] :: ATick [0] :: repeat (ATick [0]) (S i)). cbn [t_run]. rewrite HN by exact Hc. unfold bi_step. rewrite Hc, X1, X2, Y1, Y2. cbn [nadd nsub nmul Rnum_ops].
    rewrite HN by reflexivity. unfold bi_step. cbn [bq_c bq_x1 bq_x2 bq_y1 bq_y2 nadd nsub nmul Rnum_ops]. rewrite HN by reflexivity. unfold bi_step. cbn [bq_c bq_x1 bq_x2 bq_y1 bq_y2 nadd nsub nmul Rnum_ops].
    match goal with |- context [t_run _ _ (N ?b') _] => destruct (bq_silent (S i) b' eq_refl eq_refl eq_refl) as (n & os & E & H); rewrite E end. eexists. split; [reflexivity|].
    intros Bd. unfold bounded in Bd. apply Forall_inv_tail, Forall_inv_tail, Forall_inv_tail in Bd. rewrite Forall_forall in Bd. specialize (Bd _ (nth_error_In _ _ (H i (Nat.lt_succ_diag_r i)))). apply Forall_inv in Bd. cbn [bq_y1 bq_y2] in Bd.
    match type of Bd with context [bq_seq (?u, ?v) _] => assert (U : (u, v) = (y1, y2)) by (f_equal; [unfold y1, y0; ring|unfold y2, y1, y0; ring]); rewrite U in Bd end. lra.
  Qed.
End Direct.
Lemma biquad_above : forall (G S X : Type) (tl : tools R G S X) c n, 1 < bi_a2 c -> bi_a1 c * bi_a1 c < 4 * bi_a2 c -> bi_b1 c <> bi_a1 c * bi_b0 c \/ bi_b2 c <> bi_a2 c * bi_b0 c -> build Rnum_ops tl false (OBiquad c) = Some n ->
  forall x C, x <> 0 -> exists j os, t_outs Rnum_ops tl n (ATick [x] :: repeat (ATick [0]) j) = Some os /\ ~ bounded C os.
Proof. intros G S X tl c n A1 A2 B E x C N. cbn [build] in E. injection E as <-. apply (bq_impulse tl (fun b => TBiquad b) c); try reflexivity; auto. Qed.
Lemma butter_above : forall (G S X : Type) (tl : tools R G S X), tl_elem tl = R_elem -> forall sr f n, 0 < sr -> sr / 2 < f < sr -> build Rnum_ops tl false (OButter f) = Some n ->
  forall x C, x <> 0 -> exists j os, t_outs Rnum_ops tl (t_rate Rnum_ops tl n sr) (ATick [x] :: repeat (ATick [0]) j) = Some os /\ ~ bounded C os.
Proof.
  intros G S X tl Htl sr f n SR F B x C N. cbn [build] in B. injection B as <-. cbn [t_rate]. unfold butter_tune at 1. rewrite Htl. set (c := butter_lowpass Rnum_ops R_elem sr f).
  pose proof (tan_above sr f SR F) as Hg. assert (S2 : sqrt 2 * sqrt 2 = 2) by (apply sqrt_sqrt; lra). assert (S0 : 0 < sqrt 2) by (apply sqrt_lt_R0; lra).
  assert (EQ : exists g, g < 0 /\ c = mkBi ((2 * g * g - 2) * (1 / (1 + sqrt 2 * g + g * g))) ((1 - sqrt 2 * g + g * g) * (1 / (1 + sqrt 2 * g + g * g))) (g * g * (1 / (1 + sqrt 2 * g + g * g))) (2 * (g * g * (1 / (1 + sqrt 2 * g + g * g)))) (g * g * (1 / (1 + sqrt 2 * g + g * g)))).
  { exists (tan (PI * f / sr)). split; [exact Hg|]. unfold c, butter_lowpass. cbn [e_tan e_pi e_sqrt R_elem nadd nsub nmul ndiv n1 nofZ Rnum_ops]. rewrite (Rmult_comm f PI). reflexivity. }
  destruct EQ as (g & Hgn & Ec). assert (P : 0 < 1 + sqrt 2 * g + g * g). { replace (1 + sqrt 2 * g + g * g) with ((g + sqrt 2 / 2) * (g + sqrt 2 / 2) + (1 - sqrt 2 * sqrt 2 / 4)) by field. rewrite S2. pose proof (Rle_0_sqr (g + sqrt 2 / 2)) as Q. unfold Rsqr in Q. lra. }
  assert (A2 : 1 < bi_a2 c). { rewrite Ec. cbn [bi_a2]. apply Rmult_lt_reg_r with (1 + sqrt 2 * g + g * g); [exact P|]. replace ((1 - sqrt 2 * g + g * g) * (1 / (1 + sqrt 2 * g + g * g)) * (1 + sqrt 2 * g + g * g)) with (1 - sqrt 2 * g + g * g) by (field; lra). nra. }
  apply (bq_impulse tl (fun b => TButter false b sr f) c); try reflexivity; try assumption.
  - rewrite Ec. cbn [bi_a1 bi_a2]. set (D := 1 + sqrt 2 * g + g * g) in *. assert (I : 4 * ((1 - sqrt 2 * g + g * g) * (1 / D)) - (2 * g * g - 2) * (1 / D) * ((2 * g * g - 2) * (1 / D)) = (16 - 4 * (sqrt 2 * sqrt 2)) * (g * g) / (D * D)).
    { field_simplify_eq; [|lra]. unfold D. ring. }
    assert (0 < (16 - 4 * (sqrt 2 * sqrt 2)) * (g * g) / (D * D)) by (rewrite S2; apply Rdiv_lt_0_compat; nra). lra.
  - right. intros H. rewrite Ec in H. cbn [bi_b2 bi_b0] in H. rewrite <- Ec in H. rewrite Ec in A2. rewrite Ec in H. cbn [bi_a2] in *. set (u := g * g * (1 / (1 + sqrt 2 * g + g * g))) in *. assert (0 < u) by (unfold u; apply Rmult_lt_0_compat; [nra|apply Rdiv_lt_0_compat; lra]). nra.
  - cbn [with_coefs bq_c]. rewrite Htl. reflexivity.
Qed.

(* a state variable lowpass whose cutoff frequency moves above half of the sample rate *)
Section Swept.
  Variables G0 G1 k : R.
  Hypothesis HG : 0 < G0 <= G1.
  Hypothesis Hk : 0 < k < 2.
  Notation V := (form k k).
  Let Kp : 0 < k <= k. Proof. split; [apply Hk|apply Rle_refl]. Qed.
  Let d := loss G0 G1 k k.
  Lemma d_range : 0 < d < 1. Proof. apply loss_range; [exact HG|exact Kp]. Qed.
  Lemma grows g a b v1 v2 : G0 <= - g <= G1 -> v1 * (1 + g * (g + k)) = a - g * b -> v2 = b + g * v1 -> V a b <= (1 - d) * V (2 * v1 - a) (2 * v2 - b).
  Proof.
    intros H E1 E2. pose proof (shrinks G0 G1 k k HG Kp (- g) k 0 (2 * v1 - a) (2 * v2 - b) v1 v2 H ltac:(lra)) as Q.
    replace (2 * v1 - (2 * v1 - a)) with a in Q by ring. replace (2 * v2 - (2 * v2 - b)) with b in Q by ring. fold d in Q. rewrite Rmult_0_r, Rmult_0_r, Rplus_0_r in Q. apply Q.
    - assert (Ea : a = v1 * (1 + g * (g + k)) + g * b) by lra. rewrite Ea, E2. ring.
    - lra.
  Qed.
  (* two consecutive outputs determine the state between them *)
  Lemma told g g' a b v1 v2 a' b' v1' v2' : G0 <= - g <= G1 -> G0 <= - g' <= G1 ->
    v1 * (1 + g * (g + k)) = a - g * b -> v2 = b + g * v1 -> a' = 2 * v1 - a -> b' = 2 * v2 - b -> v1' * (1 + g' * (g' + k)) = a' - g' * b' -> v2' = b' + g' * v1' ->
    v1 * (g + g') = (1 + g' * (g' + k)) * v2' - (1 + g' * k - g * g') * v2.
  Proof.
    intros H H' E1 E2 E3 E4 E5 E6. assert (Ea : a = v1 * (1 + g * (g + k)) + g * b) by lra. assert (Eb : b = v2 - g * v1) by lra. subst a. subst b. subst v2' a' b'.
    replace ((1 + g' * (g' + k)) * (2 * v2 - (v2 - g * v1) + g' * v1')) with ((1 + g' * (g' + k)) * (v2 + g * v1) + g' * (v1' * (1 + g' * (g' + k)))) by ring. rewrite E5. ring.
  Qed.
  Definition gap : R := 2 * G0.
  Definition weight : R := 1 + G1 * (G1 + k) + (1 + G1 * k + G1 * G1).
  Lemma told_bound g g' a b v1 v2 a' b' v1' v2' B : G0 <= - g <= G1 -> G0 <= - g' <= G1 ->
    v1 * (1 + g * (g + k)) = a - g * b -> v2 = b + g * v1 -> a' = 2 * v1 - a -> b' = 2 * v2 - b -> v1' * (1 + g' * (g' + k)) = a' - g' * b' -> v2' = b' + g' * v1' ->
    Rabs v2 <= B -> Rabs v2' <= B -> Rabs v1 <= weight * B / gap.
  Proof.
    intros H H' E1 E2 E3 E4 E5 E6 B1 B2. pose proof (told _ _ _ _ _ _ _ _ _ _ H H' E1 E2 E3 E4 E5 E6) as T. assert (B0 : 0 <= B) by (pose proof (Rabs_pos v2); lra).
    assert (P : Rabs (1 + g' * (g' + k)) <= 1 + G1 * (G1 + k)).
    { apply Rabs_le. assert (0 <= g' * g' <= G1 * G1) by (split; nra). assert (- (G1 * k) <= g' * k <= 0) by (split; nra). nra. }
    assert (P' : Rabs (1 + g' * k - g * g') <= 1 + G1 * k + G1 * G1).
    { apply Rabs_le. assert (0 <= g * g' <= G1 * G1). { replace (g * g') with ((- g) * (- g')) by ring. split; [apply Rmult_le_pos; lra|apply Rmult_le_compat; lra]. } assert (- (G1 * k) <= g' * k <= 0) by (split; nra). nra. }
    assert (Q : Rabs (v1 * (g + g')) <= weight * B).
    { rewrite T. eapply Rle_trans; [apply Rabs_triang|]. rewrite Rabs_Ropp, !Rabs_mult. unfold weight. rewrite Rmult_plus_distr_r. apply Rplus_le_compat; apply Rmult_le_compat; auto using Rabs_pos. }
    rewrite Rabs_mult in Q. rewrite (Rabs_left (g + g')) in Q by lra. unfold gap. apply Rmult_le_reg_r with (2 * G0); [lra|]. replace (weight * B / (2 * G0) * (2 * G0)) with (weight * B) by (field; lra).
    eapply Rle_trans; [|exact Q]. apply Rmult_le_compat_l; [apply Rabs_pos|lra].
  Qed.
  (* the form of the state is bounded by the outputs *)
  Definition cap (B : R) : R := let W := weight * B / gap in 2 * (((1 + G1 * k) * W + G1 * B) * ((1 + G1 * k) * W + G1 * B) + (B + G1 * W) * (B + G1 * W)).
  Lemma state_cap g a b v1 v2 B : G0 <= - g <= G1 -> v1 * (1 + g * (g + k)) = a - g * b -> v2 = b + g * v1 -> Rabs v2 <= B -> Rabs v1 <= weight * B / gap -> V a b <= cap B.
  Proof.
    intros H E1 E2 B2 B1. assert (Ea : a = (1 + g * k) * v1 + g * v2) by (rewrite E2; lra). assert (Eb : b = v2 - g * v1) by lra. unfold cap. cbv zeta. set (W := weight * B / gap) in *.
    assert (A : Rabs a <= (1 + G1 * k) * W + G1 * B).
    { rewrite Ea. eapply Rle_trans; [apply Rabs_triang|]. rewrite !Rabs_mult. assert (Rabs (1 + g * k) <= 1 + G1 * k) by (apply Rabs_le; assert (- (G1 * k) <= g * k <= 0) by (split; nra); nra). assert (Rabs g <= G1) by (apply Rabs_le; lra).
      apply Rplus_le_compat; apply Rmult_le_compat; auto using Rabs_pos. }
    assert (Bb : Rabs b <= B + G1 * W).
    { rewrite Eb. unfold Rminus. eapply Rle_trans; [apply Rabs_triang|]. rewrite Rabs_Ropp, Rabs_mult. assert (Rabs g <= G1) by (apply Rabs_le; lra). apply Rplus_le_compat; [exact B2|apply Rmult_le_compat; auto using Rabs_pos]. }
    eapply Rle_trans; [apply (form_high k k Kp)|]. apply Rmult_le_compat_l; [lra|].
    assert (Sq : forall u v, Rabs u <= v -> u * u <= v * v). { intros u v L. rewrite <- (Rabs_pos_eq (u * u)) by nra. rewrite Rabs_mult. apply Rmult_le_compat; auto using Rabs_pos. }
    apply Rplus_le_compat; apply Sq; assumption.
  Qed.
End Swept.

Section SweptRun.
  Context {G Sh X : Type}.
  Variable tl : tools R G Sh X.
  Hypothesis Htl : tl_elem tl = R_elem.
  Notation nm := Rnum_ops.
  Variables sr f0 f1 q : R.
  Hypothesis Hsr : 0 < sr.
  Hypothesis Hf : sr / 2 < f0 <= f1 /\ f1 < sr.
  Hypothesis Hq : 1 / 2 < q.
  Let k := 1 / q.
  Let G0 := tan (PI * (sr - f1) / sr).
  Let G1 := tan (PI * (sr - f0) / sr).
  Lemma k_range : 0 < k < 2.
  Proof. unfold k. split; [apply Rdiv_lt_0_compat; lra|]. apply Rmult_lt_reg_r with q; [lra|]. unfold Rdiv. rewrite Rmult_assoc, Rinv_l by lra. lra. Qed.
  Lemma tan_flip f : tan (PI * (sr - f) / sr) = - tan (PI * f / sr).
  Proof. replace (PI * (sr - f) / sr) with (- (PI * f / sr) + PI) by (field; lra). unfold tan. rewrite neg_sin, neg_cos, sin_neg, cos_neg. unfold Rdiv. rewrite Ropp_involutive, Rinv_opp. ring. Qed.
  Lemma above_range f : f0 <= f <= f1 -> G0 <= - tan (PI * f / sr) <= G1.
  Proof.
    intros F. rewrite <- tan_flip. set (r := mkRanges sr sr (sr - f1) (sr - f0) 1 1 1 1 1). assert (Pr : proper r) by (unfold r, proper; cbn [r_sr0 r_sr1 r_f0 r_f1 r_q0 r_q1 r_g0 r_g1 r_x]; lra).
    destruct (tan_range r sr (sr - f) Pr) as [[_ A] B]; [unfold in_sr, r; cbn [r_sr0 r_sr1]; lra|unfold in_f, r; cbn [r_f0 r_f1]; lra|]. split; assumption.
  Qed.
  Lemma G_range : 0 < G0 <= G1.
  Proof.
    set (r := mkRanges sr sr (sr - f1) (sr - f0) 1 1 1 1 1). assert (Pr : proper r) by (unfold r, proper; cbn [r_sr0 r_sr1 r_f0 r_f1 r_q0 r_q1 r_g0 r_g1 r_x]; lra).
    destruct (tan_range r sr (sr - f1) Pr) as [[A B] C]; [unfold in_sr, r; cbn [r_sr0 r_sr1]; lra|unfold in_f, r; cbn [r_f0 r_f1]; lra|]. split; [exact A|]. exact C.
  Qed.
  Definition lowpassing (s : svf R) : Prop := vf_mode s = MLowpass /\ vf_c s = sv_coefs nm R_elem MLowpass (vf_par s) /\ sp_sr (vf_par s) = sr.
  Lemma swept_tick s x f : lowpassing s -> f0 <= f <= f1 -> exists s' v1 v2, let g := tan (PI * f / sr) in let a := vf_ic1 s in let b := vf_ic2 s in
    t_tick nm tl (TSvf s 1 0) [x; f; q] = (TSvf s' 1 0, [v2]) /\ lowpassing s' /\ v1 * (1 + g * (g + k)) = a + g * (x - b) /\ v2 = b + g * v1 /\ vf_ic1 s' = 2 * v1 - a /\ vf_ic2 s' = 2 * v2 - b.
  Proof.
    intros (M & Ec & Es) F. cbn [t_tick Nat.leb Nat.add nth]. unfold sv_inputs. rewrite M, Htl. cbn [sv_gained nth]. set (u := if orb _ _ then _ else s).
    assert (U : vf_mode u = MLowpass /\ vf_c u = sv_with nm (tan (PI * f / sr)) k 0 0 1 /\ sp_sr (vf_par u) = sr /\ vf_ic1 u = vf_ic1 s /\ vf_ic2 u = vf_ic2 s /\ vf_c u = sv_coefs nm R_elem MLowpass (vf_par u)).
    { unfold u. destruct (neqb nm f (sp_cutoff (vf_par s))) eqn:A; [|destruct (neqb nm q (sp_q (vf_par s))) eqn:B]; cbn [orb].
      - unfold svf_update. cbn [vf_mode vf_c vf_par vf_ic1 vf_ic2]. rewrite M. cbn [sp_sr]. rewrite Es. repeat split; reflexivity.
      - unfold svf_update. cbn [vf_mode vf_c vf_par vf_ic1 vf_ic2]. rewrite M. cbn [sp_sr]. rewrite Es. repeat split; reflexivity. 
      - apply neqb_R in A. apply neqb_R in B. split; [exact M|]. split; [|split; [exact Es|split; [reflexivity|split; [reflexivity|exact Ec]]]]. rewrite Ec. unfold sv_coefs. rewrite <- A, <- B, Es. reflexivity. }
    clearbody u. destruct U as (U1 & U2 & U3 & U4 & U5 & U6). unfold svf_step. rewrite U2, U4, U5. unfold sv_with. cbn [sv_a1 sv_a2 sv_a3 sv_m0 sv_m1 sv_m2 nadd nsub nmul ndiv n1 nofZ Rnum_ops]. cbv zeta. set (g := tan (PI * f / sr)). pose proof (above_range f F) as Hg. fold g in Hg. pose proof G_range as HG.
    assert (D : 0 < 1 + g * (g + k)) by (apply D_pos; exact k_range). set (a := vf_ic1 s). set (b := vf_ic2 s).
    eexists _, (1 / (1 + g * (g + k)) * a + g * (1 / (1 + g * (g + k))) * (x - b)), (b + g * (1 / (1 + g * (g + k))) * a + g * (g * (1 / (1 + g * (g + k)))) * (x - b)).
    split; [f_equal; f_equal; ring|]. cbn [vf_ic1 vf_ic2]. split; [|split; [field; lra|split; [ring|split; reflexivity]]].
    unfold lowpassing. cbn [vf_mode vf_c vf_par]. split; [exact U1|]. split; [rewrite <- U6, U2; reflexivity|exact U3].
  Qed.
  Notation V := (form k k).
  Notation d := (loss G0 G1 k k).
  Lemma swept_run C fs : forall s n os, (2 <= length fs)%nat -> lowpassing s -> Forall (fun f => f0 <= f <= f1) fs -> t_run nm tl (TSvf s 1 0) (map (fun f => ATick [0; f; q]) fs) = Some (n, os) -> bounded C os ->
    V (vf_ic1 s) (vf_ic2 s) <= (1 - d) ^ (length fs - 2) * cap G0 G1 k C.
  Proof.
    induction fs as [|f fs IH]; intros s n os L Hs HF E B; [cbn [length] in L; lia|]. destruct fs as [|f' fs]; [cbn [length] in L; lia|].
    inversion HF as [|? ? F1 HF']; subst. inversion HF' as [|? ? F2 _]; subst. pose proof k_range as Hk. pose proof G_range as HG.
    destruct (swept_tick s 0 f Hs F1) as (s' & v1 & v2 & T & Hs' & E1 & E2 & E3 & E4). rewrite map_cons in E. remember (map (fun f => ATick [0; f; q]) (f' :: fs)) as l eqn:El. cbn [t_run] in E. rewrite T in E.
    destruct (t_run nm tl (TSvf s' 1 0) l) as [[n2 os2]|] eqn:R2; [|discriminate E]. injection E as -> <-. subst l. unfold bounded in B. apply Forall_cons_iff in B. destruct B as [Bv B].
    apply Forall_inv in Bv. replace (vf_ic1 s + tan (PI * f / sr) * (0 - vf_ic2 s)) with (vf_ic1 s - tan (PI * f / sr) * vf_ic2 s) in E1 by ring.
    destruct fs as [|f'' fs].
    - destruct (swept_tick s' 0 f' Hs' F2) as (s2 & v1' & v2' & T2 & _ & E1' & E2' & _ & _). cbn [map t_run] in R2. rewrite T2 in R2. injection R2 as _ <-. apply Forall_inv in B. apply Forall_inv in B.
      replace (vf_ic1 s' + tan (PI * f' / sr) * (0 - vf_ic2 s')) with (vf_ic1 s' - tan (PI * f' / sr) * vf_ic2 s') in E1' by ring.
      cbn [length Nat.sub pow]. rewrite Rmult_1_l. refine (state_cap G0 G1 k HG Hk _ _ _ v1 v2 C (above_range f F1) E1 E2 Bv _).
      exact (told_bound G0 G1 k HG Hk _ _ _ _ v1 v2 _ _ v1' v2' C (above_range f F1) (above_range f' F2) E1 E2 E3 E4 E1' E2' Bv B).
    - pose proof (grows G0 G1 k HG Hk _ _ _ v1 v2 (above_range f F1) E1 E2) as Q. rewrite <- E3, <- E4 in Q. eapply Rle_trans; [exact Q|]. pose proof (d_range G0 G1 k HG Hk) as Hd.
      assert (I := IH s' n os2 ltac:(cbn [length]; lia) Hs' HF' R2 B). replace (length (f :: f' :: f'' :: fs) - 2)%nat with (S (length (f' :: f'' :: fs) - 2)) by (cbn [length]; lia). change ((1 - d) ^ S (length (f' :: f'' :: fs) - 2)) with ((1 - d) * (1 - d) ^ (length (f' :: f'' :: fs) - 2)). rewrite Rmult_assoc. apply Rmult_le_compat_l; [lra|exact I].
  Qed.
  Lemma swept_above n f q0 : build nm tl true (OSvf MLowpass f q0 1) = Some n -> forall x C, x <> 0 -> exists N, forall fx fs os, f0 <= fx <= f1 -> Forall (fun f => f0 <= f <= f1) fs -> (N <= length fs)%nat ->
    t_outs nm tl (t_rate nm tl n sr) (ATick [x; fx; q] :: map (fun f => ATick [0; f; q]) fs) = Some os -> ~ bounded C os.
  Proof.
    intros B x C Nx. cbn [build] in B. injection B as <-. cbn [t_rate svf_do svf_new]. rewrite Htl. set (s := svf_update nm R_elem _ _). pose proof k_range as Hk. pose proof G_range as HG. pose proof (d_range G0 G1 k HG Hk) as Hd.
    assert (Hs : lowpassing s) by (repeat split; reflexivity). assert (Z1 : vf_ic1 s = 0) by reflexivity. assert (Z2 : vf_ic2 s = 0) by reflexivity. clearbody s.
    set (D := 1 + G1 * (G1 + k)). assert (HD : 0 < D) by (unfold D; nra). set (low := 2 * (G0 * x / D) * (G0 * x / D)).
    assert (Hlow : 0 < low). { unfold low. assert (G0 * x / D <> 0). { intros H. apply (f_equal (Rmult D)) in H. rewrite Rmult_0_r in H. replace (D * (G0 * x / D)) with (G0 * x) in H by (field; lra). apply Rmult_integral in H. destruct H; [lra|contradiction]. } nra. }
    set (K := Rabs (cap G0 G1 k C) + 1). assert (HK : 0 < K) by (unfold K; pose proof (Rabs_pos (cap G0 G1 k C)); lra).
    destruct (pow_lt_1_zero (1 - d) ltac:(rewrite Rabs_pos_eq; lra) (low / K) ltac:(apply Rdiv_lt_0_compat; assumption)) as [N HN].
    exists (N + 2)%nat. intros fx fs os Fx Ff L E Bd. unfold t_outs in E. cbn [t_run] in E.
    destruct (swept_tick s x fx Hs Fx) as (s' & v1 & v2 & T & Hs' & E1 & E2 & E3 & E4). rewrite T in E. destruct (t_run nm tl (TSvf s' 1 0) _) as [[n2 os2]|] eqn:R2; [|discriminate E]. injection E as <-. unfold bounded in Bd. apply Forall_inv_tail in Bd.
    pose proof (swept_run C fs s' n2 os2 ltac:(lia) Hs' Ff R2 Bd) as Q. pose proof (HN (length fs - 2)%nat ltac:(lia)) as HL. rewrite Rabs_pos_eq in HL by (apply pow_le; lra).
    assert (U : (1 - d) ^ (length fs - 2) * cap G0 G1 k C < low).
    { apply Rle_lt_trans with ((1 - d) ^ (length fs - 2) * K). - apply Rmult_le_compat_l; [apply pow_le; lra|]. unfold K. pose proof (Rle_abs (cap G0 G1 k C)). lra.
      - replace low with (low / K * K) by (field; lra). apply Rmult_lt_compat_r; assumption. }
    rewrite Z1, Z2 in *. set (g := tan (PI * fx / sr)) in *. pose proof (above_range fx Fx) as Hg. fold g in Hg. assert (Dg : 0 < 1 + g * (g + k)) by (apply D_pos; exact Hk).
    assert (Dle : 1 + g * (g + k) <= D). { unfold D. assert (g * g <= G1 * G1) by nra. assert (g * k <= 0) by nra. assert (0 <= G1 * k) by nra. nra. }
    assert (Ev : v1 = g * x / (1 + g * (g + k))). { apply Rmult_eq_reg_r with (1 + g * (g + k)); [|lra]. rewrite E1. field. lra. }
    assert (Lv : Rabs (G0 * x / D) <= Rabs v1).
    { rewrite Ev. unfold Rdiv. rewrite !Rabs_mult, (Rabs_pos_eq G0), (Rabs_left g) by lra. rewrite !Rabs_pos_eq with (x := / _) by (apply Rlt_le, Rinv_0_lt_compat; assumption).
      apply Rmult_le_compat; [apply Rmult_le_pos; [lra|apply Rabs_pos]|apply Rlt_le, Rinv_0_lt_compat; assumption|apply Rmult_le_compat_r; [apply Rabs_pos|lra]|apply Rinv_le_contravar; assumption]. }
    assert (low <= V (vf_ic1 s') (vf_ic2 s')).
    { pose proof (form_low k k ltac:(lra) (vf_ic1 s') (vf_ic2 s')) as FL. assert ((G0 * x / D) * (G0 * x / D) <= v1 * v1).
      { rewrite <- (Rabs_pos_eq ((G0 * x / D) * (G0 * x / D))) by nra. rewrite <- (Rabs_pos_eq (v1 * v1)) by nra. rewrite !Rabs_mult with (x := v1). rewrite (Rabs_mult (G0 * x / D)). apply Rmult_le_compat; auto using Rabs_pos. }
      assert (vf_ic1 s' * vf_ic1 s' = 4 * (v1 * v1)) by (rewrite E3; ring). pose proof (Rle_0_sqr (vf_ic2 s')) as Z. unfold Rsqr in Z. unfold low. lra. }
    lra.
  Qed.
End SweptRun.
