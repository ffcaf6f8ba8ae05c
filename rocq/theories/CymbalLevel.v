(* How loud the cymbal of CymbalModel.v is before its filters, and where the filters are. *)
From Coq Require Import Reals Lra Lia Psatz.
From Verif Require Import EnvProofs OscProofs MeterProofs FxProofs PreProofs SoundProofs SoundCurves TableHeardProofs.
From Verif Require Import DrumSpec DrumLevel CymbalSpec.
Local Open Scope R_scope.

Section Level.
  Variables (tb : list (R * list R)) (sr : R) (h : nat -> N) (r : nat -> R).
  Hypothesis HS : usual sr.
  Hypothesis HH : forall i, (h i < 2 ^ 64)%N.
  Hypothesis HT : normal tb.
  Lemma fade_8 n : 0 <= control sr h 6 (fading 8) n <= exp (- (8 * (INR n / sr - 1 / 400))).
  Proof.
    unfold control. destruct (lfo_line sr (h 6%nat) 1 (fun t => [fading 8 t]) n HS (HH 6%nat) ltac:(reflexivity)) as (b0 & b1 & B0 & B1 & D & V). rewrite (V 0%nat ltac:(lia)). cbn [nth]. clear V. set (t := INR n / sr) in *.
    assert (P : forall b, t - 1 / 400 <= b -> 0 <= fading 8 b <= exp (- (8 * (t - 1 / 400)))) by (intros b Ht; unfold fading; split; [left; apply exp_pos|apply exp_le; lra]).
    pose proof (P b0 ltac:(lra)). pose proof (P b1 ltac:(lra)). split; [apply on_line_min; lra|apply on_line_max; lra].
  Qed.
  Lemma wave_level i f n : Rabs (wave_of tb sr h i f n) <= 1.00001.
  Proof. destruct HT as [B _]. pose proof (level_level 1 (Rabs (f n)) (frac (EnvModel.rnd1 Rnum_ops (h i) + sum_to (fun k => f k / sr) (S n))) ltac:(lra) tb B). unfold wave_of. lra. Qed.
  Lemma cymbal_mixed_level n : Rabs (cymbal_mixed tb sr h r n) <= 3.00003 * exp (- (8 * (INR n / sr - 1 / 400))).
  Proof.
    unfold cymbal_mixed. pose proof (fade_8 n) as F. set (e := exp _) in *. set (c := control _ _ _ _ n) in *. unfold clang_of.
    pose proof (wave_level (2 * 0 + 1) (clang_pitch tb sr h 0 (near r 0 1339.0586) 54127 (near r 1 1703.2929)) n) as A. pose proof (wave_level (2 * 1 + 1) (clang_pitch tb sr h 1 (near r 2 2090.1314) 43480 (near r 3 1425.6187)) n) as B. pose proof (wave_level (2 * 2 + 1) (clang_pitch tb sr h 2 (near r 4 1189.1727) 56771 (near r 5 1954.3242)) n) as C.
    set (x := wave_of _ _ _ (2 * 0 + 1) _ n) in *. set (y := wave_of _ _ _ (2 * 1 + 1) _ n) in *. set (z := wave_of _ _ _ (2 * 2 + 1) _ n) in *. clearbody x y z e c.
    rewrite Rabs_mult, (Rabs_pos_eq c) by lra. assert (S : Rabs (x + y + z) <= 3.00003) by (pose proof (Rabs_triang (x + y) z); pose proof (Rabs_triang x y); lra). pose proof (Rabs_pos (x + y + z)). nra.
  Qed.
  Lemma clang_range i f m g n : 0 <= m -> g - 1.00001 * m <= clang_pitch tb sr h i f m g n <= g + 1.00001 * m.
  Proof. intros M. unfold clang_pitch. pose proof (wave_level (2 * i) (fun _ => f) n) as W. set (v := wave_of _ _ _ _ _ n) in *. clearbody v. assert (- 1.00001 <= v <= 1.00001) by (unfold Rabs in W; destruct (Rcase_abs v); lra). split; nra. Qed.
  Lemma cymbal_cutoff_range t : 2000 <= cymbal_cutoff t <= 20000.
  Proof.
    unfold cymbal_cutoff, Rpower. set (u := Rmax 0 (Rmin 1 t)). assert (U : 0 <= u <= 1) by (unfold u; split; [apply Rmax_l|apply Rmax_lub; [lra|apply Rmin_l]]). clearbody u.
    assert (L : ln (1 / 10) < 0) by (rewrite <- ln_1; apply ln_increasing; lra). assert (E1 : exp (ln (1 / 10)) = 1 / 10) by (apply exp_ln; lra).
    assert (A : exp (u * ln (1 / 10)) <= exp 0) by (apply exp_le; nra). assert (B : exp (ln (1 / 10)) <= exp (u * ln (1 / 10))) by (apply exp_le; nra). rewrite exp_0 in A. lra.
  Qed.
  Lemma cymbal_cut_range n : 2000 <= control sr h 7 cymbal_cutoff n <= 20000.
  Proof. unfold control. apply lfo_range; [exact HS|apply HH|]. intros t _. apply cymbal_cutoff_range. Qed.
  Lemma cymbal_silent : cymbal_of tb sr h r 0 = 0.
  Proof.
    unfold cymbal_of. cbn [INR]. replace (0 / sr) with 0 by (unfold Rdiv; ring). unfold gain. destruct (Rlt_dec 0 (1 / 1000)); [|lra]. cbv zeta. replace (0 / (1 / 1000)) with 0 by (unfold Rdiv; ring). ring.
  Qed.
  Lemma near_range i f : 0 <= r i <= 1 -> Rabs (near r i f - f) <= 5.
  Proof. intros H. unfold near. apply Rabs_le. lra. Qed.
End Level.
Lemma cutoff_ends : cymbal_cutoff 0 = 20000 /\ forall t, 1 <= t -> cymbal_cutoff t = 2000.
Proof.
  unfold cymbal_cutoff. split.
  - rewrite Rmax_left by (rewrite Rmin_right; lra). rewrite Rpower_O by lra. ring.
  - intros t T. rewrite Rmin_left by lra. rewrite Rmax_right by lra. rewrite Rpower_1 by lra. lra.
Qed.
