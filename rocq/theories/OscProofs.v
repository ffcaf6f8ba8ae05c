(* Proofs about oscillators. *)
From Coq Require Import Reals Lra Lia Psatz.
From Verif Require Import HashProofs.
From Verif Require Export OscSpec OverProofs.
Local Open Scope R_scope.

Lemma frac_range x : 0 <= frac x < 1.
Proof. unfold frac. destruct (base_Int_part x). lra. Qed.
Lemma int_unique x k : IZR k <= x < IZR k + 1 -> Int_part x = k.
Proof.
  intros [H1 H2]. destruct (base_Int_part x) as [K1 K2]. assert (A : (Int_part x < k + 1)%Z) by (apply lt_IZR; rewrite plus_IZR; lra). assert (B : (k < Int_part x + 1)%Z) by (apply lt_IZR; rewrite plus_IZR; lra). lia.
Qed.
Lemma int_shift x k : Int_part (x + IZR k) = (Int_part x + k)%Z.
Proof. apply int_unique. rewrite plus_IZR. destruct (base_Int_part x). lra. Qed.
Lemma frac_shift x k : frac (x + IZR k) = frac x.
Proof. unfold frac. rewrite int_shift, plus_IZR. ring. Qed.
Lemma frac_id x : 0 <= x < 1 -> frac x = x.
Proof. intros H. unfold frac. rewrite (int_unique x 0) by lra. ring. Qed.
Lemma frac_frac x y : frac (frac x + y) = frac (x + y).
Proof. unfold frac at 2. replace (x - IZR (Int_part x) + y) with (x + y + IZR (- Int_part x)) by (rewrite opp_IZR; ring). apply frac_shift. Qed.
Lemma wrap_frac x : wrap Rnum_ops x = frac x. Proof. reflexivity. Qed.
Lemma sin_turn x k : sin (2 * PI * (x + IZR k)) = sin (2 * PI * x).
Proof.
  destruct k as [|p|p].
  - f_equal. ring.
  - rewrite <- (sin_period (2 * PI * x) (Pos.to_nat p)). f_equal. rewrite INR_IZR_INZ, positive_nat_Z. ring.
  - rewrite <- (sin_period (2 * PI * (x + IZR (Z.neg p))) (Pos.to_nat p)). f_equal. rewrite INR_IZR_INZ, positive_nat_Z. change (IZR (Z.neg p)) with (- IZR (Z.pos p)). ring.
Qed.
Lemma sin_frac x : sin (2 * PI * frac x) = sin (2 * PI * x).
Proof. unfold frac. rewrite <- (sin_turn x (- Int_part x)). f_equal. rewrite opp_IZR. ring. Qed.
Lemma turns_app sd a b : turns sd (a ++ b) = turns sd a + turns sd b.
Proof. induction a as [|f a IH]; cbn [app turns]; [ring|rewrite IH; ring]. Qed.

(* any oscillator whose tick advances the phase *)
Section Run.
  Context {I : Type} (freq : I -> R) (tick : oscR -> I -> oscR * R) (wave : R -> R -> I -> R).
  Context (tick_adv : forall s i, tick s i = (advance Rnum_ops idR s (freq i), wave (os_phase s) (os_sd s) i)).
  Lemma run_phase : forall l s, 0 <= os_phase s < 1 ->
    fst (osc_run tick s l) = osc_at s (frac (os_phase s + turns (os_sd s) (map freq l))).
  Proof.
    induction l as [|i l IH]; intros s H; cbn [osc_run map turns].
    - cbn [fst]. rewrite Rplus_0_r, frac_id by auto. now destruct s.
    - rewrite tick_adv. specialize (IH (advance Rnum_ops idR s (freq i)) (frac_range _)). destruct (osc_run tick (advance Rnum_ops idR s (freq i)) l) as [s' o]. cbn [fst] in *. rewrite IH.
      unfold advance, osc_at. cbn [os_phase os_sd os_hash os_init]. change (wrap Rnum_ops) with frac. rewrite frac_frac. do 2 f_equal. cbn [nadd nmul Rnum_ops]. ring.
  Qed.
  Lemma run_outputs : forall l s d n, 0 <= os_phase s < 1 -> (n < length l)%nat ->
    nth n (snd (osc_run tick s l)) 0 = wave (frac (os_phase s + turns (os_sd s) (map freq (firstn n l)))) (os_sd s) (nth n l d).
  Proof.
    induction l as [|i l IH]; intros s d n H Hn; cbn [length] in Hn; [lia|]. cbn [osc_run]. rewrite tick_adv. pose proof (IH (advance Rnum_ops idR s (freq i))) as E.
    destruct (osc_run tick (advance Rnum_ops idR s (freq i)) l) as [s' o]. cbn [snd] in *. destruct n as [|n]; cbn [nth firstn map turns].
    - now rewrite Rplus_0_r, frac_id by auto.
    - rewrite (E d n (frac_range _)) by lia. unfold advance, osc_at. cbn [os_phase os_sd os_hash os_init]. change (wrap Rnum_ops) with frac. rewrite frac_frac. do 2 f_equal. cbn [nadd nmul Rnum_ops]. ring.
  Qed.
  Lemma run_length : forall l s, length (snd (osc_run tick s l)) = length l.
  Proof. induction l as [|i l IH]; intros s; cbn [osc_run]; auto. destruct (tick s i) as [s' y]. specialize (IH s'). destruct (osc_run tick s' l). cbn [snd length] in *. now rewrite IH. Qed.
End Run.
Lemma osc_run_app {F V I} (tick : osc F -> I -> osc F * V) a b s :
  osc_run tick s (a ++ b) = let (s1, o1) := osc_run tick s a in let (s2, o2) := osc_run tick s1 b in (s2, o1 ++ o2).
Proof.
  revert s. induction a as [|i a IH]; intros s; cbn [app osc_run]. { now destruct (osc_run tick s b). }
  destruct (tick s i) as [s' y]. rewrite IH. destruct (osc_run tick s' a) as [s1 o1]. now destruct (osc_run tick s1 b) as [s2 o2].
Qed.

(* ---- sine ---- *)
Definition sine_wave (p sd f : R) : R := sin (2 * PI * p).
Lemma sine_adv s f : sine_tickR s f = (advance Rnum_ops idR s f, sine_wave (os_phase s) (os_sd s) f).
Proof. unfold sine_tick, sine_wave. cbn [nmul Rnum_ops]. do 2 f_equal. ring. Qed.
Lemma sine_output l s n : 0 <= os_phase s < 1 -> (n < length l)%nat -> nth n (snd (osc_run sine_tickR s l)) 0 = sin (2 * PI * (os_phase s + turns (os_sd s) (firstn n l))).
Proof. intros H Hn. rewrite (run_outputs (fun f => f) _ _ sine_adv l s 0 n H Hn). unfold sine_wave. now rewrite map_id, sin_frac. Qed.
Lemma ticks_run s l : sine_ticks Rnum_ops Rnum_ops idR idR sin (2 * PI) s l = osc_run sine_tickR s l.
Proof. revert s. induction l as [|f l IH]; intros s; cbn [sine_ticks osc_run]; auto. destruct (sine_tickR s f) as [s' y]. now rewrite IH. Qed.
Lemma words_run sd : forall l p, fst (sine_words Rnum_ops Rnum_ops idR idR sin (2 * PI) sd p l) = p + turns sd l.
Proof. induction l as [|f l IH]; intros p; cbn [sine_words turns]; [cbn; ring|]. specialize (IH (nadd Rnum_ops p (nmul Rnum_ops f sd))). destruct (sine_words _ _ _ _ _ _ _ _ _) as [p' o]. cbn [fst] in *. rewrite IH. cbn [nadd nmul Rnum_ops]. ring. Qed.
Lemma words_out sd h i : forall l p q, frac p = q -> snd (sine_words Rnum_ops Rnum_ops idR idR sin (2 * PI) sd p l) = snd (osc_run sine_tickR (mkOsc q sd h i) l).
Proof.
  induction l as [|f l IH]; intros p q E; cbn [sine_words osc_run]; auto. unfold sine_tick at 1. specialize (IH (nadd Rnum_ops p (nmul Rnum_ops f sd)) (frac (q + f * sd))).
  change (advance Rnum_ops idR (mkOsc q sd h i) f) with (mkOsc (frac (q + f * sd)) sd h i). cbn [os_phase].
  destruct (sine_words _ _ _ _ _ _ _ _ l) as [p' o]. destruct (osc_run sine_tickR _ l) as [s' o']. cbn [snd] in *. rewrite IH.
  - f_equal. cbn [nmul Rnum_ops]. rewrite <- E. replace (p * (2 * PI)) with (2 * PI * p) by ring. replace (frac p * (2 * PI)) with (2 * PI * frac p) by ring. now rewrite sin_frac.
  - cbn [nadd nmul Rnum_ops]. rewrite <- E. now rewrite frac_frac.
Qed.
Lemma sine_block s l : 0 <= os_phase s < 1 -> sine_processR s l = osc_run sine_tickR s l.
Proof.
  intros H. unfold sine_process. set (n := full_simd_samples (length l)). assert (E : osc_run sine_tickR s l = osc_run sine_tickR s (firstn n l ++ skipn n l)) by now rewrite firstn_skipn. rewrite E, osc_run_app. clear E.
  pose proof (words_run (os_sd s) (firstn n l) (os_phase s)) as E1. pose proof (words_out (os_sd s) (os_hash s) (os_init s) (firstn n l) (os_phase s) (os_phase s) (frac_id _ H)) as E2.
  pose proof (run_phase (fun f => f) _ _ sine_adv (firstn n l) s H) as E3. rewrite map_id in E3. replace (mkOsc (os_phase s) (os_sd s) (os_hash s) (os_init s)) with s in E2 by now destruct s.
  destruct (sine_words _ _ _ _ _ _ _ _ (firstn n l)) as [p o]. destruct (osc_run sine_tickR s (firstn n l)) as [s1 o1]. cbn [fst snd] in *. subst p o s1. change (wrap Rnum_ops) with frac. rewrite ticks_run. reflexivity.
Qed.
Lemma sine_phase_kept s l : 0 <= os_phase s < 1 -> 0 <= os_phase (fst (osc_run sine_tickR s l)) < 1.
Proof. intros H. rewrite (run_phase (fun f => f) _ _ sine_adv l s H). apply frac_range. Qed.
Lemma sine_all_blocks : forall bs s, 0 <= os_phase s < 1 -> osc_blocks sine_processR s bs = osc_run sine_tickR s (concat bs).
Proof.
  induction bs as [|b bs IH]; intros s H; cbn [osc_blocks concat]; auto. rewrite osc_run_app, sine_block by auto. pose proof (sine_phase_kept s b H) as K. destruct (osc_run sine_tickR s b) as [s1 o1]. cbn [fst] in K. rewrite IH by auto. reflexivity.
Qed.

(* ---- ramp, saw, square, pulse ---- *)
Notation blep := (polyblep Rnum_ops).
Lemma ramp_adv s f : ramp_tickR s f = (advance Rnum_ops idR s f, (fun p _ _ => p) (os_phase s) (os_sd s) f). Proof. reflexivity. Qed.
Definition saw_wave (p sd f : R) : R := 2 * p - 1 - blep p (f * sd).
Lemma saw_adv s f : saw_tickR s f = (advance Rnum_ops idR s f, saw_wave (os_phase s) (os_sd s) f). Proof. reflexivity. Qed.
Definition pulse_wave (w p sd f : R) : R := naive_pulse w p + blep p (f * sd) - blep (frac (p - w)) (f * sd).
Lemma pulse_adv s i : pulse_tickR s i = (advance Rnum_ops idR s (fst i), (fun p sd i => pulse_wave (snd i) p sd (fst i)) (os_phase s) (os_sd s) i).
Proof. unfold pulse_tick, pulse_wave, naive_pulse. f_equal. unfold delta. cbn [nadd nsub nmul nltb nneg Rnum_ops]. destruct (Rlt_dec (os_phase s) (snd i)); reflexivity. Qed.
Lemma square_adv s f : square_tickR s f = (advance Rnum_ops idR s f, pulse_wave (1 / 2) (os_phase s) (os_sd s) f).
Proof. unfold square_tick, pulse_wave, naive_pulse. f_equal. unfold delta. cbn [nadd nsub nmul ndiv nofZ nltb nneg n1 Rnum_ops]. destruct (Rlt_dec (os_phase s) (1 / 2)); reflexivity. Qed.
Lemma blep_mid t dt : 0 <= t < 1 -> dt <= t <= 1 - dt -> blep t dt = 0.
Proof. intros Ht H. unfold polyblep. cbn [nltb nsub n1 n0 nofZ Rnum_ops]. destruct (Rlt_dec t dt); [lra|]. destruct (Rlt_dec (1 - dt) t); [lra|]. reflexivity. Qed.
Lemma blep_off t dt : 0 <= t < 1 -> dt <= 0 -> blep t dt = 0.
Proof. intros Ht H. apply blep_mid; auto. lra. Qed.
Lemma blep_low t dt : 0 <= t < dt -> blep t dt = - ((1 - t / dt) * (1 - t / dt)).
Proof. intros H. unfold polyblep. cbn [nltb nadd nmul ndiv nsub n1 n0 nofZ Rnum_ops]. destruct (Rlt_dec t dt); [|lra]. ring. Qed.
Lemma blep_high t dt : dt <= t -> 1 - dt < t < 1 -> blep t dt = (1 + (t - 1) / dt) * (1 + (t - 1) / dt).
Proof. intros H1 H. unfold polyblep. cbn [nltb nadd nmul ndiv nsub n1 n0 nofZ Rnum_ops]. destruct (Rlt_dec t dt); [lra|]. destruct (Rlt_dec (1 - dt) t); [|lra]. ring. Qed.
Lemma low_unit t dt : 0 <= t < dt -> 0 < 1 - t / dt <= 1.
Proof. intros H. assert (0 <= t / dt) by (apply Rmult_le_pos; [lra|left; apply Rinv_0_lt_compat; lra]). assert (t / dt < 1) by (apply (Rmult_lt_reg_r dt); [lra|]; unfold Rdiv; rewrite Rmult_assoc, Rinv_l by lra; lra). lra. Qed.
Lemma high_unit t dt : 0 < dt -> 1 - dt < t < 1 -> 0 < 1 + (t - 1) / dt < 1.
Proof.
  intros Hd H. replace (1 + (t - 1) / dt) with ((t - (1 - dt)) / dt) by (field; lra). split; [apply Rdiv_lt_0_compat; lra|]. apply (Rmult_lt_reg_r dt); [lra|]. unfold Rdiv. rewrite Rmult_assoc, Rinv_l by lra. lra.
Qed.
Lemma blep_range t dt : 0 <= t < 1 -> -1 <= blep t dt <= 1.
Proof.
  intros Ht. destruct (Rle_dec dt 0) as [Hd|Hd]; [rewrite blep_off by auto; lra|]. destruct (Rlt_dec t dt) as [H|H].
  - rewrite blep_low by lra. pose proof (low_unit t dt ltac:(lra)). nra.
  - destruct (Rlt_dec (1 - dt) t) as [H'|H']; [|rewrite blep_mid by lra; lra]. rewrite blep_high by lra. pose proof (high_unit t dt ltac:(lra) ltac:(lra)). nra.
Qed.
Lemma blep_mono t t' dt : 0 <= t -> t <= t' -> t' < 1 -> dt <= 1 / 2 -> blep t dt <= blep t' dt.
Proof.
  intros H0 Hle H1 Hd. destruct (Rle_dec dt 0) as [Hn|Hn]; [rewrite !blep_off by lra; lra|].
  assert (Q : forall a b, a <= b -> a / dt <= b / dt) by (intros a b K; apply Rmult_le_compat_r; [left; apply Rinv_0_lt_compat; lra|auto]).
  destruct (Rlt_dec t dt) as [A|A].
  - destruct (Rlt_dec t' dt) as [B|B].
    + rewrite !blep_low by lra. pose proof (low_unit t dt ltac:(lra)). pose proof (low_unit t' dt ltac:(lra)). pose proof (Q t t' Hle). nra.
    + rewrite blep_low by lra. pose proof (low_unit t dt ltac:(lra)). destruct (Rlt_dec (1 - dt) t') as [D|D]; [rewrite blep_high by lra|rewrite blep_mid by lra; nra]. pose proof (high_unit t' dt ltac:(lra) ltac:(lra)). nra.
  - destruct (Rlt_dec (1 - dt) t') as [D|D]; [|rewrite !blep_mid by lra; lra]. rewrite (blep_high t') by lra. pose proof (high_unit t' dt ltac:(lra) ltac:(lra)).
    destruct (Rlt_dec (1 - dt) t) as [E|E]; [|rewrite blep_mid by lra; nra]. rewrite blep_high by lra. pose proof (high_unit t dt ltac:(lra) ltac:(lra)). pose proof (Q (t - 1) (t' - 1) ltac:(lra)). nra.
Qed.
Lemma frac_minus p w : 0 <= p < 1 -> 0 <= w <= 1 -> p < w -> frac (p - w) = p - w + 1.
Proof. intros Hp Hw H. rewrite <- (frac_shift (p - w) 1). apply frac_id. lra. Qed.
Lemma pulse_range w p sd f : 0 <= p < 1 -> 0 <= w <= 1 -> f * sd <= 1 / 2 -> -1 <= pulse_wave w p sd f <= 1.
Proof.
  intros Hp Hw Hd. unfold pulse_wave, naive_pulse. pose proof (blep_range p (f * sd) Hp). pose proof (blep_range (frac (p - w)) (f * sd) (frac_range _)). destruct (Rlt_dec p w) as [l|l].
  - assert (blep p (f * sd) <= blep (frac (p - w)) (f * sd)) by (pose proof (frac_range (p - w)); pose proof (frac_minus p w Hp Hw l); apply blep_mono; lra). lra.
  - assert (blep (frac (p - w)) (f * sd) <= blep p (f * sd)) by (rewrite frac_id by lra; apply blep_mono; lra). lra.
Qed.
Lemma saw_range p sd f : 0 <= p < 1 -> f * sd <= 1 -> -1 <= saw_wave p sd f <= 1.
Proof.
  intros Hp Hd. unfold saw_wave. set (d := f * sd) in *. destruct (Rle_dec d 0) as [Hn|Hn]; [rewrite blep_off by auto; lra|]. destruct (Rlt_dec p d) as [H|H].
  - rewrite blep_low by lra. pose proof (low_unit p d ltac:(lra)) as U. set (z := p / d) in *. assert (E : p = z * d) by (unfold z; field; lra). rewrite E. nra.
  - destruct (Rlt_dec (1 - d) p) as [H'|H']; [|rewrite blep_mid by lra; lra]. rewrite blep_high by lra. pose proof (high_unit p d ltac:(lra) ltac:(lra)) as U. set (z := (p - 1) / d) in *. assert (E : p = 1 + z * d) by (unfold z; field; lra). rewrite E. nra.
Qed.
Lemma pulse_far w p sd f : 0 <= p < 1 -> far_from (f * sd) p 0 -> far_from (f * sd) p w -> pulse_wave w p sd f = naive_pulse w p.
Proof.
  intros Hp H0 Hw. unfold far_from in *. rewrite Rminus_0_r, frac_id in H0 by auto. unfold pulse_wave. rewrite !blep_mid by (auto; apply frac_range). ring.
Qed.
Lemma saw_far p sd f : 0 <= p < 1 -> far_from (f * sd) p 0 -> saw_wave p sd f = naive_saw p.
Proof. intros Hp H0. unfold far_from in *. rewrite Rminus_0_r, frac_id in H0 by auto. unfold saw_wave, naive_saw. rewrite blep_mid by auto. ring. Qed.
