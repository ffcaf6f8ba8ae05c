(* Proofs about the other oscillators: summation formula, plucked string. *)
From Coq Require Import Reals Lra Lia Psatz.
From Verif Require Import HashProofs.
From Verif Require Export OscProofs.
Local Open Scope R_scope.

(* ---- DSF ---- *)
Lemma dsf_num r f d n : (1 + r * r - 2 * r * cos d) * partials r f d n =
  sin f - r * sin (f - d) - r ^ S n * (sin (f + INR (S n) * d) - r * sin (f + INR n * d)).
Proof.
  unfold partials. induction n as [|n IH].
  - cbn [total pow INR]. rewrite !Rmult_0_l, !Rplus_0_r, !Rplus_0_l, !Rmult_1_l, Rmult_1_r. rewrite sin_minus, sin_plus. ring.
  - change (total (S (S n)) (fun i => r ^ i * sin (f + INR i * d))) with (total (S n) (fun i => r ^ i * sin (f + INR i * d)) + r ^ S n * sin (f + INR (S n) * d)). rewrite Rmult_plus_distr_l, IH.
    set (a := f + INR (S n) * d). replace (f + INR n * d) with (a - d) by (unfold a; rewrite S_INR; ring). replace (f + INR (S (S n)) * d) with (a + d) by (unfold a; rewrite (S_INR (S n)); ring).
    rewrite sin_minus, sin_plus. rewrite <- (tech_pow_Rmult r (S n)). rewrite (sin_minus a d). ring.
Qed.
Lemma dsf_den r d : 0 < r < 1 -> 0 < (1 - r) * (1 - r) <= 1 + r * r - 2 * r * cos d.
Proof. intros H. pose proof (COS_bound d). split; nra. Qed.
Lemma dsf_sum r f d n : 0 < r < 1 -> dsfR f d r (INR n) = partials r f d n.
Proof.
  intros H. unfold dsf. cbn [nsub nmul nadd ndiv n1 nofZ Rnum_ops]. pose proof (dsf_den r d H) as D. rewrite <- (S_INR n), Rpower_pow by lra.
  rewrite <- dsf_num. field. lra.
Qed.
Lemma partials_bound r f d n : 0 < r < 1 -> Rabs (partials r f d n) <= (1 - r ^ S n) / (1 - r).
Proof.
  intros H. unfold partials. assert (G : Rabs (total (S n) (fun i => r ^ i * sin (f + INR i * d))) <= total (S n) (fun i => r ^ i)).
  { generalize (S n) as m. induction m as [|m IH]; cbn [total]; [rewrite Rabs_R0; lra|]. eapply Rle_trans; [apply Rabs_triang|]. apply Rplus_le_compat; auto. rewrite Rabs_mult, (Rabs_pos_eq (r ^ m)) by (apply pow_le; lra).
    pose proof (pow_lt r m ltac:(lra)). pose proof (SIN_bound (f + INR m * d)). assert (Rabs (sin (f + INR m * d)) <= 1) by (apply Rabs_le; lra). nra. }
  eapply Rle_trans; [exact G|]. right. generalize (S n) as m. induction m as [|m IH]; cbn [total pow]; [field; lra|]. rewrite IH. field. lra.
Qed.
Lemma partials_range r f d n : 0 < r < 1 -> Rabs (partials r f d n) <= 1 / (1 - r).
Proof.
  intros H. eapply Rle_trans; [now apply partials_bound|]. apply Rmult_le_compat_r; [left; apply Rinv_0_lt_compat; lra|]. pose proof (pow_lt r (S n) ltac:(lra)). lra.
Qed.
Lemma int_nat x : 0 <= x -> exists n, IZR (Int_part x) = INR n /\ INR n <= x < INR n + 1.
Proof.
  intros H. destruct (base_Int_part x) as [A B]. assert (0 <= Int_part x)%Z. { assert (-1 < Int_part x)%Z by (apply lt_IZR; lra). lia. }
  exists (Z.to_nat (Int_part x)). rewrite INR_IZR_INZ, Z2Nat.id by auto. split; [reflexivity|lra].
Qed.
Lemma rough_clamped r : rough_ok (clamp Rnum_ops (1 / 10000) (9999 / 10000) r).
Proof. unfold rough_ok, clamp. cbn [nmin nmax Rnum_ops]. unfold Rmin, Rmax. destruct (Rle_dec r (1 / 10000)); destruct (Rle_dec _ (9999 / 10000)); lra. Qed.
Lemma dsf_after_phase : forall l s, rough_ok (ds_rough s) -> let s' := dsf_after s l in
  (exists k, ds_phase s' = ds_phase s + turns (ds_sd s) (map fst l) + IZR k) /\ ds_sd s' = ds_sd s /\ ds_spacing s' = ds_spacing s /\ rough_ok (ds_rough s').
Proof.
  induction l as [|[f r] l IH]; intros s Hr; cbn [dsf_after fold_left map fst snd turns].
  - split; [exists 0%Z; ring|]. auto.
  - set (s1 := fst (dsf_tickR s f r)). assert (K : ds_phase s1 = frac (ds_phase s + f * ds_sd s) /\ ds_sd s1 = ds_sd s /\ ds_spacing s1 = ds_spacing s /\ rough_ok (ds_rough s1)).
    { unfold s1, dsf_tick. destruct r as [r|]; cbn [fst ds_phase ds_sd ds_spacing ds_rough set_roughness]; (split; [reflexivity|]); (split; [reflexivity|]); (split; [reflexivity|]); auto. apply rough_clamped. }
    destruct K as (K1 & K2 & K3 & K4). destruct (IH s1 K4) as ((k & E1) & E2 & E3 & E4). change (fold_left _ l s1) with (dsf_after s1 l). rewrite E2, E3. split; [|auto].
    exists (k - Int_part (ds_phase s + f * ds_sd s))%Z. rewrite E1, K1, K2. unfold frac. rewrite minus_IZR. ring.
Qed.
Lemma dsf_output s l f r k : rough_ok (ds_rough s) -> ds_spacing s = INR (S k) -> 0 < f ->
  let s' := dsf_after s l in let r' := match r with Some r => clamp Rnum_ops (1 / 10000) (9999 / 10000) r | None => ds_rough s' end in
  let x := 2 * PI * (ds_phase s + turns (ds_sd s) (map fst l ++ [f])) in
  exists n, INR n <= 22050 / f / INR (S k) < INR n + 1 /\ snd (dsf_tickR s' f r) = partials r' x (x * INR (S k)) n /\ Rabs (snd (dsf_tickR s' f r)) <= 1 / (1 - r') /\ rough_ok r'.
Proof.
  intros Hr Hs Hf s' r' x. destruct (dsf_after_phase l s Hr) as ((z & E1) & E2 & E3 & E4). fold s' in E1, E2, E3, E4.
  assert (Q : 0 <= 22050 / f / INR (S k)). { assert (0 < INR (S k)) by (apply lt_0_INR; lia). apply Rmult_le_pos; [apply Rmult_le_pos; [lra|left; now apply Rinv_0_lt_compat]|left; now apply Rinv_0_lt_compat]. }
  destruct (int_nat _ Q) as (n & En & Bn). exists n. split; [exact Bn|].
  assert (R' : rough_ok r') by (unfold r'; destruct r; [apply rough_clamped|auto]).
  set (p := frac (ds_phase s' + f * ds_sd s')). set (T := ds_phase s + turns (ds_sd s) (map fst l ++ [f])).
  assert (E : snd (dsf_tickR s' f r) = partials r' (p * (2 * PI)) (p * (2 * PI) * INR (S k)) n).
  { rewrite <- dsf_sum by (unfold rough_ok in R'; lra). rewrite <- En. unfold dsf_tick, p, r'. destruct r; cbn [snd ds_phase ds_sd ds_spacing ds_rough set_roughness]; rewrite E3, Hs; reflexivity. }
  assert (P : exists z', p = T + IZR z').
  { exists (z - Int_part (ds_phase s' + f * ds_sd s'))%Z. unfold p, frac, T. rewrite E1, E2, turns_app, minus_IZR. cbn [turns]. ring. }
  destruct P as [z' Ez]. assert (S : partials r' (p * (2 * PI)) (p * (2 * PI) * INR (S k)) n = partials r' x (x * INR (S k)) n).
  { unfold partials. apply total_ext. intros i Hi. f_equal. unfold x. fold T. rewrite Ez.
    replace ((T + IZR z') * (2 * PI) + INR i * ((T + IZR z') * (2 * PI) * INR (S k))) with (2 * PI * (T * (1 + INR i * INR (S k)) + IZR (z' * (1 + Z.of_nat i * Z.of_nat (S k))))).
    - rewrite sin_turn. f_equal. ring.
    - rewrite mult_IZR, plus_IZR, mult_IZR, <- !INR_IZR_INZ. ring. }
  rewrite E, S. split; [reflexivity|]. split; [|exact R']. apply partials_range. unfold rough_ok in R'. lra.
Qed.
(* the highest partial of the saw *)
Lemma dsf_top f n : 0 < f -> INR n <= 22050 / f < INR n + 1 -> f * (1 + INR n) > 22050.
Proof. intros Hf [_ H]. apply (Rmult_lt_compat_r f) in H; auto. unfold Rdiv in H. rewrite Rmult_assoc, Rinv_l in H by lra. lra. Qed.

(* ---- plucked string ---- *)
Section Pluck.
  Variable draw : N -> nat -> R.
  Notation tick := (pluck_tick Rnum_ops Rnum_ops idR idR draw).
  Notation run := (pluck_run Rnum_ops Rnum_ops idR idR draw).
  Notation delay := (loop_delay Rnum_ops idR).
  Lemma loop_split s : 0 < pl_freq s -> 11 / 5 <= pl_sr s / pl_freq s -> (1 <= delay s)%Z /\
    INR (Z.to_nat (delay s)) + 1 + allpass_delay Rnum_ops idR s = pl_sr s / pl_freq s /\ 1 / 5 <= allpass_delay Rnum_ops idR s < 6 / 5.
  Proof.
    intros Hf H. unfold allpass_delay, loop_delay, total_delay. cbn [nfloor nsub ndiv n1 nofZ Rnum_ops]. set (t := pl_sr s / pl_freq s) in *. set (k := Int_part (t - 1 - 1 / 5)).
    destruct (base_Int_part (t - 1 - 1 / 5)) as [A B]. fold k in A, B. assert (0 < k)%Z by (apply lt_IZR; lra). split; [lia|]. rewrite INR_IZR_INZ, Z2Nat.id by lia. split; [ring|lra].
  Qed.
  Lemma allpass_stable d : 1 / 5 <= d < 6 / 5 -> -1 < all_eta Rnum_ops d < 1.
  Proof.
    intros H. unfold all_eta. cbn [nsub nadd ndiv n1 nofZ Rnum_ops]. split; apply (Rmult_lt_reg_r (1 + d)); try lra; unfold Rdiv; rewrite Rmult_assoc, Rinv_l by lra; lra.
  Qed.
  Definition playing (s : @pluck R R) : Prop := pl_ready s = true /\ (pl_pos s < length (pl_line s))%nat.
  Lemma tick_plays s x : playing s -> exists s' y, tick s x = Some (s', y) /\ playing s' /\ length (pl_line s') = length (pl_line s) /\
    f_w (pl_fir s') = f_w (pl_fir s) /\ pl_gain s' = pl_gain s /\ pl_hash s' = pl_hash s /\ pl_freq s' = pl_freq s /\ pl_sr s' = pl_sr s.
  Proof.
    intros [H1 H2]. unfold pluck_tick. rewrite H1. destruct (nth_error (pl_line s) (pl_pos s)) as [v|] eqn:E; [|apply nth_error_None in E; lia].
    unfold fir_tick. cbv zeta. eexists. eexists. split; [reflexivity|]. unfold playing. cbn [pl_ready pl_pos pl_line pl_fir f_w pl_gain pl_hash pl_freq pl_sr]. rewrite length_upd.
    split; [|auto 10]. split; [reflexivity|]. destruct (Nat.eqb_spec (pl_pos s + 1) (length (pl_line s))); lia.
  Qed.
  Lemma run_plays : forall l s, playing s -> exists s' o, run s l = Some (s', o) /\ playing s' /\ length o = length l /\
    f_w (pl_fir s') = f_w (pl_fir s) /\ pl_gain s' = pl_gain s /\ pl_hash s' = pl_hash s /\ pl_freq s' = pl_freq s /\ pl_sr s' = pl_sr s.
  Proof.
    induction l as [|x l IH]; intros s H; cbn [pluck_run]. { exists s, []. auto 10. }
    destruct (tick_plays s x H) as (s1 & y & E & H1 & _ & A & B & C & D & G). rewrite E. destruct (IH s1 H1) as (s2 & o & E2 & H2 & L & A2 & B2 & C2 & D2 & G2). rewrite E2.
    exists s2, (y :: o). cbn [length]. rewrite A2, B2, C2, D2, G2, L. auto 10.
  Qed.
  Lemma init_line_length s : length (pl_line (initialize_line Rnum_ops Rnum_ops idR idR draw s)) = Z.to_nat (delay s).
  Proof. cbn [pl_line initialize_line]. unfold excitation. cbv zeta. now rewrite !map_length, seq_length. Qed.
  Lemma tick_init s x : pl_ready s = false -> tick s x = tick (initialize_line Rnum_ops Rnum_ops idR idR draw s) x.
  Proof. intros H. unfold pluck_tick. rewrite H. reflexivity. Qed.
  Lemma start_plays s l : pl_ready s = false -> (1 <= delay s)%Z -> exists s' o, run s l = Some (s', o) /\ length o = length l /\
    f_w (pl_fir s') = f_w (pl_fir s) /\ pl_gain s' = pl_gain s /\ pl_hash s' = pl_hash s /\ pl_freq s' = pl_freq s /\ pl_sr s' = pl_sr s.
  Proof.
    intros H Hd. destruct l as [|x l]. { exists s, []. auto 10. } cbn [pluck_run]. rewrite tick_init by auto. set (s0 := initialize_line Rnum_ops Rnum_ops idR idR draw s).
    assert (P : playing s0). { split; [reflexivity|]. unfold s0. rewrite init_line_length. cbn [pl_pos initialize_line]. lia. }
    destruct (run_plays (x :: l) s0 P) as (s' & o & E & _ & R). cbn [pluck_run] in E. exists s', o. split; [exact E|]. exact R.
  Qed.
  Lemma start_panics s x : pl_ready s = false -> (delay s <= 0)%Z -> tick s x = None.
  Proof.
    intros H Hd. rewrite tick_init by auto. unfold pluck_tick. replace (pl_ready (initialize_line _ _ _ _ _ s)) with true by reflexivity.
    pose proof (init_line_length s) as L. destruct (pl_line (initialize_line Rnum_ops Rnum_ops idR idR draw s)); [reflexivity|]. cbn [length] in L. lia.
  Qed.
  Lemma delay_short s : 0 < pl_freq s -> pl_sr s / pl_freq s < 11 / 5 -> (delay s <= 0)%Z.
  Proof.
    intros Hf H. unfold loop_delay, total_delay. cbn [nfloor nsub ndiv n1 nofZ Rnum_ops]. destruct (base_Int_part (pl_sr s / pl_freq s - 1 - 1 / 5)) as [A _]. apply Z.lt_succ_r. apply lt_IZR. cbn. lra.
  Qed.
  (* after reset only the parameters count *)
  Lemma reset_same s s' l : f_w (pl_fir s) = f_w (pl_fir s') -> pl_gain s = pl_gain s' -> pl_hash s = pl_hash s' -> pl_freq s = pl_freq s' -> pl_sr s = pl_sr s' ->
    option_map snd (run (pluck_reset Rnum_ops s) l) = option_map snd (run (pluck_reset Rnum_ops s') l).
  Proof.
    intros A B C D E. destruct l as [|x l]; [reflexivity|]. cbn [pluck_run]. rewrite !tick_init by reflexivity.
    assert (G : initialize_line Rnum_ops Rnum_ops idR idR draw (pluck_reset Rnum_ops s) = initialize_line Rnum_ops Rnum_ops idR idR draw (pluck_reset Rnum_ops s')); [|now rewrite G].
    unfold initialize_line, pluck_reset, fir_reset, allpass_delay, loop_delay, total_delay. cbn [pl_fir pl_gain pl_hash pl_freq pl_sr]. now rewrite A, B, C, D, E.
  Qed.
  Lemma new_is_reset sr f g d l : option_map snd (run (pluck_reset Rnum_ops (pluck_new Rnum_ops Rnum_ops idR idR Rpower sr f g d)) l) = option_map snd (run (pluck_new Rnum_ops Rnum_ops idR idR Rpower sr f g d) l).
  Proof. destruct l as [|x l]; [reflexivity|]. cbn [pluck_run]. rewrite !tick_init by reflexivity. reflexivity. Qed.
End Pluck.
Lemma pluck_gain (sr f g d : R) : 0 < f -> 0 < g -> Rpower (pl_gain (pluck_new Rnum_ops Rnum_ops idR idR Rpower sr f g d)) f = g.
Proof. intros Hf Hg. cbn [pl_gain pluck_new ndiv n1 nofZ Rnum_ops]. rewrite Rpower_mult. replace (1 / f * f) with 1 by (field; lra). now apply Rpower_1. Qed.

(* ---- how oscillators start ---- *)
Lemma rnd1_unit h : (h < 2 ^ 64)%N -> 0 <= rnd1 Rnum_ops h < 1.
Proof.
  intros H. pose proof (HashProofs.rnd1_num_bound h H) as B. unfold rnd1. cbn [nmul ndiv n1 nofZ Rnum_ops]. assert (P : 0 < IZR (2 ^ 53)) by (apply IZR_lt; reflexivity).
  assert (0 <= IZR (Z.of_N (rnd1_num h)) < IZR (2 ^ 53)). { split; [apply IZR_le; lia|]. apply IZR_lt. change (2 ^ 53)%Z with (Z.of_N (2 ^ 53)). lia. }
  set (z := IZR (Z.of_N (rnd1_num h))) in *. unfold Rdiv. rewrite Rmult_1_l. split; [apply Rmult_le_pos; [lra|left; now apply Rinv_0_lt_compat]|]. apply (Rmult_lt_reg_r (IZR (2 ^ 53))); auto. rewrite Rmult_assoc, Rinv_l by lra. lra.
Qed.
Lemma start_phase (s : oscR) : (os_hash s < 2 ^ 64)%N -> (forall p, os_init s = Some p -> 0 <= p < 1) -> 0 <= os_phase (osc_reset Rnum_ops s) < 1.
Proof. intros H P. unfold osc_reset. cbn [os_phase]. destruct (os_init s) as [p|]; [now apply P|now apply rnd1_unit]. Qed.
Lemma set_phase_later {I V} (tick : oscR -> I -> oscR * V) (adv : forall s p i, snd (tick (osc_set_phase idR s p) i) = snd (tick s i) /\ fst (tick (osc_set_phase idR s p) i) = osc_set_phase idR (fst (tick s i)) p) :
  forall l s p, osc_run tick (osc_set_phase idR s p) l = (osc_set_phase idR (fst (osc_run tick s l)) p, snd (osc_run tick s l)).
Proof.
  induction l as [|i l IH]; intros s p; [reflexivity|]. cbn [osc_run]. destruct (adv s p i) as [A B]. destruct (tick (osc_set_phase idR s p) i) as [s1 y1], (tick s i) as [s2 y2]. cbn [fst snd] in *. subst. rewrite IH. destruct (osc_run tick s2 l). reflexivity.
Qed.
(* ---- ramp, saw and pulse: their runs ---- *)
Lemma ramp_output l s n : 0 <= os_phase s < 1 -> (n < length l)%nat -> nth n (snd (osc_run ramp_tickR s l)) 0 = frac (os_phase s + turns (os_sd s) (firstn n l)).
Proof. intros H Hn. rewrite (run_outputs (fun f => f) _ _ ramp_adv l s 0 n H Hn). now rewrite map_id. Qed.
Lemma saw_output l s n f : 0 <= os_phase s < 1 -> nth_error l n = Some f -> let p := frac (os_phase s + turns (os_sd s) (firstn n l)) in let y := nth n (snd (osc_run saw_tickR s l)) 0 in
  (f * os_sd s <= 1 -> -1 <= y <= 1) /\ (far_from (f * os_sd s) p 0 -> y = naive_saw p).
Proof.
  intros H Hn p y. assert (L : (n < length l)%nat) by (apply nth_error_Some; congruence). assert (E : y = saw_wave p (os_sd s) f).
  { unfold y. rewrite (run_outputs (fun f => f) _ _ saw_adv l s 0 n H L). rewrite map_id. now rewrite (nth_error_nth l n 0 Hn). }
  rewrite E. pose proof (frac_range (os_phase s + turns (os_sd s) (firstn n l))) as P. fold p in P. split; intros; [now apply saw_range|now apply saw_far].
Qed.
Lemma square_output l s n f : 0 <= os_phase s < 1 -> nth_error l n = Some f -> let p := frac (os_phase s + turns (os_sd s) (firstn n l)) in let y := nth n (snd (osc_run square_tickR s l)) 0 in
  (f * os_sd s <= 1 / 2 -> -1 <= y <= 1) /\ (far_from (f * os_sd s) p 0 -> far_from (f * os_sd s) p (1 / 2) -> y = naive_pulse (1 / 2) p).
Proof.
  intros H Hn p y. assert (L : (n < length l)%nat) by (apply nth_error_Some; congruence). assert (E : y = pulse_wave (1 / 2) p (os_sd s) f).
  { unfold y. rewrite (run_outputs (fun f => f) _ _ square_adv l s 0 n H L). rewrite map_id. now rewrite (nth_error_nth l n 0 Hn). }
  rewrite E. pose proof (frac_range (os_phase s + turns (os_sd s) (firstn n l))) as P. fold p in P. split; intros; [apply pulse_range; auto; lra|now apply pulse_far].
Qed.
Lemma pulse_output l s n f w : 0 <= os_phase s < 1 -> nth_error l n = Some (f, w) -> let p := frac (os_phase s + turns (os_sd s) (map fst (firstn n l))) in let y := nth n (snd (osc_run pulse_tickR s l)) 0 in
  (f * os_sd s <= 1 / 2 -> 0 <= w <= 1 -> -1 <= y <= 1) /\ (far_from (f * os_sd s) p 0 -> far_from (f * os_sd s) p w -> y = naive_pulse w p).
Proof.
  intros H Hn p y. assert (L : (n < length l)%nat) by (apply nth_error_Some; congruence). assert (E : y = pulse_wave w p (os_sd s) f).
  { unfold y. rewrite (run_outputs fst _ _ pulse_adv l s (0, 0) n H L). now rewrite (nth_error_nth l n (0, 0) Hn). }
  rewrite E. pose proof (frac_range (os_phase s + turns (os_sd s) (map fst (firstn n l)))) as P. fold p in P. split; intros; [now apply pulse_range|now apply pulse_far].
Qed.
