(* C39 (meters), C73: monitors and declickers. *)
From Coq Require Import Reals Lra Lia SpecFloat.
From Flocq Require Import Core.Core IEEE754.BinarySingleNaN.
From Verif Require Import MeterSpec MeterProofs.
Import ListNotations.
Local Open Scope R_scope.

(* After any samples, resets and sample rates, a meter node outputs what its meter should report on the samples since the last reset: the sample itself, the largest magnitude
   or the mean of the squares, where what was a time T ago counts half; and it does not matter whether samples come in blocks. *)
Theorem C39_meter : forall (m : meterR) sr h x, 0 < sr -> scale_ok m -> Forall rate_ok h ->
  exists v, snd (mnode_run m (new_meter m sr) (rev h ++ [MTick x])) = snd (mnode_run m (new_meter m sr) (rev h)) ++ [v] /\ reports m (heard sr (MTick x :: h)) v.
Proof.
  intros m sr h x HS K H. rewrite node_app. cbn [snd mnode_run mnode_tick]. eexists. split; [reflexivity|]. cbn [heard].
  assert (H' : Forall rate_ok (MTick x :: h)) by (constructor; [exact I|exact H]). eapply shows_reports; [exact K|exact (heard_pos sr _ HS H')|]. apply shows_tick; [exact K|now apply rate_pos|]. now apply node_run.
Qed.
Print Assumptions C39_meter.
Theorem C39_meter_blocks : forall (m : meterR) xs s l, mnode_run m s (MBlock xs :: l) = mnode_run m s (map MTick xs ++ l).
Proof. exact node_blocks. Qed.
Print Assumptions C39_meter_blocks.
Example C39_meter_case : heard 2 [MTick 3; MRate 4; MBlock [1; 2]; MReset; MTick 5] = [(4, 3); (2, 2); (2, 1)] /\ reports (Peak 1) [(4, 0); (2, 2); (2, 1)] (2 * half (1 / 4)).
Proof.
  split; [reflexivity|]. split.
  - intros t0 t1 x. cbn [ages In]. intros [H|[H|[H|[]]]]; injection H as <- <- <-.
    + rewrite Rabs_R0. pose proof (half_pos (1 / 4)). lra.
    + rewrite Rabs_pos_eq by lra. replace ((0 + 1 / 4) / 1) with (1 / 4) by field. lra.
    + rewrite Rabs_pos_eq by lra. assert (half ((0 + 1 / 4 + 1 / 2) / 1) <= half (1 / 4)) by (apply half_le; lra). pose proof (half_pos (1 / 4)). lra.
  - right. exists (0 + 1 / 4), (0 + 1 / 4 + 1 / 2), 2. split; [right; left; reflexivity|]. rewrite Rabs_pos_eq by lra. f_equal. f_equal. field.
Qed.

(* The RMS level never exceeds the largest magnitude. For a signal of steady magnitude its square is a half after the time scale, three quarters after twice that, and so on. *)
Theorem C39_rms : forall T c l v, 0 < T -> reports (Rms T) l v ->
  (0 <= c -> Forall (fun p => 0 < fst p /\ Rabs (snd p) <= c) l -> 0 <= v <= c) /\ (Forall (fun p => 0 < fst p /\ Rabs (snd p) = c) l -> v * v = c * c * (1 - half (heard_for l / T))).
Proof.
  intros T c l v HT [V E]. split.
  - intros C H. split; [exact V|]. pose proof (mean_bound T c l HT H). rewrite <- E in H0. apply Rsqr_incr_0; auto.
  - intros H. rewrite E. now apply mean_steady.
Qed.
Print Assumptions C39_rms.

(* The documentation says that the smoothing timescale is the time it takes for level estimation to move halfway to a new level. The RMS level takes less: after that time it is
   the square of the level that is halfway, and the level is at 0.7 of a new level that comes after silence. *)
Theorem C39_halfway_refuted : ~ (forall T sr c n, 0 < T -> 0 < sr -> 0 <= c -> INR n / sr = T ->
  forall v, reports (Rms T) (heard sr (map MTick (repeat c n))) v -> v = c / 2).
Proof.
  intros H. specialize (H 1 1 1 1%nat ltac:(lra) ltac:(lra) ltac:(lra) ltac:(change (1 / 1 = 1); field)). cbn [repeat map heard rate_now] in H.
  assert (E : mean_square 1 [(1, 1)] = 1 / 2). { rewrite mean_step by lra. replace (1 / (1 * 1)) with 1 by field. rewrite half_1. unfold mean_square. cbn [ages map fold_right]. lra. }
  specialize (H (sqrt (1 / 2))). cbn [reports] in H. rewrite E in H. specialize (H (conj (sqrt_pos _) (sqrt_sqrt (1 / 2) ltac:(lra)))). pose proof (sqrt_sqrt (1 / 2) ltac:(lra)) as S. rewrite H in S. lra.
Qed.
Print Assumptions C39_halfway_refuted.

(* A finite sample whose square overflows (any of magnitude 2^64 or more) makes the RMS level infinite, and no silence that follows brings it back: in binary32, with any smoothing of 0.5 for one. *)
Theorem C39_overflow_refuted : ~ (forall (m : meter unit) (s : mstate spec_float) xs, is_finite_SF (m_smoothing s) = true -> is_finite_SF (m_state s) = true -> Forall (fun x => is_finite_SF x = true) xs ->
  exists n, is_finite_SF (m_state (fold_left (meter_tick f32_ops m) (xs ++ repeat (S754_zero false) n) s)) = true).
Proof.
  intros H. destruct (H (Rms tt) (mkMeter (S754_finite false 8388608 (-24)) (S754_zero false)) [S754_finite false 8388608 41] eq_refl eq_refl ltac:(repeat constructor)) as (n & E). rewrite fold_left_app in E. cbn [fold_left] in E.
  set (s := meter_tick f32_ops (Rms tt) _ _) in E. assert (S0 : s = mkMeter (S754_finite false 8388608 (-24)) (S754_infinity false)) by (vm_compute; reflexivity). rewrite S0 in E. clear S0 s.
  induction n as [|n IH]; [discriminate E|]. apply IH. cbn [repeat fold_left] in E.
  assert (ST : meter_tick f32_ops (Rms tt) (mkMeter (S754_finite false 8388608 (-24)) (S754_infinity false)) (S754_zero false) = mkMeter (S754_finite false 8388608 (-24)) (S754_infinity false)) by (vm_compute; reflexivity).
  rewrite ST in E. exact E.
Qed.
Print Assumptions C39_overflow_refuted.

(* A monitor passes its input on unchanged; after any ticks, blocks, resets and sample rates the shared variable holds what the meter should report on the samples since the last reset, once there are any. *)
Theorem C73_monitor : forall (m : meterR) sr v ops, 0 < sr -> scale_ok m -> Forall rate_ok ops ->
  let (o, out) := monitor_run Rnum_ops Rnum_ops (fun x => x) half sqrt m (new_monitor m sr v) ops in
  out = inputs_of ops /\ (heard sr (rev ops) <> [] -> reports m (heard sr (rev ops)) (mo_shared o)).
Proof.
  intros m sr v ops HS K H. pose proof (Forall_rev H) as HR. pose proof (mon_run m sr v (rev ops) HS K HR) as M. rewrite rev_involutive in M. destruct (monitor_run _ _ _ _ _ m _ ops) as [o out]. cbn [fst snd] in M. destruct M as [[A B] C].
  split; [exact C|]. intros N. rewrite (B N). eapply shows_reports; [exact K|exact (heard_pos sr _ HS HR)|exact A].
Qed.
Print Assumptions C73_monitor.
Example C73_monitor_case : scale_ok (Rms (1 / 10)) /\ Forall rate_ok [MBlock [1; 2; 3]; MRate 48000; MReset; MTick 1] /\ heard 44100 (rev [MBlock [1; 2; 3]; MRate 48000; MReset; MTick 1]) = [(48000, 1)].
Proof. split; [cbn; lra|]. split; [repeat (apply Forall_cons; [cbn; try exact I; lra|]); apply Forall_nil|reflexivity]. Qed.

(* A declicker multiplies its input with a curve of the time since the last reset, until its duration is over; ticks, blocks of any sizes and changes of sample rate do not matter; it never fails. *)
Theorem C73_declick : forall T sr ops, 0 < sr -> Forall dop_ok ops -> exists d, declick_run Rnum_ops Rnum_ops (fun x => x) (declick_new Rnum_ops T sr) ops = Some (d, declicked T 0 sr ops).
Proof. intros T sr ops HS H. apply d_run; [exact HS|exact H|]. split; [reflexivity|]. split; [reflexivity|left; reflexivity]. Qed.
Print Assumptions C73_declick.
(* the curve rises from 0 to 1 without overshoot *)
Theorem C73_gain : forall T, (0 < T -> gain T 0 = 0) /\ (forall t, 0 <= t -> 0 <= gain T t <= 1) /\ (forall a b, 0 <= a <= b -> gain T a <= gain T b) /\ (forall t, T <= t -> gain T t = 1).
Proof.
  intros T. split; [|split; [exact (gain_01 T)|split; [exact (gain_mono T)|exact (gain_out T)]]].
  intros H. rewrite gain_in by exact H. rewrite smooth5_R. replace (0 / T) with 0 by (unfold Rdiv; ring). ring.
Qed.
Print Assumptions C73_gain.
Example C73_declick_case : Forall dop_ok [DTick 1; DBlock (repeat 1 64); DRate 48000; DReset; DTick 1] /\ declicked 1 0 2 [DTick 1; DBlock [1; 2; 3]] = [1 * gain 1 0; 1 * gain 1 (0 + 1 / 2); 2 * gain 1 (0 + 1 / 2 + 1 / 2); 3 * gain 1 (0 + 1 / 2 + 1 / 2 + 1 / 2)].
Proof. split; [repeat (apply Forall_cons; [cbn; try exact I; try lra; lia|]); apply Forall_nil|reflexivity]. Qed.

(* With rounding, of any precision, the part of a block that is faded is never longer than the buffer: blocks do not panic. *)
Theorem C73_in_range : forall emin prec, (0 < prec)%Z -> (emin <= 0)%Z -> forall (d : declick R) xs, (length xs <= 64)%nat ->
  representable emin prec (dc_t d) -> representable emin prec (dc_duration d) -> representable emin prec (dc_sd d) -> 0 < dc_sd d ->
  declick_process (rounded_ops emin prec) (rounded_ops emin prec) (fun x => x) d xs <> None.
Proof.
  intros emin prec P E d xs L FT FD FS SP. unfold declick_process. cbn [nltb rounded_ops Rnum_ops]. destruct (Rlt_dec (dc_t d) (dc_duration d)) as [Q|Q]; [|discriminate].
  destruct (rounded_index emin prec P E d (length xs) L FT FD FS SP Q) as [A B]. rewrite (proj2 (Z.leb_le _ _) A), (proj2 (Z.leb_le _ _) B). discriminate.
Qed.
Print Assumptions C73_in_range.
Example C73_in_range_case : representable (-149) 24 (1 / 2) /\ representable (-149) 24 1.
Proof. split; [change (1 / 2) with (1 / 2); replace (1 / 2) with (bpow radix2 (-1)) by (cbn; lra)|change 1 with (bpow radix2 0)]; apply generic_format_bpow; reflexivity || (unfold FLT_exp; lia). Qed.
