(* Claim C69, continued: taps whose delay moves, and reverb2_stereo. *)
From Coq Require Import Reals Lra Lia.
From Verif Require Import RevSpec HallSpec.
From Verif Require HallProofs HallSilence.
Local Open Scope R_scope.

(* tap_linear: while the delay rises by at most e samples per sample, the energy rises at most (1 + 2e)-fold; it may fall as fast as it likes *)
Theorem C69_moving_tap sr lo hi e xs dls : 0 < sr -> 0 <= lo <= hi -> 0 <= e <= 1 / 3 -> length xs = length dls -> rises_by e (read_at_delay sr lo hi dls) ->
  total (tapped sr lo hi xs dls) <= (1 + 2 * e) * energy xs.
Proof. intros Hs Hm He. exact (HallProofs.tapped_energy sr lo hi Hs Hm e He xs dls). Qed.
Print Assumptions C69_moving_tap.
Example C69_moving_tap_meets : 0 < 2 /\ 0 <= 0 <= 1 /\ 0 <= 1 / 4 <= 1 / 3 /\ rises_by (1 / 4) (read_at_delay 2 0 1 [1 / 8; 1 / 4; 0; 1 / 8]).
Proof. unfold read_at_delay, clamp. cbn. unfold Rmin, Rmax. repeat destruct (Rle_dec _ _); lra. Qed.
(* some limit is needed: with a delay that rises by one sample per sample the tap repeats one sample for ever *)
Theorem C69_runaway_tap N : let xs := 1 :: repeat 0 N in let dls := map INR (seq 0 (S N)) in total (tapped 1 0 (INR N) xs dls) = INR (S N) * energy xs /\ rises_by 1 (read_at_delay 1 0 (INR N) dls).
Proof.
  intros xs dls. destruct (HallSilence.runaway_energy N) as [A B]. split; [unfold xs, dls; rewrite A, B; ring|]. unfold dls. clear. generalize (INR N) as hi, 0%nat as q. intros hi. generalize (S N). induction n as [|n IH]; intros q; [exact I|].
  destruct n as [|n]; [exact I|]. cbn [seq map read_at_delay]. split; [|exact (IH (S q))]. rewrite S_INR. unfold clamp. cbn. unfold Rmin, Rmax. repeat destruct (Rle_dec _ _); lra.
Qed.
Print Assumptions C69_runaway_tap.

(* reverb2_stereo, with any loop filter that adds no energy and starts empty, while the delays rise by at most e samples per sample: it can be built, and its energy stays bounded if
   the attenuation of one pass outweighs what the moving taps add; ctl i lo hi n is the delay in seconds that the envelope of line i gives at sample n *)
Theorem C69_reverb2 {P X} (xo : unit_ops R P X) x_rate held sr room time diffusion e ctl filter : passive xo x_rate held -> held filter = 0 -> 0 < sr -> 0 < time -> 0 <= diffusion <= 1 -> 0 <= e <= 1 / 3 ->
  (forall i lo hi n, hi = lo + 2 / 1000 -> ctl i lo hi (S n) * sr <= ctl i lo hi n * sr + e) -> let g := hall_gainR room time * sqrt (1 + 2 * e) in g < 1 ->
  exists x, hallR xo sr room time diffusion ctl filter = Some x /\ wf (hops xo) x /\ ins (hops xo) x = 2%nat /\ outs (hops xo) x = 2%nat /\
  energy_gain (hops xo) 1 (8 * (g / (1 - g) * (g / (1 - g)))) x.
Proof. intros Hp Hh Hs Ht Hd He Hc. exact (HallProofs.hall_ok xo x_rate held Hp sr room time diffusion e ctl filter Hh Hs Ht Hd He Hc). Qed.
Print Assumptions C69_reverb2.
(* the attenuation: the room counts from 10 to 30 metres *)
Theorem C69_reverb2_gain room time : 0 < time -> hall_gainR room time = Rpower 10 (- (3 / 2) * (1 / 100 + Rmin (Rmax room 10) 30 * (3 / 1000)) / time) /\ 0 < hall_gainR room time < 1.
Proof.
  intros H. destruct (HallProofs.gain_range room time H) as [E G]. split; [|exact G]. rewrite E. f_equal. unfold hall_min, dec, clamp. cbn. field. lra.
Qed.
Print Assumptions C69_reverb2_gain.
(* a room of 10 metres, one second, and delays that creep up towards their longest *)
Example C69_reverb2_meets : let e := 1 / 20 in let ctl (i : nat) (lo hi : R) (n : nat) := hi - / (INR n + 4) / 44100 in
  (forall i lo hi n, hi = lo + 2 / 1000 -> ctl i lo hi (S n) * 44100 <= ctl i lo hi n * 44100 + e) /\ hall_gainR 10 1 * sqrt (1 + 2 * e) < 1.
Proof.
  split.
  - intros _ lo hi n _. rewrite S_INR. pose proof (pos_INR n) as N. set (q := INR n) in *. clearbody q. assert (A : / (q + 4) - / (q + 1 + 4) <= 1 / 20); [|unfold Rdiv; lra].
    replace (/ (q + 4) - / (q + 1 + 4)) with (1 / ((q + 4) * (q + 5))) by (field; lra). unfold Rdiv. apply Rmult_le_compat_l; [lra|]. apply Rinv_le_contravar; nra.
  - destruct (C69_reverb2_gain 10 1 ltac:(lra)) as [E _]. rewrite E. rewrite Rmax_left, Rmin_left by lra. replace (- (3 / 2) * (1 / 100 + 10 * (3 / 1000)) / 1) with (- (3 / 50)) by field.
    assert (S : sqrt (1 + 2 * (1 / 20)) <= 105 / 100) by (rewrite <- (sqrt_square (105 / 100)) by lra; apply sqrt_le_1_alt; lra).
    assert (Ln : 2 <= ln 10). { rewrite <- (ln_exp 2). replace (exp 2) with (exp 1 * exp 1) by (rewrite <- exp_plus; f_equal; ring). pose proof exp_le_3. pose proof (exp_pos 1). left. apply ln_increasing; [apply Rmult_lt_0_compat; lra|nra]. }
    unfold Rpower. rewrite Ropp_mult_distr_l_reverse, exp_Ropp. pose proof (exp_ineq1_le (3 / 50 * ln 10)) as I. set (z := exp (3 / 50 * ln 10)) in *. assert (Z : 112 / 100 <= z) by lra. clearbody z.
    pose proof (sqrt_pos (1 + 2 * (1 / 20))) as Sp. apply Rmult_lt_reg_l with z; [lra|]. rewrite <- Rmult_assoc, Rinv_r, Rmult_1_l by lra. lra.
Qed.
(* whatever gives a bounded multiple of the energy that it is given falls silent after its input: this holds of all reverbs above *)
Theorem C69_silence {P U} (ops : unit_ops R P U) g x l d : energy_gain ops 1 g x -> stream (ins ops x) l -> 0 < d -> exists N, forall n m, (N <= n)%nat -> total (tail_after ops x l n m) <= d.
Proof. exact (HallSilence.falls_silent ops g x l d). Qed.
Print Assumptions C69_silence.
