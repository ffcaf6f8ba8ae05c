(* Claim C69: reverbs never give out more than a stated multiple of the energy they are given, and they fall silent. *)
From Coq Require Import Reals Lra.
From Verif Require Import Base BufProofs DelayReals RevProofs RevGraph RevStereo RevLoop RevDecay RevEarly.
From Verif Require Import RevSpec.
Local Open Scope R_scope.

(* fdn: 2^k lines of one channel, none of which gives more than g^2 times the (weighted) energy it is given, stay stable in the feedback loop if g*r < 1;
   r = 1 is stability, r > 1 is decay *)
Theorem C69_network {P U} (ops : unit_ops R P U) : unit_laws 0 ops -> forall r g k xs, 0 < g -> 0 < r -> g * r < 1 -> length xs = (2 ^ k)%nat ->
  Forall (fun x => wf ops x /\ ins ops x = 1%nat /\ outs ops x = 1%nat /\ energy_gain ops r (g * g) x) xs ->
  let x := fdn Rnum_ops (f32_scale k) xs in
  energy_gain ops r ((g / (1 - g * r)) * (g / (1 - g * r))) x /\ wf ops x /\ ins ops x = length xs /\ outs ops x = length xs.
Proof. exact (gain_fdn ops). Qed.
Print Assumptions C69_network.
(* a line that halves its input: after any history the network of two gives at most the energy it was given *)
Example C69_network_meets : 0 < 1 / 2 /\ 1 / 2 * 1 < 1 /\ (1 / 2 / (1 - 1 / 2 * 1)) * (1 / 2 / (1 - 1 / 2 * 1)) = 1. Proof. repeat split; lra. Qed.

(* the output after the input is over: its level falls at least as fast as the weighted energy says *)
Theorem C69_tail {P U} (ops : unit_ops R P U) r g x l n m : 1 <= r -> energy_gain ops r g x -> stream (ins ops x) l ->
  r ^ (2 * n) * total (tail_after ops x l n m) <= g * total l.
Proof. exact (tail_energy ops r g x l n m). Qed.
Print Assumptions C69_tail.

(* reverb_stereo: D is the longest delay in samples *)
Theorem C69_reverb_stereo sr room time damping r D : 0 < sr -> 0 < room -> 0 < time -> 0 <= damping <= 2 -> 82923 / 1000000 * room / 10 * sr <= INR D -> 1 <= r ->
  let a := Rpower 10 (- (9 / 1000) * room / time) in a * r ^ (D + 3) < 1 ->
  exists x, stereoR sr room time damping = Some x /\ let k := a * r ^ (D + 2) / (1 - a * r ^ (D + 3)) in stereo_gain r (2 * (k * k)) x.
Proof. intros Hs Hr Ht Hd HD H1 a Ha. pose proof (stereo_within sr room time damping r D Hs Hr Ht Hd HD H1) as S. rewrite gainR_eq in S by lra. exact (S Ha). Qed.
Print Assumptions C69_reverb_stereo.
Example C69_reverb_stereo_case : 0 < 44100 /\ 82923 / 1000000 * 10 / 10 * 44100 <= INR 3657 /\ Rpower 10 (- (9 / 1000) * 10 / 2) * 1 ^ (3657 + 3) < 1.
Proof.
  split; [lra|]. split; [rewrite INR_IZR_INZ; cbn; lra|]. rewrite pow1, Rmult_1_r. unfold Rpower. rewrite <- exp_0. apply exp_increasing. assert (0 < ln 10) by (rewrite <- ln_1; apply ln_increasing; lra). lra.
Qed.
(* the energy of the output is bounded by that of the input, whatever the input *)
Theorem C69_stable sr room time damping : 0 < sr -> 0 < room -> 0 < time -> 0 <= damping <= 2 ->
  exists x, stereoR sr room time damping = Some x /\ let a := Rpower 10 (- (9 / 1000) * room / time) in
  forall l, stream 2 l -> total (outputs R_arith (rl_ops Rnum_ops) x l) <= 2 * (a / (1 - a) * (a / (1 - a))) * total l.
Proof.
  intros Hs Hr Ht Hd. destruct (ceil_nat (82923 / 1000000 * room / 10 * sr)) as (D & D0 & _); [assert (0 < room * sr) by (apply Rmult_lt_0_compat; assumption); lra|].
  pose proof (gainR_bounds room time Hr Ht) as B. destruct (stereo_within sr room time damping 1 D Hs Hr Ht Hd D0 ltac:(lra)) as (x & E & G); [rewrite pow1; lra|]. exists x. split; [exact E|]. rewrite gainR_eq in G by lra. cbv zeta in *. rewrite !pow1, !Rmult_1_r in G. destruct G as (_ & I & _ & G).
  intros l L. apply G. rewrite I. exact L.
Qed.
Print Assumptions C69_stable.
(* after the input the level falls by 60 dB in three times the given time, or faster *)
Theorem C69_decay sr room time damping : 0 < sr -> 0 < time -> 0 <= damping <= 2 -> 8000 <= room * sr ->
  exists x g, stereoR sr room time damping = Some x /\ ins (rl_ops Rnum_ops) x = 2%nat /\ outs (rl_ops Rnum_ops) x = 2%nat /\
  forall l n m, stream 2 l -> total (tail_after (rl_ops Rnum_ops) x l n m) <= g * Rpower 10 (- 2 * (INR n / (time * sr))) * total l.
Proof. exact (stereo_falls sr room time damping). Qed.
Print Assumptions C69_decay.
Example C69_decay_meets : 0 < 44100 /\ 0 < 2 /\ 0 <= 1 / 2 <= 2 /\ 8000 <= 10 * 44100. Proof. lra. Qed.

(* reverb4_stereo_delays *)
Theorem C69_reverb4 sr delays time r D : 0 < time -> length delays = 32%nat -> Forall (fun d => 0 <= d /\ (delay_length Rnum_ops d sr <= D)%nat) delays -> 1 <= r ->
  let a := Rpower 10 (- (9 / 1000) * 10 / time) in a * r ^ (D + 3) < 1 ->
  exists x, stereo4R sr delays time = Some x /\ let k := a * r ^ (D + 2) / (1 - a * r ^ (D + 3)) in stereo_gain r (8 * (k * k * (k * k))) x.
Proof. intros Ht Hl HD Hr a Ha. pose proof (stereo4_ok sr delays time r D Ht Hl HD Hr) as S. rewrite gainR_eq in S by lra. exact (S Ha). Qed.
Print Assumptions C69_reverb4.
(* reverb4_stereo: the larger the room, the slower: with rooms of w metres 60 dB take at most w/4 times the given time *)
Theorem C69_reverb4_decay sr room time : 0 < time -> 1000 <= sr ->
  exists x g, room4R sr room time = Some x /\ ins (rl_ops Rnum_ops) x = 2%nat /\ outs (rl_ops Rnum_ops) x = 2%nat /\
  forall l n m, stream 2 l -> total (tail_after (rl_ops Rnum_ops) x l n m) <= g * Rpower 10 (- 2 * (12 / Rmax room 15) * (INR n / (time * sr))) * total l.
Proof. exact (room4_falls sr room time). Qed.
Print Assumptions C69_reverb4_decay.
(* 32 delays, or nothing *)
Theorem C69_reverb4_count sr delays time : stereo4R sr delays time <> None -> length delays = 32%nat.
Proof. unfold stereo4R, reverb4_stereo_delays. destruct (Nat.eqb_spec (length delays) 32) as [E|]; [intros _; exact E|intros N; contradiction N; reflexivity]. Qed.
Print Assumptions C69_reverb4_count.

(* reverb3_stereo: through any sequence of samples, resets and changes of the sample rate, with any loop filter that adds no energy *)
Theorem C69_reverb3 {P X} (xo : unit_ops R P X) x_rate held time diffusion filter : passive xo x_rate held -> 0 < time -> 0 <= diffusion <= 1 -> held filter = 0 ->
  exists r, loopR time diffusion filter = Some r /\
  forall l, total (rev_run xo x_rate r l) <= total (rev_inputs l) / (4 * ((1 - loop_gainR time) * (1 - loop_gainR time))).
Proof. exact (loop_energy xo x_rate held time diffusion filter). Qed.
Print Assumptions C69_reverb3.
Theorem C69_reverb3_gain time : 0 < time -> loop_gainR time = Rpower 10 (- (105 / 1000) / time) /\ 0 < loop_gainR time < 1.
Proof.
  intros H. split; [|exact (loop_gain_range time H)]. unfold loop_gainR, db_amp. cbn [nofZ ndiv Rnum_ops]. rewrite Rpower_mult. f_equal. field. lra.
Qed.
Print Assumptions C69_reverb3_gain.
(* filters that add no energy: the one that passes everything, and the lowpole y = (1 - c) x + c y' *)
Example C69_pass_passive : passive pass_ops (fun u _ => u) (fun _ => 0).
Proof. repeat split; intros; cbn; lra. Qed.
Example C69_pole_passive c : 0 <= c < 1 -> passive (pole c) (fun y _ => y) (fun y => c / (1 - c) * (y * y)).
Proof.
  intros H. assert (K : 0 <= c / (1 - c)) by (apply Rmult_le_pos; [lra|left; apply Rinv_0_lt_compat; lra]). assert (S : forall y, 0 <= c / (1 - c) * (y * y)) by (intros y; apply Rmult_le_pos; [exact K|apply sq_nonneg]).
  split; [exact S|]. split; [|split; [intros y; cbn; replace (c / (1 - c) * (0 * 0)) with 0 by (field; lra); apply S|intros; cbn; lra]].
  intros y v. cbn. set (z := (1 - c) * v + c * y). assert (I : z * z <= (1 - c) * (v * v) + c * (y * y)).
  { assert (Q : (1 - c) * (v * v) + c * (y * y) - z * z = c * (1 - c) * ((v - y) * (v - y))) by (unfold z; ring). assert (0 <= c * (1 - c) * ((v - y) * (v - y))) by (apply Rmult_le_pos; [apply Rmult_le_pos; lra|apply sq_nonneg]). lra. }
  apply Rmult_le_reg_r with (1 - c); [lra|]. replace ((z * z + c / (1 - c) * (z * z)) * (1 - c)) with (z * z) by (field; lra). replace ((v * v + c / (1 - c) * (y * y)) * (1 - c)) with ((1 - c) * (v * v) + c * (y * y)) by (field; lra). exact I.
Qed.

(* `reset` is documented to return a unit to its initial state, in which silence in gives silence out. It forgets the two pairs of allpass filters that the input of reverb3_stereo goes through first: an impulse, 244 samples of silence, a reset, and the next sample of silence is not silent. *)
Theorem C69_reset_refuted xr time diffusion : 0 <= diffusion <= 1 -> exists r, loopR time diffusion tt = Some r /\
  rev_run pass_ops xr r [RTick [0; 0]] = [[0; 0]] /\
  exists o x y, rev_run pass_ops xr r ((RTick [1; 0] :: repeat (RTick [0; 0]) 244) ++ [RReset; RTick [0; 0]]) = o :: repeat [0; 0] 244 ++ [[x; y]] /\ 0 < x.
Proof. exact (reset_echo xr time diffusion). Qed.
Print Assumptions C69_reset_refuted.
(* A sound should not depend on the sample rate. `set_sample_rate` of reverb3_stereo forgets the same filters: they keep the number of samples that they had at 44.1 kHz, so that at every rate from there up the second sound comes after 245 samples, at 88.2 kHz in half the time. *)
Theorem C69_rate_refuted xr time diffusion sr : 0 <= diffusion <= 1 -> 44100 <= sr -> exists r, loopR time diffusion tt = Some r /\
  exists o x y, rev_run pass_ops xr r (RRate sr :: (RTick [1; 0] :: repeat (RTick [0; 0]) 244) ++ [RTick [0; 0]]) = o :: repeat [0; 0] 244 ++ [[x; y]] /\ 0 < x.
Proof. exact (rate_echo xr time diffusion sr). Qed.
Print Assumptions C69_rate_refuted.
