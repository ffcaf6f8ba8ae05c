(* C81: resonators. *)
From Coq Require Import Reals Lra.
From Verif Require Import ResonSpec ResonModel TuneSpec ResonProofs ResonBand.
Local Open Scope R_scope.

(* C81: kicked with an impulse, a resonator rings at its center frequency and dies away as exp(-pi f t / Q); what is heard is the ringing of one kick and, two samples later, of an opposite one. *)
Theorem C81_rings : forall (G S X : Type) (tl : tools R G S X) (sr f q : R), tl_elem tl = R_elem -> 0 < f < sr / 2 -> 0 < q -> exists g, 0 < g /\
  forall n N, build Rnum_ops tl false (prelude_resonator_hz f q) = Some n ->
    t_outs Rnum_ops tl (t_rate Rnum_ops tl n sr) (pulse_in N) = Some (map (fun k => [g * two_kicks sr f q k]) (seq 0 (Datatypes.S N))).
Proof. intros G S X tl sr f q He Hf Hq. exists (bi_b0 (resonator Rnum_ops R_elem sr f q)). split; [exact (b0_pos sr f q Hf Hq)|]. intros n N. exact (pulse sr f q Hf Hq tl N n He). Qed.
Print Assumptions C81_rings.
Example C81_rings_example : tl_elem real_tools = R_elem /\ (exists n, build Rnum_ops real_tools false (prelude_resonator_hz 440 10) = Some n) /\ ringing 8 1 2 0 = 1.
Proof. split; [reflexivity|]. split; [eexists; reflexivity|]. apply ring_0; lra. Qed.

(* C81: the gain is constant: whatever the center frequency and Q, the energy of the response to an impulse is 1/2, so that white noise keeps half of its power. *)
Theorem C81_constant_gain : forall (G S X : Type) (tl : tools R G S X) (sr f q : R) n eps, tl_elem tl = R_elem -> 0 < f < sr / 2 -> 0 < q -> 0 < eps -> build Rnum_ops tl false (prelude_resonator_hz f q) = Some n ->
  exists N0, forall N, (N0 <= N)%nat -> exists os, t_outs Rnum_ops tl (t_rate Rnum_ops tl n sr) (pulse_in N) = Some os /\ Rabs (energy os - 1 / 2) < eps.
Proof. intros G S X tl sr f q n eps He Hf Hq Hp Hb. exact (constant_gain sr f q Hf Hq tl n eps He Hb Hp). Qed.
Print Assumptions C81_constant_gain.
Example C81_constant_gain_example : tl_elem real_tools = R_elem /\ (exists n, build Rnum_ops real_tools false (prelude_resonator_hz 440 10) = Some n) /\ 0 < 440 < 44100 / 2 /\ energy [[1]; [-2]; [0]] = 5.
Proof. split; [reflexivity|]. split; [eexists; reflexivity|]. split; [lra|]. cbn. lra. Qed.

(* C81: centered at a quarter of the sample rate, a resonator multiplies the power of a tone at its center by 1 / (1 - exp(-pi / (2 Q))). *)
Theorem C81_center_power : forall (G S X : Type) (tl : tools R G S X) (sr q : R), tl_elem tl = R_elem -> 0 < sr -> 0 < q ->
  tone_power tl (prelude_resonator_hz (sr / 4) q) sr (sr / 4) = Some (1 / (1 - exp (- (PI / (2 * q))))).
Proof. intros G S X tl sr q He Hs Hq. rewrite <- (u_exp q Hq). exact (quarter_center sr q Hs Hq tl He). Qed.
Print Assumptions C81_center_power.
Example C81_center_power_example : 1 < 1 / (1 - exp (- (PI / (2 * 3)))).
Proof. exact (center_power_above 3 ltac:(lra)). Qed.

(* C81: there, the tones that keep at least half of the power of a tone at the center are those whose distance d to it satisfies cos(4 pi d / sr) cosh(pi / (2 Q)) >= 1: for small distances, half a bandwidth of about sr / (4 Q), which is the center frequency divided by Q. *)
Theorem C81_bandwidth : forall (G S X : Type) (tl : tools R G S X) (sr q f p pc : R), tl_elem tl = R_elem -> 0 < sr -> 0 < q ->
  tone_power tl (prelude_resonator_hz (sr / 4) q) sr f = Some p -> tone_power tl (prelude_resonator_hz (sr / 4) q) sr (sr / 4) = Some pc ->
  (pc / 2 <= p <-> 1 <= cos (4 * PI * (f - sr / 4) / sr) * cosh (PI / (2 * q))).
Proof. intros G S X tl sr q f p pc He Hs Hq. exact (half_iff sr q Hs Hq tl He f p pc). Qed.
Print Assumptions C81_bandwidth.
Example C81_bandwidth_example : exists p pc, tone_power real_tools (prelude_resonator_hz (44100 / 4) 5) 44100 (44100 / 4 + 44100 / 80) = Some p /\ tone_power real_tools (prelude_resonator_hz (44100 / 4) 5) 44100 (44100 / 4) = Some pc /\ pc / 2 < p.
Proof. exact (not_hertz real_tools eq_refl). Qed.

(* C81: by what a resonator with any center frequency and Q multiplies the power of a tone of any frequency. *)
Theorem C81_tone_power : forall (G S X : Type) (tl : tools R G S X) (sr center q f : R), tl_elem tl = R_elem -> 0 < center < sr / 2 -> 0 < q ->
  let a := PI * center / (q * sr) in let x := cosh a * cos (2 * PI * f / sr) - cos (2 * PI * center / sr) in let y := sinh a * sin (2 * PI * f / sr) in
  0 < x * x + y * y /\ tone_power tl (prelude_resonator_hz center q) sr f = Some (1 / (1 - exp (- (2 * a))) * (y * y) / (x * x + y * y)).
Proof. intros G S X tl sr center q f He Hc Hq. exact (any_power sr center q Hc Hq tl He f). Qed.
Print Assumptions C81_tone_power.
Example C81_tone_power_example : 0 < 1000 < 44100 / 2 /\ tone_power real_tools (prelude_resonator_hz 1000 7) 44100 0 = Some 0.
Proof.
  split; [lra|]. destruct (C81_tone_power _ _ _ real_tools 44100 1000 7 0 eq_refl ltac:(lra) ltac:(lra)) as [_ E]. rewrite E. f_equal.
  replace (2 * PI * 0 / 44100) with 0 by field. rewrite sin_0. unfold Rdiv. rewrite !Rmult_0_r. ring.
Qed.

(* C81: the tones that come through a resonator with at least half of the greatest power that any tone comes through with are those of a band. Its width b satisfies cos(2 pi b / sr) cosh(2 pi (center / Q) / sr) = 1. It is at most
   center / Q, and falls short of it by no more than the factor cosh(2 pi (center / Q) / sr), which is near 1 if center / Q is small compared to the sample rate. The width does not depend on the center otherwise, and the greatest power is
   1 / (1 - exp(-2 pi center / (Q sr))). *)
Theorem C81_half_band : forall (G S X : Type) (tl : tools R G S X) (sr center q : R), tl_elem tl = R_elem -> 0 < center < sr / 2 -> 0 < q ->
  let width := center / q in let peak := 1 / (1 - exp (- (2 * (PI * center / (q * sr))))) in
  exists f1 f2 top, 0 < f1 < top /\ top < f2 < sr / 2 /\ width / cosh (2 * PI * width / sr) <= f2 - f1 <= width /\ cos (2 * PI * (f2 - f1) / sr) * cosh (2 * PI * width / sr) = 1 /\
  tone_power tl (prelude_resonator_hz center q) sr top = Some peak /\
  forall f p, tone_power tl (prelude_resonator_hz center q) sr f = Some p -> p <= peak /\ (0 < f < sr / 2 -> (peak / 2 <= p <-> f1 <= f <= f2)).
Proof. intros G S X tl sr center q He Hc Hq. exact (half_band sr center q Hc Hq tl He). Qed.
Print Assumptions C81_half_band.
Example C81_half_band_example : exists p, tl_elem real_tools = R_elem /\ tone_power real_tools (prelude_resonator_hz 1000 7) 44100 1100 = Some p.
Proof. eexists. split; [reflexivity|]. exact (proj2 (C81_tone_power _ _ _ real_tools 44100 1000 7 1100 eq_refl ltac:(lra) ltac:(lra))). Qed.

(* REFUTED: `hacker::resonator_hz(center, bandwidth)` and its hacker32 twin document a bandwidth in Hz ("Constant-gain bandpass resonator with fixed `center` frequency (Hz) and `bandwidth` (Hz)", hacker.rs:522-533, hacker32.rs:522-533; likewise Input 2 of `resonator`), but pass the number on as Q (biquad.rs:48-57). With a "bandwidth" of 5 Hz around 11025 Hz at 44.1 kHz, a tone 551 Hz away still has more than half of the power of a tone at the center; the band is about center / bandwidth wide, so that a greater bandwidth makes it narrower. *)
Theorem C81_hertz_refuted : ~ (forall (sr center bandwidth f p pc : R), 0 < bandwidth -> 0 < center < sr / 2 -> 0 < f < sr / 2 -> 100 * bandwidth <= Rabs (f - center) ->
  tone_power real_tools (hacker_resonator_hz center bandwidth) sr f = Some p -> tone_power real_tools (hacker_resonator_hz center bandwidth) sr center = Some pc -> p <= pc / 2).
Proof.
  intros H. destruct (not_hertz real_tools eq_refl) as (p & pc & E1 & E2 & L).
  assert (p <= pc / 2); [|lra]. apply (H 44100 (44100 / 4) 5 (44100 / 4 + 44100 / 80)); auto; try lra. rewrite Rabs_right; lra.
Qed.
Print Assumptions C81_hertz_refuted.

(* REFUTED: "The overall gain of the filter is independent of bandwidth" (biquad.rs:44-47) holds for noise (C81_constant_gain), not for tones: the gain at the center grows without bound as the band narrows. *)
Theorem C81_tone_gain_refuted : ~ (exists g, forall (sr center q p : R), 0 < q -> 0 < center < sr / 2 -> tone_power real_tools (prelude_resonator_hz center q) sr center = Some p -> p <= g).
Proof. exact (tone_gain_unbounded real_tools eq_refl). Qed.
Print Assumptions C81_tone_gain_refuted.
