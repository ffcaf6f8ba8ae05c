(* C22, C23, C24 (FeedbackUnit) and C54. *)
From Coq Require Import ZArith QArith Reals Lra Lia.
From Verif Require Import DelayModel DelaySpec Requests DelayReals DelayExamples.
Close Scope R_scope. Close Scope Q_scope. Open Scope nat_scope.

(* ------------------------------------------------------------------ C22 *)
(* A delay puts out its input round(t * sample_rate) samples later and zeros before that: when new, after a reset, and after a
   change of the sample rate, whatever has happened before. *)
Theorem C22_delay : forall (F : Type) (nm : num F) (default_sr t : F) d0, delay_new nm default_sr t = Some d0 ->
  forall (history : list (delay_op F)) xs,
  let d := fold_left (delay_do nm) history d0 in
  let played r := snd (ticks (delay_step nm) r (map (fun x => [x]) xs)) in
  let later n := map (fun x => [x]) (delayed (n0 nm) n xs) in
  played d0 = later (round_us nm (nmul nm t default_sr)) /\
  played (delay_reset nm d) = later (round_us nm (nmul nm t (d_sr d))) /\
  forall sr, fneq nm (d_sr d) sr = true -> played (delay_set_sample_rate nm d sr) = later (round_us nm (nmul nm t sr)).
Proof. intros F nm sr0 t d0 H history xs. exact (history_exact nm sr0 t d0 history xs H). Qed.
Print Assumptions C22_delay.
(* round_us is rounding to the nearest. *)
Theorem C22_rounding : forall x : R, (0 <= x)%R -> (INR (round_us Rnum_ops x) - 1 / 2 <= x < INR (round_us Rnum_ops x) + 1 / 2)%R.
Proof. exact round_us_near. Qed.
Print Assumptions C22_rounding.
Example C22_rounding_case : (0 <= 5 / 2)%R /\ round_us Qnum_ops (5 # 2)%Q = 3 /\ round_us Qnum_ops (49 # 20)%Q = 2.
Proof. split; [lra|]. split; vm_compute; reflexivity. Qed.
(* In blocks it does what it does in ticks. *)
Theorem C22_blocks : forall (F : Type) (nm : num F) (d : delay), 
  block_contract (n0 nm) (delay_step nm) (fun x size inb out => default_process (n0 nm) (delay_step nm) size x inb out) 1 1 d.
Proof. intros F nm d. exact (delay_contract nm d). Qed.
Print Assumptions C22_blocks.
(* tick() of any number of channels delays by one frame. *)
Theorem C22_tick : forall (A : Type) (zero : A) n ins, snd (ticks tick1 (tick1_new zero n) ins) = firstn (length ins) (repeat zero n :: ins).
Proof. intros. apply tick1_exact. Qed.
Print Assumptions C22_tick.
Example C22_example : exists d0, delay_new Qnum_ops 1000%Q (25 # 10000)%Q = Some d0 /\
  snd (ticks (delay_step Qnum_ops) (fold_left (delay_do Qnum_ops) [DTick [9%Q]; DRate 400%Q; DTick [8%Q]; DReset] d0) [[1]; [2]; [3]]%Q) = [[0]; [1]; [2]]%Q /\
  snd (ticks (delay_step Qnum_ops) d0 [[1]; [2]; [3]; [4]; [5]]%Q) = [[0]; [0]; [0]; [1]; [2]]%Q.
Proof. eexists. split; [reflexivity|]. split; vm_compute; reflexivity. Qed.
Example C22_example_delayed : delayed 0 2 [5; 6; 7] = [0; 0; 5]. Proof. reflexivity. Qed.

(* ------------------------------------------------------------------ C23 *)
(* The cubic taps: each sample of the sum of the taps is the spline through the four samples around the delay asked for, kept within
   the declared range and at least 1.00001 samples; samples before the beginning count as zero. *)
Theorem C23_tap_ticks : forall sr min max : R, (0 < sr)%R -> (0 <= max)%R -> forall ins k, k < length ins ->
  nth k (snd (ticks (tap_tick Rnum_ops min max sr) (line_new 0%R (tap_length Rnum_ops sr max)) ins)) [] =
  taps_out Rnum_ops (cubic_spec Rnum_ops (Rmax min (1.00001 / sr)) (Rmax max (1.00001 / sr)) sr) ins k.
Proof.
  intros sr min max Hs Hm ins k Hk. replace 1.00001%R with (c1_00001 Rnum_ops) by (unfold c1_00001; cbn; lra).
  apply (tap_stream sr min max Hs Hm); [|exact Hk]. apply holds_new. apply next_pow2_pos.
Qed.
Print Assumptions C23_tap_ticks.
Example C23_tap_ticks_case : (0 < 44100)%R /\ (0 <= 1 / 10)%R /\ 1 < length [[1; 1 / 100]; [2; 1 / 50]]%R.
Proof. split; [lra|]. split; [lra|]. cbn. lia. Qed.
(* Blocks give what ticks give, from any state that ticks lead to. *)
Theorem C23_tap_blocks : forall sr min max : R, (0 < sr)%R -> (0 <= max)%R -> forall before nin,
  block_contract 0%R (tap_tick Rnum_ops min max sr) (tap_process Rnum_ops min max sr) nin 1
    (fst (ticks (tap_tick Rnum_ops min max sr) (line_new 0%R (tap_length Rnum_ops sr max)) before)).
Proof.
  intros sr min max Hs Hm before nin. destruct (tap_ticks_hold sr min max Hs Hm (line_new 0%R (tap_length Rnum_ops sr max)) [] before) as [h H]; [apply holds_new; apply next_pow2_pos|].
  exact (tap_contract sr min max Hs Hm _ h nin H).
Qed.
Print Assumptions C23_tap_blocks.
Example C23_tap_blocks_case : block_contract 0%R (tap_tick Rnum_ops (1 / 100) (1 / 10) 44100)%R (tap_process Rnum_ops (1 / 100) (1 / 10) 44100)%R 2 1
  (fst (ticks (tap_tick Rnum_ops (1 / 100) (1 / 10) 44100) (line_new 0 (tap_length Rnum_ops 44100 (1 / 10))) [[1; 1 / 50]; [2; 1 / 20]]))%R.
Proof. apply C23_tap_blocks; lra. Qed.
(* The linear taps: the two samples around the delay. *)
Theorem C23_linear_ticks : forall sr min max : R, (0 < sr)%R -> (0 <= min <= max)%R -> forall ins k, k < length ins ->
  nth k (snd (ticks (linear_tick Rnum_ops min max sr) (line_new 0%R (linear_length Rnum_ops sr max)) ins)) [] =
  taps_out Rnum_ops (linear_spec Rnum_ops min max sr) ins k.
Proof. intros sr min max Hs Hm ins k Hk. apply (linear_stream sr min max Hs Hm); [|exact Hk]. apply holds_new. apply next_pow2_pos. Qed.
Print Assumptions C23_linear_ticks.
Example C23_linear_ticks_case : (0 < 44100)%R /\ (0 <= 1 / 100 <= 1 / 10)%R /\ 1 < length [[1; 1 / 100]; [2; 1 / 50]]%R.
Proof. split; [lra|]. split; [lra|]. cbn. lia. Qed.
(* Partial: blocks of the linear taps are right if the buffer is seven samples longer than the code asks for, which it may be because
   its length is rounded up to a power of two. Without that the statement is false: C23_linear_blocks_refuted. *)
Theorem C23_linear_blocks_partial : forall sr min max : R, (0 < sr)%R -> (0 <= min <= max)%R ->
  (ceilZ Rnum_ops (max * sr)%R + 9 <= Z.of_nat (linear_length Rnum_ops sr max))%Z -> forall before nin,
  block_contract 0%R (linear_tick Rnum_ops min max sr) (linear_process Rnum_ops min max sr) nin 1
    (fst (ticks (linear_tick Rnum_ops min max sr) (line_new 0%R (linear_length Rnum_ops sr max)) before)).
Proof.
  intros sr min max Hs Hm HL before nin. destruct (linear_ticks_hold sr min max Hs Hm (line_new 0%R (linear_length Rnum_ops sr max)) [] before) as [h H]; [apply holds_new; apply next_pow2_pos|].
  exact (linear_contract sr min max Hs Hm _ h nin HL H).
Qed.
Print Assumptions C23_linear_blocks_partial.
(* A new line for delays up to 1.4 ms at 44.1 kHz, fed ones: ticks give silence for the first eight samples, as they should, but
   the block gives samples that are not due yet (the first ones). *)
Theorem C23_linear_blocks_refuted : map (map Qred) lin_ticks = repeat [0%Q] 8 /\ map (map Qred) lin_block = repeat [1%Q] 5 ++ [[37 # 50]; [0]; [0]]%Q.
Proof. split; vm_compute; reflexivity. Qed.
Print Assumptions C23_linear_blocks_refuted.
(* the hypotheses of the partial theorem hold of a new line for 1 ms *)
Example C23_partial_meets : (ceilZ Qnum_ops (Qmult (1 # 1000)%Q 44100%Q) + 9 <= Z.of_nat (linear_length Qnum_ops 44100%Q (1 # 1000)%Q))%Z.
Proof. vm_compute. discriminate. Qed.
(* a spline at delay 1.5 samples and a clamped delay *)
Example C23_example : tap_outs = map (taps_out Qnum_ops (cubic_spec Qnum_ops (100001 # 100000)%Q 4%Q 1%Q) tap_ins) (seq 0 6) /\ map (map Qred) tap_outs = [[-1]; [0]; [9]; [-1]; [16]; [0]]%Q.
Proof. split; vm_compute; reflexivity. Qed.

(* ------------------------------------------------------------------ C24 *)
(* FeedbackUnit adds the output of d samples ago to the input, for every mix of ticks and blocks of any sizes. *)
Theorem C24_unit : forall (A P U : Type) (zero : A) (add : A -> A -> A) (ops : unit_ops A P U), unit_laws zero ops ->
  forall n d u, 1 <= d -> u_ins ops u = n -> u_outs ops u = n -> forall rs, Forall (request_ok n n) rs ->
  snd (serve_all zero (fb_tick zero add ops) (fb_process zero add ops) (fb_new zero ops u d) rs) =
  snd (loop zero add ops n d u [] (concat (map (fed zero) rs))).
Proof.
  intros A P U zero add ops Hl n d u Hd H1 H2 rs Hr. pose proof (fb_requests zero add ops Hl n d Hd rs u [] _ (fb_new_ok zero add ops n d Hd u H1 H2) Hr) as X.
  destruct (loop zero add ops n d u [] (concat (map (fed zero) rs))). destruct (serve_all zero _ _ (fb_new zero ops u d) rs). exact (proj1 X).
Qed.
Print Assumptions C24_unit.
(* And so it does after a reset, from the reset enclosed unit. *)
Theorem C24_unit_reset : forall (A P U : Type) (zero : A) (add : A -> A -> A) (ops : unit_ops A P U), unit_laws zero ops ->
  (forall u, u_ins ops (u_reset ops u) = u_ins ops u /\ u_outs ops (u_reset ops u) = u_outs ops u) ->
  forall n d u, 1 <= d -> u_ins ops u = n -> u_outs ops u = n -> forall rs0 rs, Forall (request_ok n n) rs0 -> Forall (request_ok n n) rs ->
  let s := fst (serve_all zero (fb_tick zero add ops) (fb_process zero add ops) (fb_new zero ops u d) rs0) in
  snd (serve_all zero (fb_tick zero add ops) (fb_process zero add ops) (fb_reset zero ops s) rs) =
  snd (loop zero add ops n d (u_reset ops (fb_x s)) [] (concat (map (fed zero) rs))).
Proof.
  intros A P U zero add ops Hl Hr0 n d u Hd H1 H2 rs0 rs Hr Hr'. pose proof (fb_requests zero add ops Hl n d Hd rs0 u [] _ (fb_new_ok zero add ops n d Hd u H1 H2) Hr) as X.
  destruct (loop zero add ops n d u [] (concat (map (fed zero) rs0))) as [u1 o1]. destruct (serve_all zero _ _ (fb_new zero ops u d) rs0) as [s os]. cbn [fst]. destruct X as [_ X].
  assert (E : fb_x s = u1) by apply X. rewrite E. destruct (Hr0 u1) as [R1 R2]. assert (Y := X). destruct Y as (_ & _ & _ & _ & _ & Y1 & Y2).
  pose proof (fb_requests zero add ops Hl n d Hd rs _ [] _ (fb_reset_ok zero add ops n d Hd u1 _ s X ltac:(congruence) ltac:(congruence)) Hr') as W.
  destruct (loop zero add ops n d (u_reset ops u1) [] (concat (map (fed zero) rs))). destruct (serve_all zero _ _ (fb_reset zero ops s) rs). exact (proj1 W).
Qed.
Print Assumptions C24_unit_reset.
(* The delay is the nearest whole number of samples, and at least one. *)
Theorem C24_unit_delay : forall delay sr : R, (0 <= delay * sr)%R -> let d := fb_delay Rnum_ops delay sr in
  1 <= d /\ ((delay * sr < 3 / 2)%R -> d = 1) /\ ((1 / 2 <= delay * sr)%R -> (INR d - 1 / 2 <= delay * sr < INR d + 1 / 2)%R).
Proof.
  intros delay sr H. cbv zeta. unfold fb_delay. change (nmul Rnum_ops delay sr) with (delay * sr)%R. pose proof (round_us_near _ H) as N. set (q := round_us Rnum_ops (delay * sr)%R) in *. clearbody q.
  split; [lia|]. split.
  - intros L. assert (q < 2) by (apply INR_lt; cbn [INR]; lra). lia.
  - intros G. assert (0 < q) by (apply INR_lt; cbn [INR]; lra). rewrite Nat.max_r by lia. exact N.
Qed.
Print Assumptions C24_unit_delay.
(* doubling in a loop of three samples: single ticks, a block shorter than the loop, a longer one *)
Example C24_unit_example : unit_laws 0%Z scale_ops /\
  Forall (request_ok 1 1) [Tick [1%Z]; Block 2 [repeat 0%Z 64] [repeat 7%Z 64]; Block 5 [repeat 1%Z 64] [repeat 7%Z 64]] /\
  snd (serve_all 0%Z (fb_tick 0%Z Z.add scale_ops) (fb_process 0%Z Z.add scale_ops) (fb_new 0%Z scale_ops (2%Z, 0) 3) [Tick [1%Z]; Block 2 [repeat 0%Z 64] [repeat 7%Z 64]; Block 5 [repeat 1%Z 64] [repeat 7%Z 64]])
  = [[2]; [0]; [0]; [6]; [2]; [2]; [14]; [6]]%Z.
Proof. split; [exact scale_laws|]. split; [repeat constructor; cbn; unfold MAXB; lia|vm_compute; reflexivity]. Qed.

(* ------------------------------------------------------------------ C54 *)
(* A nested allpass never puts out more energy than it has been given, for every coefficient in [-1, 1] and every enclosed unit that
   does not; stored says how much energy that unit can still give. *)
Theorem C54_passive : forall (P U : Type) (ops : unit_ops R P U) (stored : U -> R), (forall u, 0 <= stored u)%R ->
  (forall u v, let (u', o) := u_tick ops u [v] in nth 0 o 0 * nth 0 o 0 + stored u' <= v * v + stored u)%R ->
  forall eta u, (-1 <= eta <= 1)%R -> stored u = 0%R -> forall ins,
  (energy (snd (ticks (all_tick Rnum_ops ops) (mkAll u eta 0) ins)) <= energy ins)%R.
Proof.
  intros P U ops stored H1 H2 eta u He Hu ins. pose proof (all_energy ops stored H1 H2 eta ins He u 0%R) as X. rewrite Hu in X.
  replace ((1 - eta * eta) * (0 * 0 + 0))%R with 0%R in X by ring. lra.
Qed.
Print Assumptions C54_passive.
(* If the enclosed unit loses no energy then neither does the allpass: what it has not put out yet it holds, (1 - eta^2) times the
   energy of the sample in the loop and of what the enclosed unit holds. So allpasses may be nested. *)
Theorem C54_lossless : forall (P U : Type) (ops : unit_ops R P U) (held : U -> R),
  (forall u v, let (u', o) := u_tick ops u [v] in nth 0 o 0 * nth 0 o 0 + held u' = v * v + held u)%R ->
  let held' (s : allnest) := ((1 - an_eta s * an_eta s) * (an_z s * an_z s + held (an_x s)))%R in
  forall s v, let (s', o) := all_tick Rnum_ops ops s [v] in (nth 0 o 0 * nth 0 o 0 + held' s' = v * v + held' s)%R.
Proof.
  intros P U ops held H held' [u eta z] v. pose proof (all_step_eq ops held eta u z [v] (H u)) as X. destruct (all_tick Rnum_ops ops (mkAll u eta z) [v]) as [s' o]. destruct X as [X1 X2]. subst held'. cbv beta. rewrite X2. exact X1.
Qed.
Print Assumptions C54_lossless.
(* The form with two inputs takes the coefficient from the second one: with the coefficient eta there at all times it plays as the other form does with
   coefficient eta, whatever its own coefficient was. *)
Theorem C54_coefficient_input : forall (F P U : Type) (nm : num F) (ops : unit_ops F P U) eta xs u eta0 z,
  snd (ticks (all_tick2 nm ops) (mkAll u eta0 z) (map (fun x => [x; eta]) xs)) = snd (ticks (all_tick nm ops) (mkAll u eta z) (map (fun x => [x]) xs)).
Proof. exact @all_tick2_eq. Qed.
Print Assumptions C54_coefficient_input.
Example C54_example : (forall u v, let (u', o) := u_tick t1_ops u [v] in (nth 0 o 0 * nth 0 o 0 + t1_held u' = v * v + t1_held u)%R) /\ t1_held [0%R] = 0%R /\ (forall u, 0 <= t1_held u)%R.
Proof. split; [exact t1_lossless|]. split; [unfold t1_held; cbn; lra|]. intros u. unfold t1_held. pose proof (Rle_0_sqr (nth 0 u 0%R)) as Q. exact Q. Qed.
