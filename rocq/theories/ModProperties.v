(* C84: filters while their parameters are modulated. *)
From Coq Require Import Reals Lra List.
From Verif Require Import TuneProofs ModSpec ModBlow.
Import ListNotations.
Local Open Scope R_scope.

(* C84: the outputs of all state variable filters, with inputs for their parameters or with settings, have a bound that depends on nothing but the ranges of the parameters, the sample rate and the audio
   input: however fast the parameters move, subsampling, resets and changes of the sample rate included. *)
Theorem C84_svf_bounded : forall (G S X : Type) (tl : tools R G S X), tl_elem tl = R_elem -> forall r, proper r -> exists C, forall w m f q g sr n acts os,
  in_sr r sr -> in_f r f -> in_q r q -> in_g r g -> build Rnum_ops tl w (OSvf m f q g) = Some n -> Forall (steered r w (sv_gained m)) acts ->
  t_outs Rnum_ops tl (t_rate Rnum_ops tl n sr) acts = Some os -> bounded C os.
Proof. exact svf_bounded. Qed.
Example C84_svf_bounded_case : let r := mkRanges 44100 48000 20 20000 (1 / 10) 100 (1 / 100) 100 1 in proper r /\ exists n os,
  let h := [ATick [1; 20; 100; 1 / 100]; ASet (mkSetting (PSubsample 2) []); ATick [-1; 20000; 1 / 10; 100]; ARate 48000; AReset; ATick [1; 440; 1; 2]] in
  build Rnum_ops real_tools true (OSvf MBell 1000 1 2) = Some n /\ Forall (steered r true true) h /\ t_outs Rnum_ops real_tools (t_rate Rnum_ops real_tools n 44100) h = Some os.
Proof.
  cbv zeta. split; [unfold proper; cbn [r_sr0 r_sr1 r_f0 r_f1 r_q0 r_q1 r_g0 r_g1 r_x]; lra|]. eexists.
  match goal with |- context [t_outs _ _ _ ?h] => destruct (runs_rate Rnum_ops real_tools true (OSvf MBell 1000 1 2) _ 44100 h ltac:(discriminate) eq_refl) as (m & os & E) end.
  exists os. split; [reflexivity|]. split; [|unfold t_outs; rewrite E; reflexivity].
  repeat (apply Forall_cons; [unfold steered, in_sr, in_f, in_q, in_g; cbn [r_sr0 r_sr1 r_f0 r_f1 r_q0 r_q1 r_g0 r_g1 r_x s_par nth]; first [exact I|lra|split; [apply Rabs_le; lra|intros _; split; [lra|]; split; [lra|intros _; lra]]]|]). apply Forall_nil.
Qed.
Print Assumptions C84_svf_bounded.

(* C84: when the audio input falls silent they do too, geometrically, however the parameters move meanwhile. *)
Theorem C84_svf_silent : forall (G S X : Type) (tl : tools R G S X), tl_elem tl = R_elem -> forall r, proper r -> exists C rho, 0 <= rho < 1 /\ forall w m f q g sr n before acts os,
  in_sr r sr -> in_f r f -> in_q r q -> in_g r g -> build Rnum_ops tl w (OSvf m f q g) = Some n -> Forall (steered r w (sv_gained m)) before -> Forall (steered (silently r) w (sv_gained m)) acts ->
  t_outs Rnum_ops tl (t_rate Rnum_ops tl n sr) (before ++ acts) = Some os -> forall i o, nth_error os (ticks_of before + i) = Some o -> Forall (fun y => Rabs y <= C * rho ^ i) o.
Proof. exact svf_silent. Qed.
Example C84_svf_silent_case : let r := mkRanges 44100 44100 20 20000 (1 / 10) 100 1 1 1 in exists n os,
  let b := [ATick [1; 20; 100]; ATick [-1; 20000; 1 / 10]] in let h := [ATick [0; 300; 1]; ATick [0; 30; 2]] in
  build Rnum_ops real_tools true (OSvf MLowpass 1000 1 1) = Some n /\ Forall (steered r true false) b /\ Forall (steered (silently r) true false) h /\ t_outs Rnum_ops real_tools (t_rate Rnum_ops real_tools n 44100) (b ++ h) = Some os.
Proof.
  cbv zeta. eexists. match goal with |- context [t_outs _ _ _ ?h] => destruct (runs_rate Rnum_ops real_tools true (OSvf MLowpass 1000 1 1) _ 44100 h ltac:(discriminate) eq_refl) as (m & os & E) end.
  exists os. split; [reflexivity|]. split; [|split; [|unfold t_outs; rewrite E; reflexivity]];
  repeat (apply Forall_cons; [unfold steered, in_sr, in_f, in_q, in_g, silently; cbn [r_sr0 r_sr1 r_f0 r_f1 r_q0 r_q1 r_g0 r_g1 r_x s_par nth]; split; [apply Rabs_le; lra|intros _; split; [lra|]; split; [lra|discriminate]]|]); apply Forall_nil.
Qed.
Print Assumptions C84_svf_silent.

(* C84: the output of lowpole and lowpole_hz never exceeds the bound of the audio input, and dies away at least as fast as with the lowest cutoff frequency and the highest sample rate. *)
Theorem C84_lowpole : forall (G S X : Type) (tl : tools R G S X), tl_elem tl = R_elem -> forall lo hi s0 s1 b w f sr n acts os, 0 <= lo -> 0 < s0 -> 0 <= b -> lo <= f <= hi -> s0 <= sr <= s1 ->
  build Rnum_ops tl w (OLowpole f) = Some n -> Forall (swept lo hi s0 s1 b w) acts -> t_outs Rnum_ops tl (t_rate Rnum_ops tl n sr) acts = Some os -> bounded b os.
Proof. exact lowpole_swept. Qed.
Example C84_lowpole_case : exists n os, let h := [ATick [1; 0]; ASet (mkSetting (PCenter 300) []); ARate 48000; ATick [-1; 20000]] in
  build Rnum_ops real_tools true (OLowpole 1000) = Some n /\ Forall (swept 0 20000 44100 48000 1 true) h /\ t_outs Rnum_ops real_tools (t_rate Rnum_ops real_tools n 44100) h = Some os.
Proof.
  cbv zeta. eexists. match goal with |- context [t_outs _ _ _ ?h] => destruct (runs_rate Rnum_ops real_tools true (OLowpole 1000) _ 44100 h ltac:(discriminate) eq_refl) as (m & os & E) end.
  exists os. split; [reflexivity|]. split; [|unfold t_outs; rewrite E; reflexivity].
  repeat (apply Forall_cons; [cbn [swept s_par nth]; first [lra|split; [apply Rabs_le; lra|intros _; lra]]|]). apply Forall_nil.
Qed.
Print Assumptions C84_lowpole.
Theorem C84_lowpole_silent : forall (G S X : Type) (tl : tools R G S X), tl_elem tl = R_elem -> forall lo hi s0 s1 b w f sr n before acts os, 0 <= lo -> 0 < s0 -> 0 <= b -> lo <= f <= hi -> s0 <= sr <= s1 ->
  build Rnum_ops tl w (OLowpole f) = Some n -> Forall (swept lo hi s0 s1 b w) before -> Forall (swept lo hi s0 s1 0 w) acts -> t_outs Rnum_ops tl (t_rate Rnum_ops tl n sr) (before ++ acts) = Some os ->
  forall i o, nth_error os (ticks_of before + i) = Some o -> Forall (fun y => Rabs y <= b * exp (- (2 * PI * lo / s1)) ^ (i + 1)) o.
Proof. exact lowpole_quiets. Qed.
Example C84_lowpole_silent_case : Forall (swept 10 20000 44100 48000 1 true) [ATick [1; 10]; ATick [-1; 20000]] /\ Forall (swept 10 20000 44100 48000 0 true) [ATick [0; 10]; ATick [0; 20000]].
Proof. split; repeat (apply Forall_cons; [cbn [swept nth]; split; [apply Rabs_le; lra|intros _; lra]|]); apply Forall_nil. Qed.
Print Assumptions C84_lowpole_silent.

(* C84: the output of highpole and highpole_hz never exceeds twice the bound of the audio input, and dies away likewise. *)
Theorem C84_highpole : forall (G S X : Type) (tl : tools R G S X), tl_elem tl = R_elem -> forall lo hi s0 s1 b w f sr n acts os, 0 <= lo -> 0 < s0 -> 0 <= b -> lo <= f <= hi -> s0 <= sr <= s1 ->
  build Rnum_ops tl w (OHighpole f) = Some n -> Forall (swept lo hi s0 s1 b w) acts -> t_outs Rnum_ops tl (t_rate Rnum_ops tl n sr) acts = Some os -> bounded (2 * b * exp (- (2 * PI * lo / s1))) os.
Proof. exact highpole_swept. Qed.
Example C84_highpole_case : exists n os, let h := [ATick [1]; ASet (mkSetting (PCenter 300) []); AReset; ATick [-1]] in
  build Rnum_ops real_tools false (OHighpole 1000) = Some n /\ Forall (swept 10 20000 44100 48000 1 false) h /\ t_outs Rnum_ops real_tools (t_rate Rnum_ops real_tools n 44100) h = Some os.
Proof.
  cbv zeta. eexists. match goal with |- context [t_outs _ _ _ ?h] => destruct (runs_rate Rnum_ops real_tools false (OHighpole 1000) _ 44100 h ltac:(discriminate) eq_refl) as (m & os & E) end.
  exists os. split; [reflexivity|]. split; [|unfold t_outs; rewrite E; reflexivity].
  repeat (apply Forall_cons; [cbn [swept s_par nth]; first [exact I|lra|split; [apply Rabs_le; lra|discriminate]]|]). apply Forall_nil.
Qed.
Print Assumptions C84_highpole.
Theorem C84_highpole_silent : forall (G S X : Type) (tl : tools R G S X), tl_elem tl = R_elem -> forall lo hi s0 s1 b w f sr n before acts os, 0 <= lo -> 0 < s0 -> 0 <= b -> lo <= f <= hi -> s0 <= sr <= s1 ->
  build Rnum_ops tl w (OHighpole f) = Some n -> Forall (swept lo hi s0 s1 b w) before -> Forall (swept lo hi s0 s1 0 w) acts -> t_outs Rnum_ops tl (t_rate Rnum_ops tl n sr) (before ++ acts) = Some os ->
  forall i o, nth_error os (ticks_of before + i) = Some o -> Forall (fun y => Rabs y <= b * exp (- (2 * PI * lo / s1)) ^ (i + 1)) o.
Proof. exact highpole_quiets. Qed.
Example C84_highpole_silent_case : Forall (swept 10 20000 44100 48000 1 true) [ATick [1; 10]; ATick [-1; 20000]] /\ Forall (swept 10 20000 44100 48000 0 true) [ATick [0; 10]; ATick [0; 20000]].
Proof. split; repeat (apply Forall_cons; [cbn [swept nth]; split; [apply Rabs_le; lra|intros _; lra]|]); apply Forall_nil. Qed.
Print Assumptions C84_highpole_silent.

(* C84: so does the output of allpole and allpole_delay, as long as the delay stays within an interval of positive delays; with varying delays it is no allpass filter but its gain is bounded. *)
Theorem C84_allpole : forall (G S X : Type) (tl : tools R G S X) lo hi s0 s1 b w d n, 0 < lo -> 0 <= b -> lo <= d <= hi -> build Rnum_ops tl w (OAllpole d) = Some n ->
  (forall acts os, Forall (swept lo hi s0 s1 b w) acts -> t_outs Rnum_ops tl n acts = Some os -> bounded ((1 + steepest lo hi) / (1 - steepest lo hi) * b) os) /\
  (forall before acts os, Forall (swept lo hi s0 s1 b w) before -> Forall (swept lo hi s0 s1 0 w) acts -> t_outs Rnum_ops tl n (before ++ acts) = Some os ->
    forall i o, nth_error os (ticks_of before + i) = Some o -> Forall (fun y => Rabs y <= (1 + steepest lo hi) / (1 - steepest lo hi) * b * steepest lo hi ^ i) o).
Proof. exact allpole_swept. Qed.
Example C84_allpole_case : Forall (swept (1 / 2) 3 44100 48000 1 true) [ATick [1; 1 / 2]; ASet (mkSetting (PDelay 3) []); ATick [-1; 3]] /\ 0 <= steepest (1 / 2) 3 < 1.
Proof.
  split; [repeat (apply Forall_cons; [cbn [swept s_par nth]; first [lra|split; [apply Rabs_le; lra|intros _; lra]]|]); apply Forall_nil|].
  unfold steepest. replace ((1 - 1 / 2) / (1 + 1 / 2)) with (1 / 3) by field. replace ((1 - 3) / (1 + 3)) with (- (1 / 2)) by field. rewrite Rabs_Ropp, !Rabs_pos_eq by lra. rewrite Rmax_right; lra.
Qed.
Print Assumptions C84_allpole.

(* REFUTED: resonator, whose inputs are a center frequency and Q, stays bounded while its center frequency moves between 8000 and 16000 Hz. At 48000 Hz with Q = 10, where it is stable at either frequency, alternating between
   them from sample to sample makes an impulse grow by more than 1.2 every two samples without end: its output is kept in the past outputs of the direct form, not in a state the coefficients are safe to change around. *)
Theorem C84_resonator_refuted : forall (G S X : Type) (tl : tools R G S X), tl_elem tl = R_elem -> forall C, exists n acts os, build Rnum_ops tl true (OReson 16000 10) = Some n /\
  Forall (fun a => exists x f, a = ATick [x; f; 10] /\ 0 <= x <= 1 /\ (f = 8000 \/ f = 16000)) acts /\ t_outs Rnum_ops tl (t_rate Rnum_ops tl n 48000) acts = Some os /\ ~ bounded C os.
Proof. exact reson_blows. Qed.
Print Assumptions C84_resonator_refuted.

(* REFUTED: butterpass, whose input is a cutoff frequency, stays bounded while its cutoff frequency moves between 6000 and 18000 Hz. At 48000 Hz alternating between them from sample to sample makes an impulse grow
   by 11 / 9 every two samples without end. The state variable filters (lowpass, ...) stay bounded under the same modulation. *)
Theorem C84_butterpass_refuted : forall (G S X : Type) (tl : tools R G S X), tl_elem tl = R_elem -> forall C, exists n acts os, build Rnum_ops tl true (OButter 18000) = Some n /\
  Forall (fun a => exists x f, a = ATick [x; f] /\ 0 <= x <= 1 /\ (f = 6000 \/ f = 18000)) acts /\ t_outs Rnum_ops tl (t_rate Rnum_ops tl n 48000) acts = Some os /\ ~ bounded C os.
Proof. exact butter_blows. Qed.
Print Assumptions C84_butterpass_refuted.
