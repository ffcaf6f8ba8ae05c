(* C85: filters and half of the sample rate. *)
From Coq Require Import Reals Lra List.
From Coquelicot Require Import Complex.
From Verif Require Import FreqSpec TuneProofs NyqAll NyqBiquad.
Import ListNotations.
Local Open Scope R_scope.

(* C85: the state variable filters of every mode, Q, gain and cutoff frequency (but for special cases that `generic` excludes) are stable exactly if the cutoff frequency is above a multiple of the sample rate by less than
   half of the sample rate: below half of the sample rate, which is the range that has a meaning, or between the sample rate and one and a half of it, and so on. *)
Theorem C85_svf_stable_iff : forall (G S X : Type) (tl : tools R G S X), tl_elem tl = R_elem -> forall m sr f q gain n, 0 < sr -> 0 < f -> 0 < q -> 0 < gain -> generic m sr f q gain -> build Rnum_ops tl false (OSvf m f q gain) = Some n ->
  (stable_filter tl (t_rate Rnum_ops tl n sr) <-> aliased_low sr f).
Proof. exact svf_stable_exactly. Qed.
Example C85_svf_stable_iff_case : exists n os, build Rnum_ops real_tools false (OSvf MLowshelf 15000 1 4) = Some n /\ generic MLowshelf 22050 15000 1 4 /\ ~ aliased_low 22050 15000 /\
  t_outs Rnum_ops real_tools (t_rate Rnum_ops real_tools n 22050) [ATick [1]; ATick [-1]] = Some os.
Proof.
  eexists. match goal with |- context [t_outs _ _ _ ?h] => destruct (runs_rate Rnum_ops real_tools false (OSvf MLowshelf 15000 1 4) _ 22050 h ltac:(discriminate) eq_refl) as (m & os & E) end.
  exists os. split; [reflexivity|]. split; [apply shelf_generic; [left; reflexivity|lra|lra|lra|]; intros N; destruct N as [|[|N]]; rewrite ?S_INR; cbn [INR]; [lra|lra|pose proof (pos_INR N); lra]|]. split; [|unfold t_outs; rewrite E; reflexivity].
  intros ([|N] & A & B); [cbn [INR] in B; lra|]. rewrite S_INR in A. pose proof (pos_INR N). lra.
Qed.
Print Assumptions C85_svf_stable_iff.

(* REFUTED: the state variable filters stay bounded at every cutoff frequency. With a cutoff frequency between half of the sample rate and the sample rate (or that plus a multiple of the sample rate) a single nonzero
   sample followed by silence makes the output grow beyond any bound: the tangent of the prewarped cutoff is negative there, and nothing limits it (svf.rs:29, 50, 71, ...). The opcodes neither clamp nor document the
   range. The cutoff of sound.rs:114 (the snare drum) begins at 15000 Hz and that of sound.rs:136 (the cymbal) at 20000 Hz, above half of a sample rate of 22050 Hz. *)
Theorem C85_svf_above_refuted : forall (G S X : Type) (tl : tools R G S X), tl_elem tl = R_elem -> forall m sr f q gain n, 0 < sr -> 0 < f -> 0 < q -> 0 < gain -> generic m sr f q gain -> ~ aliased_low sr f -> build Rnum_ops tl false (OSvf m f q gain) = Some n ->
  forall x C, x <> 0 -> exists j os, t_outs Rnum_ops tl (t_rate Rnum_ops tl n sr) (ATick [x] :: repeat (ATick [0]) j) = Some os /\ ~ bounded C os.
Proof. exact svf_unstable. Qed.
Print Assumptions C85_svf_above_refuted.

(* REFUTED: lowpass, whose inputs are a cutoff frequency and Q, stays bounded while its cutoff frequency moves. Above half of the sample rate it grows without bound however the frequency moves, and the number of samples
   until it exceeds a bound depends only on the range of the frequency, Q and the first sample. *)
Theorem C85_lowpass_swept_refuted : forall (G S X : Type) (tl : tools R G S X), tl_elem tl = R_elem -> forall sr f0 f1 q, 0 < sr -> sr / 2 < f0 <= f1 /\ f1 < sr -> 1 / 2 < q -> forall n f q0, build Rnum_ops tl true (OSvf MLowpass f q0 1) = Some n ->
  forall x C, x <> 0 -> exists N, forall fx fs os, f0 <= fx <= f1 -> Forall (fun f => f0 <= f <= f1) fs -> (N <= length fs)%nat ->
  t_outs Rnum_ops tl (t_rate Rnum_ops tl n sr) (ATick [x; fx; q] :: map (fun f => ATick [0; f; q]) fs) = Some os -> ~ bounded C os.
Proof. intros G S X tl H sr f0 f1 q A B C n f q0. exact (swept_above tl H sr f0 f1 q A B C n f q0). Qed.
Example C85_lowpass_swept_case : exists n os, build Rnum_ops real_tools true (OSvf MLowpass 440 1 1) = Some n /\ Forall (fun f => 11400 <= f <= 15000) [15000; 13000; 11400] /\ 22050 / 2 < 11400 /\
  t_outs Rnum_ops real_tools (t_rate Rnum_ops real_tools n 22050) (ATick [1 / 1000; 15000; 1] :: map (fun f => ATick [0; f; 1]) [15000; 13000; 11400]) = Some os.
Proof.
  eexists. match goal with |- context [t_outs _ _ _ ?h] => destruct (runs_rate Rnum_ops real_tools true (OSvf MLowpass 440 1 1) _ 22050 h ltac:(discriminate) eq_refl) as (m & os & E) end.
  exists os. split; [reflexivity|]. split; [repeat (apply Forall_cons; [lra|]); apply Forall_nil|]. split; [lra|unfold t_outs; rewrite E; reflexivity].
Qed.
Print Assumptions C85_lowpass_swept_refuted.

(* REFUTED: butterpass_hz stays bounded at every cutoff frequency. It has the same range (biquad.rs:32-34). *)
Theorem C85_butterpass_above_refuted : forall (G S X : Type) (tl : tools R G S X), tl_elem tl = R_elem -> forall sr f n, 0 < sr -> sr / 2 < f < sr -> build Rnum_ops tl false (OButter f) = Some n ->
  forall x C, x <> 0 -> exists j os, t_outs Rnum_ops tl (t_rate Rnum_ops tl n sr) (ATick [x] :: repeat (ATick [0]) j) = Some os /\ ~ bounded C os.
Proof. exact butter_above. Qed.
Example C85_butterpass_above_case : exists n, build Rnum_ops real_tools false (OButter 15000) = Some n /\ 22050 / 2 < 15000 < 22050.
Proof. eexists. split; [reflexivity|lra]. Qed.
Print Assumptions C85_butterpass_above_refuted.

(* C85: a biquad with complex poles outside the unit circle is unstable: any nonzero sample grows beyond any bound, unless its zeros cancel the poles. *)
Theorem C85_biquad_unstable : forall (G S X : Type) (tl : tools R G S X) c n, 1 < bi_a2 c -> bi_a1 c * bi_a1 c < 4 * bi_a2 c -> bi_b1 c <> bi_a1 c * bi_b0 c \/ bi_b2 c <> bi_a2 c * bi_b0 c -> build Rnum_ops tl false (OBiquad c) = Some n ->
  forall x C, x <> 0 -> exists j os, t_outs Rnum_ops tl n (ATick [x] :: repeat (ATick [0]) j) = Some os /\ ~ bounded C os.
Proof. exact biquad_above. Qed.
Example C85_biquad_unstable_case : exists n, let c := mkBi (-1) 2 1 0 0 in build Rnum_ops real_tools false (OBiquad c) = Some n /\ 1 < bi_a2 c /\ bi_a1 c * bi_a1 c < 4 * bi_a2 c /\ bi_b1 c <> bi_a1 c * bi_b0 c.
Proof. cbv zeta. eexists. split; [reflexivity|]. cbn [bi_a1 bi_a2 bi_b0 bi_b1]. repeat split; lra. Qed.
Print Assumptions C85_biquad_unstable.

(* C85: a biquad is stable exactly if its poles are inside the unit circle, which is so exactly if |a2| < 1 and |a1| < 1 + a2 (stable2), when no pole is cancelled by a zero. *)
Theorem C85_biquad_stable_iff : forall (G S X : Type) (tl : tools R G S X) c n, coprime c -> build Rnum_ops tl false (OBiquad c) = Some n -> (stable_filter tl n <-> stable2 (bi_a1 c) (bi_a2 c)).
Proof. exact biquad_exactly. Qed.
Example C85_biquad_stable_iff_case : exists n, let c := mkBi (-1) 1 1 0 0 in build Rnum_ops real_tools false (OBiquad c) = Some n /\ coprime c /\ ~ stable2 (bi_a1 c) (bi_a2 c).
Proof.
  cbv zeta. eexists. split; [reflexivity|]. unfold coprime, stable2. cbn [bi_a1 bi_a2 bi_b0 bi_b1 bi_b2]. split; [|intros [H _]; rewrite Rabs_pos_eq in H; lra].
  intros p H E. assert (Z : (p * p = 0)%C) by (rewrite <- E; ring). rewrite Z in H. assert (P : (p = 1)%C) by (replace p with (1 - (0 + RtoC (-1) * p + 1) + (1 + RtoC (-1)) * p)%C by ring; rewrite H, <- RtoC_plus; replace (1 + -1) with 0 by ring; ring).
  rewrite P in Z. rewrite <- RtoC_mult in Z. apply RtoC_inj in Z. lra.
Qed.
Print Assumptions C85_biquad_stable_iff.
Theorem C85_biquad_stable : forall (G S X : Type) (tl : tools R G S X) c n, stable2 (bi_a1 c) (bi_a2 c) -> build Rnum_ops tl false (OBiquad c) = Some n -> stable_filter tl n.
Proof. exact biquad_inside. Qed.
Example C85_biquad_stable_case : exists n, let c := mkBi (-1) (1 / 2) 1 1 1 in build Rnum_ops real_tools false (OBiquad c) = Some n /\ stable2 (bi_a1 c) (bi_a2 c).
Proof. cbv zeta. eexists. split; [reflexivity|]. unfold stable2. cbn [bi_a1 bi_a2]. split; apply Rabs_def1; lra. Qed.
Print Assumptions C85_biquad_stable.

(* C85: butterpass_hz is stable exactly if the cutoff frequency is above a multiple of the sample rate by less than half of the sample rate. *)
Theorem C85_butterpass_stable_iff : forall (G S X : Type) (tl : tools R G S X), tl_elem tl = R_elem -> forall sr f n, 0 < sr -> 0 < f -> (forall N : nat, f <> INR N * (sr / 2)) -> build Rnum_ops tl false (OButter f) = Some n ->
  (stable_filter tl (t_rate Rnum_ops tl n sr) <-> aliased_low sr f).
Proof. exact butter_exactly. Qed.
Example C85_butterpass_stable_iff_case : exists n os, build Rnum_ops real_tools false (OButter 10000) = Some n /\ (forall N : nat, 10000 <> INR N * (44100 / 2)) /\ aliased_low 44100 10000 /\
  t_outs Rnum_ops real_tools (t_rate Rnum_ops real_tools n 44100) [ATick [1]; ATick [-1]] = Some os.
Proof.
  eexists. match goal with |- context [t_outs _ _ _ ?h] => destruct (runs_rate Rnum_ops real_tools false (OButter 10000) _ 44100 h ltac:(discriminate) eq_refl) as (m & os & E) end.
  exists os. split; [reflexivity|]. split; [intros N; destruct N as [|N]; rewrite ?S_INR; cbn [INR]; [lra|pose proof (pos_INR N); lra]|]. split; [exists 0%nat; cbn [INR]; lra|unfold t_outs; rewrite E; reflexivity].
Qed.
Print Assumptions C85_butterpass_stable_iff.

(* C85: resonator_hz is stable at every center frequency, above half of the sample rate too. *)
Theorem C85_resonator_stable : forall (G S X : Type) (tl : tools R G S X), tl_elem tl = R_elem -> forall sr f q n, 0 < sr -> 0 < f -> 0 < q -> build Rnum_ops tl false (OReson f q) = Some n -> stable_filter tl (t_rate Rnum_ops tl n sr).
Proof. exact reson_stable. Qed.
Example C85_resonator_stable_case : exists n os, build Rnum_ops real_tools false (OReson 15000 100) = Some n /\ t_outs Rnum_ops real_tools (t_rate Rnum_ops real_tools n 22050) [ATick [1]; ATick [-1]] = Some os.
Proof.
  eexists. match goal with |- context [t_outs _ _ _ ?h] => destruct (runs_rate Rnum_ops real_tools false (OReson 15000 100) _ 22050 h ltac:(discriminate) eq_refl) as (m & os & E) end.
  exists os. split; [reflexivity|unfold t_outs; rewrite E; reflexivity].
Qed.
Print Assumptions C85_resonator_stable.
