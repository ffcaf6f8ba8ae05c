(* C64: waveshapers. Definitions are in ShapeModel.v (the code) and ShapeSpec.v (what they should do). *)
From Coq Require Import Reals Lra Lia SpecFloat.
From Verif Require Import ShapeProofs.
Local Open Scope R_scope.

(* Clip limits the scaled signal to -1...1 and leaves what is within. *)
Theorem C64_clip : forall h x, exists y, shape_oneR (Clip h) x = Some (Clip h, y) /\ -1 <= y <= 1 /\ (-1 <= x * h <= 1 -> y = x * h) /\ (x * h < -1 -> y = -1) /\ (1 < x * h -> y = 1).
Proof. intros h x. eexists. split; [reflexivity|]. apply (clip_range (-1) 1 (x * h)). lra. Qed.
Print Assumptions C64_clip.
Example C64_clip_case : exists y, shape_oneR (Clip 3) (1 / 2) = Some (Clip 3, y) /\ y = 1.
Proof. destruct (C64_clip 3 (1 / 2)) as (y & A & _ & _ & _ & B). exists y. split; [exact A|apply B; lra]. Qed.
Theorem C64_clip_to : forall lo hi x, lo <= hi -> exists y, shape_oneR (ClipTo lo hi) x = Some (ClipTo lo hi, y) /\ lo <= y <= hi /\ (lo <= x <= hi -> y = x) /\ (x < lo -> y = lo) /\ (hi < x -> y = hi).
Proof. intros lo hi x H. eexists. split; [cbn [shape_one]; cbn [nleb Rnum_ops]; destruct (Rle_dec lo hi); [reflexivity|contradiction]|]. exact (clip_range lo hi x H). Qed.
Print Assumptions C64_clip_to.
Example C64_clip_to_case : -1 / 2 <= 1. Proof. lra. Qed.
(* Tanh, atan and softsign saturate at -1 and 1: they are odd, increase, and come as close to 1 as you like; the slope of atan at 0 is its hardness. *)
Theorem C64_saturation : forall h, 0 < h ->
  (exists f, saturates f /\ forall x, shape_oneR (Tanh h) x = Some (Tanh h, f x)) /\ (exists f, saturates f /\ derivable_pt_lim f 0 h /\ forall x, shape_oneR (Atan h) x = Some (Atan h, f x)) /\
  (exists f, saturates f /\ forall x, shape_oneR (Softsign h) x = Some (Softsign h, f x)).
Proof. intros h H. exact (conj (tanh_shape h H) (conj (atan_shape h H) (softsign_shape h H))). Qed.
Print Assumptions C64_saturation.
(* Crush puts out the nearest step. *)
Theorem C64_crush : forall h x, 0 < h -> exists k, shape_oneR (Crush h) x = Some (Crush h, IZR k / h) /\ Rabs (x - IZR k / h) <= 1 / (2 * h).
Proof. exact crush_shape. Qed.
Print Assumptions C64_crush.
Example C64_crush_case : exists k, shape_oneR (Crush 4) (2 / 3) = Some (Crush 4, IZR k / 4) /\ Rabs (2 / 3 - IZR k / 4) <= 1 / (2 * 4).
Proof. apply C64_crush. lra. Qed.
(* The smooth staircase increases, keeps the steps and stays between them. *)
Theorem C64_soft_crush : forall h, 0 < h -> exists f, (forall x, shape_oneR (SoftCrush h) x = Some (SoftCrush h, f x)) /\ (forall k, f (IZR k / h) = IZR k / h) /\ (forall x y, x < y -> f x < f y) /\
  (forall x k, IZR k / h <= x <= IZR (k + 1) / h -> IZR k / h <= f x <= IZR (k + 1) / h).
Proof. exact soft_crush_shape. Qed.
Print Assumptions C64_soft_crush.
Example C64_soft_crush_case : exists y, shape_oneR (SoftCrush 4) (2 / 3) = Some (SoftCrush 4, y) /\ 1 / 2 <= y <= 3 / 4.
Proof. destruct (C64_soft_crush 4 ltac:(lra)) as (f & A & _ & _ & B). exists (f (2 / 3)). split; [apply A|]. specialize (B (2 / 3) 2%Z). cbn [Z.add Pos.add Pos.succ] in B. lra. Qed.
(* Processing a block of any size gives what ticks give, for all shapes, adaptive ones around any shapes among them, except for the samples that `regular` excludes. Missing: those, of which it is false (next theorems). *)
Theorem C64_blocks_partial : forall s l, Forall (regular s) l -> shape_processR s l = shape_runR s l.
Proof. exact process_run. Qed.
Print Assumptions C64_blocks_partial.
Example C64_blocks_case : Forall (regular (Crush 1)) [0; 1 / 4; 2].
Proof. repeat constructor; intros k H. all: assert (E : 2 * IZR k + 1 = 0 \/ 2 * IZR k + 1 = 1 / 2 \/ 2 * IZR k + 1 = 4) by lra. all: replace 2 with (IZR 2) in E by reflexivity; rewrite <- mult_IZR, <- plus_IZR in E.
  all: destruct E as [E|[E|E]]; [apply eq_IZR in E; lia| |apply eq_IZR in E; lia]. all: assert (0 < IZR (2 * k + 1) < 1) as [A B] by lra; apply lt_IZR in A; apply lt_IZR in B; lia. Qed.
(* Crush rounds halfway cases away from 0 in ticks and to the even step in blocks: half a step is 1 in ticks and 0 in blocks, whatever tanh, atan, roots and pi are. *)
Theorem C64_crush_refuted : forall tanh_ atan_ sqrt_ pi_ two_pi, let one := n1 f32_ops in let half := ndiv f32_ops one (nofZ f32_ops 2) in
  shape_run f32_ops tanh_ atan_ sqrt_ pi_ two_pi (Crush one) (repeat half 8) = Some (Crush one, repeat one 8) /\ shape_process f32_ops tanh_ atan_ sqrt_ pi_ two_pi (Crush one) (repeat half 8) = Some (Crush one, repeat (n0 f32_ops) 8).
Proof. intros. split; vm_compute; reflexivity. Qed.
Print Assumptions C64_crush_refuted.
(* With negative hardness softsign has a pole in blocks: of 1/2 with hardness -2 it is -1/2 in ticks and minus infinity in blocks. *)
Theorem C64_softsign_refuted : forall tanh_ atan_ sqrt_ pi_ two_pi, let h := nofZ f32_ops (-2) in let half := ndiv f32_ops (n1 f32_ops) (nofZ f32_ops 2) in
  shape_run f32_ops tanh_ atan_ sqrt_ pi_ two_pi (Softsign h) (repeat half 8) = Some (Softsign h, repeat (nneg f32_ops half) 8) /\
  shape_process f32_ops tanh_ atan_ sqrt_ pi_ two_pi (Softsign h) (repeat half 8) = Some (Softsign h, repeat (S754_infinity true) 8).
Proof. intros. split; vm_compute; reflexivity. Qed.
Print Assumptions C64_softsign_refuted.
(* Clipping to a minimum above the maximum panics in ticks (and in the last samples of a block) but not in the full words of 8 samples of a block. *)
Theorem C64_clip_to_refuted : forall lo hi x, hi < lo -> shape_oneR (ClipTo lo hi) x = None /\ shape_processR (ClipTo lo hi) (repeat x 8) = Some (ClipTo lo hi, repeat hi 8).
Proof.
  intros lo hi x H. split; [cbn [shape_one nleb Rnum_ops]; destruct (Rle_dec lo hi); [lra|reflexivity]|]. cbn. replace (Rmin (Rmax x lo) hi) with hi; [reflexivity|]. unfold Rmin, Rmax. repeat destruct (Rle_dec _ _); lra.
Qed.
Print Assumptions C64_clip_to_refuted.
Example C64_clip_to_refuted_case : -1 < 1. Proof. lra. Qed.
(* An adaptive shape gives its inner shape the input divided by the root of a mean of the squares of the inputs, over which it keeps no other history. *)
Theorem C64_adaptive : forall inner t m v l, shape_runR (Adaptive inner t m v) l = match shape_runR inner (leveled m v l) with Some (inner', o) => Some (Adaptive inner' t m (mean_square m v l), o) | None => None end.
Proof. intros. apply adaptive_run. Qed.
Print Assumptions C64_adaptive.
(* The timescale is the time in which the estimate moves halfway to a new level. *)
Theorem C64_timescale : forall inner t sr m0 v a n, 0 < t -> 0 < sr -> INR n = t * sr ->
  exists m, set_srR (Adaptive inner t m0 v) sr = Adaptive (set_srR inner sr) t m v /\ 0 < m < 1 /\ mean_square m v (repeat a n) = (v + (1 / 1000000 + a * a)) / 2.
Proof. exact halfway. Qed.
Print Assumptions C64_timescale.
Example C64_timescale_case : INR 441 = 1 / 100 * 44100. Proof. rewrite INR_IZR_INZ. cbn. lra. Qed.
(* After a reset the estimated level is never below -60 dB. *)
Theorem C64_minimum_level : forall inner t sr m0 v l, 0 < t -> 0 < sr ->
  exists m, resetR (set_srR (Adaptive inner t m0 v) sr) = Adaptive (resetR (set_srR inner sr)) t m (1 / 1000) /\ 0 < m < 1 /\ 1 / 1000 <= sqrt (mean_square m (1 / 1000) l).
Proof. exact reset_level. Qed.
Print Assumptions C64_minimum_level.
Example C64_minimum_level_case : exists m, set_srR (Adaptive (Clip 1) (1 / 10) 0 0) 44100 = Adaptive (Clip 1) (1 / 10) m 0 /\ 0 < m < 1.
Proof.
  destruct (C64_timescale (Clip 1) (1 / 10) 44100 0 0 1 4410 ltac:(lra) ltac:(lra)) as (m & A & B & _); [rewrite INR_IZR_INZ; cbn; lra|]. exists m. split; [exact A|exact B].
Qed.
(* The inputs of the inner shape are bounded, whatever the signal. *)
Theorem C64_adaptive_bound : forall m v l y, 0 <= m < 1 -> 0 <= v -> In y (leveled m v l) -> Rabs y < / sqrt (1 - m).
Proof. exact leveled_bound. Qed.
Print Assumptions C64_adaptive_bound.
Example C64_adaptive_bound_case : 0 <= 3 / 4 < 1 /\ forall y, In y (leveled (3 / 4) 0 [1; -5; 1000]) -> Rabs y < / sqrt (1 - 3 / 4).
Proof. split; [lra|]. intros y. apply C64_adaptive_bound; lra. Qed.
(* A new adaptive shape that has not been reset starts from a level of 0, not from that of reset: it divides small first samples by less than the documented minimum of -60 dB. *)
Theorem C64_minimum_level_refuted : forall t, 0 < t -> exists x0, 0 < x0 /\ forall x, 0 < x < x0 -> exists s y, shape_oneR (adaptive_newR t (ShapeFn (fun x => x))) x = Some (s, y) /\ x / (1 / 1000) < y.
Proof. exact new_level. Qed.
Print Assumptions C64_minimum_level_refuted.
