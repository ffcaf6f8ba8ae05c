(* C48: the resampler. Definitions are in ResampleModel.v (the code) and ResampleSpec.v (what it should do). *)
From Coq Require Import Reals Lra.
From Verif Require Import ResampleProofs.
Local Open Scope R_scope.

(* After reset, sample n is the cubic interpolation of the output of the generator at the time that the speeds so far add up to, whatever the buffers held
   before. Ticking always ends. The generator has then been ticked exactly up to the last frame that is needed, each frame once and in order. *)
Theorem C48_output : forall S (gen_tick : S -> S * list R) (gen_reset : S -> S) (r : resampler S R R) ch l,
  let x := gen_reset (r_x r) in res_shape r ch -> (forall n, length (gen_frame gen_tick x n) = ch) ->
  exists r' os, res_run Rnum_ops Rnum_ops idR idR gen_tick (res_reset Rnum_ops gen_reset r) l = Some (r', os) /\ length os = length l /\
    (forall n k, (n < length l)%nat -> (k < ch)%nat -> length (nth n os []) = ch /\ nth k (nth n os []) 0 = gen_interp gen_tick x k (position (firstn (Datatypes.S n) l))) /\
    (l <> [] -> r_x r' = gen_at gen_tick x (Z.to_nat (Int_part (position l)) + 3)).
Proof. exact @resampled. Qed.
Print Assumptions C48_output.
(* a generator that counts, with two channels; a resampler whose buffers hold something else; speeds far above the buffer length, below zero and fractional *)
Notation count := (fun n : nat => (Datatypes.S n, [INR n; - INR n])).
Example C48_output_case : res_shape (mkResampler 5%nat [repeat 7 128; repeat 8 128] 33 12) 2 /\ (forall n, length (gen_frame count 0%nat n) = 2%nat) /\ position [1000; -3; 1 / 2] = 1001 + 1 / 2.
Proof.
  split; [split; [reflexivity|]; intros b [<-|[<-|[]]]; reflexivity|]. split; [reflexivity|]. cbn. rewrite (Rmax_right 0 1000), (Rmax_left 0 (-3)), (Rmax_right 0 (1 / 2)) by lra. lra.
Qed.

(* At a constant whole speed m, the frames of the generator are output as they are: every m-th, from frame 1 + m on. *)
Theorem C48_whole_speed : forall S (gen_tick : S -> S * list R) (gen_reset : S -> S) (r : resampler S R R) ch m n,
  let x := gen_reset (r_x r) in res_shape r ch -> (forall n, length (gen_frame gen_tick x n) = ch) ->
  option_map snd (res_run Rnum_ops Rnum_ops idR idR gen_tick (res_reset Rnum_ops gen_reset r) (repeat (INR m) n)) =
  Some (map (fun i => gen_frame gen_tick x (1 + Datatypes.S i * m)) (seq 0 n)).
Proof. exact @whole_speed. Qed.
Print Assumptions C48_whole_speed.
(* At speed 1 the first two frames of the generator are not heard: the source is reproduced from its third frame on, not from its first, nor
   from its second as the code says. *)
Theorem C48_start_refuted : exists S (gen_tick : S -> S * list R) (gen_reset : S -> S) (r : resampler S R R) o,
  res_shape r 1 /\ (forall n, length (gen_frame gen_tick (gen_reset (r_x r)) n) = 1%nat) /\
  option_map snd (res_run Rnum_ops Rnum_ops idR idR gen_tick (res_reset Rnum_ops gen_reset r) [1]) = Some [o] /\
  o = gen_frame gen_tick (gen_reset (r_x r)) 2 /\ o <> gen_frame gen_tick (gen_reset (r_x r)) 0 /\ o <> gen_frame gen_tick (gen_reset (r_x r)) 1.
Proof.
  exists nat, (fun n => (Datatypes.S n, [INR n])), (fun _ => 0%nat), (mkResampler 0%nat [repeat 0 128] 1 0), [INR 2].
  assert (Sh : res_shape (mkResampler (S := nat) 0%nat [repeat 0 128] 1 0) 1) by (split; [reflexivity|]; intros b [<-|[]]; reflexivity).
  split; [exact Sh|]. split; [reflexivity|]. split.
  - exact (C48_whole_speed nat (fun n => (Datatypes.S n, [INR n])) (fun _ => 0%nat) _ 1 1 1 Sh (fun _ => eq_refl)).
  - split; [reflexivity|]. split; cbn; intros E; injection E; lra.
Qed.
Print Assumptions C48_start_refuted.

(* Interpolation is exact for generators that are quadratic in time, and overshoots the range of the generator by at most an eighth of it. *)
Theorem C48_quadratic : forall S (gen_tick : S -> S * list R) x k a b c l, (forall n, nth k (gen_frame gen_tick x n) 0 = a * INR n * INR n + b * INR n + c) ->
  let t := position l in gen_interp gen_tick x k t = a * t * t + b * t + c.
Proof. intros S gen_tick x k a b c l H t. exact (interp_quadratic gen_tick x k a b c t (position_ge l) H). Qed.
Print Assumptions C48_quadratic.
Theorem C48_range : forall S (gen_tick : S -> S * list R) x k t lo hi, (forall n, lo <= nth k (gen_frame gen_tick x n) 0 <= hi) ->
  lo - (hi - lo) / 8 <= gen_interp gen_tick x k t <= hi + (hi - lo) / 8.
Proof. exact @interp_range. Qed.
Print Assumptions C48_range.
Example C48_quadratic_case : forall n, nth 1 (gen_frame count 0%nat n) 0 = 0 * INR n * INR n + (-1) * INR n + 0.
Proof. intros n. assert (E : gen_at count 0%nat n = n) by (induction n as [|n IH]; [reflexivity|]; cbn [gen_at fst]; now rewrite IH). unfold gen_frame. rewrite E. cbn. ring. Qed.
