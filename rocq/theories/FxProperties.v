(* C76: chorus, flanger and phaser. *)
From Coq Require Import Reals Lra Lia.
From Verif Require Import FxSpec FxProofs3.
Import ListNotations.
Local Open Scope R_scope.

(* The chorus gives a fifth of the sum of its input and four copies of it. Copy i is delayed by between i times the separation and that plus the variation;
   delays of less than one sample are one sample. noise is fractal_noise(seed, 8, 0.45, x): see the example. *)
Theorem C76_chorus : forall sr noise hash64g h seed sep var mf, usual sr -> (h < 2 ^ 64)%N -> 0 <= sep -> 0 <= var -> (forall s x, -1 <= noise s x <= 1) ->
  exists x, chorus Rnum_ops sr noise hash64g h seed sep var mf = Some x /\ exists d1 d2 d3 d4 : nat -> R,
  (forall k, sep <= d1 k <= sep + var /\ 2 * sep <= d2 k <= 2 * sep + var /\ 3 * sep <= d3 k <= 3 * sep + var /\ 4 * sep <= d4 k <= 4 * sep + var) /\
  forall l k, stream 1 l -> (k < length l)%nat -> let v := fun d : nat -> R => delayed_by sr sep (4 * sep + var) (sample_of l) k (d k) in
    nth k (fx_outputs x l) [] = [1 / 5 * (sample_of l k + v d1 + v d2 + v d3 + v d4)].
Proof. exact chorus_equation. Qed.
Print Assumptions C76_chorus.
Theorem C76_chorus_bound : forall sr noise hash64g h seed sep var mf x B, usual sr -> (h < 2 ^ 64)%N -> 0 <= sep -> 0 <= var -> (forall s x, -1 <= noise s x <= 1) ->
  chorus Rnum_ops sr noise hash64g h seed sep var mf = Some x -> forall l k, stream 1 l -> (forall j, Rabs (sample_of l j) <= B) -> (k < length l)%nat ->
  exists y, nth k (fx_outputs x l) [] = [y] /\ Rabs y <= 6 / 5 * B.
Proof. exact chorus_bound. Qed.
Print Assumptions C76_chorus_bound.
Example C76_chorus_case : usual 44100 /\ (77 < 2 ^ 64)%N /\ (forall s x, -1 <= fractal_of (fun s => s mod 2 ^ 64)%N (fun s => s) (fun s => [(0, s); (1 / 2, N.succ s)]) s x <= 1) /\
  (exists x, chorus Rnum_ops 44100 (fractal_of (fun s => s mod 2 ^ 64)%N (fun s => s) (fun s => [(0, s); (1 / 2, N.succ s)])) (fun s => s) 77 1 (15 / 1000) (5 / 1000) (1 / 2) = Some x) /\
  stream 1 [[1]; [0]; [-1]].
Proof.
  assert (U : usual 44100). { split; [lra|]. apply IZR_le. discriminate. }
  assert (N : forall s x, -1 <= fractal_of (fun s => s mod 2 ^ 64)%N (fun s => s) (fun s => [(0, s); (1 / 2, N.succ s)]) s x <= 1).
  { intros s x. apply fractal_of_range; [|discriminate]. intros t. apply N.mod_upper_bound. discriminate. }
  split; [exact U|]. split; [reflexivity|]. split; [exact N|]. split; [|repeat constructor].
  destruct (C76_chorus 44100 _ (fun s => s) 77 1 (15 / 1000) (5 / 1000) (1 / 2) U eq_refl ltac:(lra) ltac:(lra) N) as (x & Hx & _). exists x. exact Hx.
Qed.

(* The flanger gives the sum w + x of its input x and a delayed signal w. What is delayed is the input plus tanh of the previous sample of w times the amount of
   feedback. The delay stays within the minimum and the maximum if the function does. *)
Theorem C76_flanger : forall sr h a lo hi f, usual sr -> (h < 2 ^ 64)%N -> 0 <= lo <= hi -> (forall t, lo <= f t <= hi) ->
  exists x, flanger Rnum_ops sr h a lo hi f = Some x /\ exists d : nat -> R, (forall k, lo <= d k <= hi) /\
  forall l, stream 1 l -> exists u w : nat -> R, forall k, (k < length l)%nat ->
    u k = sample_of l k + before (fun j => tanh (a * w j)) k /\ w k = delayed_by sr lo hi u k (d k) /\ nth k (fx_outputs x l) [] = [sample_of l k + w k].
Proof. exact flanger_equation. Qed.
Print Assumptions C76_flanger.
(* Without feedback it still flanges. *)
Theorem C76_flanger_dry : forall sr h lo hi f, usual sr -> (h < 2 ^ 64)%N -> 0 <= lo <= hi -> (forall t, lo <= f t <= hi) ->
  exists x, flanger Rnum_ops sr h 0 lo hi f = Some x /\ exists d : nat -> R, (forall k, lo <= d k <= hi) /\
  forall l k, stream 1 l -> (k < length l)%nat -> nth k (fx_outputs x l) [] = [sample_of l k + delayed_by sr lo hi (sample_of l) k (d k)].
Proof. exact flanger_dry. Qed.
Print Assumptions C76_flanger_dry.
(* It is stable with any amount of feedback and any delay function. *)
Theorem C76_flanger_bound : forall sr h a lo hi f x B, usual sr -> (h < 2 ^ 64)%N -> 0 <= lo <= hi ->
  flanger Rnum_ops sr h a lo hi f = Some x -> forall l k, stream 1 l -> (forall j, Rabs (sample_of l j) <= B) -> (k < length l)%nat ->
  exists y, nth k (fx_outputs x l) [] = [y] /\ Rabs y <= 9 / 4 * B + 5 / 4.
Proof. exact flanger_bound. Qed.
Print Assumptions C76_flanger_bound.
Example C76_flanger_case : usual 48000 /\ (forall t, 5 / 1000 <= 75 / 10000 + 25 / 10000 * sin t <= 10 / 1000) /\
  (exists x, flanger Rnum_ops 48000 5 (-9 / 10) (5 / 1000) (10 / 1000) (fun t => 75 / 10000 + 25 / 10000 * sin t) = Some x) /\ forall j, Rabs (sample_of [[1]; [1 / 2]; [-1]] j) <= 1.
Proof.
  assert (U : usual 48000). { split; [lra|]. apply IZR_le. discriminate. }
  assert (S : forall t, 5 / 1000 <= 75 / 10000 + 25 / 10000 * sin t <= 10 / 1000) by (intros t; pose proof (SIN_bound t); lra).
  split; [exact U|]. split; [exact S|]. split.
  - destruct (C76_flanger 48000 5 (-9 / 10) (5 / 1000) (10 / 1000) _ U eq_refl ltac:(lra) S) as (x & Hx & _). exists x. exact Hx.
  - intros [|[|[|[|j]]]]; unfold sample_of; cbn [nth]; apply Rabs_le; lra.
Qed.

(* The phaser gives the sum of its input and the amount times s10: the input plus its own last s10 times the amount, through ten allpass filters. Filter i is for a
   delay of m + (i + 1) / 10 samples, where m is the control signal, between 2 and 20. *)
Theorem C76_phaser : forall sr h a f, usual sr -> (h < 2 ^ 64)%N ->
  exists m : nat -> R, (forall k, 2 <= m k <= 20) /\
  forall l, stream 1 l -> exists s : nat -> nat -> R, forall k, (k < length l)%nat ->
    s 0%nat k = sample_of l k + a * before (s 10%nat) k /\
    (forall i, (i < 10)%nat -> allpassed (fun k => m k + (INR i + 1) / 10) (s i) (s (S i)) k) /\
    nth k (fx_outputs (phaser Rnum_ops sr h a f) l) [] = [sample_of l k + a * s 10%nat k].
Proof. exact phaser_equation. Qed.
Print Assumptions C76_phaser.
(* With a steady control signal it is stable if the amount is within -1 ... 1: it amplifies the energy of its input by at most 1 / (1 - g)^2, where g is a bound of the amount. *)
Theorem C76_phaser_stable : forall sr h a c g l, usual sr -> (h < 2 ^ 64)%N -> Rabs a <= g < 1 -> 0 < g -> stream 1 l ->
  energy_of (fx_outputs (phaser Rnum_ops sr h a (fun _ => c)) l) <= energy_of l / ((1 - g) * (1 - g)).
Proof. exact phaser_energy'. Qed.
Print Assumptions C76_phaser_stable.
Example C76_phaser_case : usual 44100 /\ Rabs (- (1 / 2)) <= 1 / 2 < 1 /\ stream 1 [[1]; [0]] /\ energy_of [[1]; [0]] / ((1 - 1 / 2) * (1 - 1 / 2)) = 4.
Proof.
  split; [split; [lra|]; apply IZR_le; discriminate|]. split; [split; [apply Rabs_le|]; lra|]. split; [repeat constructor|]. unfold energy_of, sample_of. cbn [length sum_to nth]. lra.
Qed.
(* REFUTED: that the amount of feedback sets the feedback alone, so that with none of it the phaser still phases, as the flanger does. phaser(0.0, f) passes its input
   unchanged for every f: prelude.rs:2724-2733 multiply the filtered signal by the amount before both the feedback and the output. *)
Theorem C76_phaser_refuted : forall sr h f l, usual sr -> (h < 2 ^ 64)%N -> stream 1 l -> fx_outputs (phaser Rnum_ops sr h 0 f) l = l.
Proof. exact phaser_zero. Qed.
Print Assumptions C76_phaser_refuted.

(* After reset each of them gives what a new one would. *)
Theorem C76_reset : forall sr h l l', usual sr -> (h < 2 ^ 64)%N -> stream 1 l -> stream 1 l' ->
  (forall noise hash64g seed sep var mf x, chorus Rnum_ops sr noise hash64g h seed sep var mf = Some x ->
     fx_outputs (NodeModel.reset R_arith fxR (fst (BufModel.ticks (NodeModel.tick R_arith fxR) x l))) l' = fx_outputs x l') /\
  (forall a lo hi f x, flanger Rnum_ops sr h a lo hi f = Some x ->
     fx_outputs (NodeModel.reset R_arith fxR (fst (BufModel.ticks (NodeModel.tick R_arith fxR) x l))) l' = fx_outputs x l') /\
  (forall a f, let x := phaser Rnum_ops sr h a f in
     fx_outputs (NodeModel.reset R_arith fxR (fst (BufModel.ticks (NodeModel.tick R_arith fxR) x l))) l' = fx_outputs x l').
Proof.
  intros sr h l l' Hs Hh Hl Hl'. split; [|split].
  - intros noise hash64g seed sep var mf x Hx. exact (chorus_resets sr noise hash64g h seed sep var mf x Hx l l' Hl Hl').
  - intros a lo hi f x Hx. exact (flanger_resets sr h a lo hi f x Hx l l' Hl Hl').
  - intros a f. exact (phaser_resets sr h a f Hs Hh l l' Hl Hl').
Qed.
Print Assumptions C76_reset.
Example C76_reset_case : usual 44100 /\ (3 < 2 ^ 64)%N /\ stream 1 [[1]; [2]] /\ stream 1 [[5]].
Proof. split; [split; [lra|]; apply IZR_le; discriminate|]. repeat split; repeat constructor. Qed.
