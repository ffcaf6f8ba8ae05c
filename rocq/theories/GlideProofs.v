(* How the voices of pebbles glide. *)
From Coq Require Import Reals Lra Lia.
From Verif Require Import PebbleProofs DynProofs VoicesPitch.
From Verif Require Export VoicesSpec.
Import ListNotations.
Local Open Scope R_scope.

Lemma glide_in co x lo hi : 0 <= co <= 1 -> forall n, (forall k, (k <= n)%nat -> lo <= x k <= hi) -> fo_in lo hi (follower co x (S n)) /\ fo_coeff (follower co x (S n)) = co /\ fo_coeff_now (follower co x (S n)) = co.
Proof.
  intros C. induction n as [|n IH]; intros H.
  - cbn [follower]. rewrite fo_first. pose proof (H 0%nat (le_n _)) as A. unfold fo_in. cbn [fo_v1 fo_v2 fo_v3 fo_coeff fo_coeff_now]. repeat split; apply A.
  - destruct IH as (A & B & D); [intros k Hk; apply H; lia|]. change (follower co x (S (S n))) with (fo_tick Rnum_ops (follower co x (S n)) (x (S n))). split; [|split].
    + apply fo_tick_in; [exact A|rewrite D; exact C|apply H, le_n].
    + exact B.
    + exact B.
Qed.
Lemma glide_range co x lo hi n : 0 <= co <= 1 -> (forall k, (k <= n)%nat -> lo <= x k <= hi) -> lo <= followed co x n <= hi.
Proof. intros C H. destruct (glide_in co x lo hi C n H) as (A & _). unfold followed. apply A. Qed.
Lemma least x : (forall k : nat, 0 < x k) -> forall n, exists lo hi, 0 < lo /\ forall k, (k <= n)%nat -> lo <= x k <= hi.
Proof.
  intros H. induction n as [|n (lo & hi & A & B)].
  - exists (x 0%nat), (x 0%nat). split; [apply H|]. intros k Hk. replace k with 0%nat by lia. lra.
  - exists (Rmin lo (x (S n))), (Rmax hi (x (S n))). split; [apply Rmin_glb_lt; [exact A|apply H]|]. intros k Hk. destruct (Nat.eq_dec k (S n)) as [->|N].
    + split; [apply Rmin_r|apply Rmax_r].
    + destruct (B k ltac:(lia)) as [P Q]. split; [eapply Rle_trans; [apply Rmin_l|exact P]|eapply Rle_trans; [exact Q|apply Rmax_l]].
Qed.
Lemma glide_positive co x : 0 <= co <= 1 -> (forall k, 0 < x k) -> forall n, 0 < followed co x n.
Proof. intros C H n. destruct (least x H n) as (lo & hi & A & B). pose proof (glide_range co x lo hi n C B) as D. lra. Qed.
Lemma glide_first co x : followed co x 0 = x 0%nat.
Proof. unfold followed. cbn [follower]. rewrite fo_first. reflexivity. Qed.
Lemma voices_glide speed sr co seed m i n : (seed < 2 ^ 64)%N -> 0 <= INR m / sr * speed * (1 / 1000) <= 1 -> 0 <= co <= 1 -> (i < 100)%nat ->
  let f := followed co (pitch speed sr seed m i) in 0 < f n /\ f 0%nat = pitch speed sr seed m i 0 /\ forall lo hi, (forall k, (k <= n)%nat -> lo <= pitch speed sr seed m i k <= hi) -> lo <= f n <= hi.
Proof.
  intros HS HC C Hi f. split; [|split].
  - apply glide_positive; [exact C|]. intros k. now apply (voices_pitches speed sr co seed m k HS HC).
  - apply glide_first.
  - intros lo hi H. now apply glide_range.
Qed.
