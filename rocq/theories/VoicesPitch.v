(* The pitches of the voices of pebbles. *)
From Coq Require Import Reals Lra Lia.
From Verif Require Import PebbleProofs DynProofs.
From Verif Require Export VoicesSpec.
Import ListNotations.
Local Open Scope R_scope.

Lemma length_run cs : forall d, length (pebbles_run Rnum_ops d cs) = length cs.
Proof. induction cs as [|c cs IH]; intros d; [reflexivity|]. cbn [pebbles_run]. destruct (pebbles_update Rnum_ops c d) as [w d']. cbn [length]. now rewrite IH. Qed.
Lemma followed_still co x v : (forall n, x n = v) -> forall n, follower co x (S n) = mkFollow v v v co co.
Proof.
  intros H. induction n as [|n IH].
  - cbn [follower]. rewrite H. exact (fo_first co v).
  - change (follower co x (S (S n))) with (fo_tick Rnum_ops (follower co x (S n)) (x (S n))). rewrite IH, H. unfold fo_tick. cbn [fo_coeff_now fo_coeff fo_v1 fo_v2 fo_v3 nsub nadd nmul n0 n1 Rnum_ops]. now (f_equal; cbn; ring).
Qed.
Lemma voices_pitches speed sr co seed m n : (seed < 2 ^ 64)%N -> 0 <= INR m / sr * speed * (1 / 1000) <= 1 ->
  (forall i, (i < 100)%nat -> 0 < pitch speed sr seed m i n) /\ pitch speed sr seed m 0 n = 110 /\ followed co (pitch speed sr seed m 0) n = 110.
Proof.
  intros HS HC.
  assert (W : forall k, Forall (fun f => 0 < f) (written speed sr seed m k) /\ length (written speed sr seed m k) = 100%nat /\ nth 0 (written speed sr seed m k) 0 = 110).
  { intros k. set (c := INR m / sr * speed * (1 / 1000)) in *. apply (pebbles_pitches seed (0 :: repeat c k) k _ HS).
    - constructor; [lra|]. apply Forall_forall. intros y Hy. apply repeat_spec in Hy. subst y. exact HC.
    - unfold written. fold c. apply nth_error_nth'. unfold pebbles. rewrite length_run. cbn [length]. rewrite repeat_length. apply Nat.lt_succ_diag_r. }
  split; [|split].
  - intros i Hi. destruct (W (n / m)%nat) as (A & B & _). unfold pitch. rewrite Forall_forall in A. apply A, nth_In. rewrite B. exact Hi.
  - apply W.
  - unfold followed. rewrite (followed_still co _ 110); [reflexivity|]. intros k. apply W.
Qed.
