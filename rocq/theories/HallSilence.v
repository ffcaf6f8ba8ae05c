(* Proofs that what has a bounded energy falls silent, and that a tap that moves fast enough repeats itself. *)
From Coq Require Import Reals Lra Lia.
From Verif Require Import Base BufProofs HadamardProofs DelaySpec DelayProofs DelayReals RevProofs RevGraph RevStereo RevLoop HallTap HallProofs.
From Verif Require Import HallSpec.
Local Open Scope R_scope.
Local Notation energy := HadamardSpec.energy.

Section Silence.
  Context {P U : Type}.
  Variable ops : unit_ops R P U.
  Notation out := (outputs R_arith ops).
  Lemma outputs_app x l m : exists y, out x (l ++ m) = out x l ++ out y m.
  Proof. revert x. induction l as [|i l IH]; intros x; [exists x; reflexivity|]. cbn [app]. rewrite !outputs_cons. destruct (IH (fst (tick R_arith ops x i))) as [y E]. exists y. rewrite E. reflexivity. Qed.
  Lemma outputs_prefix x l m : firstn (length l) (out x (l ++ m)) = out x l.
  Proof. destruct (outputs_app x l m) as [y ->]. rewrite <- (outputs_length ops x l) at 1. rewrite firstn_app, Nat.sub_diag, firstn_all. cbn. apply app_nil_r. Qed.
  Lemma total_app a b : total (a ++ b) = total a + total b.
  Proof. unfold total. rewrite weighted_app, pow1. ring. Qed.
  Notation zeros x n := (repeat (repeat 0 (ins ops x)) n).
  Definition played (x : node R U) (l : list (list R)) (n : nat) : R := total (out x (l ++ zeros x n)).
  Lemma played_tail x l n m : played x l (n + m) = played x l n + total (tail_after ops x l n m).
  Proof.
    unfold played, tail_after. set (o := out x (l ++ zeros x (n + m))). rewrite <- (firstn_skipn (length l + n) o) at 1. rewrite total_app. f_equal. f_equal. unfold o.
    rewrite repeat_app, app_assoc. replace (length l + n)%nat with (length (l ++ zeros x n)) by (rewrite app_length, repeat_length; reflexivity). apply outputs_prefix.
  Qed.
  Lemma zeros_stream x l n : stream (ins ops x) l -> stream (ins ops x) (l ++ zeros x n).
  Proof. intros L. apply Forall_app. split; [exact L|]. apply Forall_forall. intros i Hi. apply repeat_spec in Hi. subst i. apply repeat_length. Qed.
  Lemma falls_silent g x l d : energy_gain ops 1 g x -> stream (ins ops x) l -> 0 < d -> exists N, forall n m, (N <= n)%nat -> total (tail_after ops x l n m) <= d.
  Proof.
    intros G L Hd. assert (Gr : Un_growing (played x l)).
    { intros n. replace (S n) with (n + 1)%nat by lia. rewrite played_tail. pose proof (weighted_nonneg 1 (tail_after ops x l n 1)) as W. unfold total. lra. }
    assert (Ub : has_ub (played x l)).
    { exists (g * total l). intros v [n ->]. unfold played. pose proof (G (l ++ zeros x n) (zeros_stream x l n L)) as Q. fold (total (l ++ zeros x n)) in Q. rewrite total_app in Q. unfold total in *. rewrite weighted_zeros in Q. lra. }
    destruct (growing_cv _ Gr Ub) as [v Hv]. destruct (Hv d Hd) as [N HN]. exists N. intros n m Hn. pose proof (HN n Hn) as A. unfold R_dist in A. pose proof (growing_ineq _ v Gr Hv (n + m)%nat) as B. rewrite played_tail in B.
    unfold Rabs in A. destruct (Rcase_abs _) in A; lra.
  Qed.
End Silence.

(* a delay that rises by one sample per sample *)
Section Runaway.
  Variable N : nat.
  Notation L := (linear_length Rnum_ops 1 (INR N)).
  Lemma runaway n : forall k s, (k + n <= N)%nat -> holds 0 L (l_buf s) (l_i s) (repeat 0 k ++ [1]) ->
    total (snd (ticks (linear_tick Rnum_ops 0 (INR N) 1) s (map (fun j => [0; INR j]) (seq (S k) n)))) = INR n.
  Proof.
    induction n as [|n IH]; intros k s Hk H; [reflexivity|]. cbn [seq map ticks].
    pose proof (tap_tick_is 1 0 (INR N) ltac:(lra) ltac:(pose proof (pos_INR N); lra) s _ 0 (INR (S k)) H) as T. destruct (linear_tick _ _ _ _ s _) as [s1 o]. destruct T as [T1 T2].
    specialize (IH (S k) s1 ltac:(lia) T1). destruct (ticks _ s1 _) as [s2 os]. cbn [snd] in *. unfold total in *. cbn [weighted]. rewrite IH, T2.
    assert (C : clamp Rnum_ops 0 (INR N) (INR (S k)) * 1 = INR (S k)).
    { unfold clamp. cbn [nmin nmax Rnum_ops]. rewrite Rmax_left by apply pos_INR. rewrite Rmin_left by (apply le_INR; lia). ring. }
    rewrite C. assert (Ip : Int_part (INR (S k)) = Z.of_nat (S k)).
    { rewrite INR_IZR_INZ. apply Z.le_antisymm; [apply Z.lt_succ_r, Int_part_lt; unfold Z.succ; rewrite plus_IZR; lra|apply Int_part_ge; lra]. }
    rewrite Ip, <- INR_IZR_INZ, Rminus_diag_eq by reflexivity. rewrite Nat2Z.id. replace (S k + 1)%nat with (S (S k)) by lia. cbn [nth]. 
    replace (nth k (repeat 0 k ++ [1]) 0) with 1 by (rewrite app_nth2; rewrite repeat_length; [now rewrite Nat.sub_diag|lia]).
    replace (nth (S k) (repeat 0 k ++ [1]) 0) with 0 by (rewrite nth_overflow; [reflexivity|rewrite app_length, repeat_length; cbn; lia]).
    replace (lerp Rnum_ops 1 0 0) with 1 by (unfold lerp; cbn; ring). cbn [HadamardSpec.energy]. rewrite S_INR. ring.
  Qed.
  Lemma runaway_energy : total (tapped 1 0 (INR N) (1 :: repeat 0 N) (map INR (seq 0 (S N)))) = INR (S N) /\ energy (1 :: repeat 0 N) = 1.
  Proof.
    split; [|cbn; rewrite energy_zeros; ring]. unfold tapped. cbn [seq map zipw]. replace (zipw _ (repeat 0 N) (map INR (seq 1 N))) with (map (fun j => [0; INR j]) (seq 1 N)).
    2: { generalize 1%nat. induction N as [|n IH]; intros q; [reflexivity|]. cbn [seq map repeat zipw]. now rewrite IH. }
    cbn [ticks]. pose proof (tap_tick_is 1 0 (INR N) ltac:(lra) ltac:(pose proof (pos_INR N); lra) (line_new 0 L) [] 1 0 (holds_new 0 L ltac:(apply next_pow2_pos))) as T.
    change (INR 0) with 0. destruct (linear_tick _ _ _ _ _ _) as [s1 o]. destruct T as [T1 T2]. pose proof (runaway N 0 s1 ltac:(lia) T1) as Q. destruct (ticks _ s1 _) as [s2 os]. cbn [snd] in *. unfold total in *. cbn [weighted]. rewrite Q, T2.
    assert (C : clamp Rnum_ops 0 (INR N) 0 * 1 = 0) by (unfold clamp; cbn [nmin nmax Rnum_ops]; rewrite Rmax_left by lra; rewrite Rmin_left by apply pos_INR; ring). rewrite C.
    assert (Ip : Int_part 0 = 0%Z) by (apply Z.le_antisymm; [apply Z.lt_succ_r, Int_part_lt; cbn; lra|apply Int_part_ge; lra]). rewrite Ip. cbn [Z.to_nat Nat.add nth HadamardSpec.energy].
    replace (lerp Rnum_ops 1 0 (0 - IZR 0)) with 1 by (unfold lerp; cbn; ring). rewrite S_INR. ring.
  Qed.
End Runaway.
