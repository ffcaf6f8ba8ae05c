(* Exact arithmetic: Join and MultiBus agree in both modes; example leaves meet the unit laws. *)
From Verif Require Export NodeArith NodeLaws NodeAddr UnitProofs.
From Coq Require Import Reals Lra SpecFloat.

Lemma demo_laws : unit_laws 0%Z demo_ops.
Proof.
  constructor.
  - intros [] i; reflexivity.
  - intros [] i; reflexivity.
  - intros [] i _; reflexivity.
  - intros u. apply (default_process_contract 0%Z demo_tick 1 (u_ins demo_ops u) (fun y => u_ins demo_ops y = u_ins demo_ops u)); auto.
    intros [] i Hy _; auto.
Qed.
Lemma delay_laws {A} (zero : A) : unit_laws zero (delay_ops zero).
Proof.
  constructor; auto. intros u. apply (default_process_contract zero (delay_tick zero) 1 1 (fun _ => True)); auto.
Qed.

Open Scope R_scope.
Lemma join_sum_R n l a b : fold_left (fun acc v => acc + v * (1 / INR n)) l (a * (1 / INR n) + b) = fold_left Rplus l a * (1 / INR n) + b.
Proof.
  revert a; induction l as [|v l IH]; intros a; cbn; auto.
  replace (a * (1 / INR n) + b + v * (1 / INR n)) with ((a + v) * (1 / INR n) + b) by ring. apply IH.
Qed.
Lemma join_exact n l : join_block R_arith n l = join_tick R_arith n l.
Proof.
  destruct l as [|a l]; auto. unfold join_block, join_tick. cbn [a_add a_muln a_divn R_arith].
  rewrite <- (Rplus_0_r (a * (1 / INR n))), join_sum_R. unfold Rdiv. ring.
Qed.
Lemma thru_fed_blockable {P U} (ops : unit_ops R P U) x : thru_fed ops x -> blockable R_arith ops x.
Proof.
  assert (HA : forall xs, Forall (fun y => thru_fed ops y -> blockable R_arith ops y) xs -> all (thru_fed ops) xs -> all (blockable R_arith ops) xs).
  { induction 1; cbn; tauto. }
  induction x using node_ind'; cbn; try tauto; auto.
  - intros _ l _. apply join_exact.
  - intros _ l _. apply join_exact.
  - intros Hx. split; [now apply HA|]. intros a. cbn. ring.
Qed.
Lemma fold_repeat n a s : fold_left Rplus (repeat a n) s = s + INR n * a.
Proof. revert s; induction n as [|n IH]; intros s; [cbn; ring|]. cbn [repeat fold_left]. rewrite IH, S_INR. ring. Qed.
Lemma split_join {P U} (ops : unit_ops R P U) n : (1 <= n)%nat -> equiv R_arith ops (Pipe (Split n) (Join n)) Pass.
Proof.
  intros Hn. repeat split; auto. intros l Hl. cbn in Hl. rewrite outputs_Pipe, outputs_Pass.
  rewrite (outputs_stateless R_arith ops (Split n) (fun i => repeat (nth 0 i 0) n)) by reflexivity.
  rewrite (outputs_stateless R_arith ops (Join n) (fun i => [join_tick R_arith n i])) by reflexivity.
  rewrite map_map. rewrite <- (map_id l) at 2. apply (map_stream_ext 1); auto. intros i Hi.
  destruct i as [|a [|]]; try discriminate. cbn [nth]. destruct n as [|n]; [lia|]. cbn [repeat join_tick].
  cbn [a_add a_divn R_arith]. rewrite fold_repeat. f_equal. pose proof (pos_INR n). rewrite S_INR. field. lra.
Qed.
Lemma strided_split m n j (i : list R) : length i = m -> (j < m)%nat ->
  strided R_arith m n j (map (fun c => nth (c mod m) i 0) (seq 0 (m * n))) = repeat (nth j i 0) n.
Proof.
  intros Hi Hj. unfold strided. apply nth_ext with (d := 0) (d' := 0); [rewrite map_length, seq_length, repeat_length; auto|].
  intros k Hk. rewrite map_length, seq_length in Hk. rewrite nth_map_seq by lia. cbn [Nat.add].
  rewrite nth_map_seq by (nia). cbn [Nat.add].
  replace ((j + k * m) mod m)%nat with j by (rewrite Nat.mod_add by lia; symmetry; apply Nat.mod_small; lia).
  generalize n Hk. clear. induction k as [|k IH]; intros [|n] H; cbn; try lia; auto. apply IH. lia.
Qed.
Lemma multisplit_multijoin {P U} (ops : unit_ops R P U) m n : (1 <= n)%nat -> equiv R_arith ops (Pipe (MultiSplit m n) (MultiJoin m n)) (MultiPass m).
Proof.
  intros Hn. repeat split; auto. intros l Hl. cbn in Hl. rewrite outputs_Pipe, outputs_MultiPass.
  rewrite (outputs_stateless R_arith ops (MultiSplit m n) (fun i => map (fun c => nth (c mod m) i 0) (seq 0 (m * n)))) by reflexivity.
  rewrite (outputs_stateless R_arith ops (MultiJoin m n) (fun i => map (fun j => join_tick R_arith n (strided R_arith m n j i)) (seq 0 m))) by reflexivity.
  rewrite map_map. rewrite <- (map_id l) at 2. apply (map_stream_ext m); auto. intros i Hi.
  apply nth_ext with (d := 0) (d' := 0); [now rewrite map_length, seq_length|].
  intros j Hj. rewrite map_length, seq_length in Hj. rewrite nth_map_seq by lia. cbn [Nat.add]. rewrite strided_split by auto.
  destruct n as [|n]; [lia|]. cbn [repeat join_tick]. cbn [a_add a_divn R_arith]. rewrite fold_repeat.
  pose proof (pos_INR n). rewrite S_INR. field. lra.
Qed.
Close Scope R_scope.

(* binary32 witnesses *)
Definition f32s (l : list Z) : list spec_float := map (nofZ f32_ops) l.
Definition block1 (l : list spec_float) : list (list spec_float) := map (fun v => v :: repeat (nofZ f32_ops 0) 63) l.
Lemma block1_shaped l : shaped (length l) (block1 l).
Proof.
  split; [apply map_length|]. unfold block1. apply Forall_forall. intros c Hc. apply in_map_iff in Hc as (v & <- & _). reflexivity.
Qed.
Lemma firstn_inj {X} (l : list X) i j : i < j -> j <= length l -> firstn i l <> firstn j l.
Proof. intros Hi Hj H. apply (f_equal (@length X)) in H. rewrite !firstn_length in H. lia. Qed.
