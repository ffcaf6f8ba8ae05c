(* Snoop and ring: cases that meet the hypotheses of SnoopProperties.v, and counterexamples. *)
From Verif Require Export SnoopProofs.

Lemma stream_repeat {A} (b : list A) out n : length b = 64 -> length (stream (repeat (Block 64 [b] out) n)) = 64 * n.
Proof.
  intros L. unfold stream. induction n as [|n IH]; [reflexivity|]. cbn [repeat map concat passing hd]. rewrite app_length, IH, firstn_length. lia.
Qed.
Lemma overflow : forall capacity, ~ (forall es : list (snoop_event nat), Forall proper es -> ~ In Reset es ->
  shows 0 (s_front (snoop_run 0 (es ++ [Update]) (snoop_new 0 capacity))) (firstn (64 * (length (stream es) / 64)) (stream es))).
Proof.
  intros capacity H. pose (b := repeat 0 64). pose (es := repeat (Block 64 [b] []) (S CHANNEL)).
  assert (P : Forall proper es). { unfold es. apply Forall_forall. intros e He. apply repeat_spec in He. subst e. cbn [proper]. split; [apply le_n|]. split; [reflexivity|]. constructor; [reflexivity|constructor]. }
  assert (N : ~ In Reset es). { intros X. unfold es in X. apply repeat_spec in X. discriminate. }
  destruct (H es P N) as [T _]. destruct (history 0 capacity (es ++ [Update])) as [T' _]. { apply Forall_app. split; auto. repeat constructor. }
  rewrite T in T'. unfold delivered in T'. rewrite fold_left_app in T'. unfold es in T' at 3. rewrite blocks_wait in T' by reflexivity. cbn [fold_left deliver d_seen d_waiting d_part app] in T'.
  rewrite (concat_length_uniform 64) in T'. 2: { apply Forall_forall. intros x Hx. apply repeat_spec in Hx. subst x. reflexivity. }
  rewrite repeat_length in T'. assert (L : length (stream es) = 64 * S CHANNEL) by (apply stream_repeat; reflexivity).
  rewrite L in T'. replace (64 * S CHANNEL) with (S CHANNEL * 64) in T' by lia. rewrite Nat.div_mul in T' by lia.
  rewrite firstn_length, L in T'. lia.
Qed.

(* 3 blocks of 25 samples and 3 ticks: the frontend of capacity 5 (8) shows samples 63, 62, ... 56 of 0, 1, ... 77 *)
Definition ramp_block (from : nat) : snoop_event nat := Block 25 [seq from 64] [repeat 0 64].
Definition some_events : list (snoop_event nat) := [ramp_block 0; Update; ramp_block 25; Get; ramp_block 50; Tick 75; Tick 76; Tick 77].
Example C40_case : Forall proper some_events /\ ~ In Reset some_events /\
  (forall n, length (s_chan (snoop_run 0 (firstn n some_events) (snoop_new 0 5))) < CHANNEL) /\
  map (snoop_at (s_front (snoop_run 0 (some_events ++ [Update]) (snoop_new 0 5)))) (seq 0 8) = map Some [63; 62; 61; 60; 59; 58; 57; 56].
Proof.
  repeat apply conj.
  - repeat constructor; unfold MAXB; lia.
  - intros X. repeat (destruct X as [X|X]; [discriminate|]). exact X.
  - assert (B : forall n, n <= 8 -> length (s_chan (snoop_run 0 (firstn n some_events) (snoop_new 0 5))) < 2).
    { intros n Hn. do 9 (destruct n as [|n]; [vm_compute; lia|]). lia. }
    assert (C : 2 < CHANNEL) by (apply Nat.ltb_lt; reflexivity). intros n. destruct (le_lt_dec n 8) as [G|G]; [specialize (B n G); lia|].
    rewrite (firstn_all2 some_events) by (cbn; lia). specialize (B 8 ltac:(lia)). change (firstn 8 some_events) with some_events in B. lia.
  - vm_compute. reflexivity.
Qed.
(* a reset discards the unfinished block *)
Example C40_reset_case : delivered (map Tick (seq 0 70) ++ [Reset] ++ map Tick (seq 70 70) ++ [Update]) = seq 0 64 ++ seq 70 64.
Proof. vm_compute. reflexivity. Qed.
Example C41_case : ring_run 0 2 [Play; Send 1; Send 2; Send 3; Play; Send 4; Play; Play; Play] [] = ([], [0; 1; 2; 4; 0], [true; true; false; true]).
Proof. vm_compute. reflexivity. Qed.
