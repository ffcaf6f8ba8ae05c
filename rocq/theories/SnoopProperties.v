(* C40 and C41. *)
From Verif Require Import SnoopExamples.

(* ------------------------------------------------------------------ C40 *)
(* After an update the frontend shows exactly the finished blocks of 64 samples of everything that passed the backend, in order, the
   latest sample at index 0 and zeros before the first; for every cutting into ticks and blocks and every polling that leaves room in the
   channel. Missing: the unfinished block, blocks that found the channel full (C40_unfinished_refuted, C40_overflow_refuted). *)
Theorem C40_latest_partial : forall (A : Type) (zero : A) capacity (es : list (snoop_event A)), Forall proper es -> ~ In Reset es ->
  (forall n, length (s_chan (snoop_run zero (firstn n es) (snoop_new zero capacity))) < CHANNEL) ->
  shows zero (s_front (snoop_run zero (es ++ [Update]) (snoop_new zero capacity))) (firstn (64 * (length (stream es) / 64)) (stream es)).
Proof. intros A zero capacity es. exact (latest zero capacity es). Qed.
Print Assumptions C40_latest_partial.
Example C40_latest_case : Forall proper some_events /\ ~ In Reset some_events /\ shows 0 (s_front (snoop_run 0 (some_events ++ [Update]) (snoop_new 0 5))) (firstn (64 * (length (stream some_events) / 64)) (stream some_events)).
Proof. destruct C40_case as (A & B & C & _). split; [exact A|]. split; [exact B|]. exact (C40_latest_partial nat 0 5 some_events A B C). Qed.

(* In every run the frontend shows exactly what was delivered: finished blocks, unless the channel was full; a reset discards the
   unfinished block. *)
Theorem C40_history : forall (A : Type) (zero : A) capacity (es : list (snoop_event A)), Forall proper es ->
  shows zero (s_front (snoop_run zero es (snoop_new zero capacity))) (delivered es) /\
  exists k, length (f_latest (s_front (snoop_run zero es (snoop_new zero capacity)))) = 2 ^ k /\ capacity <= 2 ^ k.
Proof.
  intros A zero capacity es P. split; [exact (history zero capacity es P)|]. exists (Nat.log2_up capacity). split; [exact (latest_length zero capacity es P)|].
  destruct (le_lt_dec capacity 1) as [H|H]; [|now apply Nat.log2_up_spec]. pose proof (Nat.pow_nonzero 2 (Nat.log2_up capacity)). lia.
Qed.
Print Assumptions C40_history.
Example C40_history_case : Forall proper (map Tick (seq 0 70) ++ [Reset] ++ map Tick (seq 70 70) ++ [Update]) /\ delivered (map Tick (seq 0 70) ++ [Reset] ++ map Tick (seq 70 70) ++ [Update]) = seq 0 64 ++ seq 70 64.
Proof. split; [repeat constructor|exact C40_reset_case]. Qed.

(* The backend passes its input through unchanged. *)
Theorem C40_passes_through : forall (A : Type) (zero : A) (s : snoop), (forall x, snd (snoop_tick zero s [x]) = [x]) /\
  forall size inb out, size <= MAXB -> shaped 1 inb -> shaped 1 out -> frames zero (snd (snoop_process zero s size inb out)) size = frames zero inb size.
Proof. intros A zero s. exact (passes_thru zero s). Qed.
Print Assumptions C40_passes_through.
Example C40_passes_through_case : frames 0 (snd (snoop_process 0 (snoop_new 0 5) 3 [seq 7 64] [repeat 1 64])) 3 = [[7]; [8]; [9]].
Proof. vm_compute. reflexivity. Qed.

(* The latest samples, up to 63, are not shown: *)
Theorem C40_unfinished_refuted : ~ (forall (es : list (snoop_event nat)), Forall proper es -> ~ In Reset es -> length (stream es) < 64 ->
  shows 0 (s_front (snoop_run 0 (es ++ [Update]) (snoop_new 0 64))) (stream es)).
Proof. intros H. destruct (H [Tick 1]) as [T _]; [repeat constructor|intros [X|[]]; discriminate|cbn; lia|]. vm_compute in T. discriminate. Qed.
Print Assumptions C40_unfinished_refuted.
(* and with 1024 blocks unread, a finished block is lost. *)
Theorem C40_overflow_refuted : forall capacity, ~ (forall es : list (snoop_event nat), Forall proper es -> ~ In Reset es ->
  shows 0 (s_front (snoop_run 0 (es ++ [Update]) (snoop_new 0 capacity))) (firstn (64 * (length (stream es) / 64)) (stream es))).
Proof. exact overflow. Qed.
Print Assumptions C40_overflow_refuted.

(* ------------------------------------------------------------------ C41 *)
(* Number the frames the sender accepts. Each tick plays the next one, in order, exactly once each, or zeros if there is none, and a frame
   is accepted exactly when fewer than capacity frames wait. *)
Theorem C41_fifo : forall (X : Type) (zero : X) capacity (es : list (ring_event X)),
  let '(_, outputs, answers) := ring_run zero capacity es ring_new in (outputs, answers) = fifo zero capacity es [] 0.
Proof. intros X zero capacity es. exact (ring_fifo zero capacity es [] 0 (le_n 0)). Qed.
Print Assumptions C41_fifo.
Example C41_fifo_case : fifo 0 2 [Play; Send 1; Send 2; Send 3; Play; Send 4; Play; Play; Play] [] 0 = ([0; 1; 2; 4; 0], [true; true; false; true]).
Proof. vm_compute. reflexivity. Qed.
