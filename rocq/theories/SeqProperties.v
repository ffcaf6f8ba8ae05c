(* Properties of the sequencer and its backend. *)
From Coq Require Import Reals Lra QArith SpecFloat Permutation.
From Verif Require Import SeqExamples.
Local Open Scope R_scope.

(* ------------------------------------------------------------------ C13 *)
(* Push events without fades in any order, then play, in blocks of any sizes and single samples. An event adds its next frame to exactly
   the samples k from the one nearest to its start on, with k + 1/2 before its end: it ends at the sample nearest to its end.
   Partial: an event must not end exactly halfway between two samples (see C13_halfway_refuted), and arithmetic is exact. *)
Theorem C13_samples_partial : forall (P U : Type) (at_ : fade -> R -> R) (ops : unit_ops R P U) usr pop,
  (forall f, at_ f 1 = 1) -> seq_unit_laws ops usr -> heap_laws Rnum_ops pop ->
  forall sr replay outs es ps, 0 < sr -> NoDup (map ev_id es) -> Forall (pushable_R ops (mkScore [] 0 sr outs replay)) es ->
  Forall (fun e => ev_in e <= 0 /\ ev_out e <= 0 /\ match ev_end e with Some x => forall j : Z, x * sr <> IZR j + 1 / 2 | None => True end) es ->
  plays_ok outs ps ->
  exists s', run Rnum_ops at_ ops usr pop (seq_new Rnum_ops sr replay outs) (map CPush es ++ ps) =
    Some (s', map (fun k => map (fun c => sum (map (fun e => part at_ ops usr sr e k c) es)) (seq 0 outs)) (seq 0 (total ps))).
Proof.
  intros P U at_ ops usr pop A1 L Hp sr replay outs es ps Hsr N Hpu Hes Hps. apply (samples_of_events at_ ops usr pop A1 L Hp); auto.
  apply Forall_forall. intros e He. rewrite Forall_forall in Hes. destruct (Hes e He) as (H1 & H2 & H3). replace 0 with (0 / sr) by (field; lra). now apply (plain_fair sr e ps Hsr H1 H2 H3 0%Z).
Qed.
Print Assumptions C13_samples_partial.
Example C13_samples_case : seq_unit_laws Rops Rrate /\ heap_laws Rnum_ops (@pop_min R R Rnum_ops) /\ (forall f, R_at f 1 = 1) /\
  let es := [mkEv 1 (3 / 8) (Some (6 / 8)) Smooth 0 0 1%N; mkEv 1 (1 / 32) None Smooth 0 0 2%N] : list (event R R) in let ps := [CBlock 5 Rbuf; CTick; CBlock 64 Rbuf] in
  NoDup (map ev_id es) /\ Forall (pushable_R Rops (mkScore [] 0 8 1 true)) es /\
  Forall (fun e => ev_in e <= 0 /\ ev_out e <= 0 /\ match ev_end e with Some x => forall j : Z, x * 8 <> IZR j + 1 / 2 | None => True end) es /\ @plays_ok R 1 ps.
Proof.
  split; [exact const_seq_laws|]. split; [exact (Rpop_laws R)|]. split; [exact R_at_one|]. cbn -[plays_ok]. split; [|split; [|split]].
  - repeat constructor; cbn; intuition congruence.
  - repeat constructor; cbn; lra.
  - constructor; [|constructor; [cbn; lra|constructor]]. cbn. split; [lra|]. split; [lra|]. intros j H. assert (X : IZR 11 = 2 * IZR j) by lra. apply half_grid in X. lia.
  - constructor; [split; [unfold MAXB; lia|exact Rbuf_ok]|]. constructor; [exact I|]. constructor; [split; [unfold MAXB; lia|exact Rbuf_ok]|constructor].
Qed.

(* Sample by sample, the same holds for all events, with fades and whatever their times. *)
Theorem C13_ticks_partial : forall (P U : Type) (at_ : fade -> R -> R) (ops : unit_ops R P U) usr pop,
  (forall f, at_ f 1 = 1) -> seq_unit_laws ops usr -> heap_laws Rnum_ops pop ->
  forall sr replay outs es n, 0 < sr -> NoDup (map ev_id es) -> Forall (pushable_R ops (mkScore [] 0 sr outs replay)) es ->
  exists s', run Rnum_ops at_ ops usr pop (seq_new Rnum_ops sr replay outs) (map CPush es ++ repeat CTick n) =
    Some (s', map (fun k => map (fun c => sum (map (fun e => part at_ ops usr sr e k c) es)) (seq 0 outs)) (seq 0 n)).
Proof.
  intros P U at_ ops usr pop A1 L Hp sr replay outs es n Hsr N Hpu. replace (seq 0 n) with (seq 0 (total (U := U) (repeat CTick n))) by now rewrite total_ticks. apply (samples_of_events at_ ops usr pop A1 L Hp); auto.
  - apply Forall_forall. intros c Hc. apply repeat_spec in Hc. now subst.
  - apply Forall_forall. intros e He. apply ticks_fair. apply Forall_forall. intros c Hc. apply repeat_spec in Hc. now subst.
Qed.
Print Assumptions C13_ticks_partial.

(* An event that ends halfway between two samples plays one sample longer in a block. *)
Theorem C13_halfway_refuted : exists e : event Q Q,
  outs (Qrun (CPush e :: repeat CTick 3)) = Some [1; 0; 0]%Q /\ outs (Qrun [CPush e; CBlock 3 Qbuf]) = Some [1; 1; 0]%Q.
Proof. exists tie. exact (conj tie_ticks tie_block). Qed.
Print Assumptions C13_halfway_refuted.

(* ------------------------------------------------------------------ C14 *)
(* For every kind of numbers and units, and every history of calls that pushes distinct events: no event is in two groups, or twice in
   one; the lookup of active events gives the place of each and of no other; there are no events but those pushed, and if past events are
   kept for replay, all of them are there. *)
Theorem C14_one_group : forall (F P U : Type) (nm : num F) at_ (ops : unit_ops F P U) usr pop, heap_laws nm pop ->
  forall sr replay n cs s o, NoDup (pushed cs) -> run nm at_ ops usr pop (seq_new nm sr replay n) cs = Some (s, o) ->
  NoDup (all_ids s) /\ (forall id i, lookup (q_map s) id = Some i <-> nth_error (ids (q_active s)) i = Some id) /\
  incl (all_ids s) (pushed cs) /\ (replay = true -> Permutation (all_ids s) (pushed cs)).
Proof.
  intros F P U nm at_ ops usr pop Hp sr replay n cs s o N H.
  destruct (run_groups nm at_ ops usr pop Hp cs (seq_new nm sr replay n) s o (new_groups nm sr replay n) N (fun _ _ X => X) H) as ([A B] & _ & C & D).
  split; [exact A|]. split; [exact B|]. split; [exact C|exact D].
Qed.
Print Assumptions C14_one_group.
Example C14_one_group_case : heap_laws Qnum_ops (@pop_min Q Q Qnum_ops) /\
  let cs := [CPush short; CPush (Qev 1%Q 0%Q None 0%Q 0%Q 8%N); CPush (Qev 1%Q 2%Q None 0%Q 0%Q 9%N); CBlock 4 Qbuf; CTick] in
  NoDup (pushed cs) /\ option_map (fun r => let s := fst r in (ids (q_ready s), ids (q_active s), ids (q_past s))) (Qrun cs) = Some ([9%N], [8%N], [7%N]).
Proof. split; [apply Qpop_laws|]. split; [repeat constructor; cbn; intuition congruence|vm_compute; reflexivity]. Qed.

(* When events leave: each call keeps every event and adds what it pushes, except that the events which are past already are dropped when
   playing, and all are dropped by a reset, unless events are replayed. *)
Theorem C14_leaving : forall (F P U : Type) (nm : num F) at_ (ops : unit_ops F P U) usr pop, heap_laws nm pop ->
  forall sr replay n cs c s s' o o', NoDup (pushed (cs ++ [c])) -> run nm at_ ops usr pop (seq_new nm sr replay n) cs = Some (s, o) -> step nm at_ ops usr pop s c = Some (s', o') ->
  Permutation (all_ids s' ++ match c with
                             | CTick | CBlock _ _ => if q_replay s then [] else ids (q_past s)
                             | CReset => if q_replay s then [] else all_ids s
                             | _ => []
                             end) (pushed [c] ++ all_ids s).
Proof.
  intros F P U nm at_ ops usr pop Hp sr replay n cs c s s' o o' N H H'. unfold pushed in N. rewrite flat_map_app in N. fold (pushed cs) in N. change (flat_map _ [c]) with (pushed [c]) in N.
  destruct (run_groups nm at_ ops usr pop Hp cs (seq_new nm sr replay n) s o (new_groups nm sr replay n) (nodup_l _ _ N) (fun _ _ X => X) H) as (T & _ & C & _).
  destruct (step_groups nm at_ ops usr pop Hp s s' c o' T) as (_ & _ & D); [|exact H'|exact D]. apply fresh_ok. intros x Hx X. apply C in X. cbn in X. exact (nodup_disjoint _ _ x N X Hx).
Qed.
Print Assumptions C14_leaving.

(* An edit never panics, and it changes its event and no other: an active one at once, a waiting one when it becomes active.
   Partial: an edit that moves the end of a waiting event to the past is ignored (see C16_past_end_refuted). *)
Theorem C14_edit_reaches_partial : forall (F P U : Type) (nm : num F) at_ (ops : unit_ops F P U) usr pop, heap_laws nm pop ->
  forall sr replay n cs s o id t fo, NoDup (pushed cs) -> run nm at_ ops usr pop (seq_new nm sr replay n) cs = Some (s, o) ->
  seq_edit nm s id t fo <> None /\
  (In id (ids (q_active s)) \/ In id (ids (q_ready s)) /\ end_below nm t (q_thr s) = false ->
   exists s', seq_edit nm s id t fo = Some s' /\ heard s' = map (change_end id t fo) (heard s)).
Proof.
  intros F P U nm at_ ops usr pop Hp sr replay n cs s o id t fo N H.
  destruct (run_groups nm at_ ops usr pop Hp cs (seq_new nm sr replay n) s o (new_groups nm sr replay n) N (fun _ _ X => X) H) as (T & _).
  split; [exact (edit_total nm s id t fo T)|exact (edit_reaches nm s id t fo T)].
Qed.
Print Assumptions C14_edit_reaches_partial.

(* Playing a sample never panics. *)
Theorem C14_tick_total : forall (F P U : Type) (nm : num F) at_ (ops : unit_ops F P U) usr pop, heap_laws nm pop ->
  forall sr replay n cs s o, NoDup (pushed cs) -> run nm at_ ops usr pop (seq_new nm sr replay n) cs = Some (s, o) -> seq_tick nm at_ ops pop s <> None.
Proof.
  intros F P U nm at_ ops usr pop Hp sr replay n cs s o N H.
  destruct (run_groups nm at_ ops usr pop Hp cs (seq_new nm sr replay n) s o (new_groups nm sr replay n) N (fun _ _ X => X) H) as (T & _). exact (tick_total nm at_ ops pop Hp s T).
Qed.
Print Assumptions C14_tick_total.

(* ------------------------------------------------------------------ C15 *)
(* For every history of pushes, edits, samples, blocks, resets and changes of the sample rate, the output is that of the score, in which
   the weights of a sample are functions of the sample's time.
   Partial: a block must be fair to its events: the fade in ends, and the fade out starts, at a sample or outside of the block, an event
   with a fade that ends or starts in the block has started before it, and no event ends halfway between two samples. The three theorems
   below show what happens otherwise. Arithmetic is exact. *)
Theorem C15_history_partial : forall (P U : Type) (at_ : fade -> R -> R) (ops : unit_ops R P U) usr pop,
  (forall f, at_ f 1 = 1) -> seq_unit_laws ops usr -> heap_laws Rnum_ops pop ->
  forall sr replay outs cs, 0 < sr -> all_allowed at_ ops usr (mkScore [] 0 sr outs replay) cs ->
  exists s', run Rnum_ops at_ ops usr pop (seq_new Rnum_ops sr replay outs) cs = Some (s', snd (sc_run at_ ops usr (mkScore [] 0 sr outs replay) cs)).
Proof.
  intros P U at_ ops usr pop A1 L Hp sr replay outs cs Hsr Ha. destruct (run_follows at_ ops usr pop A1 L Hp cs _ _ (new_follows ops sr replay outs Hsr) Ha) as (s' & E & _). exists s'. exact E.
Qed.
Print Assumptions C15_history_partial.
Example C15_history_case : seq_unit_laws Rops Rrate /\ heap_laws Rnum_ops (@pop_min R R Rnum_ops) /\ (forall f, R_at f 1 = 1) /\ all_allowed R_at Rops Rrate score0 history.
Proof. exact (conj const_seq_laws (conj (Rpop_laws R) (conj R_at_one (proj1 history_ok)))). Qed.

(* The weights are in [0, 1] at every sample an event covers.
   Partial: an event may cover a sample up to half a sample before its start; the weight is negative there (C15_negative_refuted). *)
Theorem C15_weights_partial : forall (U : Type) sd (e : event R U) T, 0 < sd -> covers sd e T -> ev_start e <= T ->
  0 <= weight_in R_at e T <= 1 /\ 0 <= weight_out R_at e T <= 1.
Proof. intros U sd e T. apply weights_01. intros [|] p H; [now apply power_01|now apply smooth5_01]. Qed.
Print Assumptions C15_weights_partial.
Example C15_weights_case : covers (1 / 8) ev_a (1 / 8) /\ ev_start ev_a <= 1 / 8.
Proof. unfold covers. cbn. lra. Qed.

(* An event that starts and ends its fade in inside one block is amplified there: the fade goes on past its end. *)
Theorem C15_fade_in_refuted : exists e : event Q Q,
  outs (Qrun (CPush e :: repeat CTick 6)) = Some [0; 0; 0; 1 # 2; 1; 1]%Q /\ outs (Qrun [CPush e; CBlock 6 Qbuf]) = Some [0; 0; 0; 1 # 2; 1; 27 # 8]%Q.
Proof. exists late_in. exact (conj late_in_ticks late_in_block). Qed.
Print Assumptions C15_fade_in_refuted.
(* An event that starts and fades out inside one block fades out too late. *)
Theorem C15_fade_out_refuted : exists e : event Q Q,
  outs (Qrun (CPush e :: repeat CTick 8)) = Some [0; 0; 1; 1; 1; 1 # 2; 0; 0]%Q /\ outs (Qrun [CPush e; CBlock 8 Qbuf]) = Some [0; 0; 1; 1; 1; 1; 0; 0]%Q.
Proof. exists late_out. exact (conj late_out_ticks late_out_block). Qed.
Print Assumptions C15_fade_out_refuted.
(* A fade in from a time between two samples may start with a negative weight. *)
Theorem C15_negative_refuted : exists e : event Q Q, outs (Qrun (CPush e :: repeat CTick 3)) = Some [0; 0; -1403 # 524288]%Q.
Proof. exists between. exact between_ticks. Qed.
Print Assumptions C15_negative_refuted.
(* In f64 there is an event that plays sample by sample, and panics in a block. *)
Theorem C15_panic_refuted : exists e, f64_run (CPush e :: repeat CTick 8) <> None /\ f64_run [CPush e; CBlock 8 f64_buf] = None.
Proof. exists f64_event. split; [vm_compute; discriminate|vm_compute; reflexivity]. Qed.
Print Assumptions C15_panic_refuted.

(* ------------------------------------------------------------------ C16 *)
(* After any history, an edit of an event that has not ended gives the output of the score in which the event has the new end.
   Partial: the new end of an event that has not started is not before the current sample, and blocks are fair, as in C15. *)
Theorem C16_edit_partial : forall (P U : Type) (at_ : fade -> R -> R) (ops : unit_ops R P U) usr pop,
  (forall f, at_ f 1 = 1) -> seq_unit_laws ops usr -> heap_laws Rnum_ops pop ->
  forall sr replay outs cs id t fo ps, 0 < sr ->
  let p := fst (sc_run at_ ops usr (mkScore [] 0 sr outs replay) cs) in let p' := with_events p (map (change_end id t fo) (sc_events p)) in
  all_allowed at_ ops usr (mkScore [] 0 sr outs replay) cs -> editable p id t -> all_allowed at_ ops usr p' ps ->
  exists s', run Rnum_ops at_ ops usr pop (seq_new Rnum_ops sr replay outs) (cs ++ CEdit id t fo :: ps) =
    Some (s', snd (sc_run at_ ops usr (mkScore [] 0 sr outs replay) cs) ++ snd (sc_run at_ ops usr p' ps)).
Proof.
  intros P U at_ ops usr pop A1 L Hp sr replay outs cs id t fo ps Hsr p p' Ha He Hps.
  destruct (run_follows at_ ops usr pop A1 L Hp (cs ++ CEdit id t fo :: ps) _ _ (new_follows ops sr replay outs Hsr)) as (s' & E & _).
  - apply allowed_app; [exact Ha|]. fold p. split; [exact He|exact Hps].
  - exists s'. rewrite E, sc_run_app. subst p' p. destruct (sc_run at_ ops usr (mkScore [] 0 sr outs replay) cs) as [p1 o1]. cbn [fst snd sc_run sc_step]. destruct (sc_run at_ ops usr _ ps) as [p2 o2]. reflexivity.
Qed.
Print Assumptions C16_edit_partial.
Example C16_edit_case : all_allowed R_at Rops Rrate score0 history /\
  let p := fst (sc_run R_at Rops Rrate score0 history) in
  editable p 3 (Some (7 / 8)) /\ all_allowed R_at Rops Rrate (with_events p (map (change_end 3%N (Some (7 / 8)) 0) (sc_events p))) [CBlock 4 Rbuf; CReset].
Proof. exact history_ok. Qed.

(* An edit that moves the end of an event that has not started to the past is ignored: the event plays in full. *)
Theorem C16_past_end_refuted : exists e : event Q Q, ev_id e = 7%N /\
  outs (Qrun (CPush e :: repeat CTick 4 ++ CEdit 7%N (Some (1 # 8)) 0%Q :: repeat CTick 4)) = Some [0; 0; 0; 0; 0; 0; 1; 1]%Q.
Proof. exists waiting. exact (conj eq_refl waiting_edited). Qed.
Print Assumptions C16_past_end_refuted.
(* An edit after the end of an event revives it if the event ended within the last block. *)
Theorem C16_revived_refuted : exists e : event Q Q, ev_id e = 7%N /\
  outs (Qrun [CPush e; CBlock 4 Qbuf; CEdit 7%N (Some 1%Q) 0%Q; CTick]) = Some [1; 1; 0; 0; 1]%Q /\
  outs (Qrun (CPush e :: repeat CTick 4 ++ [CEdit 7%N (Some 1%Q) 0%Q; CTick])) = Some [1; 1; 0; 0; 0]%Q.
Proof. exists short. exact (conj eq_refl (conj revived not_revived)). Qed.
Print Assumptions C16_revived_refuted.

(* ------------------------------------------------------------------ C17 *)
(* However messages batch up, the backend plays what a sequencer plays that is given the messages one by one.
   Partial: in each batch, nothing follows a reset but resets. *)
Theorem C17_messages_partial : forall (F P U : Type) (nm : num F) at_ (ops : unit_ops F P U) pop bs s, Forall (fun b => tidy (fst b)) bs ->
  option_map snd (backend nm at_ ops pop bs s) = option_map snd (in_order nm at_ ops pop bs s).
Proof. intros F P U nm at_ ops pop bs s H. exact (backend_in_order nm at_ ops pop bs H s s eq_refl). Qed.
Print Assumptions C17_messages_partial.
Example C17_messages_case : let bs := [([MPush short; MPush late_in; MEdit 7%N None 0%Q; MReset], PTick); ([MPush late_in], PReset); ([], PTick); ([MPush tie], PBlock 3 Qbuf)] in
  Forall (fun b => tidy (fst b)) bs /\ Qplays (backend Qnum_ops Q_at Qops (pop_min Qnum_ops) bs Qseq) <> None.
Proof. split; [repeat constructor|vm_compute; discriminate]. Qed.

(* A push that follows a reset in the same batch is undone by the reset. *)
Theorem C17_reset_refuted : exists e : event Q Q,
  Qplays (backend Qnum_ops Q_at Qops (pop_min Qnum_ops) [([MReset; MPush e], PTick)] Qseq) = Some [[[0%Q]]] /\
  Qplays (in_order Qnum_ops Q_at Qops (pop_min Qnum_ops) [([MReset; MPush e], PTick)] Qseq) = Some [[[1%Q]]].
Proof. exists short. exact (conj reset_push_batch reset_push_in_order). Qed.
Print Assumptions C17_reset_refuted.
