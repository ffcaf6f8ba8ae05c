(* C21 and C25. *)
From Coq Require Import ZArith Lia.
From Verif Require Import AdaptModel AdaptSpec AdaptProofs AdaptExamples.

(* ------------------------------------------------------------------ C21 *)
(* The full statement is false: whatever settings are sent and whenever, the node plays as if none had been sent. *)
Theorem C21_dropped_refuted : forall (A P U : Type) (zero : A) (ops : unit_ops A P U) (u : U) (q : list (setting P)) (es : list event),
  snd (listen_run zero ops (mkListener u q) es) = snd (serve_all zero (u_tick ops) (u_process ops) u (asked es)).
Proof. intros. exact (proj1 (listen_ignores ops zero es (mkListener u q))). Qed.
Print Assumptions C21_dropped_refuted.
(* A node that puts out the value it is set to: set directly, and through the listener. *)
Theorem C21_dial_refuted : snd (u_tick dial_ops (u_set dial_ops 0%Z (mkSetting 6%Z [])) []) = [6%Z] /\
  snd (listen_run 0%Z dial_ops (mkListener 0%Z []) [Sent (mkSetting 6%Z []); Asked (Tick []); Asked (Tick [])]) = [[0%Z]; [0%Z]].
Proof. split; reflexivity. Qed.
Print Assumptions C21_dial_refuted.
(* REFUTED: settings sent before a reset are in force after it. They are taken from the queue by the reset, and they are lost. *)
Theorem C21_reset_refuted : forall (A P U : Type) (ops : unit_ops A P U) (u : U) (q : list (setting P)), listener_reset ops (mkListener u q) = mkListener (u_reset ops u) [].
Proof. intros A P U ops u q. exact (listener_rewound ops u q). Qed.
Print Assumptions C21_reset_refuted.
Example C21_reset_case : snd (u_tick dial_ops (u_reset dial_ops (u_set dial_ops 0%Z (mkSetting 6%Z []))) []) = [6%Z] /\
  snd (listener_tick dial_ops (listener_reset dial_ops (mkListener 0%Z [mkSetting 6%Z []])) []) = [0%Z].
Proof. split; reflexivity. Qed.
(* Partial: up to 64 settings sent between two requests are accepted, in order, and all have been taken from the queue before
   the next output. Missing: that they are applied, which they are not. *)
Theorem C21_received_partial : forall (A P U : Type) (zero : A) (ops : unit_ops A P U) (l : listener P U) (r : request) (ps : list (setting P)),
  let l1 := fst (serve zero (listener_tick ops) (listener_process ops) l r) in
  ls_queue l1 = [] /\ (length ps <= 64 -> let (l2, bs) := sends l1 ps in bs = repeat true (length ps) /\ ls_queue l2 = ps).
Proof.
  intros A P U zero ops l r ps. cbv zeta. pose proof (listen_drains ops zero l r) as D. split; [exact D|]. intros H.
  pose proof (send_ok ps (fst (serve zero (listener_tick ops) (listener_process ops) l r))) as X. rewrite D in X. exact (X H).
Qed.
Print Assumptions C21_received_partial.
Example C21_received_partial_case : snd (sends (fst (serve 0%Z (listener_tick dial_ops) (listener_process dial_ops) (mkListener 0%Z [mkSetting 5%Z []]) (Tick []))) (repeat (mkSetting 6%Z []) 64)) = repeat true 64.
Proof. reflexivity. Qed.

(* ------------------------------------------------------------------ C25 *)
(* process_big: any number of calls, each of any size, with slices that are long enough. None panics, the samples are those of
   ticking the unit through all the calls, and the output beyond the size asked for is left alone. *)
Theorem C25_big : forall (A P U : Type) (zero : A) (ops : unit_ops A P U), unit_laws zero ops -> forall u cs,
  Forall (big_ok (u_ins ops u) (u_outs ops u)) cs -> exists s os, big_calls ops (big_new zero ops u) cs = Some (s, os) /\
  (bg_unit s, concat (zipw (fun c o => frames zero o (fst (fst c))) cs os)) = ticks (u_tick ops) u (concat (map (fun c => frames zero (snd (fst c)) (fst (fst c))) cs)) /\
  Forall2 (fun c o => map (@length A) o = map (@length A) (snd c) /\ forall j, fst (fst c) <= j -> frame zero o j = frame zero (snd c) j) cs os.
Proof.
  intros A P U zero ops Hl u cs Hc. destruct (big_calls_ok zero ops Hl (u_ins ops u) (u_outs ops u) cs (big_new zero ops u)) as (s & os & H1 & _ & _ & H2 & H3); [exact (big_new_ok zero ops u)|exact Hc|].
  exists s, os. split; [exact H1|]. split; [exact H2|exact H3].
Qed.
Print Assumptions C25_big.
Example C25_big_example : unit_laws 0%Z sum_ops /\ Forall (big_ok 1 1) [(70, [repeat 1%Z 70], [repeat 9%Z 71]); (0, [[]], [[]])] /\
  option_map (fun r => (bg_unit (fst r), map (map (skipn 68)) (snd r))) (big_calls sum_ops (big_new 0%Z sum_ops 0%Z) [(70, [repeat 1%Z 70], [repeat 9%Z 71])]) = Some (70%Z, [[[69; 70; 9]%Z]]).
Proof. split; [exact sum_laws|]. split; [repeat constructor; cbn; lia|vm_compute; reflexivity]. Qed.

(* BlockRateAdapter: whatever mix of ticks and blocks asks for n samples, it gives the first n samples of the unit run in blocks of
   64 samples, and it runs no more blocks than it needs. A unit cannot change the shape of the buffer that it is given. *)
Theorem C25_block_rate : forall (A P U : Type) (zero : A) (ops : unit_ops A P U) outs,
  (forall u b, shaped outs b -> shaped outs (snd (u_process ops u MAXB [] b))) ->
  forall u rs, u_outs ops u = outs -> Forall (request_ok 0 outs) rs -> forall s, rated_new zero ops u = Some s ->
  let n := length (concat (map (fed zero) rs)) in
  let '(u', _, samples) := block_stream zero ops ((n + 63) / 64) u (repeat (repeat zero 64) outs) in
  let (s', os) := serve_all zero (rated_tick zero ops) (rated_process ops) s rs in os = firstn n samples /\ rt_unit s' = u'.
Proof.
  intros A P U zero ops outs Hs u rs Ho Hr s E. unfold rated_new in E. destruct (Nat.eqb (u_ins ops u) 0); [|discriminate]. assert (E2 : s = mkRated u (repeat (repeat zero MAXB) (u_outs ops u)) MAXB) by congruence. subst s. rewrite Ho.
  pose proof (rated_requests zero ops outs Hs u (repeat (repeat zero MAXB) outs) rs (blank_shaped zero outs) Hr) as X. cbv zeta in *. change MAXB with 64 in X at 1.
  destruct (block_stream zero ops _ u (repeat (repeat zero 64) outs)) as [[u' b'] l]. destruct (serve_all zero _ _ _ rs). exact X.
Qed.
Print Assumptions C25_block_rate.
(* After a reset it starts again with a new block of the reset unit, whatever was left of the last. *)
Theorem C25_block_rate_reset : forall (A P U : Type) (zero : A) (ops : unit_ops A P U) outs,
  (forall u b, shaped outs b -> shaped outs (snd (u_process ops u MAXB [] b))) ->
  forall (s : rated A U) rs, shaped outs (rt_buf s) -> Forall (request_ok 0 outs) rs ->
  let n := length (concat (map (fed zero) rs)) in
  let '(u', _, samples) := block_stream zero ops ((n + 63) / 64) (u_reset ops (rt_unit s)) (rt_buf s) in
  let (s', os) := serve_all zero (rated_tick zero ops) (rated_process ops) (rated_reset ops s) rs in os = firstn n samples /\ rt_unit s' = u'.
Proof.
  intros A P U zero ops outs Hs s rs Hb Hr. pose proof (rated_requests zero ops outs Hs (u_reset ops (rt_unit s)) (rt_buf s) rs Hb Hr) as X. cbv zeta in *. unfold rated_reset.
  destruct (block_stream zero ops _ (u_reset ops (rt_unit s)) (rt_buf s)) as [[u' b'] l]. destruct (serve_all zero _ _ _ rs). exact X.
Qed.
Print Assumptions C25_block_rate_reset.
(* If blocks of the unit are ticks then the adapter gives what ticks of the unit give. *)
Theorem C25_block_rate_ticks : forall (A P U : Type) (zero : A) (ops : unit_ops A P U), unit_laws zero ops ->
  forall u rs s, (forall v b, shaped (u_outs ops u) b -> shaped (u_outs ops u) (snd (u_process ops v MAXB [] b))) ->
  rated_new zero ops u = Some s -> Forall (request_ok 0 (u_outs ops u)) rs ->
  snd (serve_all zero (rated_tick zero ops) (rated_process ops) s rs) = snd (ticks (u_tick ops) u (concat (map (fed zero) rs))).
Proof. intros. now apply rated_lawful. Qed.
Print Assumptions C25_block_rate_ticks.
(* a counter; a tick, a block that crosses the end of a block of the counter, and another tick *)
Example C25_block_rate_example : unit_laws 0%Z count_ops /\ Forall (request_ok 0 1) [Tick []; Block 64 [] [repeat 9%Z 64]; Tick []] /\ rated_new 0%Z count_ops 0%Z = Some (mkRated 0%Z [repeat 0%Z 64] 64) /\
  map (hd 0%Z) (snd (serve_all 0%Z (rated_tick 0%Z count_ops) (rated_process count_ops) (mkRated 0%Z [repeat 0%Z 64] 64) [Tick []; Block 64 [] [repeat 9%Z 64]; Tick []])) = map Z.of_nat (seq 0 66) /\
  rt_unit (fst (serve_all 0%Z (rated_tick 0%Z count_ops) (rated_process count_ops) (mkRated 0%Z [repeat 0%Z 64] 64) [Tick []; Block 64 [] [repeat 9%Z 64]; Tick []])) = 128%Z.
Proof. split; [exact count_laws|]. split; [repeat constructor; cbn; unfold MAXB; lia|]. split; [reflexivity|]. split; vm_compute; reflexivity. Qed.
Example C25_shape_meets : forall u b, shaped 1 b -> shaped 1 (snd (u_process count_ops u MAXB [] b)).
Proof. exact count_shape. Qed.
