(* C50: the 2x oversampler. Definitions are in OverModel.v (the code) and OverSpec.v (what it should do). *)
From Coq Require Import Reals Lra.
From Verif Require Import OverProofs.
Local Open Scope R_scope.

(* After reset, whatever the rings held and wherever they were, the enclosed node has been run twice per sample, on the input with zeros inserted and
   filtered with gain 2, and the output is every second sample of its filtered output. *)
Theorem C50_output : forall X w (x_tick : X -> list R -> X * list R) (x_reset : X -> X) (o : over X R) inputs outputs l, let x := x_reset (o_x o) in
  let input := fun t => nth t l [] in over_shape o inputs outputs -> (forall s i, length i = inputs -> length (snd (x_tick s i)) = outputs) -> Forall (fun f => length f = inputs) l ->
  let r := over_run Rnum_ops w x_tick (over_reset Rnum_ops x_reset o) l in
  snd r = map (over_output w x_tick x inputs outputs input) (seq 0 (length l)) /\ o_x (fst r) = node_at w x_tick x inputs input (2 * length l).
Proof. intros X w x_tick x_reset o inputs outputs l x input. exact (oversampled w x_tick x_reset o inputs outputs l). Qed.
Print Assumptions C50_output.
(* The same for a new oversampler. *)
Theorem C50_new : forall X w (x_tick : X -> list R -> X * list R) x inputs outputs l,
  let input := fun t => nth t l [] in (forall s i, length i = inputs -> length (snd (x_tick s i)) = outputs) -> Forall (fun f => length f = inputs) l ->
  let r := over_run Rnum_ops w x_tick (over_new Rnum_ops x inputs outputs) l in
  snd r = map (over_output w x_tick x inputs outputs input) (seq 0 (length l)) /\ o_x (fst r) = node_at w x_tick x inputs input (2 * length l).
Proof. intros X w x_tick x inputs outputs l input. exact (oversampled_new w x_tick x inputs outputs l). Qed.
Print Assumptions C50_new.
(* Every tick keeps the number of channels. *)
Theorem C50_shape : forall X w (x_tick : X -> list R -> X * list R) o inputs outputs f, over_shape o inputs outputs ->
  (forall s i, length i = inputs -> length (snd (x_tick s i)) = outputs) -> length f = inputs -> over_shape (fst (over_tick Rnum_ops w x_tick o f)) inputs outputs.
Proof. exact @over_tick_shape. Qed.
Print Assumptions C50_shape.
(* a node with one input and two outputs and a count of its ticks; rings that hold something else, at an odd position *)
Notation counter := (fun (n : nat) (i : list R) => (S n, [hd 0 i * INR n; 1])).
Example C50_output_case : over_shape (mkOver 5%nat [repeat 7 128] [repeat 8 128; repeat 9 128] 33) 1 2 /\ (forall s i, length i = 1%nat -> length (snd (counter s i)) = 2%nat).
Proof. split; [|reflexivity]. split; [reflexivity|]. split; [reflexivity|]. cbn. repeat constructor. Qed.

(* With the filter of the code, a constant passes through an oversampled pass-through to within 0.11 percent, from sample 42 on. *)
Theorem C50_constant : forall c n t, (42 <= t < n)%nat ->
  exists y, nth t (snd (over_run Rnum_ops halfband_min pass_tick (over_new Rnum_ops tt 1 1) (repeat [c] n))) [] = [y] /\ Rabs (y - c) <= 11 / 10000 * Rabs c.
Proof. exact constant_close. Qed.
Print Assumptions C50_constant.

(* The oversampler reports the response of the enclosed node: for a pass-through, no delay and gain 1 at every frequency, so an impulse should come out
   at once and with its height. Its first sample comes out smaller than a hundred thousandth, whatever follows it. *)
Theorem C50_route_refuted : forall l, Forall (fun f => length f = 1%nat) l -> nth 0 l [] = [1] ->
  exists y, nth 0 (snd (over_run Rnum_ops halfband_min pass_tick (over_new Rnum_ops tt 1 1) l)) [] = [y] /\ Rabs y <= 2 / 10 ^ 6 /\ y <> 1.
Proof. intros l Hl H. destruct (impulse_first l Hl H) as (y & E & Hy). exists y. refine (conj E (conj Hy _)). intros ->. rewrite Rabs_R1 in Hy. lra. Qed.
Print Assumptions C50_route_refuted.
(* The weights are documented as a minimum phase filter, whose energy is at its start. The code applies them in reverse: an impulse reaches the enclosed
   node, here one that records what it is given, with twice the last weight, not with twice the first, which is fifty times larger. *)
Theorem C50_minimum_phase_refuted : let record := fun (s i : list R) => (s ++ i, i) in
  exists y y', o_x (fst (over_run Rnum_ops halfband_min record (over_new Rnum_ops [] 1 1) [[1]])) = [y; y'] /\
    y <> 2 * nth 0 halfband_min 0 /\ 50 * Rabs y <= Rabs (2 * nth 0 halfband_min 0).
Proof.
  intros record. destruct (C50_new _ halfband_min record [] 1 1 [[1]]) as [_ ->]; [intros s i H; exact H|repeat constructor|].
  change (2 * length [[1%R]])%nat with 2%nat. cbn [node_at record fst app]. rewrite (kernel_first _ [[1]] 1 eq_refl). cbn [app].
  exists (2 * nth 42 halfband_min 0 * 1). eexists. split; [unfold node_input; cbn [seq map]; reflexivity|]. rewrite last_weight, first_weight. split; [lra|]. rewrite Rabs_left, Rabs_right by lra. lra.
Qed.
Print Assumptions C50_minimum_phase_refuted.
