(* Properties of networks. reachable ok n: n is obtained from empty networks by in-range editing calls allowed by ok, by playing,
   and by combining. unit_laws, control_laws: the units have a fixed arity and process blocks as they tick. *)
From Verif Require Import NetExamples.
From Coq Require Import ZArith.
Local Open Scope nat_scope.

(* ------------------------------------------------------------------ C01 *)
(* error() determines an order of all nodes, each once; it reports an error exactly if there is a directed cycle of connections;
   and if there is none, every node comes after the nodes it reads. *)
Theorem C01_evaluation_order : forall (A P U : Type) (zero : A) (ops : unit_ops A P U) uping ahash,
  control_laws ops uping -> unit_laws zero ops -> forall n, reachable zero ops uping ahash no_loop_back n ->
  exists n' order error, net_error uping ahash n = Some (n', error) /\ n_order n' = Some order /\
    Permutation order (seq 0 (length (graph n))) /\
    (error = true <-> has_cycle n) /\
    (~ has_cycle n -> forall i j, reads (map local_sources (graph n)) i j -> before order j i).
Proof. intros A P U zero ops uping ahash Hc Hu n R. exact (order_correct_net ops uping ahash Hc n (reachable_wf zero ops uping ahash Hc Hu n R)). Qed.
Print Assumptions C01_evaluation_order.

(* tick() ticks every node exactly once, from its state after ordering, even if there is a cycle. *)
Theorem C01_every_node_once : forall (A P U : Type) (zero : A) (ops : unit_ops A P U) uping ahash,
  control_laws ops uping -> unit_laws zero ops -> forall n, reachable zero ops uping ahash no_loop_back n ->
  forall input n0 error n' out, net_error uping ahash n = Some (n0, error) -> net_tick zero ops uping ahash n input = Some (n', out) ->
  length (units n') = length (units n0) /\
  forall i u, nth_error (units n0) i = Some u ->
    exists x u' y, length x = u_ins ops u /\ u_tick ops u x = (u', y) /\ nth_error (units n') i = Some u'.
Proof. intros A P U zero ops uping ahash Hc Hu n R input n0 e n' out. exact (tick_once zero ops uping ahash Hc n n0 e input n' out (reachable_wf zero ops uping ahash Hc Hu n R)). Qed.
Print Assumptions C01_every_node_once.

Example C01_example : reach_nu no_loop_back ex_net /\ option_map (fun r => (n_order (fst r), snd r)) (net_error nu_ping atto_hash ex_net) = Some (Some [4; 0; 1; 3; 2; 5], false).
Proof. split; [exact ex_reachable|vm_compute; reflexivity]. Qed.
Example C01_example_cycle : reach_nu any loop_net /\ option_map snd (net_error nu_ping atto_hash loop_net) = Some true.
Proof. split; [exact loop_reachable|vm_compute; reflexivity]. Qed.

(* ------------------------------------------------------------------ C02 *)
(* No in-range call panics, and every network is consistent, provided remove_link is not called on a node that
   reads one of its own readers on the port read. *)
Theorem C02_well_formed_partial : forall (A P U : Type) (zero : A) (ops : unit_ops A P U) uping ahash,
  control_laws ops uping -> unit_laws zero ops -> forall n, reachable zero ops uping ahash no_loop_back n ->
  consistent ops n /\ forall a, NetSpec.in_range ops n a -> no_loop_back n a -> exists n', apply zero ops uping ahash a n = Some n' /\ consistent ops n'.
Proof.
  intros A P U zero ops uping ahash Hc Hu n R. pose proof (reachable_wf zero ops uping ahash Hc Hu n R) as W. split; [now apply (wf_consistent ops ahash)|].
  intros a Hr Hl. destruct (action_ok zero ops uping ahash Hc Hu n a W Hr Hl) as (n' & E & W'). exists n'. split; auto. now apply (wf_consistent ops ahash).
Qed.
Print Assumptions C02_well_formed_partial.

(* The condition is needed: two calls of remove_link on a loop of two nodes leave a connection to a node that does not exist,
   and the next tick panics. *)
Theorem C02_remove_link_refuted :
  exists n1 n2 : nnet, reach_nu any n1 /\ NetSpec.in_range nu_ops n1 (RemoveLink 2) /\
    reach_nu any n2 /\ ~ consistent nu_ops n2 /\ net_tick 0%Z nu_ops nu_ping atto_hash n2 [] = None.
Proof.
  exists loop_net, loop2_net. split; [exact loop_reachable|]. split; [vm_compute; split; [discriminate|reflexivity]|]. split; [exact loop2_reachable|]. split; [|vm_compute; reflexivity].
  intros [_ _ _ _ _ H]. destruct (H 0) as (s & E & _); [vm_compute; auto|]. vm_compute in E. discriminate.
Qed.
Print Assumptions C02_remove_link_refuted.

Example C02_example : reach_nu no_loop_back ex_net /\ NetSpec.in_range nu_ops ex_net (RemoveLink 8) /\ contains ex_net 6 /\ inputs_in nu_ops ex_net 8 = 2.
Proof. split; [exact ex_reachable|]. vm_compute. repeat split; discriminate. Qed.

(* ------------------------------------------------------------------ C03 *)
(* remove and remove_link delete one node and change nothing else but the inputs that read it. *)
Theorem C03_remove : forall (A P U : Type) (zero : A) (ops : unit_ops A P U) uping ahash,
  control_laws ops uping -> unit_laws zero ops -> forall n, reachable zero ops uping ahash no_loop_back n ->
  forall id link, contains n id -> (link = true -> inputs_in ops n id = outputs_in ops n id) ->
  exists n' u, remove_2 n id link = Some (n', u) /\ node n id = Some u /\ n_in n' = n_in n /\ n_out n' = n_out n /\
    (forall k, contains n' k <-> contains n k /\ k <> id) /\
    (forall k, k <> id -> node n' k = node n k) /\
    (forall k c, k <> id -> net_source n' k c = match net_source n k c with Some s => after_removal n id link s | None => None end) /\
    (forall c, output_source n' c = match output_source n c with Some s => after_removal n id link s | None => None end).
Proof.
  intros A P U zero ops uping ahash Hc Hu n R id link Hid Hl.
  destruct (remove_correct ops n id link (reachable_wf zero ops uping ahash Hc Hu n R) Hid Hl) as (n' & u & H1 & H2 & H3 & H4 & H5 & H6 & H7 & H8 & _). exists n', u. auto 10.
Qed.
Print Assumptions C03_remove.

Example C03_example : (* node 3 reads 5 and 6; node 8, the last, is moved *)
  contains ex_net 3 /\ inputs_in nu_ops ex_net 3 = outputs_in nu_ops ex_net 3 /\ net_source ex_net 8 0 = Some (SLocal 3 0) /\ net_source ex_net 8 1 = Some (SLocal 3 1) /\
  option_map (fun r => (net_source (fst r) 8 0, net_source (fst r) 8 1)) (remove_2 ex_net 3 true) = Some (Some (SLocal 5 0), Some (SLocal 6 0)) /\
  option_map (fun r => (net_source (fst r) 8 0, net_source (fst r) 8 1)) (remove_2 ex_net 3 false) = Some (Some SZero, Some SZero).
Proof. vm_compute. repeat split; discriminate. Qed.

(* ------------------------------------------------------------------ C04 *)
(* One tick of an acyclic network solves the dataflow equations of that sample, and they have no other solution. *)
Theorem C04_tick_is_dataflow : forall (A P U : Type) (zero : A) (ops : unit_ops A P U) uping ahash,
  control_laws ops uping -> unit_laws zero ops -> forall n, reachable zero ops uping ahash no_loop_back n -> ~ has_cycle n ->
  forall input, length input = n_in n ->
  exists n0 n' vals out, net_error uping ahash n = Some (n0, false) /\ (n_order n <> None -> n0 = n) /\
    net_tick zero ops uping ahash n input = Some (n', out) /\ length out = n_out n /\
    dataflow zero ops n (units n0) input (units n') vals out /\
    forall us vals' out', dataflow zero ops n (units n0) input us vals' out' -> us = units n' /\ vals' = vals /\ out' = out.
Proof. intros A P U zero ops uping ahash Hc Hu n R. exact (tick_dataflow zero ops uping ahash Hc Hu n (reachable_wf zero ops uping ahash Hc Hu n R)). Qed.
Print Assumptions C04_tick_is_dataflow.

Example C04_example : reach_nu no_loop_back ex_net /\ option_map snd (net_error nu_ping atto_hash ex_net) = Some false /\
  option_map (fun r => (units (fst r), snd r)) (net_tick 0%Z nu_ops nu_ping atto_hash ex_net [10; 20]%Z) = Some ([NDel 10; NAdd; NSwap; NDel 23; NCnt 52; NSwap], [2; 10]%Z).
Proof. split; [exact ex_reachable|]. split; vm_compute; reflexivity. Qed.

(* ------------------------------------------------------------------ C05 *)
(* However a signal is cut into blocks, an acyclic network gives the samples and the state that ticking gives. *)
Theorem C05_blocks_are_ticks : forall (A P U : Type) (zero : A) (ops : unit_ops A P U) uping ahash,
  control_laws ops uping -> unit_laws zero ops -> forall n, reachable zero ops uping ahash no_loop_back n -> ~ has_cycle n ->
  forall bs, Forall (block_ok n) bs -> (input_frames zero bs <> [] \/ n_order n <> None) ->
  exists n1 n2 os, run_blocks zero ops uping ahash n bs = Some (n1, os) /\ run_ticks zero ops uping ahash n (input_frames zero bs) = Some (n2, os) /\ same_state n1 n2.
Proof. intros A P U zero ops uping ahash Hc Hu n R Hn bs. exact (blocks_are_ticks zero ops uping ahash Hc Hu n bs (reachable_wf zero ops uping ahash Hc Hu n R) Hn). Qed.
Print Assumptions C05_blocks_are_ticks.

Example C05_example : forall c, length c = MAXB ->
  Forall (block_ok ex_net) [(64, [c; c], [c; c]); (3, [c; c], [c; c]); (0, [c; c], [c; c])] /\ input_frames 0%Z [(64, [c; c], [c; c]); (3, [c; c], [c; c])] <> [].
Proof.
  intros c Hc. split; [|discriminate]. assert (Hs : shaped 2 [c; c]) by (split; auto). change (n_in ex_net) with 2. assert (Hi : n_in ex_net = 2 /\ n_out ex_net = 2) by (vm_compute; auto). destruct Hi as [Hi Ho].
  repeat constructor; cbn [block_ok]; rewrite ?Hi, ?Ho; auto; unfold MAXB; lia.
Qed.

(* ------------------------------------------------------------------ C06 *)
(* n1 >> n2 *)
Theorem C06_pipe : forall (A P U : Type) (zero : A) (ops : unit_ops A P U) uping ahash,
  control_laws ops uping -> unit_laws zero ops -> forall n1 n2, reachable zero ops uping ahash no_loop_back n1 -> reachable zero ops uping ahash no_loop_back n2 ->
  forall fresh, fresh_for n1 n2 fresh -> n_out n1 = n_in n2 ->
  exists n, net_pipe fresh n1 n2 = Some n /\ n_in n = n_in n1 /\ n_out n = n_out n2 /\ units n = units n1 ++ units n2 /\
    (~ has_cycle n1 -> ~ has_cycle n2 -> ~ has_cycle n) /\
    forall us1 us2 x us1' us2' vals1 vals2 y z, dataflow zero ops n1 us1 x us1' vals1 y -> dataflow zero ops n2 us2 y us2' vals2 z ->
      dataflow zero ops n (us1 ++ us2) x (us1' ++ us2') (vals1 ++ vals2) z.
Proof.
  intros A P U zero ops uping ahash Hc Hu n1 n2 R1 R2 fresh Hf Hio.
  destruct (pipe_ok zero ops fresh n1 n2 (reachable_wf zero ops uping ahash Hc Hu n1 R1) (reachable_wf zero ops uping ahash Hc Hu n2 R2) Hf Hio) as (n & E & _ & H). exists n. auto.
Qed.
Print Assumptions C06_pipe.
(* n1 | n2 *)
Theorem C06_stack : forall (A P U : Type) (zero : A) (ops : unit_ops A P U) uping ahash,
  control_laws ops uping -> unit_laws zero ops -> forall n1 n2, reachable zero ops uping ahash no_loop_back n1 -> reachable zero ops uping ahash no_loop_back n2 ->
  forall fresh, fresh_for n1 n2 fresh ->
  exists n, net_stack fresh n1 n2 = Some n /\ n_in n = n_in n1 + n_in n2 /\ n_out n = n_out n1 + n_out n2 /\ units n = units n1 ++ units n2 /\
    (~ has_cycle n1 -> ~ has_cycle n2 -> ~ has_cycle n) /\
    forall us1 us2 x1 x2 us1' us2' vals1 vals2 y z, length x1 = n_in n1 -> dataflow zero ops n1 us1 x1 us1' vals1 y -> dataflow zero ops n2 us2 x2 us2' vals2 z ->
      dataflow zero ops n (us1 ++ us2) (x1 ++ x2) (us1' ++ us2') (vals1 ++ vals2) (y ++ z).
Proof.
  intros A P U zero ops uping ahash Hc Hu n1 n2 R1 R2 fresh Hf.
  destruct (stack_gen zero ops false fresh n1 n2 (reachable_wf zero ops uping ahash Hc Hu n1 R1) (reachable_wf zero ops uping ahash Hc Hu n2 R2) Hf ltac:(discriminate)) as (n & E & _ & H1 & H2 & H3 & H4 & H5).
  exists n. split; [exact E|]. split; [exact H1|]. split; [exact H2|]. split; [exact H3|]. split; [exact H4|]. intros us1 us2 x1 x2 us1' us2' vals1 vals2 y z Hx. exact (H5 us1 us2 x1 x2 x2 us1' us2' vals1 vals2 y z Hx eq_refl).
Qed.
Print Assumptions C06_stack.
(* n1 ^ n2 *)
Theorem C06_branch : forall (A P U : Type) (zero : A) (ops : unit_ops A P U) uping ahash,
  control_laws ops uping -> unit_laws zero ops -> forall n1 n2, reachable zero ops uping ahash no_loop_back n1 -> reachable zero ops uping ahash no_loop_back n2 ->
  forall fresh, fresh_for n1 n2 fresh -> n_in n1 = n_in n2 ->
  exists n, net_branch fresh n1 n2 = Some n /\ n_in n = n_in n1 /\ n_out n = n_out n1 + n_out n2 /\ units n = units n1 ++ units n2 /\
    (~ has_cycle n1 -> ~ has_cycle n2 -> ~ has_cycle n) /\
    forall us1 us2 x us1' us2' vals1 vals2 y z, length x = n_in n1 -> dataflow zero ops n1 us1 x us1' vals1 y -> dataflow zero ops n2 us2 x us2' vals2 z ->
      dataflow zero ops n (us1 ++ us2) x (us1' ++ us2') (vals1 ++ vals2) (y ++ z).
Proof.
  intros A P U zero ops uping ahash Hc Hu n1 n2 R1 R2 fresh Hf Hio.
  destruct (stack_gen zero ops true fresh n1 n2 (reachable_wf zero ops uping ahash Hc Hu n1 R1) (reachable_wf zero ops uping ahash Hc Hu n2 R2) Hf (fun _ => Hio)) as (n & E & _ & H1 & H2 & H3 & H4 & H5).
  exists n. split; [exact E|]. split; [exact H1|]. split; [exact H2|]. split; [exact H3|]. split; [exact H4|]. intros us1 us2 x us1' us2' vals1 vals2 y z Hx D1 D2.
  rewrite <- (app_nil_r x). exact (H5 us1 us2 x x [] us1' us2' vals1 vals2 y z Hx (conj eq_refl eq_refl) D1 D2).
Qed.
Print Assumptions C06_branch.
(* n1 & n2 (shared = true, op the sum), n1 + n2, n1 - n2 and n1 * n2 (shared = false): op on every channel *)
Theorem C06_channelwise : forall (A P U : Type) (zero : A) (ops : unit_ops A P U) uping ahash,
  control_laws ops uping -> unit_laws zero ops -> forall n1 n2, reachable zero ops uping ahash no_loop_back n1 -> reachable zero ops uping ahash no_loop_back n2 ->
  forall shared fresh new, fresh_for n1 n2 fresh -> fresh_for n1 n2 new -> (forall i j, fresh i <> new j) ->
  (shared = true -> n_in n1 = n_in n2) -> n_out n1 = n_out n2 ->
  forall b op, u_ins ops b = 2 -> u_outs ops b = 1 -> (forall x y, u_tick ops b [x; y] = (b, [op x y])) ->
  exists n, combine_binop zero ops shared fresh new b n1 n2 = Some n /\ n_in n = (if shared then n_in n1 else n_in n1 + n_in n2) /\ n_out n = n_out n1 /\
    units n = units n1 ++ units n2 ++ repeat b (n_out n1) /\
    (~ has_cycle n1 -> ~ has_cycle n2 -> ~ has_cycle n) /\
    forall us1 us2 x1 x2 us1' us2' vals1 vals2 y z, length x1 = n_in n1 -> (shared = true -> x2 = x1) ->
      dataflow zero ops n1 us1 x1 us1' vals1 y -> dataflow zero ops n2 us2 x2 us2' vals2 z ->
      exists vals, dataflow zero ops n (us1 ++ us2 ++ repeat b (n_out n1)) (if shared then x1 else x1 ++ x2) (us1' ++ us2' ++ repeat b (n_out n1)) vals (zipw op y z).
Proof.
  intros A P U zero ops uping ahash Hc Hu n1 n2 R1 R2 shared fresh new Hf Hn Hfn Hio Ho b op Hb2 Hb1 Hb.
  destruct (binop_ok zero ops shared fresh new b op n1 n2 (reachable_wf zero ops uping ahash Hc Hu n1 R1) (reachable_wf zero ops uping ahash Hc Hu n2 R2) Hf Hn Hfn Hb2 Hb1 Hio Ho) as (n & E & _ & H1 & H2 & H3 & H4 & H5).
  exists n. split; [exact E|]. split; [exact H1|]. split; [exact H2|]. split; [exact H3|]. split; [exact H4|]. intros us1 us2 x1 x2 us1' us2' vals1 vals2 y z Hx Hs D1 D2. eexists.
  destruct shared; [rewrite <- (app_nil_r x1)|]; apply (H5 Hb us1 us2 x1 x2 _ us1' us2' vals1 vals2 y z); auto.
Qed.
Print Assumptions C06_channelwise.
(* !n passes the inputs that have no output through *)
Theorem C06_thru : forall (A P U : Type) (zero : A) (ops : unit_ops A P U) uping ahash,
  control_laws ops uping -> unit_laws zero ops -> forall n, reachable zero ops uping ahash no_loop_back n ->
  n_in (net_thru n) = n_in n /\ n_out (net_thru n) = n_in n /\ units (net_thru n) = units n /\ (has_cycle (net_thru n) <-> has_cycle n) /\
  forall us x us' vals y, length x = n_in n -> dataflow zero ops n us x us' vals y -> dataflow zero ops (net_thru n) us x us' vals (firstn (n_in n) y ++ skipn (n_out n) x).
Proof. intros A P U zero ops uping ahash Hc Hu n R. exact (proj2 (thru_ok zero ops n (reachable_wf zero ops uping ahash Hc Hu n R))). Qed.
Print Assumptions C06_thru.
(* Net::wrap(unit) is the unit; Net::scalar is a constant on all channels *)
Theorem C06_wrap : forall (A P U : Type) (zero : A) (ops : unit_ops A P U) (id : N) (u : U),
  exists n, wrap zero ops id u = Some n /\ n_in n = u_ins ops u /\ n_out n = u_outs ops u /\ units n = [u] /\ node n id = Some u /\ ~ has_cycle n /\
    forall u0 x u1 o, length x = u_ins ops u -> length o = u_outs ops u -> u_tick ops u0 x = (u1, o) -> dataflow zero ops n [u0] x [u1] [o] o.
Proof. intros A P U zero ops id u. destruct (wrap_ok zero ops (fun _ _ => 0%N) id u) as (n & E & _ & H). exists n. auto. Qed.
Print Assumptions C06_wrap.
Theorem C06_scalar : forall (A P U : Type) (zero : A) (ops : unit_ops A P U) (id : N) (channels : nat) (u : U), u_ins ops u = 0 -> u_outs ops u = 1 ->
  exists n, scalar zero ops id channels u = Some n /\ n_in n = 0 /\ n_out n = channels /\ units n = [u] /\ ~ has_cycle n /\
    forall a, u_tick ops u [] = (u, [a]) -> dataflow zero ops n [u] [] [u] [[a]] (repeat a channels).
Proof. intros A P U zero ops id channels u H0 H1. destruct (scalar_ok zero ops (fun _ u h => (u, h)) (fun _ _ => 0%N) id channels u H0 H1) as (n & E & _ & H). exists n. auto. Qed.
Print Assumptions C06_scalar.

Example C06_example : reach_nu no_loop_back one_net /\ reach_nu no_loop_back two_net /\ fresh_for one_net two_net new_id /\ fresh_for one_net two_net new_id2 /\
  option_map (fun n => (units n, option_map snd (run_ticks 0%Z nu_ops nu_ping atto_hash n [[5]; [6]; [7]; [8]]%Z))) (net_pipe new_id one_net two_net) = Some ([NDel 4; NDel 8; NDel 1], Some [[1]; [8]; [4]; [5]]%Z) /\
  option_map (fun n => (units n, option_map snd (run_ticks 0%Z nu_ops nu_ping atto_hash n [[5]; [6]; [7]; [8]]%Z))) (combine_binop 0%Z nu_ops true new_id new_id2 NAdd one_net two_net) = Some ([NDel 4; NDel 8; NDel 1; NAdd], Some [[5]; [13]; [11]; [13]]%Z).
Proof. split; [exact one_reachable|]. split; [exact two_reachable|]. split; [apply fresh_one_two|]. split; [apply fresh_one_two|]. split; vm_compute; reflexivity. Qed.

(* ------------------------------------------------------------------ C07 *)
(* check() passes on every network whose order is current, in particular after error(), tick() or process(). *)
Theorem C07_check_partial : forall (A P U : Type) (zero : A) (ops : unit_ops A P U) uping ahash,
  control_laws ops uping -> unit_laws zero ops -> forall n, reachable zero ops uping ahash no_loop_back n ->
  (n_order n <> None -> check n = true) /\
  (forall n' e, net_error uping ahash n = Some (n', e) -> check n' = true) /\
  (forall input n' out, length input = n_in n -> net_tick zero ops uping ahash n input = Some (n', out) -> check n' = true).
Proof. intros A P U zero ops uping ahash Hc Hu n R. exact (check_accepts zero ops uping ahash Hc Hu n (reachable_wf zero ops uping ahash Hc Hu n R)). Qed.
Print Assumptions C07_check_partial.

(* After tick(), removing the first of two nodes makes check() panic, although the network is consistent. *)
Theorem C07_check_after_remove_refuted : exists n : nnet, reach_nu no_loop_back n /\ consistent nu_ops n /\ check n = false.
Proof.
  exists stale_net. split; [exact stale_reachable|]. split; [|vm_compute; reflexivity]. apply (wf_consistent nu_ops atto_hash). exact (reachable_wf _ _ _ _ nu_control nu_laws _ stale_reachable).
Qed.
Print Assumptions C07_check_after_remove_refuted.
(* So does combining with a network that has been played. *)
Theorem C07_check_after_pipe_refuted : exists n1 n2 n : nnet, reach_nu no_loop_back n1 /\ reach_nu no_loop_back n2 /\ check n1 = true /\ check n2 = true /\
  fresh_for n1 n2 new_id /\ net_pipe new_id n1 n2 = Some n /\ consistent nu_ops n /\ check n = false.
Proof.
  exists one_net, back_net, (match net_pipe new_id one_net back_net with Some n => n | None => one_net end). split; [exact one_reachable|]. split; [exact back_reachable|]. split; [vm_compute; reflexivity|]. split; [vm_compute; reflexivity|]. split; [exact fresh_one_back|].
  destruct (pipe_ok 0%Z nu_ops new_id one_net back_net (reachable_wf _ _ _ _ nu_control nu_laws _ one_reachable) (reachable_wf _ _ _ _ nu_control nu_laws _ back_reachable) fresh_one_back ltac:(vm_compute; reflexivity)) as (n & E & W & _).
  rewrite E. split; auto. split; [now apply (wf_consistent nu_ops atto_hash)|]. assert (X : option_map check (net_pipe new_id one_net back_net) = Some false) by (vm_compute; reflexivity). rewrite E in X. cbn in X. congruence.
Qed.
Print Assumptions C07_check_after_pipe_refuted.

(* ------------------------------------------------------------------ C52 *)
(* Ordering after an edit pings every unit. Units that ignore pings keep their state. *)
Theorem C52_order_keeps_state_partial : forall (A P U : Type) (zero : A) (ops : unit_ops A P U) uping ahash,
  control_laws ops uping -> unit_laws zero ops -> (forall b u h, fst (uping b u h) = u) ->
  forall n, reachable zero ops uping ahash no_loop_back n -> forall n' e, net_error uping ahash n = Some (n', e) -> forall k, node n' k = node n k.
Proof. intros A P U zero ops uping ahash Hc Hu Hp n R n' e. exact (order_keeps_units ops uping ahash n n' e Hp (reachable_wf zero ops uping ahash Hc Hu n R)). Qed.
Print Assumptions C52_order_keeps_state_partial.

(* White noise starts over when an unrelated output of a playing network is disconnected. *)
Theorem C52_edit_restarts_noise_refuted : exists n n1 n2 n3 y1 y2,
  reachable 0%N noise_ops noise_ping atto_hash no_loop_back n /\ output_source n 1 = Some SZero /\
  net_tick 0%N noise_ops noise_ping atto_hash n [] = Some (n1, [y1; 0%N]) /\
  apply 0%N noise_ops noise_ping atto_hash (DisconnectOutput 1) n = Some n2 /\ (forall c, output_source n2 c = output_source n c) /\
  net_tick 0%N noise_ops noise_ping atto_hash n2 [] = Some (n3, [y2; 0%N]) /\ y1 <> y2 /\ node n3 1 <> node n1 1.
Proof.
  set (n1 := match net_tick 0%N noise_ops noise_ping atto_hash noise_net [] with Some r => r | None => (noise_net, []) end).
  set (n2 := match disconnect_output noise_net 1 with Some r => r | None => noise_net end).
  set (n3 := match net_tick 0%N noise_ops noise_ping atto_hash n2 [] with Some r => r | None => (noise_net, []) end).
  exists noise_net, (fst n1), n2, (fst n3), (nth 0 (snd n1) 0%N), (nth 0 (snd n3) 0%N). split; [exact noise_reachable|]. split; [vm_compute; reflexivity|].
  split; [vm_compute; reflexivity|]. split; [vm_compute; reflexivity|]. split; [intros [|[|[|c]]]; vm_compute; reflexivity|]. split; [vm_compute; reflexivity|]. split; vm_compute; discriminate.
Qed.
Print Assumptions C52_edit_restarts_noise_refuted.

Example C52_example : (forall b u h, fst (nu_ping b u h) = u) /\ n_order ex_net = None /\ node ex_net 6 = Some (NCnt 51).
Proof. split; [reflexivity|]. split; vm_compute; reflexivity. Qed.

(* ------------------------------------------------------------------ C53 *)
(* Every edit changes exactly what it says, and playing changes no connection. *)
Theorem C53_edit_effect : forall (A P U : Type) (zero : A) (ops : unit_ops A P U) uping ahash,
  control_laws ops uping -> unit_laws zero ops -> forall n, reachable zero ops uping ahash no_loop_back n ->
  forall a n', NetSpec.in_range ops n a -> edit a -> apply zero ops uping ahash a n = Some n' ->
  (forall k c, net_source n' k c = wired ops n a k c) /\ (forall c, output_source n' c = out_wired ops n a c) /\ (forall k, node n' k = unit_after ops n a k) /\
  n_in n' = n_in n /\ n_out n' = n_out n.
Proof. intros A P U zero ops uping ahash Hc Hu n R a n'. exact (edit_effect zero ops uping ahash n a n' (reachable_wf zero ops uping ahash Hc Hu n R)). Qed.
Print Assumptions C53_edit_effect.
Theorem C53_playing_keeps_connections : forall (A P U : Type) (zero : A) (ops : unit_ops A P U) uping ahash,
  control_laws ops uping -> unit_laws zero ops -> forall n, reachable zero ops uping ahash no_loop_back n ->
  forall a n', NetSpec.in_range ops n a -> playing a -> apply zero ops uping ahash a n = Some n' ->
  (forall k c, net_source n' k c = net_source n k c) /\ (forall c, output_source n' c = output_source n c) /\ n_in n' = n_in n /\ n_out n' = n_out n /\
  (forall k, contains n' k <-> contains n k).
Proof. intros A P U zero ops uping ahash Hc Hu n R a n'. exact (playing_wires zero ops uping ahash Hc Hu n a n' (reachable_wf zero ops uping ahash Hc Hu n R)). Qed.
Print Assumptions C53_playing_keeps_connections.

Example C53_example : NetSpec.in_range nu_ops ex_net (PipeAll 6 3) /\ edit (PipeAll (A := Z) (P := Z) (U := nu) 6 3) /\
  option_map (fun n => (net_source n 3 0, net_source n 3 1, net_source n 8 1)) (apply 0%Z nu_ops nu_ping atto_hash (PipeAll 6 3) ex_net) = Some (Some (SLocal 6 0), Some (SLocal 6 0), Some (SLocal 3 1)).
Proof. split; [vm_compute; split; discriminate|]. split; [exact I|]. vm_compute. reflexivity. Qed.
