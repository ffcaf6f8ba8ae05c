(* C46: latency and constants in signal flow analysis. *)
From Coq Require Import Reals QArith Lra Lia.
From Verif Require Import SignalSpec DynModel SignalExamples.
Local Open Scope nat_scope.

(* The reported latency l is right: a change of the input at time T cannot be heard before time T + l, and without a reported latency
   (None) the output does not depend on the input. For every expression over leaf units that are themselves right about this. *)
Theorem C46_latency_heard : forall {P U} (ops : unit_ops R P U), unit_laws 0%R ops -> forall u_route u_copes x,
  wf ops (node_of Rnum_ops x) -> safe u_copes true x = true ->
  over (fun u => forall T, leaf_sound ops u_route u_copes (same_before T) 1%R u) Rnum_ops x ->
  forall r, latency Rnum_ops ops u_route x = Some r ->
  forall T X Y, width (xins Rnum_ops ops x) X -> width (xins Rnum_ops ops x) Y -> (forall t, (INR t < T)%R -> X t = Y t) ->
  forall t, match r with Some l => (INR t < T + l)%R | None => True end ->
  output R_arith ops (node_of Rnum_ops x) X t = output R_arith ops (node_of Rnum_ops x) Y t.
Proof. exact @latency_sound. Qed.
Print Assumptions C46_latency_heard.
(* a lookahead of one sample, then a delay of three samples beside a lookahead of two: the latency is 1 + min(0, 2) *)
Example C46_latency_heard_example :
  wf (su_ops Rnum_ops) (node_of Rnum_ops demo_x) /\ safe su_copes true demo_x = true /\
  over (fun u => forall T, leaf_sound (su_ops Rnum_ops) (su_route Rnum_ops Rturn) su_copes (same_before T) 1%R u) Rnum_ops demo_x /\
  latency Rnum_ops (su_ops Rnum_ops) (su_route Rnum_ops Rturn) demo_x = Some (Some 1%R).
Proof.
  split; [cbn; auto 10|]. split; [reflexivity|]. split.
  - cbn [over demo_x]. auto using ahead_sound, line_sound.
  - cbn. f_equal. f_equal. unfold Rmin. destruct (Rle_dec _ _); lra.
Qed.

(* Which expressions: all those without a MultiStack or Reduce of several nodes. *)
Theorem C46_safe_without_stacks : forall {F U} (u_copes : U -> bool) (x : expr F U), no_multi x -> safe u_copes true x = true.
Proof. exact @no_multi_safe. Qed.
Print Assumptions C46_safe_without_stacks.

(* The latency of a pipe is the sum of the latencies, when one channel connects the two. *)
Theorem C46_pipe_sum : forall {P U} (ops : unit_ops R P U), unit_laws 0%R ops -> forall u_route u_copes x y a b,
  wf ops (node_of Rnum_ops (XPipe x y)) -> safe u_copes true x = true -> safe u_copes true y = true -> tight true x = true ->
  over (leaf_regular ops u_route u_copes) Rnum_ops (XPipe x y) -> xouts Rnum_ops ops x = 1 ->
  latency Rnum_ops ops u_route x = Some (Some a) -> latency Rnum_ops ops u_route y = Some b ->
  latency Rnum_ops ops u_route (XPipe x y) = Some (osum (Some a) b).
Proof. exact @latency_Pipe. Qed.
Print Assumptions C46_pipe_sum.
Example C46_pipe_sum_example :
  let x := XLeaf (Ahead [0; 0]%R) in let y := XUnop (KAddScalar 1%R) (XLeaf (Lim (li_new Rnum_ops 5 0 0)%R)) in
  wf (su_ops Rnum_ops) (node_of Rnum_ops (XPipe x y)) /\ over (leaf_regular (su_ops Rnum_ops) (su_route Rnum_ops Rturn) su_copes) Rnum_ops (XPipe x y) /\
  latency Rnum_ops (su_ops Rnum_ops) (su_route Rnum_ops Rturn) x = Some (Some 2%R) /\
  latency Rnum_ops (su_ops Rnum_ops) (su_route Rnum_ops Rturn) y = Some (Some 5%R) /\
  latency Rnum_ops (su_ops Rnum_ops) (su_route Rnum_ops Rturn) (XPipe x y) = Some (Some 7%R).
Proof. split; [cbn; auto|]. split; [split; [apply ahead_regular|apply lim_regular]|]. cbn. repeat split; f_equal; f_equal; lra. Qed.

(* For pipes of several channels: delaying every input by d, in the analysis, delays every output by d, and changes nothing else. *)
Theorem C46_delayed_input : forall {P U} (ops : unit_ops R P U), unit_laws 0%R ops -> forall u_route u_copes freq d x labels,
  wf ops (node_of Rnum_ops x) -> safe u_copes true x = true -> over (leaf_regular ops u_route u_copes) Rnum_ops x ->
  length labels = xins Rnum_ops ops x ->
  route Rnum_ops ops u_route freq x (shift d labels) = option_map (shift d) (route Rnum_ops ops u_route freq x labels).
Proof. intros P U ops Hu u_route u_copes freq d x labels Hw Hs Ho Hl. apply (shift_good ops Hu u_route u_copes freq d x true); auto; lia. Qed.
Print Assumptions C46_delayed_input.

(* Where paths meet, the latency is the least one: sums, products, branches, stacks, buses. *)
Theorem C46_merge_min : forall {P U} (ops : unit_ops R P U), unit_laws 0%R ops -> forall u_route u_copes x y z a b,
  z = XBus x y \/ z = XBranch x y \/ z = XStack x y \/ (exists k, z = XBinop k x y) ->
  wf ops (node_of Rnum_ops z) -> safe u_copes true z = true -> over (leaf_regular ops u_route u_copes) Rnum_ops z ->
  xouts Rnum_ops ops x <> 0 -> xouts Rnum_ops ops y <> 0 ->
  latency Rnum_ops ops u_route x = Some a -> latency Rnum_ops ops u_route y = Some b ->
  latency Rnum_ops ops u_route z = Some (omin a b).
Proof.
  intros P U ops Hu u_route u_copes x y z a b Hz Hw Hs Ho Hx Hy. destruct Hz as [->|[->|[->|[k ->]]]].
  - now apply (latency_Bus ops Hu u_route u_copes).
  - now apply (latency_Branch ops Hu u_route u_copes).
  - now apply (latency_Stack ops Hu u_route u_copes).
  - now apply (latency_Binop ops Hu u_route u_copes).
Qed.
Print Assumptions C46_merge_min.
Example C46_merge_min_example :
  let z := XBus (XLeaf (Lim (li_new Rnum_ops 5 0 0)%R)) (XLeaf (Ahead [0; 0]%R)) in
  wf (su_ops Rnum_ops) (node_of Rnum_ops z) /\ safe su_copes true z = true /\ over (leaf_regular (su_ops Rnum_ops) (su_route Rnum_ops Rturn) su_copes) Rnum_ops z /\
  latency Rnum_ops (su_ops Rnum_ops) (su_route Rnum_ops Rturn) z = Some (Some 2%R).
Proof. split; [cbn; auto|]. split; [reflexivity|]. split; [split; [apply lim_regular|apply ahead_regular]|]. cbn. f_equal. f_equal. unfold Rmin. destruct (Rle_dec _ _); lra. Qed.

(* A signal that the analysis calls constant has that value at all times, when the same is true of the inputs. *)
Theorem C46_constants : forall {P U} (ops : unit_ops R P U), unit_laws 0%R ops -> forall u_route u_copes freq x labels labels' X,
  wf ops (node_of Rnum_ops x) -> safe u_copes true x = true ->
  over (leaf_sound ops u_route u_copes constant_if_value freq) Rnum_ops x ->
  length labels = xins Rnum_ops ops x -> labelled constant_if_value (xins Rnum_ops ops x) labels (fun _ => X) ->
  route Rnum_ops ops u_route freq x labels = Some labels' ->
  forall i v t, i < xouts Rnum_ops ops x -> nth i labels' Unknown = Value v -> nth i (output R_arith ops (node_of Rnum_ops x) X t) 0%R = v.
Proof. exact @constants_sound. Qed.
Print Assumptions C46_constants.
(* (dc(3) | pass() >> delay) >> join is no constant, dc(3) * dc(5) + 1 is *)
Example C46_constants_example :
  let x := XStack (XUnop (KAddScalar 1%R) (XBinop KMul (XPrim (PConstant [3%R])) (XPrim (PConstant [5%R])))) (XPipe (XPrim PPass) (XLeaf (Line [0%R]))) in
  wf (su_ops Rnum_ops) (node_of Rnum_ops x) /\ safe su_copes true x = true /\
  over (leaf_sound (su_ops Rnum_ops) (su_route Rnum_ops Rturn) su_copes constant_if_value 1%R) Rnum_ops x /\
  labelled constant_if_value 1 [Latency 0%R] (fun _ t => [INR t]) /\
  route Rnum_ops (su_ops Rnum_ops) (su_route Rnum_ops Rturn) 1%R x [Latency 0%R] = Some [Value (3 * 5 + 1)%R; Latency (0 + 0)%R].
Proof.
  split; [cbn; auto 10|]. split; [reflexivity|]. split; [cbn [over]; pose proof (line_constant [0%R] 1%R); tauto|]. split; [|reflexivity].
  split; [cbn; lia|]. split; [intros w t; reflexivity|]. intros i Hi. assert (i = 0) as -> by lia. exact I.
Qed.

(* False of the code in general. A pipe into a unit with Routing::Arbitrary(w), w > 0, and several inputs, such as the resynthesizer, counts w once
   for every input: with a constant on the second input, a pipe of a node without latency and one with latency 1024 reports 2048. *)
Theorem C46_pipe_sum_refuted : let x := XStack (XPrim PPass) (XPrim (PConstant [1%Q])) in let y := XLeaf (Win 2 1024) in
  wf (su_ops Qnum_ops) (node_of Qnum_ops (XPipe x y)) /\
  let lat := latency Qnum_ops (su_ops Qnum_ops) (su_route Qnum_ops (fun _ _ c => c)) in
  lat x = Some (Some 0%Q) /\ lat y = Some (Some 1024%Q) /\ lat (XPipe x y) = Some (Some 2048%Q).
Proof. split; [cbn; auto|]. vm_compute. auto. Qed.
Print Assumptions C46_pipe_sum_refuted.
(* The latency of a stack of two reversers of two channels cannot be asked for: the call panics. *)
Theorem C46_stack_panics_refuted : let x : expr Q (su Q) := XMultiStack [XPrim (PReverse 2); XPrim (PReverse 2)] in
  wf (su_ops Qnum_ops) (node_of Qnum_ops x) /\ latency Qnum_ops (su_ops Qnum_ops) (su_route Qnum_ops (fun _ _ c => c)) x = None.
Proof. split; [cbn; auto|]. vm_compute. reflexivity. Qed.
Print Assumptions C46_stack_panics_refuted.
(* Two constants 3 and 5 through a stack of two splitters: the analysis says that output 1 is 5, but it is 3. *)
Theorem C46_stack_constants_refuted : let x : expr R (su R) := XPipe (XPrim (PConstant [3; 5]%R)) (XMultiStack [XPrim (PSplit 2); XPrim (PSplit 2)]) in
  wf (su_ops Rnum_ops) (node_of Rnum_ops x) /\
  route Rnum_ops (su_ops Rnum_ops) (su_route Rnum_ops Rturn) 1%R x [] = Some [Value 3; Value 5; Value 5; Value 5]%R /\
  output R_arith (su_ops Rnum_ops) (node_of Rnum_ops x) (fun _ => []) 0 = [3; 3; 5; 5]%R.
Proof. split; [cbn; repeat split; auto; repeat constructor|]. split; reflexivity. Qed.
Print Assumptions C46_stack_constants_refuted.
(* The analysis says that a limiter passes a constant unchanged; it starts with silence and ends with a lower value. *)
Theorem C46_limiter_constant_refuted :
  (forall l v, su_route Qnum_ops (fun _ _ c => c) (Lim l) 1%Q [Value v] = Some [Value v]) /\
  match li_run Qnum_ops (li_new Qnum_ops 1 (1#2) (1#4)) [[2];[2];[2]]%Q with
  | Some (_, [[a]; [b]; [c]]) => (a == 0 /\ b == 10 # 11)%Q
  | _ => False
  end.
Proof. split; [reflexivity|]. vm_compute. auto. Qed.
Print Assumptions C46_limiter_constant_refuted.
(* A limiter reports its look-ahead as latency, but its gain follows the input at once: the inputs 1 0 0 and 1 0 4 are the same before time 2,
   the latency is 2, and the outputs differ at time 2. *)
Theorem C46_limiter_lookahead_refuted :
  su_route Qnum_ops (fun _ _ c => c) (Lim (li_new Qnum_ops 2 (1#2) (1#4)))%Q 1%Q [Latency 0%Q] = Some [Latency (0 + 2)%Q] /\
  match li_run Qnum_ops (li_new Qnum_ops 2 (1#2) (1#4)) [[1];[0];[0]]%Q, li_run Qnum_ops (li_new Qnum_ops 2 (1#2) (1#4)) [[1];[0];[4]]%Q with
  | Some (_, [_; _; [a]]), Some (_, [_; _; [b]]) => ~ (a == b)%Q
  | _, _ => False
  end.
Proof. split; [reflexivity|]. vm_compute. discriminate. Qed.
Print Assumptions C46_limiter_lookahead_refuted.
