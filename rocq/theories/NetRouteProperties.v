(* C79: what a network reports about itself is right. *)
From Coq Require Import Reals Lra Lia.
From Verif Require Import NetRouteSpec NetRouteExamples NetRouteBinop.
Local Open Scope nat_scope.

(* route of a network never fails, with cycles or without: it returns one label for each output, if the analysis of each unit does. *)
Theorem C79_route_total : forall (F P U : Type) (nm : num F) (ops : unit_ops F P U) uping ahash u_route,
  control_laws ops uping -> unit_laws (n0 nm) ops -> forall n, reachable (n0 nm) ops uping ahash no_loop_back n ->
  forall freq m error input, net_error uping ahash n = Some (m, error) -> length input = n_in n -> Forall (routes u_route ops freq) (units m) ->
  exists out, net_route nm ops uping ahash u_route freq n input = Some (m, out) /\ length out = n_out n.
Proof. intros F P U nm ops uping ahash u_route Hc Hu n Rn freq m error input. exact (route_total nm ops uping ahash u_route Hc freq n m error input (reachable_wf _ ops uping ahash Hc Hu n Rn)). Qed.
Print Assumptions C79_route_total.

(* Without cycles, the labels are the one solution of the equations of the network: each node is analysed once, on the labels of its sources. *)
Theorem C79_route_equations : forall (F P U : Type) (nm : num F) (ops : unit_ops F P U) uping ahash u_route,
  control_laws ops uping -> unit_laws (n0 nm) ops -> forall n, reachable (n0 nm) ops uping ahash no_loop_back n ->
  forall freq m input, net_error uping ahash n = Some (m, false) -> length input = n_in n -> Forall (routes u_route ops freq) (units m) ->
  exists inner out, net_route nm ops uping ahash u_route freq n input = Some (m, out) /\ length out = n_out n /\
    net_labels nm u_route freq n (units m) input inner out /\
    forall inner' out', net_labels nm u_route freq n (units m) input inner' out' -> inner' = inner /\ out' = out.
Proof.
  intros F P U nm ops uping ahash u_route Hc Hu n Rn freq m input E. destruct (no_error_acyclic _ ops uping ahash Hc Hu n Rn m E) as [W Ha].
  exact (route_equations nm ops uping ahash u_route Hc freq n m input W Ha E).
Qed.
Print Assumptions C79_route_equations.
Example C79_route_equations_example : reachable 0%R (su_ops Rnum_ops) same_ping atto_hash no_loop_back lat_net /\
  net_error same_ping atto_hash lat_net = Some (ordered_of (su_ops Rnum_ops) lat_net, false) /\ n_in lat_net = 1 /\
  Forall (routes (su_route Rnum_ops Rturn) (su_ops Rnum_ops) 1%R) (units (ordered_of (su_ops Rnum_ops) lat_net)).
Proof.
  split; [exact lat_reachable|]. split; [exact lat_error|]. split; [vm_compute; reflexivity|]. rewrite lat_units.
  repeat constructor; intros [|a ins] Hi; try discriminate; eexists; split; reflexivity.
Qed.

(* The labels of a combined network come from the labels of its parts. n1 >> n2: the labels of the outputs of n1 go into n2. *)
Theorem C79_pipe : forall (F P U : Type) (nm : num F) (ops : unit_ops F P U) uping ahash u_route,
  control_laws ops uping -> unit_laws (n0 nm) ops -> forall n1 n2, reachable (n0 nm) ops uping ahash no_loop_back n1 -> reachable (n0 nm) ops uping ahash no_loop_back n2 ->
  forall fresh n, fresh_for n1 n2 fresh -> n_out n1 = n_in n2 -> net_pipe fresh n1 n2 = Some n ->
  forall freq us1 us2 x in1 in2 y z, net_labels nm u_route freq n1 us1 x in1 y -> net_labels nm u_route freq n2 us2 y in2 z ->
    net_labels nm u_route freq n (us1 ++ us2) x (in1 ++ in2) z.
Proof.
  intros F P U nm ops uping ahash u_route Hc Hu n1 n2 R1 R2 fresh n Hf Hio E freq.
  exact (pipe_labels nm ops u_route freq fresh n1 n2 n (reachable_wf _ ops uping ahash Hc Hu n1 R1) (reachable_wf _ ops uping ahash Hc Hu n2 R2) Hf Hio E).
Qed.
Print Assumptions C79_pipe.
(* n1 | n2: side by side *)
Theorem C79_stack : forall (F P U : Type) (nm : num F) (ops : unit_ops F P U) uping ahash u_route,
  control_laws ops uping -> unit_laws (n0 nm) ops -> forall n1 n2, reachable (n0 nm) ops uping ahash no_loop_back n1 -> reachable (n0 nm) ops uping ahash no_loop_back n2 ->
  forall fresh n, fresh_for n1 n2 fresh -> net_stack fresh n1 n2 = Some n ->
  forall freq us1 us2 x1 x2 in1 in2 y z, length x1 = n_in n1 -> net_labels nm u_route freq n1 us1 x1 in1 y -> net_labels nm u_route freq n2 us2 x2 in2 z ->
    net_labels nm u_route freq n (us1 ++ us2) (x1 ++ x2) (in1 ++ in2) (y ++ z).
Proof.
  intros F P U nm ops uping ahash u_route Hc Hu n1 n2 R1 R2 fresh n Hf E freq us1 us2 x1 x2 in1 in2 y z Hx.
  exact (side_labels nm ops u_route freq false fresh n1 n2 n (reachable_wf _ ops uping ahash Hc Hu n1 R1) (reachable_wf _ ops uping ahash Hc Hu n2 R2) Hf ltac:(discriminate) E us1 us2 x1 x2 x2 in1 in2 y z Hx eq_refl).
Qed.
Print Assumptions C79_stack.
(* n1 ^ n2: both get the same labels *)
Theorem C79_branch : forall (F P U : Type) (nm : num F) (ops : unit_ops F P U) uping ahash u_route,
  control_laws ops uping -> unit_laws (n0 nm) ops -> forall n1 n2, reachable (n0 nm) ops uping ahash no_loop_back n1 -> reachable (n0 nm) ops uping ahash no_loop_back n2 ->
  forall fresh n, fresh_for n1 n2 fresh -> n_in n1 = n_in n2 -> net_branch fresh n1 n2 = Some n ->
  forall freq us1 us2 x in1 in2 y z, length x = n_in n1 -> net_labels nm u_route freq n1 us1 x in1 y -> net_labels nm u_route freq n2 us2 x in2 z ->
    net_labels nm u_route freq n (us1 ++ us2) x (in1 ++ in2) (y ++ z).
Proof.
  intros F P U nm ops uping ahash u_route Hc Hu n1 n2 R1 R2 fresh n Hf Hio E freq us1 us2 x in1 in2 y z Hx D1 D2. rewrite <- (app_nil_r x).
  exact (side_labels nm ops u_route freq true fresh n1 n2 n (reachable_wf _ ops uping ahash Hc Hu n1 R1) (reachable_wf _ ops uping ahash Hc Hu n2 R2) Hf (fun _ => Hio) E us1 us2 x x [] in1 in2 y z Hx (conj eq_refl eq_refl) D1 D2).
Qed.
Print Assumptions C79_branch.
(* the network of the first example beside itself *)
Example C79_stack_example : exists fresh n, fresh_for lat_net lat_net fresh /\ net_stack fresh lat_net lat_net = Some n /\ n_in n = 2 /\ n_out n = 4.
Proof. exact lat_stack. Qed.

(* n1 & n2 (shared = true), n1 + n2, n1 - n2 and n1 * n2 (shared = false): the analysis lop of the operator b on every channel *)
Theorem C79_channelwise : forall (F P U : Type) (nm : num F) (ops : unit_ops F P U) uping ahash u_route,
  control_laws ops uping -> unit_laws (n0 nm) ops -> forall n1 n2, reachable (n0 nm) ops uping ahash no_loop_back n1 -> reachable (n0 nm) ops uping ahash no_loop_back n2 ->
  forall shared fresh new, fresh_for n1 n2 fresh -> fresh_for n1 n2 new -> (forall i j, fresh i <> new j) -> (shared = true -> n_in n1 = n_in n2) -> n_out n1 = n_out n2 ->
  forall freq b lop, u_ins ops b = 2 -> u_outs ops b = 1 -> (forall x y, u_route b freq [x; y] = Some [lop x y]) ->
  forall n, combine_binop (n0 nm) ops shared fresh new b n1 n2 = Some n ->
  forall us1 us2 x1 x2 in1 in2 y z, length x1 = n_in n1 -> (shared = true -> x2 = x1) -> net_labels nm u_route freq n1 us1 x1 in1 y -> net_labels nm u_route freq n2 us2 x2 in2 z ->
    exists inner, net_labels nm u_route freq n (us1 ++ us2 ++ repeat b (n_out n1)) (if shared then x1 else x1 ++ x2) inner (zipw lop y z).
Proof.
  intros F P U nm ops uping ahash u_route Hc Hu n1 n2 R1 R2 shared fresh new Hf Hn Hfn Hio Ho freq b lop B2 B1 Hb n E us1 us2 x1 x2 in1 in2 y z Hx Hs D1 D2. eexists.
  pose proof (binop_labels nm ops u_route freq shared fresh new b lop n1 n2 n (reachable_wf _ ops uping ahash Hc Hu n1 R1) (reachable_wf _ ops uping ahash Hc Hu n2 R2) Hf Hn Hfn B2 B1 Hio Ho Hb E us1 us2 x1 x2) as L.
  destruct shared; [rewrite <- (app_nil_r x1)|]; (eapply L; [exact Hx| |exact D1|exact D2]); auto.
Qed.
Print Assumptions C79_channelwise.
(* the sum and the bus of a network of filters and itself *)
Example C79_channelwise_example : fresh_for res_net res_net even_id /\ fresh_for res_net res_net odd_id /\ (forall i j, even_id i <> odd_id j) /\ forall shared : bool, let b := Mix 2 [[1; 1]%R] in
  exists n, combine_binop 0%R (lu_ops Rnum_ops) shared even_id odd_id b res_net res_net = Some n /\ n_in n = (if shared then 1 else 2) /\ n_out n = 1 /\
  u_ins (lu_ops Rnum_ops) b = 2 /\ u_outs (lu_ops Rnum_ops) b = 1 /\ forall x y, lu_route Rnum_ops R_elem 8%R b 1%R [x; y] = Some [combine_sum Rnum_ops (sig_scale Rnum_ops x 1%R) (sig_scale Rnum_ops y 1%R)].
Proof. destruct res_fresh as (F1 & F2 & F3). split; [exact F1|]. split; [exact F2|]. split; [exact F3|]. exact res_sum. Qed.
(* !n: the labels of the inputs that have no output are passed through *)
Theorem C79_thru : forall (F P U : Type) (nm : num F) (ops : unit_ops F P U) uping ahash u_route,
  control_laws ops uping -> unit_laws (n0 nm) ops -> forall n, reachable (n0 nm) ops uping ahash no_loop_back n ->
  forall freq us x inner y, length x = n_in n -> net_labels nm u_route freq n us x inner y -> net_labels nm u_route freq (net_thru n) us x inner (firstn (n_in n) y ++ skipn (n_out n) x).
Proof. intros F P U nm ops uping ahash u_route Hc Hu n Rn freq. exact (thru_labels nm ops u_route freq n (reachable_wf _ ops uping ahash Hc Hu n Rn)). Qed.
Print Assumptions C79_thru.
(* a network with more outputs than inputs keeps the first of them *)
Example C79_thru_example : n_in open_net = 1 /\ n_out open_net = 3 /\ n_out (net_thru open_net) = 1.
Proof. vm_compute. auto. Qed.

(* Latency, over exact real numbers: if the latency of a network without cycles is l samples and its inputs agree before time T, its outputs agree before time T + l;
   and if it has no latency, its outputs do not depend on the inputs. The analysis of each unit is assumed to be right in the same way. *)
Theorem C79_latency_heard : forall (P U : Type) (ops : unit_ops R P U) uping ahash u_route,
  control_laws ops uping -> unit_laws 0%R ops -> forall n, reachable 0%R ops uping ahash no_loop_back n ->
  forall m, net_error uping ahash n = Some (m, false) -> Forall (fun u => forall T, leaf_sound ops u_route (fun _ => false) (same_before T) 1%R u) (units m) ->
  forall r, net_latency Rnum_ops ops uping ahash u_route n = Some r ->
  forall T X Y, width (n_in n) X -> width (n_in n) Y -> (forall t, (INR t < T)%R -> X t = Y t) ->
  forall t, match r with Some l => (INR t < T + l)%R | None => True end ->
  exists y, net_output 0%R ops uping ahash n X t = Some y /\ net_output 0%R ops uping ahash n Y t = Some y.
Proof.
  intros P U ops uping ahash u_route Hc Hu n Rn m E. destruct (no_error_acyclic _ ops uping ahash Hc Hu n Rn m E) as [W Ha].
  intros Hs r. exact (net_latency_sound ops uping ahash Hc Hu u_route n m r W Ha E Hs).
Qed.
Print Assumptions C79_latency_heard.
Example C79_latency_heard_example :
  Forall (fun u => forall T, leaf_sound (su_ops Rnum_ops) (su_route Rnum_ops Rturn) (fun _ => false) (same_before T) 1%R u) (units (ordered_of (su_ops Rnum_ops) lat_net)) /\
  net_latency Rnum_ops (su_ops Rnum_ops) same_ping atto_hash (su_route Rnum_ops Rturn) lat_net = Some (Some 1%R).
Proof.
  split; [|exact lat_latency]. rewrite lat_units. constructor; [|constructor; [|constructor; [|constructor]]]; intros T; eapply leaf_sound_exact; [apply ahead_sound|apply line_sound|apply ahead_sound].
Qed.

(* For networks of filters, mixers and panners nothing needs to be assumed about the units: their analysis is right. *)
Theorem C79_filter_latency_heard : forall uping ahash sr n, control_laws (lu_ops Rnum_ops) uping -> reachable 0%R (lu_ops Rnum_ops) uping ahash no_loop_back n ->
  forall m, net_error uping ahash n = Some (m, false) -> Forall lu_shaped (units m) ->
  forall r, net_latency Rnum_ops (lu_ops Rnum_ops) uping ahash (lu_route Rnum_ops R_elem sr) n = Some r ->
  forall T X Y, width (n_in n) X -> width (n_in n) Y -> (forall t, (INR t < T)%R -> X t = Y t) ->
  forall t, match r with Some l => (INR t < T + l)%R | None => True end ->
  exists y, net_output 0%R (lu_ops Rnum_ops) uping ahash n X t = Some y /\ net_output 0%R (lu_ops Rnum_ops) uping ahash n Y t = Some y.
Proof.
  intros uping ahash sr n Hc Rn m E Hs r. destruct (no_error_acyclic _ _ uping ahash Hc lu_laws n Rn m E) as [W Ha].
  refine (net_latency_sound (lu_ops Rnum_ops) uping ahash Hc lu_laws _ n m r W Ha E _). eapply Forall_impl; [|exact Hs].
  intros u Hu T. eapply leaf_sound_exact. now apply lu_latency_sound.
Qed.
Print Assumptions C79_filter_latency_heard.
Example C79_filter_latency_heard_example : Forall lu_shaped (units (ordered_of (lu_ops Rnum_ops) res_net)) /\
  net_latency Rnum_ops (lu_ops Rnum_ops) same_ping atto_hash (lu_route Rnum_ops R_elem 8%R) res_net = Some (Some 0%R).
Proof. split; [rewrite res_units; repeat constructor|exact res_latency]. Qed.

(* Constants: an output that is reported to have a constant value has that value at all times, if the constants given for the inputs are right. *)
Theorem C79_constants_heard : forall (P U : Type) (ops : unit_ops R P U) uping ahash u_route,
  control_laws ops uping -> unit_laws 0%R ops -> forall n, reachable 0%R ops uping ahash no_loop_back n ->
  forall freq m, net_error uping ahash n = Some (m, false) -> Forall (leaf_sound ops u_route (fun _ => false) constant_if_value freq) (units m) ->
  forall labels out X, width (n_in n) X -> length labels = n_in n -> (forall i v, nth_error labels i = Some (Value v) -> forall t, nth i (X t) 0%R = v) ->
  net_route Rnum_ops ops uping ahash u_route freq n labels = Some (m, out) ->
  forall i v, nth_error out i = Some (Value v) -> forall t, exists y, net_output 0%R ops uping ahash n X t = Some y /\ nth_error y i = Some v.
Proof.
  intros P U ops uping ahash u_route Hc Hu n Rn freq m E. destruct (no_error_acyclic _ ops uping ahash Hc Hu n Rn m E) as [W Ha].
  intros Hs labels out X. exact (net_constants_sound ops uping ahash Hc Hu u_route freq n m labels out X W Ha E Hs).
Qed.
Print Assumptions C79_constants_heard.
(* a network with a pass-through, an open output and a delay: the second output is the constant 0, the first what the input is *)
Example C79_constants_heard_example : reachable 0%R (su_ops Rnum_ops) same_ping atto_hash no_loop_back open_net /\
  net_error same_ping atto_hash open_net = Some (ordered_of (su_ops Rnum_ops) open_net, false) /\
  Forall (leaf_sound (su_ops Rnum_ops) (su_route Rnum_ops Rturn) (fun _ => false) constant_if_value 1%R) (units (ordered_of (su_ops Rnum_ops) open_net)) /\
  net_route Rnum_ops (su_ops Rnum_ops) same_ping atto_hash (su_route Rnum_ops Rturn) 1%R open_net [Value 5%R] =
    Some (ordered_of (su_ops Rnum_ops) open_net, [Value 5%R; Value 0%R; Unknown]).
Proof. exact open_case. Qed.

(* Frequency response, over exact real numbers, of a network without cycles of filters as the constructors make them, mixers and panners:
   fed a cosine of the frequency, output i settles to the cosine times the reported complex number. *)
Theorem C79_response_heard : forall uping ahash sr freq n, (0 < sr)%R -> control_laws (lu_ops Rnum_ops) uping -> reachable 0%R (lu_ops Rnum_ops) uping ahash no_loop_back n ->
  forall m, net_error uping ahash n = Some (m, false) -> Forall (lu_built sr) (units m) ->
  forall i r, net_response Rnum_ops (lu_ops Rnum_ops) uping ahash (lu_route Rnum_ops R_elem sr) n freq i = Some (Some r) ->
  settles (radians sr freq) r (fun t =>
    match net_output 0%R (lu_ops Rnum_ops) uping ahash n (fun t => repeat (cos (radians sr freq * INR t)) (n_in n)) t with Some y => nth i y 0%R | None => 0%R end).
Proof.
  intros uping ahash sr freq n Hsr Hc Rn m E Hb i r. destruct (no_error_acyclic _ _ uping ahash Hc lu_laws n Rn m E) as [W Ha].
  exact (net_response_sound uping ahash sr freq n m i r Hc W Ha E (lu_built_stable sr _ Hsr Hb)).
Qed.
Print Assumptions C79_response_heard.
Example C79_response_heard_example : reachable 0%R (lu_ops Rnum_ops) same_ping atto_hash no_loop_back res_net /\ control_laws (lu_ops Rnum_ops) same_ping /\
  net_error same_ping atto_hash res_net = Some (ordered_of (lu_ops Rnum_ops) res_net, false) /\ Forall (lu_built 8) (units (ordered_of (lu_ops Rnum_ops) res_net)) /\
  exists r, net_response Rnum_ops (lu_ops Rnum_ops) same_ping atto_hash (lu_route Rnum_ops R_elem 8%R) res_net 1%R 0 = Some (Some r).
Proof.
  split; [exact res_reachable|]. split; [exact lu_control|]. split; [exact res_error|]. split; [exact res_built|]. exact res_response.
Qed.

(* REFUTED: "a latency of None says that the outputs do not depend on the inputs, for every network". In a network with a cycle the nodes that come before
   their sources in the order are analysed on unknown labels: a delay that reads a mixer of itself and the input reports no latency, but the input comes out two samples later.
   error() reports the cycle, and the documentation of latency does not mention it. *)
Theorem C79_cycle_latency_refuted : ~ (forall (P U : Type) (ops : unit_ops R P U) uping ahash u_route,
  control_laws ops uping -> unit_laws 0%R ops -> forall n, reachable 0%R ops uping ahash no_loop_back n ->
  forall m error, net_error uping ahash n = Some (m, error) -> Forall (fun u => forall T, leaf_sound ops u_route (fun _ => false) (same_before T) 1%R u) (units m) ->
  net_latency Rnum_ops ops uping ahash u_route n = Some None ->
  forall X Y, width (n_in n) X -> width (n_in n) Y -> forall t, net_output 0%R ops uping ahash n X t = net_output 0%R ops uping ahash n Y t).
Proof. exact cycle_latency. Qed.
Print Assumptions C79_cycle_latency_refuted.
