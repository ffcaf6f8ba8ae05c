(* Networks used by the examples and refutations of NetRouteProperties.v. *)
From Coq Require Import Reals Lra Lia.
From Verif Require Import NetRouteSpec.
From Verif Require Export NetRouteProofs SignalExamples NetExamples FilterExamples.
From Verif Require Import NetBinop.
Local Open Scope nat_scope.

Definition same_ping {U} (probe : bool) (u : U) (h : N) : U * N := (u, h).
Lemma su_control : control_laws (su_ops Rnum_ops) same_ping.
Proof. constructor; reflexivity. Qed.
Lemma lu_control : control_laws (lu_ops Rnum_ops) same_ping.
Proof. constructor; reflexivity. Qed.
Lemma leaf_sound_exact {P U W} (ops : unit_ops R P U) u_route copes (M : meaning W) freq u : leaf_sound ops u_route copes M freq u -> leaf_sound ops u_route (fun _ => false) M freq u.
Proof. intros H S S' X HL [Hl|Hl] E; [|discriminate]. apply (H S S' X HL); auto. Qed.

(* a lookahead of one sample; a delay of three samples and a lookahead of two, both reading it; the nodes are pushed in the opposite order *)
Definition lat_acts : list (@action R unit (su R)) :=
  [Push 1 (Ahead [0; 0]%R); Push 2 (Line [0; 0; 0]%R); Push 3 (Ahead [0]%R); ConnectInput 0 3 0; Connect 3 0 1 0; Connect 3 0 2 0; ConnectOutput 1 0 0; ConnectOutput 2 0 1].
Definition lat_net : net R (su R) := match acts 0%R (su_ops Rnum_ops) same_ping atto_hash lat_acts (net_new 1 2) with Some n => n | None => net_new 0 0 end.
Lemma lat_reachable : reachable 0%R (su_ops Rnum_ops) same_ping atto_hash no_loop_back lat_net.
Proof. apply (acts_reachable _ _ _ _ _ lat_acts (net_new 1 2)); [constructor| |vm_compute; reflexivity]. legal_tac. Qed.
Definition ordered_of {P U} (ops : unit_ops R P U) (n : net R U) : net R U := match ordered same_ping atto_hash n with Some m => m | None => net_new 0 0 end.
Lemma lat_error : net_error same_ping atto_hash lat_net = Some (ordered_of (su_ops Rnum_ops) lat_net, false).
Proof. vm_compute. reflexivity. Qed.
Lemma lat_units : units (ordered_of (su_ops Rnum_ops) lat_net) = [Ahead [0; 0]%R; Line [0; 0; 0]%R; Ahead [0]%R].
Proof. vm_compute. reflexivity. Qed.

(* the input into a lowpass filter; it and the input, mixed *)
Definition res_acts : list (@action R unit (lunit R)) :=
  [Push 1 (Mix 2 [[1; 2]%R]); Push 2 (Bank [demo_low]); ConnectInput 0 2 0; ConnectInput 0 1 0; Connect 2 0 1 1; PipeOutput 1].
Definition res_net : net R (lunit R) := match acts 0%R (lu_ops Rnum_ops) same_ping atto_hash res_acts (net_new 1 1) with Some n => n | None => net_new 0 0 end.
Lemma res_reachable : reachable 0%R (lu_ops Rnum_ops) same_ping atto_hash no_loop_back res_net.
Proof. apply (acts_reachable _ _ _ _ _ res_acts (net_new 1 1)); [constructor| |lazy -[demo_low Rplus Rmult R0 R1 Ropp Rinv]; reflexivity]. lazy -[demo_low Rplus Rmult R0 R1 Ropp Rinv]. legal_tac. Qed.
Lemma res_error : net_error same_ping atto_hash res_net = Some (ordered_of (lu_ops Rnum_ops) res_net, false).
Proof. lazy -[demo_low Rplus Rmult R0 R1 Ropp Rinv]. reflexivity. Qed.
Lemma res_units : units (ordered_of (lu_ops Rnum_ops) res_net) = [Mix 2 [[1; 2]%R]; Bank [demo_low]].
Proof. lazy -[demo_low Rplus Rmult R0 R1 Ropp Rinv]. reflexivity. Qed.
Lemma res_built : Forall (lu_built 8) (units (ordered_of (lu_ops Rnum_ops) res_net)).
Proof. rewrite res_units. constructor; [repeat constructor|]. constructor; [exact (proj1 demo_built)|constructor]. Qed.
Lemma lat_latency : net_latency Rnum_ops (su_ops Rnum_ops) same_ping atto_hash (su_route Rnum_ops Rturn) lat_net = Some (Some 1%R).
Proof. lazy -[Rplus Rmult R0 R1 Ropp Rinv Rmin IZR]. f_equal. f_equal. unfold Rmin. destruct (Rle_dec _ _); lra. Qed.

(* a cycle: a mixer of the input and the output of a one sample delay, which delays the mix *)
Definition cyc_acts : list (@action R unit (lunit R)) :=
  [Push 1 (Mix 2 [[1; 1]%R]); Push 2 (Bank [FTick 0%R]); ConnectInput 0 1 0; Connect 2 0 1 1; Connect 1 0 2 0; PipeOutput 2].
Definition cyc_net : net R (lunit R) := match acts 0%R (lu_ops Rnum_ops) same_ping atto_hash cyc_acts (net_new 1 1) with Some n => n | None => net_new 0 0 end.
Lemma cyc_reachable : reachable 0%R (lu_ops Rnum_ops) same_ping atto_hash no_loop_back cyc_net.
Proof. apply (acts_reachable _ _ _ _ _ cyc_acts (net_new 1 1)); [constructor| |vm_compute; reflexivity]. legal_tac. Qed.
Lemma cyc_latency : net_latency Rnum_ops (lu_ops Rnum_ops) same_ping atto_hash (lu_route Rnum_ops R_elem 8%R) cyc_net = Some None.
Proof. lazy -[Rplus Rmult R0 R1 Ropp Rinv Rmin IZR]. reflexivity. Qed.
Lemma cyc_error : net_error same_ping atto_hash cyc_net = Some (ordered_of (lu_ops Rnum_ops) cyc_net, true).
Proof. vm_compute. reflexivity. Qed.
Lemma cyc_heard x : net_output 0%R (lu_ops Rnum_ops) same_ping atto_hash cyc_net (fun _ => [x]) 2 = Some [x].
Proof. lazy -[Rplus Rmult R0 R1 Ropp Rinv Rmin IZR]. f_equal. f_equal. ring. Qed.

Lemma cyc_units : units (ordered_of (lu_ops Rnum_ops) cyc_net) = [Mix 2 [[1; 1]%R]; Bank [FTick 0%R]].
Proof. vm_compute. reflexivity. Qed.
Lemma cycle_latency : ~ (forall (P U : Type) (ops : unit_ops R P U) uping ahash u_route,
  control_laws ops uping -> unit_laws 0%R ops -> forall n, reachable 0%R ops uping ahash no_loop_back n ->
  forall m error, net_error uping ahash n = Some (m, error) -> Forall (fun u => forall T, leaf_sound ops u_route (fun _ => false) (same_before T) 1%R u) (units m) ->
  net_latency Rnum_ops ops uping ahash u_route n = Some None ->
  forall X Y, width (n_in n) X -> width (n_in n) Y -> forall t, net_output 0%R ops uping ahash n X t = net_output 0%R ops uping ahash n Y t).
Proof.
  intros H. assert (E : net_output 0%R (lu_ops Rnum_ops) same_ping atto_hash cyc_net (fun _ => [0%R]) 2 = net_output 0%R (lu_ops Rnum_ops) same_ping atto_hash cyc_net (fun _ => [1%R]) 2).
  { apply (H unit (lunit R) (lu_ops Rnum_ops) same_ping atto_hash (lu_route Rnum_ops R_elem 8%R) lu_control lu_laws cyc_net cyc_reachable _ _ cyc_error).
    - rewrite cyc_units. constructor; [|constructor; [|constructor]]; intros T; eapply leaf_sound_exact; apply lu_latency_sound; repeat constructor.
    - exact cyc_latency.
    - intros t. vm_compute. reflexivity.
    - intros t. vm_compute. reflexivity. }
  rewrite !cyc_heard in E. inversion E. lra.
Qed.
Lemma res_response : exists r, net_response Rnum_ops (lu_ops Rnum_ops) same_ping atto_hash (lu_route Rnum_ops R_elem 8%R) res_net 1%R 0 = Some (Some r).
Proof.
  assert (H : match net_response Rnum_ops (lu_ops Rnum_ops) same_ping atto_hash (lu_route Rnum_ops R_elem 8%R) res_net 1%R 0 with Some (Some _) => true | _ => false end = true) by
    (lazy -[demo_low filt_response Rplus Rmult R0 R1 Ropp Rinv IZR Rdiv Rminus]; reflexivity).
  destruct (net_response _ _ _ _ _ _ _ _) as [[r|]|]; [now exists r|discriminate|discriminate].
Qed.
Lemma lu_built_stable sr us : (0 < sr)%R -> Forall (lu_built sr) us -> Forall (lu_stable sr) us.
Proof. intros Hs. apply Forall_impl. intros [fs|n m|l r]; cbn; auto. apply Forall_impl. intros f. now apply built_stable. Qed.

Lemma lat_index : n_index lat_net = [(3%N, 2); (2%N, 1); (1%N, 0)].
Proof. vm_compute. reflexivity. Qed.
Lemma lat_fresh : fresh_for lat_net lat_net new_id.
Proof.
  split; [unfold new_id; intros i j H; lia|]; intros i; unfold contains, new_id; rewrite lat_index; split; intros H; apply H; apply lookup_small; intros p Hp; cbn [In] in Hp; repeat destruct Hp as [<-|Hp]; cbn [fst]; try lia; contradiction.
Qed.
Lemma lat_stack : exists fresh n, fresh_for lat_net lat_net fresh /\ net_stack fresh lat_net lat_net = Some n /\ n_in n = 2 /\ n_out n = 4.
Proof.
  destruct (stack_gen 0%R (su_ops Rnum_ops) false new_id lat_net lat_net) as (n & E & _ & H1 & H2 & _).
  1, 2: apply (reachable_wf 0%R (su_ops Rnum_ops) same_ping atto_hash su_control su_laws _ lat_reachable). exact lat_fresh. discriminate.
  exists new_id, n. split; [exact lat_fresh|]. split; [exact E|]. rewrite H1, H2. split; vm_compute; reflexivity.
Qed.

(* a pass-through, an open output, and a delay *)
Definition open_acts : list (@action R unit (su R)) := [Push 1 (Line [0; 0]%R); PassThrough 0 0; ConnectInput 0 1 0; ConnectOutput 1 0 2].
Definition open_net : net R (su R) := match acts 0%R (su_ops Rnum_ops) same_ping atto_hash open_acts (net_new 1 3) with Some n => n | None => net_new 0 0 end.
Lemma open_reachable : reachable 0%R (su_ops Rnum_ops) same_ping atto_hash no_loop_back open_net.
Proof. apply (acts_reachable _ _ _ _ _ open_acts (net_new 1 3)); [constructor| |vm_compute; reflexivity]. legal_tac. Qed.
Lemma open_units : units (ordered_of (su_ops Rnum_ops) open_net) = [Line [0; 0]%R].
Proof. vm_compute. reflexivity. Qed.
Lemma open_case : reachable 0%R (su_ops Rnum_ops) same_ping atto_hash no_loop_back open_net /\
  net_error same_ping atto_hash open_net = Some (ordered_of (su_ops Rnum_ops) open_net, false) /\
  Forall (leaf_sound (su_ops Rnum_ops) (su_route Rnum_ops Rturn) (fun _ => false) constant_if_value 1%R) (units (ordered_of (su_ops Rnum_ops) open_net)) /\
  net_route Rnum_ops (su_ops Rnum_ops) same_ping atto_hash (su_route Rnum_ops Rturn) 1%R open_net [Value 5%R] =
    Some (ordered_of (su_ops Rnum_ops) open_net, [Value 5%R; Value 0%R; Unknown]).
Proof.
  split; [exact open_reachable|]. split; [vm_compute; reflexivity|]. split; [|vm_compute; reflexivity].
  rewrite open_units. constructor; [|constructor]. eapply leaf_sound_exact. apply line_constant.
Qed.
Lemma res_latency : net_latency Rnum_ops (lu_ops Rnum_ops) same_ping atto_hash (lu_route Rnum_ops R_elem 8%R) res_net = Some (Some 0%R).
Proof. lazy -[demo_low filt_response Rplus Rmult R0 R1 Ropp Rinv Rmin IZR Rdiv Rminus]. f_equal. f_equal. unfold Rmin. destruct (Rle_dec _ _); lra. Qed.

Lemma res_index : n_index res_net = [(2%N, 1); (1%N, 0)].
Proof. vm_compute. reflexivity. Qed.
Definition even_id (i : nat) : N := (100 + 2 * N.of_nat i)%N.
Definition odd_id (i : nat) : N := (101 + 2 * N.of_nat i)%N.
Lemma res_fresh : fresh_for res_net res_net even_id /\ fresh_for res_net res_net odd_id /\ forall i j, even_id i <> odd_id j.
Proof.
  split; [|split; [|unfold even_id, odd_id; intros i j; lia]]; (split; [unfold even_id, odd_id; intros i j H; lia|]); intros i; unfold contains, even_id, odd_id; rewrite res_index; split; intros H; apply H; apply lookup_small; intros p Hp; cbn [In] in Hp; repeat destruct Hp as [<-|Hp]; cbn [fst]; try lia; contradiction.
Qed.
Lemma res_sum shared : let b := Mix 2 [[1; 1]%R] in exists n, combine_binop 0%R (lu_ops Rnum_ops) shared even_id odd_id b res_net res_net = Some n /\ n_in n = (if shared then 1 else 2) /\ n_out n = 1 /\
  u_ins (lu_ops Rnum_ops) b = 2 /\ u_outs (lu_ops Rnum_ops) b = 1 /\ forall x y, lu_route Rnum_ops R_elem 8%R b 1%R [x; y] = Some [combine_sum Rnum_ops (sig_scale Rnum_ops x 1%R) (sig_scale Rnum_ops y 1%R)].
Proof.
  intros b. assert (W : NetWf.wf (lu_ops Rnum_ops) res_net) by apply (reachable_wf 0%R (lu_ops Rnum_ops) same_ping atto_hash lu_control lu_laws _ res_reachable).
  destruct res_fresh as (F1 & F2 & F3). assert (I : n_in res_net = 1) by (vm_compute; reflexivity). assert (O : n_out res_net = 1) by (vm_compute; reflexivity).
  destruct (binop_ok 0%R (lu_ops Rnum_ops) shared even_id odd_id b Rplus res_net res_net W W F1 F2 F3 eq_refl eq_refl (fun _ => eq_refl) eq_refl) as (n & E & _ & H1 & H2 & _).
  exists n. split; [exact E|]. rewrite H1, H2, I, O. repeat split.
Qed.
