(* Units and networks used by the examples and refutations of NetProperties.v. *)
From Verif Require Export NetMore UnitProofs HashModel.
From Coq Require Import ZArith.
Local Open Scope nat_scope.

(* sample units over the integers: a one-sample delay, a counter, an adder, a two-channel swap, and a constant *)
Inductive nu := NDel (s : Z) | NCnt (k : Z) | NAdd | NSwap | NVal (v : Z).
Definition nu_ins (u : nu) : nat := match u with NDel _ => 1 | NCnt _ | NVal _ => 0 | NAdd | NSwap => 2 end.
Definition nu_outs (u : nu) : nat := match u with NSwap => 2 | _ => 1 end.
Definition nu_tick (u : nu) (i : list Z) : nu * list Z :=
  match u with
  | NDel s => (NDel (nth 0 i 0%Z), [s])
  | NCnt k => (NCnt (k + 1), [k])
  | NAdd => (NAdd, [(nth 0 i 0 + nth 1 i 0)%Z])
  | NSwap => (NSwap, [nth 1 i 0%Z; nth 0 i 0%Z])
  | NVal v => (NVal v, [v])
  end.
Definition nu_ops : unit_ops Z Z nu :=
  mkUnit Z Z nu nu_ins nu_outs nu_tick (fun u size inb out => default_process 0%Z nu_tick size u inb out)
    (fun u s => match u with NDel _ => NDel (s_par s) | NCnt _ => NCnt (s_par s) | _ => u end)
    (fun u => match u with NDel _ => NDel 0 | NCnt _ => NCnt 0 | _ => u end) (fun _ => 100%N) (fun u _ => u).
Definition nu_ping (probe : bool) (u : nu) (h : N) : nu * N := (u, atto_hash h 100).
Lemma nu_laws : unit_laws 0%Z nu_ops.
Proof.
  constructor.
  - intros [] i; reflexivity.
  - intros [] i; reflexivity.
  - intros [] i _; reflexivity.
  - intros u. apply (default_process_contract 0%Z nu_tick (nu_outs u) (nu_ins u) (fun y => nu_ins y = nu_ins u /\ nu_outs y = nu_outs u)); auto.
    intros [] i Hy _; cbn in *; intuition.
Qed.
Lemma nu_control : control_laws nu_ops nu_ping.
Proof. constructor; try (intros [] ?; reflexivity); try (intros []; reflexivity); intros ? [] ?; reflexivity. Qed.
Notation nnet := (net Z nu).
Notation nact := (@action Z Z nu).

(* running a list of actions, and its legality *)
Fixpoint acts {A P U} (zero : A) (ops : unit_ops A P U) uping ahash (l : list action) (n : net A U) : option (net A U) :=
  match l with [] => Some n | a :: r => match apply zero ops uping ahash a n with Some n' => acts zero ops uping ahash r n' | None => None end end.
Fixpoint legal {A P U} (zero : A) (ops : unit_ops A P U) uping ahash (ok : net A U -> action -> Prop) (l : list action) (n : net A U) : Prop :=
  match l with
  | [] => True
  | a :: r => NetSpec.in_range ops n a /\ ok n a /\ match apply zero ops uping ahash a n with Some n' => legal zero ops uping ahash ok r n' | None => False end
  end.
Lemma acts_reachable {A P U} (zero : A) (ops : unit_ops A P U) uping ahash ok l : forall n n', reachable zero ops uping ahash ok n -> legal zero ops uping ahash ok l n -> acts zero ops uping ahash l n = Some n' -> reachable zero ops uping ahash ok n'.
Proof.
  induction l as [|a l IH]; intros n n' R; cbn [legal acts]; [intros _ [= <-]; auto|]. intros (Hr & Hok & Hl) E. destruct (apply zero ops uping ahash a n) as [n1|] eqn:Ea; [|contradiction]. apply (IH n1); auto. eapply r_act; eauto.
Qed.
Definition any {A P U} : net A U -> @action A P U -> Prop := fun _ _ => True.

Ltac legal_tac := vm_compute; repeat first [exact I | split | discriminate | (intro; discriminate) | apply le_n | apply le_S | reflexivity | (intros H; apply H; reflexivity)].
Notation run_nu := (acts 0%Z nu_ops nu_ping atto_hash).
Notation reach_nu := (reachable 0%Z nu_ops nu_ping atto_hash).

(* an acyclic network of five nodes with 2 inputs and 2 outputs, edited and played *)
Definition ex_acts : list nact :=
  [Push 1 (NDel 7); Push 2 NAdd; Push 3 NSwap; Push 4 (NCnt 5); Push 5 (NDel 0);
   ConnectInput 0 1 0; ConnectInput 1 2 0; Connect 1 0 2 1; PipeAll 2 5; SetSource 3 0 (SLocal 5 0); Connect 4 0 3 1; PipeOutput 3; Tick [1; 2]%Z;
   Remove 4; Push 6 (NCnt 50); Connect 6 0 3 1; Chain 8 NSwap; Set_ (mkSetting 9%Z [ANode 1]); Tick [3; 4]%Z; Replace 5 (NDel 2); PassThrough 0 1].
Definition ex_net : nnet := match run_nu ex_acts (net_new 2 2) with Some n => n | None => net_new 0 0 end.
Lemma ex_reachable : reach_nu no_loop_back ex_net.
Proof. apply (acts_reachable _ _ _ _ _ ex_acts (net_new 2 2)); [constructor| |vm_compute; reflexivity]. legal_tac. Qed.

(* two delays reading each other; removing one with links, then the other *)
Definition loop_acts : list nact := [Push 1 (NDel 0); Push 2 (NDel 0); Connect 1 0 2 0; Connect 2 0 1 0; ConnectOutput 1 0 0].
Definition loop_net : nnet := match run_nu loop_acts (net_new 0 1) with Some n => n | None => net_new 0 0 end.
Lemma loop_reachable : reach_nu any loop_net.
Proof. apply (acts_reachable _ _ _ _ _ loop_acts (net_new 0 1)); [constructor| |vm_compute; reflexivity]. legal_tac. Qed.
Definition loop1_net : nnet := match run_nu [RemoveLink 2] loop_net with Some n => n | None => net_new 0 0 end.
Lemma loop1_reachable : reach_nu any loop1_net.
Proof. apply (acts_reachable _ _ _ _ _ [RemoveLink 2%N] loop_net); [apply loop_reachable| |vm_compute; reflexivity]. legal_tac. Qed.
Definition loop2_net : nnet := match run_nu [RemoveLink 1] loop1_net with Some n => n | None => net_new 0 0 end.
Lemma loop2_reachable : reach_nu any loop2_net.
Proof. apply (acts_reachable _ _ _ _ _ [RemoveLink 1%N] loop1_net); [apply loop1_reachable| |vm_compute; reflexivity]. legal_tac. Qed.

(* a played network from which a node is removed *)
Definition stale_acts : list nact := [Push 1 (NCnt 0); Push 2 (NDel 0); Connect 1 0 2 0; ConnectOutput 2 0 0; Tick []; Remove 1].
Definition stale_net : nnet := match run_nu stale_acts (net_new 0 1) with Some n => n | None => net_new 0 0 end.
Lemma stale_reachable : reach_nu no_loop_back stale_net.
Proof. apply (acts_reachable _ _ _ _ _ stale_acts (net_new 0 1)); [constructor| |vm_compute; reflexivity]. legal_tac. Qed.

(* a network with one counter, and one with a counter feeding a delay, played *)
Definition one_net : nnet := match run_nu [Push 1 (NDel 4); PipeInput 1; PipeOutput 1] (net_new 1 1) with Some n => n | None => net_new 0 0 end.
Lemma one_reachable : reach_nu no_loop_back one_net.
Proof. apply (acts_reachable _ _ _ _ _ [Push 1%N (NDel 4); PipeInput 1; PipeOutput 1] (net_new 1 1)); [constructor| |vm_compute; reflexivity]. legal_tac. Qed.
Definition two_acts : list nact := [Push 1 (NDel 1); Push 2 (NDel 0); PipeInput 1; Connect 1 0 2 0; PipeOutput 2; Tick [8]%Z].
Definition two_net : nnet := match run_nu two_acts (net_new 1 1) with Some n => n | None => net_new 0 0 end.
Lemma two_reachable : reach_nu no_loop_back two_net.
Proof. apply (acts_reachable _ _ _ _ _ two_acts (net_new 1 1)); [constructor| |vm_compute; reflexivity]. legal_tac. Qed.
(* the same, the first node reading the second *)
Definition back_acts : list nact := [Push 1 (NDel 1); Push 2 (NDel 0); PipeInput 2; Connect 2 0 1 0; PipeOutput 1; Tick [8]%Z].
Definition back_net : nnet := match run_nu back_acts (net_new 1 1) with Some n => n | None => net_new 0 0 end.
Lemma back_reachable : reach_nu no_loop_back back_net.
Proof. apply (acts_reachable _ _ _ _ _ back_acts (net_new 1 1)); [constructor| |vm_compute; reflexivity]. legal_tac. Qed.
Definition new_id (i : nat) : N := (100 + N.of_nat i)%N.
Definition new_id2 (i : nat) : N := (100000 + N.of_nat i)%N.
Lemma lookup_small m k : (forall p, In p m -> (fst p < k)%N) -> lookup m k = None.
Proof. induction m as [|[a i] m IH]; intros H; cbn [lookup]; auto. destruct (N.eqb_spec a k) as [E|]; [specialize (H (a, i) (or_introl eq_refl)); cbn in H; lia|]. apply IH. intros p Hp. apply H. now right. Qed.
Lemma index_one : n_index one_net = [(1%N, 0)].
Proof. vm_compute. reflexivity. Qed.
Lemma index_two : n_index two_net = [(2%N, 1); (1%N, 0)].
Proof. vm_compute. reflexivity. Qed.
Lemma fresh_one_two : fresh_for one_net two_net new_id /\ fresh_for one_net two_net new_id2.
Proof.
  split; (split; [unfold new_id, new_id2; intros i j H; lia|]); intros i; unfold contains, new_id, new_id2; rewrite index_one, index_two; split; intros H; apply H; apply lookup_small; intros p Hp; cbn [In] in Hp; intuition subst; cbn [fst]; lia.
Qed.
Lemma index_back : n_index back_net = [(2%N, 1); (1%N, 0)].
Proof. vm_compute. reflexivity. Qed.
Lemma fresh_one_back : fresh_for one_net back_net new_id.
Proof.
  split; [unfold new_id; intros i j H; lia|]; intros i; unfold contains, new_id; rewrite index_one, index_back; split; intros H; apply H; apply lookup_small; intros p Hp; cbn [In] in Hp; intuition subst; cbn [fst]; lia.
Qed.

(* white noise as a unit: the state is the hash and the counter of src/noise.rs *)
Definition noise_ops : unit_ops N N (N * N) :=
  mkUnit N N (N * N) (fun _ => 0) (fun _ => 1)
    (fun u _ => let (s, y) := noise_tick (fun x => x) (snd u) in ((fst u, s), [y]))
    (fun u size _ out => let (s, ch) := noise_process (fun x => x) size (snd u) (nth 0 out []) in ((fst u, s), [ch]))
    (fun u _ => u) (fun u => (fst u, noise_reset (fst u))) (fun _ => 20%N) (fun u h => (h, noise_reset h)).
(* audionode.rs:150-155 ping; noise.rs:188 ID, 227-230 set_hash *)
Definition noise_ping (probe : bool) (u : N * N) (h : N) : (N * N) * N := (if probe then u else u_set_hash noise_ops u h, atto_hash h 20).
Definition noise_acts : list (@action N N (N * N)) := [Push 1 (0, 0)%N; ConnectOutput 1 0 0; Tick []; Tick []].
Definition noise_net : net N (N * N) := match acts 0%N noise_ops noise_ping atto_hash noise_acts (net_new 0 2) with Some n => n | None => net_new 0 0 end.
Lemma noise_reachable : reachable 0%N noise_ops noise_ping atto_hash no_loop_back noise_net.
Proof. apply (acts_reachable _ _ _ _ _ noise_acts (net_new 0 2)); [constructor| |vm_compute; reflexivity]. legal_tac. Qed.
