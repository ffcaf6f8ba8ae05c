(* Units for the adapter theorems. *)
From Coq Require Import ZArith Lia.
From Verif Require Export AdaptProofs.

(* a node whose output is the value it was last set to *)
Definition dial_tick (u : Z) (_ : list Z) : Z * list Z := (u, [u]).
Definition dial_ops : unit_ops Z Z Z := mkUnit Z Z Z (fun _ => 0) (fun _ => 1) dial_tick (fun u size i o => default_process 0%Z dial_tick size u i o) (fun _ s => s_par s) (fun u => u) (fun _ => 0%N) (fun u _ => u).
(* a running sum *)
Definition sum_tick (u : Z) (i : list Z) : Z * list Z := let v := (u + nth 0 i 0)%Z in (v, [v]).
Definition sum_ops : unit_ops Z unit Z := mkUnit Z unit Z (fun _ => 1) (fun _ => 1) sum_tick (fun u size i o => default_process 0%Z sum_tick size u i o) (fun u _ => u) (fun _ => 0%Z) (fun _ => 0%N) (fun u _ => u).
Lemma sum_laws : unit_laws 0%Z sum_ops.
Proof. split; [reflexivity|reflexivity|reflexivity|]. intros u. apply (default_process_contract 0%Z sum_tick 1 1 (fun _ => True)); [|exact I]. intros y i _ H. split; [exact I|reflexivity]. Qed.
(* a counter *)
Definition count_tick (u : Z) (_ : list Z) : Z * list Z := ((u + 1)%Z, [u]).
Definition count_ops : unit_ops Z unit Z := mkUnit Z unit Z (fun _ => 0) (fun _ => 1) count_tick (fun u size i o => default_process 0%Z count_tick size u i o) (fun u _ => u) (fun _ => 0%Z) (fun _ => 0%N) (fun u _ => u).
Lemma count_laws : unit_laws 0%Z count_ops.
Proof. split; [reflexivity|reflexivity|reflexivity|]. intros u. apply (default_process_contract 0%Z count_tick 1 0 (fun _ => True)); [|exact I]. intros y i _ H. split; [exact I|reflexivity]. Qed.
Lemma count_shape u b : shaped 1 b -> shaped 1 (snd (u_process count_ops u MAXB [] b)).
Proof. intros H. pose proof (ul_process _ _ count_laws u MAXB [] b (le_n _) (conj eq_refl (Forall_nil _)) H) as X. destruct (u_process count_ops u MAXB [] b). exact (proj2 X). Qed.
