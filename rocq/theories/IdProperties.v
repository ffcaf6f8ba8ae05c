(* C36. *)
From Verif Require Import IdExamples.
Open Scope N_scope.

(* Ids are unique in every interleaving of any number of threads in which no attempt is overtaken by 2^20 - 1 others (and the high word
   does not wrap). Missing: other interleavings, for which C36_duplicate_refuted shows it false. *)
Theorem C36_prompt_partial threads schedule : prompt_run schedule (gen_new threads) -> NoDup (g_ids (gen_run schedule (gen_new threads))).
Proof. exact (prompt_unique threads schedule). Qed.
Print Assumptions C36_prompt_partial.
Example C36_prompt_case : prompt_run [0; 1; 1; 0; 2; 1; 0; 2; 2; 2; 0; 1]%nat (gen_new 3) /\ length (g_ids (gen_run [0; 1; 1; 0; 2; 1; 0; 2; 2; 2; 0; 1]%nat (gen_new 3))) = 3%nat.
Proof. split; [apply prompt_all|]; vm_compute; reflexivity. Qed.

(* With at most 0xfff00000 attempts in all, ids are unique in every interleaving. *)
Theorem C36_first_ids threads schedule : g_begun (gen_run schedule (gen_new threads)) <= DANGER -> NoDup (g_ids (gen_run schedule (gen_new threads))).
Proof. exact (few_unique threads schedule). Qed.
Print Assumptions C36_first_ids.
Example C36_first_ids_case : g_begun (gen_run [0; 1; 1; 0; 2; 1; 0; 2; 2; 2; 0; 1]%nat (gen_new 3)) <= DANGER.
Proof. vm_compute. discriminate. Qed.

(* A single thread gets unique ids for 2^62 steps. *)
Theorem C36_one_thread schedule : N.of_nat (length schedule) < 2 ^ 62 -> NoDup (g_ids (gen_run schedule (gen_new 1))).
Proof. intros L. exact (prompt_unique 1 schedule (one_prompt schedule L)). Qed.
Print Assumptions C36_one_thread.
Example C36_one_thread_case : N.of_nat (length (repeat 0%nat 9)) < 2 ^ 62 /\ length (g_ids (gen_run (repeat 0%nat 9) (gen_new 1))) = 3%nat.
Proof. split; vm_compute; reflexivity. Qed.

(* A thread that is overtaken by 0xfff00000 others returns an id that was already returned. *)
Theorem C36_duplicate_refuted : ~ (forall threads schedule, NoDup (g_ids (gen_run schedule (gen_new threads)))).
Proof. intros H. destruct overtaken_twice as (k & rest & E). specialize (H 2%nat (overtaken k)). rewrite E in H. inversion H as [|? ? N _]. apply N. now left. Qed.
Print Assumptions C36_duplicate_refuted.
