(* IdGenerator: /repo/src/shared.rs:392-452, run by any number of threads. No proofs here.
   Every atomic operation is one step and the steps of the threads interleave (sequential consistency); fetch_update is one step. *)
From Verif Require Export Base HashModel.
Open Scope N_scope.

(* shared.rs:399-401 *)
Definition DANGER : N := 0xfff00000.
(* Where a thread is in get_id. The numbers that are called start are not in the code: they count the attempts begun before. *)
Inductive thread :=
| Idle                                    (* not in a call, or about to try again *)
| Low (start low : N)                     (* shared.rs:414-419 the low word has been read and incremented, below DANGER *)
| High (start low high : N)               (* shared.rs:421 the high word has been read *)
| Zone (start low : N)                    (* shared.rs:414-419 the same in the danger zone *)
| Bumped (start low high : N).            (* shared.rs:432-437 the high word has been read and incremented *)
(* shared.rs:394-397: The words, the threads and the ids that were returned, the latest first. begun counts the attempts (fetches of the low word) and
   bumps the increments of the high word; neither is in the code. *)
Record gen := mkGen { g_low : N; g_high : N; g_threads : list thread; g_ids : list N; g_begun : N; g_bumps : N }.
(* shared.rs:404-409 new *)
Definition gen_new (threads : nat) : gen := mkGen 0 0 (repeat Idle threads) [] 0 0.
(* shared.rs:427, 449 *)
Definition id_of (low high : N) : N := N.lor low (N.shiftl high 32).
(* shared.rs:412-451 get_id: one step of thread number i *)
Definition gen_step (s : gen) (i : nat) : gen :=
  match nth_error (g_threads s) i with
  | None => s
  | Some t =>
      match t with
      | Idle => let t' := if g_low s <? DANGER then Low (g_begun s) (g_low s) else Zone (g_begun s) (g_low s) in
                mkGen (wadd 32 (g_low s) 1) (g_high s) (upd (g_threads s) i t') (g_ids s) (g_begun s + 1) (g_bumps s)
      | Low a l => mkGen (g_low s) (g_high s) (upd (g_threads s) i (High a l (g_high s))) (g_ids s) (g_begun s) (g_bumps s)
      | High a l h =>
          let again := g_low s in
          if (again <? l) || (DANGER <=? again) then mkGen (g_low s) (g_high s) (upd (g_threads s) i Idle) (g_ids s) (g_begun s) (g_bumps s)
          else mkGen (g_low s) (g_high s) (upd (g_threads s) i Idle) (id_of l h :: g_ids s) (g_begun s) (g_bumps s)
      | Zone a l => mkGen (g_low s) (wadd 32 (g_high s) 1) (upd (g_threads s) i (Bumped a l (g_high s))) (g_ids s) (g_begun s) (g_bumps s + 1)
      | Bumped a l h => mkGen (if g_low s <? DANGER then g_low s else 0) (g_high s) (upd (g_threads s) i Idle) (id_of l h :: g_ids s) (g_begun s) (g_bumps s)
      end
  end.
(* shared.rs:412-451: a schedule says which thread steps next *)
Definition gen_run (schedule : list nat) (s : gen) : gen := fold_left gen_step schedule s.
