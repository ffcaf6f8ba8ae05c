(* Property C33: maximum length sequences. Statements only; see MlsModel.v for the model of src/noise.rs. *)
From Verif Require Import MlsModel MlsProofs.
Open Scope N_scope.

(* A freshly created or seeded generator is in a nonzero n-bit state; other orders are rejected. *)
Theorem C33_mls_initial_state_nonzero : forall n seed,
  (1 <= n <= 31 -> exists s1 s2, mls_new n = Some (n, s1) /\ mls_new_with_seed n seed = Some (n, s2) /\
       1 <= s1 < 2 ^ n /\ 1 <= s2 < 2 ^ n) /\
  (~ (1 <= n <= 31) -> mls_new n = None /\ mls_new_with_seed n seed = None).
Proof. exact mls_initial. Qed.
Print Assumptions C33_mls_initial_state_nonzero.

(* From every nonzero state: k steps return to the state exactly when k is a multiple of 2^n - 1;
   every nonzero n-bit state is visited within 2^n - 1 steps; zero never is. *)
Theorem C33_mls_full_period : forall n s, 1 <= n <= 31 -> 1 <= s < 2 ^ n ->
  (forall k, 1 <= mls_iter n k s < 2 ^ n) /\
  (forall k, mls_iter n k s = s <-> exists j, N.of_nat k = j * (2 ^ n - 1)) /\
  (forall x, 1 <= x < 2 ^ n -> exists k, N.of_nat k < 2 ^ n - 1 /\ mls_iter n k s = x).
Proof. exact mls_full_period. Qed.
Print Assumptions C33_mls_full_period.

(* The emitted bit sequence itself has least period 2^n - 1. *)
Theorem C33_mls_output_period : forall n s p, 1 <= n <= 31 -> 1 <= s < 2 ^ n ->
  ((forall k, mls_value n (mls_iter n (k + p) s) = mls_value n (mls_iter n k s)) <->
   exists j, N.of_nat p = j * (2 ^ n - 1)).
Proof. exact mls_output_period_N. Qed.
Print Assumptions C33_mls_output_period.

(* Non-vacuity: order 3 from state 7 runs through all seven states. *)
Example C33_example : map (fun k => mls_iter 3 k 7) (seq 0 8) = [7; 6; 4; 1; 2; 5; 3; 7].
Proof. vm_compute. reflexivity. Qed.
