(* Properties C34 and C35: noise generator and hash utilities. *)
From Verif Require Import HashModel HashProofs.
From Coq Require Import QArith.
Open Scope N_scope.

(* C35: hash1 maps the 64-bit words onto themselves one-to-one. *)
Theorem C35_hash1_permutation :
  (forall x, x < 2 ^ 64 -> hash1 x < 2 ^ 64) /\
  (forall x y, x < 2 ^ 64 -> y < 2 ^ 64 -> hash1 x = hash1 y -> x = y) /\
  (forall y, y < 2 ^ 64 -> exists x, x < 2 ^ 64 /\ hash1 x = y).
Proof. exact (permutation_of_words 64 hash1 hash1_into hash1_inj). Qed.
Print Assumptions C35_hash1_permutation.

(* C35: rnd1 x is the fraction rnd1_num x / 2^53, in [0,1), and every such fraction occurs. *)
Theorem C35_rnd1_unit_interval :
  (forall x, x < 2 ^ 64 -> rnd1_num x < 2 ^ 53) /\
  (forall k, k < 2 ^ 53 -> exists x, x < 2 ^ 64 /\ rnd1_num x = k).
Proof. exact (conj rnd1_num_bound rnd1_num_surj). Qed.
Print Assumptions C35_rnd1_unit_interval.

(* C35: hashing different data into one state, or one datum into different states, gives different states. *)
Theorem C35_atto_hash_injective :
  (forall s a b, s < 2 ^ 64 -> a < 2 ^ 64 -> b < 2 ^ 64 -> atto_hash s a = atto_hash s b -> a = b) /\
  (forall s t a, s < 2 ^ 64 -> t < 2 ^ 64 -> a < 2 ^ 64 -> atto_hash s a = atto_hash t a -> s = t).
Proof. exact (conj atto_inj_data atto_inj_state). Qed.
Print Assumptions C35_atto_hash_injective.

(* C34: the mixing of the 32-bit counter is a permutation of the 32-bit words. *)
Theorem C34_noise_hash_permutation :
  (forall x, x < 2 ^ 32 -> hash32x x < 2 ^ 32) /\
  (forall x y, x < 2 ^ 32 -> y < 2 ^ 32 -> hash32x x = hash32x y -> x = y) /\
  (forall y, y < 2 ^ 32 -> exists x, x < 2 ^ 32 /\ hash32x x = y).
Proof. exact (permutation_of_words 32 hash32x hash32x_into hash32x_inj). Qed.
Print Assumptions C34_noise_hash_permutation.

(* C34: rendering in blocks of any sizes up to 64, into buffers with any previous contents, gives the samples and
   the final state of ticking, whatever the conversion of the 24-bit value to a sample is. *)
Theorem C34_noise_block_equals_tick : forall (A : Type) (conv : N -> A) (blocks : list (nat * list A)) (state : N),
  state < 2 ^ 32 -> Forall (fun b => (fst b <= 64)%nat /\ length (snd b) = 64%nat) blocks ->
  noise_render conv blocks state = noise_ticks conv (list_sum (map fst blocks)) state.
Proof. exact @noise_render_ticks. Qed.
Print Assumptions C34_noise_block_equals_tick.

(* C34: the sample value (exact arithmetic) is in [-1, 1] in every state. *)
Theorem C34_noise_range : forall s, (-(1) <= noise_value_exact (N.shiftr (hash32x s) 8) <= 1)%Q.
Proof. exact noise_value_range. Qed.
Print Assumptions C34_noise_range.

Example C34_example : noise_ticks (fun v => v) 3 (2 ^ 32 - 2) =
  (1, [N.shiftr (hash32x (2 ^ 32 - 1)) 8; N.shiftr (hash32x 0) 8; N.shiftr (hash32x 1) 8]).
Proof. vm_compute. reflexivity. Qed.
Example C35_example : hash1 0 <> hash1 1 /\ hash1 12345 < 2 ^ 64.
Proof. vm_compute. split; [discriminate|reflexivity]. Qed.
