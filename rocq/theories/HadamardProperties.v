(* C44. *)
From Coq Require Import Reals Lra SpecFloat ZArith QArith.
From Verif Require Import HadamardProofs.
Close Scope R_scope. Close Scope Q_scope. Open Scope nat_scope.

(* For every power-of-two number of channels the Hadamard feedback matrix preserves the sum of squares. *)
Theorem C44_energy : forall k x, length x = 2 ^ k ->
  exists y, hadamard Rnum_ops (1 / sqrt (INR (2 ^ k)))%R x = Some y /\ length y = 2 ^ k /\ energy y = energy x.
Proof.
  intros k x L. rewrite (hadamard_ok _ k x L). eexists. split; [reflexivity|]. split; [now rewrite map_length, sylvester_length|].
  assert (P : (0 < INR (2 ^ k))%R) by (apply lt_0_INR; pose proof (pow_gt k); lia). assert (E : INR (2 ^ k) = (2 ^ k)%R) by (rewrite pow_INR; reflexivity).
  rewrite energy_scale, sylvester_energy by auto. rewrite E in *. pose proof (sqrt_lt_R0 _ P) as S. pose proof (sqrt_sqrt _ (Rlt_le _ _ P)) as SS.
  replace (1 / sqrt (2 ^ k) * (1 / sqrt (2 ^ k)))%R with (/ (sqrt (2 ^ k) * sqrt (2 ^ k)))%R by (field; lra). rewrite SS. field. lra.
Qed.
Print Assumptions C44_energy.
Example C44_energy_case : exists y, hadamard Rnum_ops (1 / sqrt (INR (2 ^ 2)))%R [1; 2; 3; 4]%R = Some y /\ energy y = energy [1; 2; 3; 4]%R.
Proof. destruct (C44_energy 2 [1; 2; 3; 4]%R eq_refl) as (y & A & _ & B). now exists y. Qed.
(* Output i is the sum of the inputs j, each with a sign that depends on the bits that i and j share, over the square root of the number
   of channels: all inputs go to all outputs with equal weight. *)
Theorem C44_matrix : forall scale k x, length x = 2 ^ k -> exists y, hadamard Rnum_ops scale x = Some y /\
  forall i, i < 2 ^ k -> nth i y 0%R = (scale * rsum (2 ^ k) (fun j => sign k i j * nth j x 0))%R.
Proof.
  intros scale k x L. rewrite (hadamard_ok _ k x L). eexists. split; [reflexivity|]. intros i Hi. rewrite <- sylvester_entry by auto.
  rewrite (nth_indep _ 0%R (0 * scale)%R) by (rewrite map_length, sylvester_length; auto). rewrite (map_nth (fun v => (v * scale)%R)). ring.
Qed.
Print Assumptions C44_matrix.
Example C44_matrix_case : exists y, hadamard Rnum_ops 1%R [1; 2; 3; 4]%R = Some y /\ nth 2 y 0%R = (-4)%R.
Proof. exists [10; -2; -4; 0]%R. split; [|reflexivity]. cbn. repeat f_equal; lra. Qed.
(* Mixing twice restores the input. *)
Theorem C44_involution : forall k x, length x = 2 ^ k ->
  exists y, hadamard Rnum_ops (1 / sqrt (INR (2 ^ k)))%R x = Some y /\ hadamard Rnum_ops (1 / sqrt (INR (2 ^ k)))%R y = Some x.
Proof.
  intros k x L. rewrite (hadamard_ok _ k x L). eexists. split; [reflexivity|]. rewrite (hadamard_ok _ k) by now rewrite map_length, sylvester_length. f_equal.
  rewrite sylvester_scale, sylvester_twice, !map_map by auto. rewrite <- (map_id x) at 2. apply map_ext. intros v.
  assert (P : (0 < INR (2 ^ k))%R) by (apply lt_0_INR; pose proof (pow_gt k); lia). assert (E : INR (2 ^ k) = (2 ^ k)%R) by (rewrite pow_INR; reflexivity). rewrite E in *.
  pose proof (sqrt_lt_R0 _ P) as S. pose proof (sqrt_sqrt _ (Rlt_le _ _ P)) as SS. set (r := sqrt (2 ^ k)) in *. rewrite <- SS. field. lra.
Qed.
Print Assumptions C44_involution.
Example C44_involution_case : length [1; 2; 3; 4; 5; 6; 7; 8]%R = 2 ^ 3.
Proof. reflexivity. Qed.
(* With the scale that the code uses, rounded to f32, the mix never gains energy, and it loses less than 4 parts in 10^8. *)
Theorem C44_rounded_scale : forall k x, length x = 2 ^ k -> exists y, hadamard Rnum_ops (f32_scale k) x = Some y /\
  (energy y <= energy x)%R /\ (energy x * (1 - 4 / 100000000) <= energy y)%R.
Proof.
  intros k x L. rewrite (hadamard_ok _ k x L). eexists. split; [reflexivity|]. rewrite energy_scale, sylvester_energy by auto. pose proof (energy_pos x) as EP.
  set (c := (if Nat.even k then 1 else 11863283 / 16777216)%R). assert (Q : (f32_scale k * f32_scale k * (2 ^ k * energy x) = (c * c * (if Nat.even k then 1 else 2)) * energy x)%R).
  { assert (P : (2 ^ k = 2 ^ Nat.div2 k * 2 ^ Nat.div2 k * (if Nat.even k then 1 else 2))%R).
    { rewrite <- pow_add. replace (2 ^ k)%R with (2 ^ (2 * Nat.div2 k + (if Nat.even k then 0 else 1)))%R; [rewrite pow_add; replace (2 * Nat.div2 k) with (Nat.div2 k + Nat.div2 k) by lia; destruct (Nat.even k); cbn; ring|].
      f_equal. pose proof (Nat.div2_odd k) as D. rewrite <- Nat.negb_even in D. destruct (Nat.even k); cbn [negb Nat.b2n] in D; lia. }
    rewrite P at 1. unfold f32_scale. fold c. pose proof (pow_lt 2 (Nat.div2 k) ltac:(lra)) as D. field. lra. }
  rewrite Q. unfold c. destruct (Nat.even k); split; nra.
Qed.
Print Assumptions C44_rounded_scale.
(* the scale of the code for 1, 2, 4, ... 64 channels, computed in f64 and rounded to f32 *)
Example C44_scale_case : let as_f32 x := match x with S754_finite s m e => binary_normalize 24 128 (if s then Zneg m else Zpos m) e s | y => y end in
  map (fun k => as_f32 (SFdiv 53 1024 (nofZ f64_ops 1) (SFsqrt 53 1024 (nofZ f64_ops (2 ^ Z.of_nat k))))) (seq 0 7) =
  [S754_finite false 8388608 (-23); S754_finite false 11863283 (-24); S754_finite false 8388608 (-24); S754_finite false 11863283 (-25); S754_finite false 8388608 (-25); S754_finite false 11863283 (-26); S754_finite false 8388608 (-26)].
Proof. vm_compute. reflexivity. Qed.
Example C44_case : hadamard Qnum_ops 1%Q [1; 2; 3; 4]%Q = Some [10; -2; -4; 0]%Q.
Proof. vm_compute. reflexivity. Qed.
