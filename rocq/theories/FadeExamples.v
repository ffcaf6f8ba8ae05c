(* Concrete units and the facts about the fade curves used by FadeProperties.v. *)
From Coq Require Import Reals Lra QArith SpecFloat.
From Verif Require Export FadeProofs.

(* a generator of a constant, without block processing of its own *)
Definition const_ops {F} (n : num F) : unit_ops F F F :=
  mkUnit F F F (fun _ => 0%nat) (fun _ => 1%nat) (fun u _ => (u, [u])) (fun u size inb out => default_process (n0 n) (fun u _ => (u, [u])) size u inb out)
    (fun u s => s_par s) (fun u => u) (fun _ => 2%N) (fun u _ => u).
(* a generator of a constant, and the placeholder of one channel *)
Definition fade_in_ops {F} (n : num F) : unit_ops F F (option F) :=
  mkUnit F F (option F) (fun _ => 0%nat) (fun _ => 1%nat) (fun u _ => (u, match u with Some v => [v] | None => dummy_tick (n0 n) 1 [] end))
    (fun u size inb out => match u with Some v => default_process (n0 n) (fun u _ => (u, [v])) size u inb out | None => (u, dummy_process (n0 n) size out) end)
    (fun u s => u) (fun u => u) (fun _ => 93%N) (fun u _ => u).
Definition Q_at : fade -> Q -> Q := fade_at Qnum_ops (11 # 7) (22 # 7) (2420 # 49).
Definition f32_at : fade -> spec_float -> spec_float :=
  fade_at f32_ops (S754_finite false 13176795 (-23)) (S754_finite false 13176795 (-22)) (S754_finite false 12935123 (-18)).
Definition R_at : fade -> R -> R := fade_at Rnum_ops (PI * (1 / 2))%R PI (5 * PI * PI)%R.
Definition f32z (z : Z) : spec_float := nofZ f32_ops z.

Lemma const_laws : unit_laws 0%R (const_ops Rnum_ops).
Proof.
  split; try reflexivity. intros u. exact (default_process_contract 0%R (fun u _ => (u, [u])) 1 0 (fun _ => True) u (fun _ _ _ _ => conj I eq_refl) I).
Qed.

Local Open Scope R_scope.
Lemma smooth5_sum p : R_at Smooth (1 - p) + R_at Smooth p = 1.
Proof. unfold R_at, fade_at, smooth5. cbn. ring. Qed.
Lemma smooth5_01 p : 0 <= p <= 1 -> 0 <= R_at Smooth p <= 1.
Proof.
  intros H. assert (L : forall q, 0 <= q <= 1 -> 0 <= R_at Smooth q). { intros q Hq. unfold R_at, fade_at, smooth5. cbn. repeat apply Rmult_le_pos; try lra. assert (0 <= (q - 5 / 4) * (q - 5 / 4)) by nra. nra. }
  split; [now apply L|]. pose proof (L (1 - p) ltac:(lra)). pose proof (smooth5_sum p). lra.
Qed.
Lemma power_eq p : R_at Power p = 4 * (p * (2 - p)) / (5 - p * (2 - p)).
Proof.
  unfold R_at, fade_at, sine_ease. cbn. assert (PI <> 0) by (pose proof PI_RGT_0; lra).
  replace (16 * (p * (PI * (1 / 2))) * (PI - p * (PI * (1 / 2)))) with ((PI * PI) * (4 * (p * (2 - p)))) by field.
  replace (5 * PI * PI - 4 * (p * (PI * (1 / 2))) * (PI - p * (PI * (1 / 2)))) with ((PI * PI) * (5 - p * (2 - p))) by field.
  assert (5 - p * (2 - p) <> 0) by nra. field. auto.
Qed.
Lemma power_01 p : 0 <= p <= 1 -> 0 <= R_at Power p <= 1.
Proof.
  intros H. rewrite power_eq. assert (0 <= p * (2 - p) <= 1) by nra. assert (0 < 5 - p * (2 - p)) by lra. split.
  - unfold Rdiv. apply Rmult_le_pos; [lra|]. left. apply Rinv_0_lt_compat. lra.
  - apply Rmult_le_reg_r with (r := 5 - p * (2 - p)); [lra|]. unfold Rdiv. rewrite Rmult_assoc, Rinv_l by lra. lra.
Qed.
Lemma power_mono p q : 0 <= p -> p <= q -> q <= 1 -> R_at Power p <= R_at Power q.
Proof.
  intros H0 H1 H2. rewrite !power_eq. assert (0 <= p * (2 - p) <= 1) by nra. assert (0 <= q * (2 - q) <= 1) by nra. assert (p * (2 - p) <= q * (2 - q)) by nra.
  set (a := p * (2 - p)) in *. set (b := q * (2 - q)) in *. apply Rmult_le_reg_r with (r := (5 - a) * (5 - b)); [nra|].
  replace (4 * a / (5 - a) * ((5 - a) * (5 - b))) with (4 * a * (5 - b)) by (field; lra). replace (4 * b / (5 - b) * ((5 - a) * (5 - b))) with (4 * b * (5 - a)) by (field; lra). nra.
Qed.
Lemma smooth5_mono p q : 0 <= p -> p <= q -> q <= 1 -> R_at Smooth p <= R_at Smooth q.
Proof.
  intros H0 H1 H2. unfold R_at, fade_at, smooth5. cbn. set (c := (p + q) / 2). set (h := (q - p) / 2). replace p with (c - h) by (unfold c, h; field). replace q with (c + h) by (unfold c, h; field).
  set (v := c * (1 - c)). set (w := h * h). assert (Hc : 0 <= c <= 1) by (unfold c; lra). assert (Hv : 0 <= v <= 1 / 4). { unfold v. clearbody c. split; [apply Rmult_le_pos; lra|]. pose proof (Rle_0_sqr (c - 1 / 2)) as Q. unfold Rsqr in Q. lra. } assert (Hw : 0 <= w) by (unfold w; nra). assert (Hh : 0 <= h) by (unfold h; lra).
  assert (D : 0 <= 30 * v * v + w * (10 - 60 * v) + 6 * w * w).
  { clearbody v w. destruct (Rle_dec v (1 / 6)).
    - assert (0 <= w * (10 - 60 * v)) by (apply Rmult_le_pos; lra). assert (0 <= v * v) by (apply Rmult_le_pos; lra). assert (0 <= w * w) by (apply Rmult_le_pos; lra). lra.
    - assert (0 <= (v - 1 / 6) * (1 / 4 - v)) by (apply Rmult_le_pos; lra). pose proof (Rle_0_sqr (12 * w + (10 - 60 * v))) as Q. unfold Rsqr in Q. lra. }
  assert (E : (((c + h) * 6 - 15) * (c + h) + 10) * (c + h) * (c + h) * (c + h) - (((c - h) * 6 - 15) * (c - h) + 10) * (c - h) * (c - h) * (c - h) = 2 * h * (30 * v * v + w * (10 - 60 * v) + 6 * w * w)) by (unfold v, w; ring).
  assert (0 <= 2 * h * (30 * v * v + w * (10 - 60 * v) + 6 * w * w)) by (apply Rmult_le_pos; lra). lra.
Qed.
