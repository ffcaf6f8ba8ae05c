(* State variable filters have a quadratic form of their state that shrinks whatever their parameters do. *)
From Coq Require Import Reals Lra Lia Psatz.
From Verif Require Import ShapeProofs TuneProofs TuneReal TuneBounds.
From Verif Require Export ModSpec.
Local Open Scope R_scope.

Section Step.
  Variables G0 G1 K0 K1 : R.
  Hypothesis HG : 0 < G0 <= G1. Hypothesis HK : 0 < K0 <= K1.
  Definition eps := K0 / (2 + K1 * K1).
  Definition form (a b : R) : R := a * a + b * b + 2 * eps * (a * b).
  Definition big := 3 * ((1 + G1 * K1) * (1 + G1 * K1)) + 5 * (G1 * G1) + 2.
  Definition loss := G0 * eps / (2 * big).
  Definition push := G1 * (5 * eps + 4 / eps).
  Lemma eps_range : 0 < eps < 1 / 2 /\ eps <= K0 /\ eps * (2 + K1 * K1) = K0.
  Proof.
    unfold eps. assert (D : 0 < 2 + K1 * K1) by nra. assert (P : 0 < K0 / (2 + K1 * K1)) by (apply Rdiv_lt_0_compat; lra). set (e := K0 / (2 + K1 * K1)) in *.
    assert (E : e * (2 + K1 * K1) = K0) by (unfold e; field; lra). split; [split; [exact P|]|split; [nra|exact E]].
    apply Rnot_le_lt. intros H. assert (1 / 2 * (2 + K1 * K1) <= K0) by (rewrite <- E; apply Rmult_le_compat_r; lra). nra.
  Qed.
  Lemma form_low a b : a * a + b * b <= 2 * form a b.
  Proof. destruct eps_range as [[E1 E2] _]. unfold form. pose proof (Rle_0_sqr (a + b)). pose proof (Rle_0_sqr (a - b)). unfold Rsqr in *. assert (0 <= eps * ((a + b) * (a + b))) by (apply Rmult_le_pos; lra). nra. Qed.
  Lemma form_high a b : form a b <= 2 * (a * a + b * b).
  Proof. destruct eps_range as [[E1 E2] _]. unfold form. pose proof (Rle_0_sqr (a + b)). pose proof (Rle_0_sqr (a - b)). unfold Rsqr in *. assert (0 <= eps * ((a - b) * (a - b))) by (apply Rmult_le_pos; lra). nra. Qed.
  Lemma big_pos : 5 + 5 * (G1 * G1) <= big.
  Proof. unfold big. assert (0 <= G1 * K1) by (apply Rmult_le_pos; lra). nra. Qed.
  Lemma loss_range : 0 < loss < 1.
  Proof.
    destruct eps_range as [[E1 E2] _]. pose proof big_pos as B. assert (0 <= G1 * G1) by nra. unfold loss. split.
    - apply Rdiv_lt_0_compat; [nra|lra].
    - apply Rmult_lt_reg_r with (2 * big); [lra|]. unfold Rdiv. rewrite Rmult_assoc, Rinv_l by lra. nra.
  Qed.
  Lemma push_pos : 0 < push.
  Proof. destruct eps_range as [[E1 E2] _]. unfold push. apply Rmult_lt_0_compat; [lra|]. assert (0 < 4 / eps) by (apply Rdiv_lt_0_compat; lra). lra. Qed.

  Variables g k x a b v1 v2 : R.
  Hypothesis Hg : G0 <= g <= G1. Hypothesis Hk : K0 <= k <= K1.
  Hypothesis H1 : v1 * (1 + g * (g + k)) = a + g * (x - b).
  Hypothesis H2 : v2 = b + g * v1.
  Lemma identity : form (2 * v1 - a) (2 * v2 - b) - form a b = - 4 * g * ((k - eps) * (v1 * v1) + eps * k * (v1 * v2) + eps * (v2 * v2) - x * (v1 + eps * v2)).
  Proof. assert (b = v2 - g * v1) by lra. assert (a = v1 * (1 + g * (g + k)) - g * (x - b)) by lra. unfold form. subst b. subst a. ring. Qed.
  Lemma dissipated : form (2 * v1 - a) (2 * v2 - b) <= form a b - g * eps * (v1 * v1 + v2 * v2) + 4 * g * (eps + 1 / eps) * (x * x).
  Proof.
    pose proof identity as ID. destruct eps_range as [[E1 E2] [E3 E4]]. set (e := eps) in *.
    assert (Q : e / 2 * (v1 * v1 + v2 * v2) <= (k - e) * (v1 * v1) + e * k * (v1 * v2) + e * (v2 * v2)).
    { assert (A : 0 <= e * ((k * v1 + v2) * (k * v1 + v2))) by (apply Rmult_le_pos; [lra|apply Rle_0_sqr]).
      assert (B : e * (2 + k * k) <= K0). { rewrite <- E4. apply Rmult_le_compat_l; [lra|]. nra. }
      assert (C : 0 <= (2 * k - 3 * e - e * (k * k)) * (v1 * v1)) by (apply Rmult_le_pos; nra). nra. }
    assert (X : x * (v1 + e * v2) <= e / 4 * (v1 * v1 + v2 * v2) + (e + 1 / e) * (x * x)).
    { assert (A : x * v1 <= e / 4 * (v1 * v1) + 1 / e * (x * x)).
      { assert (S1 : 0 <= e / 4 * ((v1 - 2 / e * x) * (v1 - 2 / e * x))) by (apply Rmult_le_pos; [lra|apply Rle_0_sqr]). replace (e / 4 * ((v1 - 2 / e * x) * (v1 - 2 / e * x))) with (e / 4 * (v1 * v1) - x * v1 + 1 / e * (x * x)) in S1 by (field; lra). lra. }
      assert (B : x * (e * v2) <= e / 4 * (v2 * v2) + e * (x * x)).
      { assert (S1 : 0 <= e / 4 * ((v2 - 2 * x) * (v2 - 2 * x))) by (apply Rmult_le_pos; [lra|apply Rle_0_sqr]). lra. }
      lra. }
    assert (P : 0 <= 4 * g) by lra.
    assert (Y : e / 4 * (v1 * v1 + v2 * v2) - (e + 1 / e) * (x * x) <= (k - e) * (v1 * v1) + e * k * (v1 * v2) + e * (v2 * v2) - x * (v1 + e * v2)) by lra.
    apply (Rmult_le_compat_l _ _ _ P) in Y. lra.
  Qed.
  Lemma held_in : form a b <= 2 * big * (v1 * v1 + v2 * v2 + x * x).
  Proof.
    pose proof (form_high a b) as F. assert (B : b = v2 - g * v1) by lra. assert (A : a = v1 * (1 + g * k) - g * x + g * v2) by (subst b; lra).
    assert (A2 : a * a <= 3 * ((1 + g * k) * (1 + g * k) * (v1 * v1)) + 3 * (g * g * (x * x)) + 3 * (g * g * (v2 * v2))).
    { rewrite A. set (p := v1 * (1 + g * k)). set (q := g * x). set (r := g * v2). replace ((1 + g * k) * (1 + g * k) * (v1 * v1)) with (p * p) by (unfold p; ring). replace (g * g * (x * x)) with (q * q) by (unfold q; ring). replace (g * g * (v2 * v2)) with (r * r) by (unfold r; ring).
      pose proof (Rle_0_sqr (p + q)). pose proof (Rle_0_sqr (p - r)). pose proof (Rle_0_sqr (q + r)). unfold Rsqr in *. lra. }
    assert (B2 : b * b <= 2 * (v2 * v2) + 2 * (g * g * (v1 * v1))).
    { rewrite B. pose proof (Rle_0_sqr (v2 + g * v1)). unfold Rsqr in *. lra. }
    assert (M1 : g * g <= G1 * G1) by (apply Rmult_le_compat; lra).
    assert (M2 : (1 + g * k) * (1 + g * k) <= (1 + G1 * K1) * (1 + G1 * K1)) by (assert (g * k <= G1 * K1) by (apply Rmult_le_compat; lra); assert (0 <= g * k) by (apply Rmult_le_pos; lra); apply Rmult_le_compat; lra).
    assert (N1 : 0 <= v1 * v1) by nra. assert (N2 : 0 <= v2 * v2) by nra. assert (N3 : 0 <= x * x) by nra.
    apply (Rmult_le_compat_r _ _ _ N1) in M2 as P1. apply (Rmult_le_compat_r _ _ _ N1) in M1 as P2. apply (Rmult_le_compat_r _ _ _ N2) in M1 as P3. apply (Rmult_le_compat_r _ _ _ N3) in M1 as P4.
    assert (W : 0 <= (1 + G1 * K1) * (1 + G1 * K1)) by (apply Rle_0_sqr). assert (W2 : 0 <= G1 * G1) by nra.
    set (w := (1 + G1 * K1) * (1 + G1 * K1)) in *. set (g2 := G1 * G1) in *. unfold big. fold w g2.
    assert (0 <= w * (v2 * v2)) by (now apply Rmult_le_pos). assert (0 <= w * (x * x)) by (now apply Rmult_le_pos). assert (0 <= g2 * (v1 * v1)) by (now apply Rmult_le_pos). assert (0 <= g2 * (v2 * v2)) by (now apply Rmult_le_pos). assert (0 <= g2 * (x * x)) by (now apply Rmult_le_pos). lra.
  Qed.
  Lemma shrinks : form (2 * v1 - a) (2 * v2 - b) <= (1 - loss) * form a b + push * (x * x).
  Proof.
    pose proof dissipated as D. pose proof held_in as Hh. pose proof big_pos as B. destruct eps_range as [[E1 E2] _]. set (e := eps) in *. set (n := v1 * v1 + v2 * v2) in *. set (f := form a b) in *.
    assert (B0 : 0 < big) by nra. assert (N : f / (2 * big) - x * x <= n).
    { apply Rmult_le_reg_l with (2 * big); [lra|]. replace (2 * big * (f / (2 * big) - x * x)) with (f - 2 * big * (x * x)) by (field; lra). lra. }
    assert (X2 : 0 <= x * x) by nra. assert (IE : 0 < 1 / e) by (apply Rdiv_lt_0_compat; lra).
    assert (F0 : 0 <= f). { pose proof (form_low a b) as L. fold f in L. nra. }
    assert (Y : g * e * n >= g * e * (f / (2 * big)) - g * e * (x * x)). { assert (0 <= g * e) by (apply Rmult_le_pos; lra). apply Rle_ge. replace (g * e * (f / (2 * big)) - g * e * (x * x)) with (g * e * (f / (2 * big) - x * x)) by ring. now apply Rmult_le_compat_l. }
    assert (Z : loss * f <= g * e * (f / (2 * big))).
    { unfold loss. fold e. replace (G0 * e / (2 * big) * f) with (G0 * (e * (f / (2 * big)))) by (field; lra). replace (g * e * (f / (2 * big))) with (g * (e * (f / (2 * big)))) by ring. apply Rmult_le_compat_r; [|lra]. apply Rmult_le_pos; [lra|]. apply Rmult_le_pos; [exact F0|]. apply Rlt_le, Rinv_0_lt_compat. lra. }
    assert (U : g * e * (x * x) + 4 * g * (e + 1 / e) * (x * x) <= push * (x * x)).
    { unfold push. fold e. replace (4 / e) with (4 * (1 / e)) by (field; lra). replace (g * e * (x * x) + 4 * g * (e + 1 / e) * (x * x)) with (g * (5 * e + 4 * (1 / e)) * (x * x)) by ring. apply Rmult_le_compat_r; [exact X2|]. apply Rmult_le_compat_r; [|lra]. lra. }
    lra.
  Qed.
  Lemma v_bounds : Rabs v1 <= Rabs a + G1 * (Rabs x + Rabs b) /\ Rabs v2 <= Rabs b + G1 * (Rabs a + G1 * (Rabs x + Rabs b)).
  Proof.
    assert (D : 1 <= 1 + g * (g + k)) by (assert (0 <= g * (g + k)) by (apply Rmult_le_pos; lra); lra).
    assert (V : Rabs v1 <= Rabs a + G1 * (Rabs x + Rabs b)).
    { apply Rle_trans with (Rabs (v1 * (1 + g * (g + k)))).
      - rewrite Rabs_mult, (Rabs_pos_eq (1 + _)) by lra. pose proof (Rabs_pos v1). rewrite <- (Rmult_1_r (Rabs v1)) at 1. apply Rmult_le_compat_l; lra.
      - rewrite H1. eapply Rle_trans; [apply Rabs_triang|]. apply Rplus_le_compat_l. rewrite Rabs_mult, (Rabs_pos_eq g) by lra. apply Rmult_le_compat; [lra|apply Rabs_pos|lra|]. unfold Rminus. eapply Rle_trans; [apply Rabs_triang|]. rewrite Rabs_Ropp. lra. }
    split; [exact V|]. rewrite H2. eapply Rle_trans; [apply Rabs_triang|]. apply Rplus_le_compat_l. rewrite Rabs_mult, (Rabs_pos_eq g) by lra. apply Rmult_le_compat; [lra|apply Rabs_pos|lra|exact V].
  Qed.
End Step.
