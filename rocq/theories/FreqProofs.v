(* Linear recurrences driven by sinusoids: what they settle to. *)
From Coq Require Import Reals Lra Lia.
From Verif Require Import FreqSpec.
From Coquelicot Require Import Complex.
Local Open Scope R_scope.

(* ---- sequences that tend to zero ---- *)
Definition vanishes (f : nat -> R) : Prop := forall eps, 0 < eps -> exists N, forall n, (N <= n)%nat -> Rabs (f n) < eps.
Lemma vanishes_cv f : vanishes f <-> Un_cv f 0.
Proof.
  unfold vanishes, Un_cv, R_dist. split; intros H e He; destruct (H e He) as [N HN]; exists N; intros n Hn.
  - rewrite Rminus_0_r. apply HN. lia.
  - specialize (HN n ltac:(lia)). now rewrite Rminus_0_r in HN.
Qed.
Lemma vanishes_late f g N : (forall t, (N <= t)%nat -> f t = g t) -> vanishes f -> vanishes g.
Proof.
  intros E H e He. destruct (H e He) as [M HM]. exists (max N M). intros n Hn. rewrite <- E by lia. apply HM. lia.
Qed.
Lemma vanishes_ext f g : (forall t, f t = g t) -> vanishes f -> vanishes g.
Proof. intros E. apply (vanishes_late f g 0). auto. Qed.
Lemma vanishes_0 : vanishes (fun _ => 0).
Proof. intros e He. exists 0%nat. intros. now rewrite Rabs_R0. Qed.
Lemma vanishes_plus f g : vanishes f -> vanishes g -> vanishes (fun t => f t + g t).
Proof.
  intros H1 H2 e He. destruct (H1 (e / 2) ltac:(lra)) as [N HN]. destruct (H2 (e / 2) ltac:(lra)) as [M HM].
  exists (max N M). intros n Hn. eapply Rle_lt_trans; [apply Rabs_triang|]. specialize (HN n ltac:(lia)). specialize (HM n ltac:(lia)). lra.
Qed.
Lemma vanishes_scale c f : vanishes f -> vanishes (fun t => c * f t).
Proof.
  intros H e He. destruct (H (e / (Rabs c + 1))) as [N HN].
  { apply Rdiv_lt_0_compat; auto. pose proof (Rabs_pos c). lra. }
  exists N. intros n Hn. rewrite Rabs_mult. specialize (HN n Hn). pose proof (Rabs_pos c). pose proof (Rabs_pos (f n)).
  assert (Rabs (f n) * (Rabs c + 1) < e).
  { apply (Rmult_lt_compat_r (Rabs c + 1)) in HN; [|lra]. unfold Rdiv in HN. rewrite Rmult_assoc, Rinv_l in HN by lra. lra. }
  nra.
Qed.
Lemma vanishes_shift m f : vanishes f -> vanishes (fun t => f (m + t)%nat).
Proof. intros H e He. destruct (H e He) as [N HN]. exists N. intros n Hn. apply HN. lia. Qed.
Lemma vanishes_back m f : vanishes (fun t => f (m + t)%nat) -> vanishes f.
Proof.
  intros H e He. destruct (H e He) as [N HN]. exists (m + N)%nat. intros n Hn. replace n with (m + (n - m))%nat by lia. apply HN. lia.
Qed.
Lemma vanishes_bound f g : (forall t, Rabs (f t) <= Rabs (g t)) -> vanishes g -> vanishes f.
Proof. intros E H e He. destruct (H e He) as [N HN]. exists N. intros n Hn. eapply Rle_lt_trans; [apply E|auto]. Qed.

(* a contraction driven by something that vanishes *)
Lemma contraction_vanishes q m v : 0 <= q < 1 -> (forall t, 0 <= m t) -> (forall t, m (S t) <= q * m t + v t) -> vanishes v -> vanishes m.
Proof.
  intros Hq Hm Hr Hv e He. destruct (Hv (e / 2 * (1 - q))) as [N HN]. { apply Rmult_lt_0_compat; lra. }
  assert (B : forall j, m (N + j)%nat <= q ^ j * m N + e / 2).
  { induction j as [|j IH]; [rewrite Nat.add_0_r; cbn; lra|]. rewrite <- plus_n_Sm. eapply Rle_trans; [apply Hr|].
    specialize (HN (N + j)%nat ltac:(lia)). apply Rabs_def2 in HN as [HN _]. cbn [pow].
    apply (Rmult_le_compat_l q) in IH; [|lra]. nra. }
  destruct (pow_lt_1_zero q) with (y := e / 2 / (m N + 1)) as [J HJ]. { rewrite Rabs_right; lra. } { pose proof (Hm N). apply Rdiv_lt_0_compat; lra. }
  exists (N + J)%nat. intros n Hn. rewrite Rabs_right by (apply Rle_ge, Hm). replace n with (N + (n - N))%nat by lia.
  eapply Rle_lt_trans; [apply B|]. specialize (HJ (n - N)%nat ltac:(lia)).
  assert (0 <= q ^ (n - N)) by (apply pow_le; lra). rewrite Rabs_right in HJ by lra. pose proof (Hm N).
  assert (q ^ (n - N) * (m N + 1) < e / 2).
  { apply (Rmult_lt_compat_r (m N + 1)) in HJ; [|lra]. unfold Rdiv at 1 in HJ. rewrite Rmult_assoc, Rinv_l in HJ by lra. lra. }
  nra.
Qed.

(* ---- complex recurrences ---- *)
Definition Cvanishes (f : nat -> C) : Prop := vanishes (fun t => Cmod (f t)).
Lemma first_vanishes (q : C) (d u : nat -> C) : Cmod q < 1 -> (forall t, d (S t) = q * d t + u t)%C -> Cvanishes u -> Cvanishes d.
Proof.
  intros Hq Hr Hu. apply (contraction_vanishes (Cmod q) _ (fun t => Cmod (u t))); auto.
  - split; auto. apply Cmod_ge_0.
  - intros. apply Cmod_ge_0.
  - intros t. rewrite Hr. eapply Rle_trans; [apply Cmod_triangle|]. rewrite Cmod_mult. lra.
Qed.
Lemma second_vanishes (p q : C) (e u : nat -> C) : Cmod p < 1 -> Cmod q < 1 ->
  (forall t, e (S (S t)) = (p + q) * e (S t) - p * q * e t + u t)%C -> Cvanishes u -> Cvanishes e.
Proof.
  intros Hp Hq Hr Hu. apply (first_vanishes p e (fun t => e (S t) - p * e t)%C Hp).
  - intros t. ring.
  - apply (first_vanishes q _ u Hq); auto. intros t. rewrite Hr. ring.
Qed.
Lemma RtoC_vanishes f : vanishes f <-> Cvanishes (fun t => RtoC (f t)).
Proof.
  unfold Cvanishes. split; intros H; [apply (vanishes_ext (fun t => Rabs (f t)))|apply (vanishes_bound f (fun t => Cmod (RtoC (f t))))].
  - intros t. now rewrite Cmod_R.
  - apply (vanishes_bound _ f); auto. intros. rewrite Rabs_Rabsolu. lra.
  - intros t. rewrite Cmod_R, Rabs_Rabsolu. lra.
  - auto.
Qed.
(* the roots of x^2 + a1 x + a2 *)
Lemma roots a1 a2 : stable2 a1 a2 -> exists p q : C, (p + q = - RtoC a1)%C /\ (p * q = RtoC a2)%C /\ Cmod p < 1 /\ Cmod q < 1.
Proof.
  intros [H2 H1]. apply Rabs_def2 in H2 as [H2 H2']. apply Rabs_def2 in H1 as [H1 H1'].
  destruct (Rle_dec 0 (a1 * a1 - 4 * a2)) as [Hd|Hd].
  - set (s := sqrt (a1 * a1 - 4 * a2)). assert (Hs : s * s = a1 * a1 - 4 * a2) by (apply sqrt_sqrt; auto). assert (Hs0 : 0 <= s) by apply sqrt_pos.
    exists (RtoC ((- a1 + s) / 2)), (RtoC ((- a1 - s) / 2)). rewrite <- RtoC_plus, <- RtoC_mult, <- RtoC_opp, !Cmod_R. split; [f_equal; field|split].
    + f_equal. nra.
    + assert (Hs1 : s < 2 - a1) by nra. assert (Hs2 : s < 2 + a1) by nra. split; apply Rabs_def1; lra.
  - apply Rnot_le_lt in Hd. set (s := sqrt (4 * a2 - a1 * a1)). assert (Hs : s * s = 4 * a2 - a1 * a1) by (apply sqrt_sqrt; lra).
    exists ((- a1 / 2, s / 2) : C), ((- a1 / 2, - s / 2) : C).
    assert (M : forall t, t * t = s * s -> Cmod ((- a1 / 2, t / 2) : C) < 1).
    { intros t Ht. unfold Cmod. cbn [fst snd]. rewrite <- sqrt_1. apply sqrt_lt_1_alt.
      replace ((- a1 / 2) ^ 2 + (t / 2) ^ 2) with a2; [|cbn [pow]; lra]. split; auto. nra. }
    split; [|split; [|split; apply M; ring]].
    + apply injective_projections; cbn; field.
    + apply injective_projections; cbn; [|field]. nra.
Qed.
Lemma second_real a1 a2 e u : stable2 a1 a2 -> (forall t, e (S (S t)) = - a1 * e (S t) - a2 * e t + u t) -> vanishes u -> vanishes e.
Proof.
  intros Hs Hr Hu. destruct (roots a1 a2 Hs) as (p & q & E1 & E2 & Hp & Hq). apply RtoC_vanishes. apply RtoC_vanishes in Hu.
  apply (second_vanishes p q (fun t => RtoC (e t)) (fun t => RtoC (u t)) Hp Hq); auto.
  intros t. rewrite E1, E2, Hr, RtoC_plus, RtoC_minus, !RtoC_mult, RtoC_opp. reflexivity.
Qed.

(* ---- the unit circle ---- *)
Definition cis (a : R) : C := (cos a, sin a).
Lemma cis_add a b : cis (a + b) = (cis a * cis b)%C.
Proof. unfold cis. apply injective_projections; cbn; [rewrite cos_plus|rewrite sin_plus]; ring. Qed.
Lemma cis_0 : cis 0 = RtoC 1.
Proof. unfold cis. rewrite cos_0, sin_0. reflexivity. Qed.
Lemma cis_mod a : Cmod (cis a) = 1.
Proof. unfold Cmod, cis. cbn [fst snd]. replace (cos a ^ 2 + sin a ^ 2) with 1; [apply sqrt_1|]. pose proof (sin2_cos2 a). unfold Rsqr in *. cbn [pow]. lra. Qed.
Lemma cis_neq a : cis a <> RtoC 0.
Proof. intros E. pose proof (cis_mod a) as H. rewrite E, Cmod_0 in H. lra. Qed.
Lemma cis_neg a : (cis (- a) * cis a = 1)%C.
Proof. rewrite <- cis_add, Rplus_opp_l. apply cis_0. Qed.
Lemma wave_eq w h t : wave w h t = Re (h * cis (w * INR t))%C.
Proof. reflexivity. Qed.
Lemma wave_S w h t : wave w h (S t) = wave w (h * cis w)%C t.
Proof. rewrite !wave_eq, S_INR, Rmult_plus_distr_l, Rmult_1_r, cis_add. f_equal. ring. Qed.
Lemma wave_plus w h g t : wave w (h + g)%C t = wave w h t + wave w g t.
Proof. unfold wave. cbn. ring. Qed.
Lemma wave_scale w c h t : wave w (RtoC c * h)%C t = c * wave w h t.
Proof. unfold wave. cbn. ring. Qed.
(* a stable denominator has no zeros on the unit circle *)
Lemma den2 a1 a2 z1 : stable2 a1 a2 -> Cmod z1 = 1 -> (1 + RtoC a1 * z1 + RtoC a2 * z1 * z1 <> 0)%C.
Proof.
  intros Hs Hz E. destruct (roots a1 a2 Hs) as (p & q & E1 & E2 & Hp & Hq).
  assert (F : ((1 - p * z1) * (1 - q * z1) = 0)%C).
  { rewrite <- E, <- E2. replace (RtoC a1) with (- (p + q))%C by (rewrite E1; ring). ring. }
  assert (N : forall r, Cmod r < 1 -> (1 - r * z1 <> 0)%C).
  { intros r Hr Er. assert (G : (r * z1 = 1)%C) by (replace (RtoC 1) with (1 - r * z1 + r * z1)%C by ring; rewrite Er; ring).
    apply (f_equal Cmod) in G. rewrite Cmod_mult, Hz, Cmod_1 in G. lra. }
  exact (Cmult_neq_0 _ _ (N p Hp) (N q Hq) F).
Qed.

(* ---- what signals settle to ---- *)
Lemma settles_eq w h f : settles w h f <-> exists k, vanishes (fun t => f t - k - wave w h t).
Proof. unfold settles. split; intros [k H]; exists k; [apply (proj2 (vanishes_cv _)), H|apply (proj1 (vanishes_cv _)), H]. Qed.
Lemma settles_ext w h f g : (forall t, f t = g t) -> settles w h f -> settles w h g.
Proof. intros E H. apply settles_eq in H as [k H]. apply settles_eq. exists k. eapply vanishes_ext; [|exact H]. intros; cbn. now rewrite E. Qed.
Lemma settles_to w (h g : C) f : h = g -> settles w h f -> settles w g f.
Proof. now intros ->. Qed.
Lemma settles_plus w h g f1 f2 : settles w h f1 -> settles w g f2 -> settles w (h + g)%C (fun t => f1 t + f2 t).
Proof.
  intros H1 H2. apply settles_eq in H1 as [k1 H1]. apply settles_eq in H2 as [k2 H2]. apply settles_eq. exists (k1 + k2).
  eapply vanishes_ext; [|exact (vanishes_plus _ _ H1 H2)]. intros t; cbn. rewrite wave_plus. ring.
Qed.
Lemma settles_scale w c h f : settles w h f -> settles w (RtoC c * h)%C (fun t => c * f t).
Proof.
  intros H. apply settles_eq in H as [k H]. apply settles_eq. exists (c * k).
  eapply vanishes_ext; [|exact (vanishes_scale c _ H)]. intros t; cbn. rewrite wave_scale. ring.
Qed.
Lemma settles_const w c : settles w (RtoC 0) (fun _ => c).
Proof. apply settles_eq. exists c. eapply vanishes_ext; [|exact vanishes_0]. intros; cbn. unfold wave; cbn. ring. Qed.
Lemma settles_cos w : settles w (RtoC 1) (fun t => cos (w * INR t)).
Proof. apply settles_eq. exists 0. eapply vanishes_ext; [|exact vanishes_0]. intros; cbn. unfold wave; cbn. ring. Qed.
(* one step earlier *)
Lemma settles_next w h f : settles w h f -> settles w (h * cis w)%C (fun t => f (S t)).
Proof.
  intros H. apply settles_eq in H as [k H]. apply settles_eq. exists k. eapply vanishes_ext; [|exact (vanishes_shift 1 _ H)].
  intros t. cbn [Nat.add]. rewrite wave_S. reflexivity.
Qed.
(* one step later *)
Lemma settles_prev w h f : settles w h (fun t => f (S t)) -> settles w (h * cis (- w))%C f.
Proof.
  intros H. apply settles_eq in H as [k H]. apply settles_eq. exists k. apply (vanishes_back 1). eapply vanishes_ext; [|exact H].
  intros t. cbn [Nat.add]. rewrite wave_S. f_equal. f_equal. rewrite <- Cmult_assoc, cis_neg. now rewrite Cmult_1_r.
Qed.
Lemma settles_late w h f g N : (forall t, (N <= t)%nat -> f t = g t) -> settles w h f -> settles w h g.
Proof. intros E H. apply settles_eq in H as [k H]. apply settles_eq. exists k. eapply vanishes_late; [|exact H]. intros t Ht; cbn. rewrite (E t Ht). reflexivity. Qed.
Lemma cis_nat n a : cis (INR n * a) = (fix p m := match m with O => RtoC 1 | S m => (p m * cis a)%C end) n.
Proof. induction n as [|n IH]; [rewrite Rmult_0_l; apply cis_0|]. rewrite S_INR, Rmult_plus_distr_r, Rmult_1_l, cis_add. now rewrite IH. Qed.
Lemma settles_delay n w h f g : (forall t, g (n + t)%nat = f t) -> settles w h f -> settles w (h * cis (INR n * - w))%C g.
Proof.
  revert g; induction n as [|n IH]; intros g E H.
  - rewrite cis_nat. rewrite Cmult_1_r. eapply settles_ext; [|exact H]. intros; now rewrite <- E.
  - assert (H' := IH (fun t => g (S t)) (fun t => E t) H). apply settles_prev in H'. eapply settles_to; [|exact H'].
    rewrite S_INR, Rmult_plus_distr_r, Rmult_1_l, cis_add. change C with C. ring.
Qed.

(* Second order recurrences. *)
Lemma order2 a1 a2 b0 b1 b2 w h x y N : stable2 a1 a2 ->
  (forall t, (N <= t)%nat -> y (S (S t)) = - a1 * y (S t) - a2 * y t + (b0 * x (S (S t)) + b1 * x (S t) + b2 * x t)) ->
  settles w h x ->
  let z1 := cis (- w) in
  settles w (h * ((RtoC b0 + RtoC b1 * z1 + RtoC b2 * z1 * z1) / (1 + RtoC a1 * z1 + RtoC a2 * z1 * z1)))%C y.
Proof.
  intros Hs Hr Hx z1. apply settles_eq in Hx as [k Hx]. pose proof (den2 a1 a2 z1 Hs (cis_mod _)) as HD.
  set (H := ((RtoC b0 + RtoC b1 * z1 + RtoC b2 * z1 * z1) / (1 + RtoC a1 * z1 + RtoC a2 * z1 * z1))%C).
  assert (Hk : 1 + a1 + a2 <> 0). { destruct Hs as [S2 S1]. apply Rabs_def2 in S1. lra. }
  set (k' := k * (b0 + b1 + b2) / (1 + a1 + a2)).
  apply settles_eq. exists k'. apply (vanishes_back N).
  set (u := fun t => x t - k - wave w h t) in *.
  apply (second_real a1 a2 _ (fun t => b0 * u (N + S (S t))%nat + b1 * u (N + S t)%nat + b2 * u (N + t)%nat) Hs).
  - intros t. replace (N + S (S t))%nat with (S (S (N + t))) by lia. replace (N + S t)%nat with (S (N + t)) by lia.
    set (s := (N + t)%nat). rewrite (Hr s) by (unfold s; lia).
    assert (W : wave w (h * H)%C (S (S s)) = - a1 * wave w (h * H)%C (S s) - a2 * wave w (h * H)%C s + (b0 * wave w h (S (S s)) + b1 * wave w h (S s) + b2 * wave w h s)).
    { rewrite !wave_S. unfold Rminus. rewrite Ropp_mult_distr_l, <- !wave_scale, <- !wave_plus. f_equal.
      rewrite !RtoC_opp. assert (Hz : (z1 * cis w = 1)%C) by apply cis_neg. set (z := cis w) in *.
      assert (Ez : z = (/ z1)%C). { assert (z1 <> RtoC 0) by apply cis_neq. rewrite <- (Cmult_1_l (/ z1)%C), <- Hz. field. auto. }
      rewrite Ez. unfold H. field. split; auto. apply cis_neq. }
    rewrite W. unfold u. assert (K : k' = - a1 * k' - a2 * k' + (b0 * k + b1 * k + b2 * k)) by (unfold k'; field; auto).
    lra.
  - apply vanishes_plus; [apply vanishes_plus|]; apply vanishes_scale.
    + apply (vanishes_ext (fun t => u (S (S N) + t)%nat)); [|exact (vanishes_shift (S (S N)) u Hx)]. intros t. now replace (N + S (S t))%nat with (S (S N) + t)%nat by lia.
    + apply (vanishes_ext (fun t => u (S N + t)%nat)); [|exact (vanishes_shift (S N) u Hx)]. intros t. now replace (N + S t)%nat with (S N + t)%nat by lia.
    + exact (vanishes_shift N u Hx).
Qed.
Lemma order1 c b0 b1 w h x y N : Rabs c < 1 -> (forall t, (N <= t)%nat -> y (S t) = c * y t + (b0 * x (S t) + b1 * x t)) ->
  settles w h x -> let z1 := cis (- w) in settles w (h * ((RtoC b0 + RtoC b1 * z1) / (1 - RtoC c * z1)))%C y.
Proof.
  intros Hc Hr Hx z1. assert (Hs : stable2 (- c) 0). { split; [rewrite Rabs_R0; lra|]. rewrite Rabs_Ropp. lra. }
  assert (Hs' : forall d1 d0, (Cmult h (Cdiv (RtoC b0 + RtoC b1 * z1 + RtoC 0 * z1 * z1) (1 + RtoC (- c) * z1 + RtoC 0 * z1 * z1)) = d0)%C -> settles w d0 y -> d0 = d1 -> settles w d1 y) by (intros; subst; auto).
  eapply Hs'; [reflexivity| |].
  - apply (order2 (- c) 0 b0 b1 0 w h x y N Hs); auto. intros t Ht. rewrite (Hr (S t)) by lia. ring.
  - f_equal. rewrite RtoC_opp. unfold Cdiv. f_equal; [|f_equal]; ring.
Qed.

(* The sinusoid that a signal settles to is determined by the signal, unless the frequency is 0 or half of the sample rate. *)
Lemma settles_unique w h g f : sin w <> 0 -> settles w h f -> settles w g f -> h = g.
Proof.
  intros Hw H1 H2. apply settles_eq in H1 as [k1 H1]. apply settles_eq in H2 as [k2 H2].
  set (d := (g - h)%C). set (K := k2 - k1).
  assert (V : vanishes (fun t => K + wave w d t)).
  { eapply vanishes_ext; [|exact (vanishes_plus _ _ H1 (vanishes_scale (-1) _ H2))]. intros t; cbn. unfold K, d. unfold wave; cbn. ring. }
  (* first differences remove the constant *)
  set (d1 := (d * (cis w - 1))%C).
  assert (V1 : vanishes (fun t => wave w d1 t)).
  { eapply vanishes_ext; [|exact (vanishes_plus _ _ (vanishes_shift 1 _ V) (vanishes_scale (-1) _ V))]. intros t. cbn [Nat.add]. rewrite wave_S.
    unfold d1. replace (d * (cis w - 1))%C with (d * cis w + RtoC (-1) * d)%C by (apply injective_projections; cbn; ring). rewrite wave_plus, wave_scale. ring. }
  (* the square of the amplitude, from two successive samples *)
  assert (A : forall t, (Cmod d1) ^ 2 * sin w ^ 2 = wave w d1 t ^ 2 + wave w d1 (S t) ^ 2 - 2 * cos w * wave w d1 t * wave w d1 (S t)).
  { intros t. rewrite wave_S. set (v := (d1 * cis (w * INR t))%C).
    assert (E0 : wave w d1 t = Re v) by apply wave_eq. assert (E1 : wave w (d1 * cis w)%C t = Re (v * cis w)%C) by (rewrite wave_eq; unfold v; f_equal; ring).
    assert (E2 : Cmod d1 = Cmod v) by (unfold v; rewrite Cmod_mult, cis_mod; ring).
    rewrite E0, E1, E2. unfold Cmod. rewrite pow2_sqrt by (cbn [pow]; nra). unfold cis, Re; cbn [fst snd Cmult]. pose proof (sin2_cos2 w) as P. unfold Rsqr in P.
    cbn [pow]. rewrite !Rmult_1_r. set (a := fst v). set (b := snd v). set (s := sin w) in *. set (c := cos w) in *.
    assert (c * c = 1 - s * s) by lra.
    transitivity (a * a * (s * s) + b * b * (s * s)); [ring|].
    replace ((a * c - b * s) * (a * c - b * s)) with (a * a * (c * c) - 2 * a * b * (c * s) + b * b * (s * s)) by ring.
    replace (2 * c * a * (a * c - b * s)) with (2 * a * a * (c * c) - 2 * a * b * (c * s)) by ring. rewrite H. ring. }
  assert (Z : Cmod d1 ^ 2 * sin w ^ 2 = 0).
  { destruct (Req_dec (Cmod d1 ^ 2 * sin w ^ 2) 0) as [|Hn]; auto. exfalso.
    set (a := Cmod d1 ^ 2 * sin w ^ 2) in *. assert (Ha : 0 < a). { assert (0 <= a) by (unfold a; pose proof (pow2_ge_0 (Cmod d1)); pose proof (pow2_ge_0 (sin w)); nra). lra. }
    destruct (V1 (Rmin 1 (a / 8))) as [N HN]. { apply Rmin_glb_lt; lra. }
    pose proof (A N) as E. pose proof (HN N (le_n _)) as B0. pose proof (HN (S N) ltac:(lia)) as B1.
    set (p := wave w d1 N) in *. set (q := wave w d1 (S N)) in *.
    assert (M1 := Rmin_l 1 (a / 8)). assert (M2 := Rmin_r 1 (a / 8)). set (m := Rmin 1 (a / 8)) in *.
    assert (Hm : 0 < m) by (pose proof (Rabs_pos p); lra).
    apply Rabs_def2 in B0. apply Rabs_def2 in B1.
    assert (p ^ 2 <= m * m) by (cbn [pow]; nra). assert (q ^ 2 <= m * m) by (cbn [pow]; nra).
    assert (Hpq : Rabs (p * q) <= m * m). { rewrite Rabs_mult. apply Rmult_le_compat; try apply Rabs_pos; apply Rabs_le; lra. }
    assert (Hc : Rabs (cos w * (p * q)) <= m * m).
    { rewrite Rabs_mult. pose proof (COS_bound w). assert (Rabs (cos w) <= 1) by (apply Rabs_le; lra). pose proof (Rabs_pos (p * q)). pose proof (Rabs_pos (cos w)). nra. }
    assert (Hc' : - (m * m) <= cos w * (p * q)) by (pose proof (Rle_abs (- (cos w * (p * q)))); rewrite Rabs_Ropp in *; lra). assert (m * m <= a / 8) by nra. assert (E' : a <= 4 * (m * m)) by (rewrite E; nra). lra. }
  assert (Hd1 : d1 = RtoC 0).
  { apply Cmod_eq_0. destruct (Rmult_integral _ _ Z) as [Hz|Hz].
    - destruct (Req_dec (Cmod d1) 0) as [|Hn]; auto. exfalso. apply (pow_nonzero _ 2) in Hn. contradiction.
    - exfalso. apply (pow_nonzero _ 2) in Hw. contradiction. }
  assert (Hd : d = RtoC 0).
  { destruct (Ceq_dec d 0) as [|Hn]; auto. exfalso. assert (Hc : (cis w - 1 <> 0)%C).
    { intros E. apply Hw. apply (f_equal snd) in E. cbn in E. lra. }
    apply (Cmult_neq_0 _ _ Hn Hc). exact Hd1. }
  unfold d in Hd. apply (f_equal fst) in Hd as H3. apply (f_equal snd) in Hd as H4. cbn in H3, H4. apply injective_projections; lra.
Qed.
