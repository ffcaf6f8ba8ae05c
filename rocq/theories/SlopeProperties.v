(* Claim C58, continued: ease noise and fractal noise are continuous, with slopes that depend on the easing functions and on the number of octaves. *)
From Coq Require Import Reals Lra.
From Verif Require Import HashProofs SlopeSpec.
From Verif Require MotionProofs SlopeProofs.
Local Open Scope R_scope.

Theorem C58_ease_noise_slope hash64a e L seed x y : (forall s, word 64 (hash64a s)) -> climbs L e ->
  Rabs (ease_noise Rnum_ops hash64a e seed x - ease_noise Rnum_ops hash64a e seed y) <= 2 * L * Rabs (x - y).
Proof. exact (SlopeProofs.ease_slope hash64a e L seed x y). Qed.
Print Assumptions C58_ease_noise_slope.
Example C58_ease_noise_slope_case : climbs (3 / 2) (Pair (Ease (smooth3 Rnum_ops)) (Ease (fun t => t))).
Proof.
  assert (K : forall t u : R, 0 <= t <= u -> u <= 1 -> 0 <= 3 * (u + t) - 2 * (u * u + u * t + t * t) <= 3 / 2).
  { intros t u Ht Hu. split; [nra|]. pose proof (Rle_0_sqr (u + t - 1)) as Q. pose proof (Rle_0_sqr (u - t)) as Q'. unfold Rsqr in *. lra. }
  split; split; [| | reflexivity |split; [reflexivity|]].
  - unfold smooth3. cbn. ring.
  - split; [unfold smooth3; cbn; ring|]. intros t u Ht Hu. specialize (K t u Ht Hu).
    replace (smooth3 Rnum_ops u - smooth3 Rnum_ops t) with ((3 * (u + t) - 2 * (u * u + u * t + t * t)) * (u - t)) by (unfold smooth3; cbn; ring). rewrite Rabs_right by (apply Rle_ge, Rmult_le_pos; lra). apply Rmult_le_compat_r; lra.
  - intros t u Ht Hu. rewrite Rabs_right by lra. lra.
Qed.
(* fractal_noise and fractal_ease_noise: the slope doubles with each octave, whatever the roughness *)
Theorem C58_fractal_slope hash64a hash64g e L draws roughness x y : (forall s, word 64 (hash64a s)) -> climbs L e -> 0 <= roughness ->
  (forall a b, fractal Rnum_ops (spline_noise Rnum_ops hash64a hash64g) draws roughness x = Some a -> fractal Rnum_ops (spline_noise Rnum_ops hash64a hash64g) draws roughness y = Some b ->
    Rabs (a - b) <= 12 / 5 * 2 ^ (length draws - 1) * Rabs (x - y)) /\
  (forall a b, fractal Rnum_ops (ease_noise Rnum_ops hash64a e) draws roughness x = Some a -> fractal Rnum_ops (ease_noise Rnum_ops hash64a e) draws roughness y = Some b ->
    Rabs (a - b) <= 2 * L * 2 ^ (length draws - 1) * Rabs (x - y)).
Proof.
  intros W C R. split; intros a b A B.
  - refine (SlopeProofs.fractal_slope _ draws roughness (12 / 5) x y a b ltac:(lra) _ R A B). intros s. exact (MotionProofs.noise_slope hash64a hash64g W s).
  - refine (SlopeProofs.fractal_slope _ draws roughness (2 * L) x y a b _ _ R A B); [|intros s u v; exact (SlopeProofs.ease_slope hash64a e L s u v W C)].
    assert (P : 0 <= L); [|lra]. clear - C. induction e as [f|r IHr f IHf]; [|now apply IHr, C]. destruct C as (F0 & F1 & S). specialize (S 0 1 ltac:(lra) ltac:(lra)). rewrite F0, F1 in S. pose proof (Rabs_pos (1 - 0)). lra.
Qed.
Print Assumptions C58_fractal_slope.
Example C58_fractal_slope_case : exists a b, fractal Rnum_ops (spline_noise Rnum_ops (fun _ => 0%N) (fun _ => 0%N)) [(0, 7%N); (1 / 2, 8%N)] (1 / 2) 0 = Some a /\
  fractal Rnum_ops (spline_noise Rnum_ops (fun _ => 0%N) (fun _ => 0%N)) [(0, 7%N); (1 / 2, 8%N)] (1 / 2) 1 = Some b.
Proof. eexists. eexists. split; reflexivity. Qed.
