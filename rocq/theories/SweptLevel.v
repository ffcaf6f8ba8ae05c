(* How much a state variable filter with Q of 1 can amplify while its cutoff frequency moves in any way below half of the sample rate: bounds for the snare drum and the cymbal that do not grow with their length. *)
From Coq Require Import Reals Lra Lia Psatz.
From Verif Require Import EnvProofs OscProofs MeterProofs FxProofs PreProofs SoundProofs SoundCurves TableHeardProofs.
From Verif Require Import DrumSpec DrumProofs DrumSnare DrumLevel CymbalSpec CymbalLevel.
Local Open Scope R_scope.

(* ---- a quadratic form that all of these filters decrease, whatever their cutoff frequency ---- *)
Definition form (a b : R) : R := a * a + b * b + a * b.
Lemma form_mid g x v l : let h := x - v - l in form (v + g * h) (l + g * v) = form (v - g * h) (l - g * v) - 2 * g * (form v l - x * (2 * v + l)).
Proof. unfold form. cbv zeta. ring. Qed.
Lemma form_next g x v l : let h := x - v - l in form (v + g * h) (l + g * v) = form v l - g * (form v l - x * (2 * v + l)) + g * g * (x * x + form v l - x * (v + 2 * l)).
Proof. unfold form. cbv zeta. ring. Qed.
Lemma form_pos v l : 0 <= form v l.
Proof. unfold form. nra. Qed.
Lemma sq_le x X : Rabs x <= X -> x * x <= X * X.
Proof. intros H. assert (- X <= x <= X) by (unfold Rabs in H; destruct (Rcase_abs x); lra). nra. Qed.
Lemma form_dir x v l X : Rabs x <= X -> form v l <= 4 * (X * X) -> x * (2 * v + l) <= form v l + X * X /\ - (x * (v + 2 * l)) <= 4 * (X * X).
Proof.
  intros Hx Hf. pose proof (sq_le x X Hx) as A.
  assert (B : (2 * v + l) * (2 * v + l) <= 4 * form v l) by (unfold form; nra). assert (C : (v + 2 * l) * (v + 2 * l) <= 4 * form v l) by (unfold form; nra).
  set (q := form v l) in *. set (w := 2 * v + l) in *. set (u := v + 2 * l) in *. clearbody q w u. split.
  - pose proof (Rle_0_sqr (2 * x - w)) as Q. unfold Rsqr in Q. lra.
  - pose proof (Rle_0_sqr (4 * x + u)) as Q. unfold Rsqr in Q. lra.
Qed.
Lemma form_far x v l X : Rabs x <= X -> 4 * (X * X) <= form v l -> x * (2 * v + l) <= form v l.
Proof.
  intros Hx Hf. pose proof (sq_le x X Hx) as A.
  pose proof (form_pos v l). assert (B : (2 * v + l) * (2 * v + l) <= 4 * form v l) by (unfold form; nra). set (q := form v l) in *. set (w := 2 * v + l) in *. clearbody q w.
  destruct (Rle_dec (x * w) q) as [|C]; [assumption|]. exfalso. assert (q < x * w) by lra. assert (q * q < (x * w) * (x * w)) by nra. assert ((x * w) * (x * w) <= (X * X) * (4 * q)) by (replace ((x * w) * (x * w)) with ((x * x) * (w * w)) by ring; apply Rmult_le_compat; nra). nra.
Qed.

Section Swept.
  Variables (sr : R) (f x : nat -> R) (G X : R).
  Hypothesis HG : forall n, 0 <= warped sr f n <= G.
  Hypothesis HX : forall n, Rabs (x n) <= X.
  Let K := (4 + G + 9 * (G * G)) * (X * X).
  Let v n := band_of (warped sr f n) (x n) (low_state sr f x n).
  Let l n := lowpassed sr f x n.
  Lemma halves n : fst (low_state sr f x n) = v n - warped sr f n * (x n - v n - l n) /\ snd (low_state sr f x n) = l n - warped sr f n * v n /\
    fst (low_state sr f x (S n)) = v n + warped sr f n * (x n - v n - l n) /\ snd (low_state sr f x (S n)) = l n + warped sr f n * v n.
  Proof.
    unfold l, lowpassed, v. cbn [low_state]. cbv zeta. cbn [fst snd]. set (g := warped sr f n). set (s := low_state sr f x n).
    assert (E : band_of g (x n) s * (1 + g + g * g) = fst s + g * (x n - snd s)) by (unfold band_of; pose proof (den_pos g); field; lra). unfold low_of. set (u := band_of g (x n) s) in *. clearbody u. destruct s as [a b]. cbn [fst snd] in *. repeat split; lra.
  Qed.
  Lemma form_kept n : form (fst (low_state sr f x n)) (snd (low_state sr f x n)) <= K.
  Proof.
    pose proof (HG 0%nat) as G0. assert (X0 : 0 <= X * X) by apply Rle_0_sqr. assert (GG : 0 <= G) by lra.
    induction n as [|n IH]; [unfold form, K; cbn [low_state fst snd]; nra|]. destruct (halves n) as (A & B & C & D). rewrite A, B in IH. rewrite C, D. clear A B C D. specialize (HG n). specialize (HX n). set (g := warped sr f n) in *. set (a := v n) in *. set (b := l n) in *.
    destruct (Rle_dec (4 * (X * X)) (form a b)) as [F|F].
    - rewrite form_mid. pose proof (form_far (x n) a b X HX F). assert (0 <= 2 * g * (form a b - x n * (2 * a + b))) by (apply Rmult_le_pos; lra). lra.
    - rewrite form_next. destruct (form_dir (x n) a b X HX ltac:(lra)) as [P Q]. pose proof (sq_le (x n) X HX) as A.
      set (q := form a b) in *. set (p := x n * (2 * a + b)) in *. set (r := x n * (a + 2 * b)) in *. set (y := x n * x n) in *. clearbody q p r y. unfold K. set (Z := X * X) in *. clearbody Z.
      assert (E1 : - (g * (q - p)) <= G * Z). { apply Rle_trans with (g * Z); [|apply Rmult_le_compat_r; lra]. replace (- (g * (q - p))) with (g * (p - q)) by ring. apply Rmult_le_compat_l; lra. }
      assert (E2 : g * g * (y + q - r) <= G * G * (9 * Z)). { apply Rle_trans with (g * g * (9 * Z)); [apply Rmult_le_compat_l; nra|apply Rmult_le_compat_r; nra]. }
      lra.
  Qed.
  Lemma form_coord a b M : form a b <= M * M -> 0 <= M -> Rabs a <= 1.155 * M /\ Rabs b <= 1.155 * M /\ Rabs (a + b) <= 1.155 * M.
  Proof. intros H P. unfold form in H. assert (Q : forall c, c * c <= 4 / 3 * (M * M) -> Rabs c <= 1.155 * M) by (intros c Hc; rewrite <- (Rabs_pos_eq (1.155 * M)) by lra; apply Rsqr_le_abs_0; unfold Rsqr; nra). pose proof (Rle_0_sqr (b + a / 2)) as Q1. pose proof (Rle_0_sqr (a + b / 2)) as Q2. pose proof (Rle_0_sqr (a - b)) as Q3. unfold Rsqr in Q1, Q2, Q3. repeat split; apply Q; lra. Qed.
  Let M := X * sqrt (4 + G + 9 * (G * G)).
  Lemma M_K : M * M = K /\ 0 <= M.
  Proof. pose proof (HG 0%nat). pose proof (HX 0%nat). pose proof (Rabs_pos (x 0%nat)). unfold M, K. pose proof (sqrt_sqrt (4 + G + 9 * (G * G)) ltac:(nra)) as Q. pose proof (sqrt_pos (4 + G + 9 * (G * G))). set (s := sqrt _) in *. split; [rewrite <- Q; ring|nra]. Qed.
  Lemma state_level n : Rabs (fst (low_state sr f x n)) <= 1.155 * M /\ Rabs (snd (low_state sr f x n)) <= 1.155 * M /\ Rabs (fst (low_state sr f x n) + snd (low_state sr f x n)) <= 1.155 * M.
  Proof. destruct M_K as [E P]. apply form_coord; [rewrite E; apply form_kept|exact P]. Qed.
  Lemma low_swept n : Rabs (lowpassed sr f x n) <= 1.155 * M.
  Proof.
    destruct (halves n) as (_ & A & _ & B). destruct (state_level n) as (_ & P & _). destruct (state_level (S n)) as (_ & Q & _). fold (l n). replace (l n) with ((snd (low_state sr f x n) + snd (low_state sr f x (S n))) / 2) by lra.
    set (a := snd _) in *. set (b := snd (low_state sr f x (S n))) in *. clearbody a b. set (m := 1.155 * M) in *. clearbody m. apply Rabs_le. unfold Rabs in *. destruct (Rcase_abs a), (Rcase_abs b); lra.
  Qed.
  Lemma high_swept n : Rabs (highpassed sr f x n) <= X + 1.155 * M.
  Proof.
    destruct (halves n) as (A & B & _). destruct (state_level n) as (P & _ & Q). unfold highpassed. cbv zeta. fold (v n). change (low_of (warped sr f n) (x n) (low_state sr f x n)) with (l n). specialize (HG n). specialize (HX n).
    set (g := warped sr f n) in *. set (a := fst _) in *. set (b := snd _) in *. set (h := x n - v n - l n) in *. assert (E : h * (1 + g + g * g) = x n - (a + b) - g * a) by (rewrite A, B; unfold h; ring).
    clearbody a b h g. set (m := 1.155 * M) in *. clearbody m. set (y := x n) in *. clearbody y. clear A B.
    assert (R1 : - (m) <= a <= m) by (unfold Rabs in P; destruct (Rcase_abs a); lra). assert (R2 : - m <= a + b <= m) by (unfold Rabs in Q; destruct (Rcase_abs (a + b)); lra). assert (R3 : - X <= y <= X) by (unfold Rabs in HX; destruct (Rcase_abs y); lra).
    assert (R4 : - (g * m) <= g * a <= g * m) by (split; nra). set (ga := g * a) in *. clearbody ga. assert (X0 : 0 <= X) by lra. assert (m0 : 0 <= m) by lra. assert (g0 : 0 <= g) by lra.
    assert (U : (X + m) * (1 + g + g * g) >= X + m + g * m) by nra.
    apply Rabs_le. set (d := 1 + g + g * g) in *. assert (d0 : 0 < d) by (unfold d; nra). clearbody d. split; apply Rmult_le_reg_r with d; try exact d0; lra.
  Qed.
End Swept.

Lemma warped_range sr f top : 0 < sr -> 2 * top < sr -> (forall n, 0 <= f n <= top) -> forall k, 0 <= warped sr f k <= tan (PI * top / sr).
Proof.
  intros S0 T Hf k. pose proof PI_RGT_0 as PI0. specialize (Hf k). unfold warped. set (c := f k) in *. assert (Nyq : PI * top / sr < PI / 2) by (apply Rmult_lt_reg_r with sr; [lra|]; unfold Rdiv; rewrite Rmult_assoc, Rinv_l by lra; nra).
  assert (C1 : 0 <= PI * c / sr <= PI * top / sr) by (split; [apply Rle_mult_inv_pos; nra|]; unfold Rdiv; apply Rmult_le_compat_r; [left; apply Rinv_0_lt_compat; lra|nra]).
  set (p := PI * c / sr) in *. set (q := PI * top / sr) in *. clearbody p q. split; [destruct C1 as [[P|<-] PQ]; [left; apply tan_gt_0; lra|rewrite tan_0; lra]|destruct C1 as [P [L| ->]]; [left; apply tan_increasing; lra|lra]].
Qed.

Section Drums.
  Variables (tb : list (R * list R)) (sr : R) (h : nat -> N) (r : nat -> R).
  Hypothesis HS : usual sr.
  Hypothesis HH : forall i, (h i < 2 ^ 64)%N.
  Let spread (top : R) : R := let T := tan (PI * top / sr) in sqrt (4 + T + 9 * (T * T)).
  Lemma usual_pos : 0 < sr.
  Proof. destruct HS; lra. Qed.
  Lemma faded y d n : Rabs (y * gain d (INR n / sr)) <= Rabs y.
  Proof. pose proof usual_pos. assert (Gn : 0 <= gain d (INR n / sr) <= 1) by (apply gain_01; apply Rle_mult_inv_pos; [apply pos_INR|lra]). rewrite Rabs_mult, (Rabs_pos_eq (gain _ _)) by lra. pose proof (Rabs_pos y). nra. Qed.
  Lemma snare_swept sharpness n : 30000 < sr -> Rabs (snare_of sr h r sharpness n) <= 7.75 * spread 15000.
  Proof.
    intros S3. unfold snare_of. eapply Rle_trans; [apply faded|].
    eapply Rle_trans; [apply (low_swept sr (control sr h 22 snare_cutoff) (snare_mixed sr h r) (tan (PI * 15000 / sr)) 6.707)|].
    - apply warped_range; [lra|lra|]. intros k. exact (cutoff_range sr h HS HH k).
    - intros k. apply (mixed_level sr h r HS HH k).
    - unfold spread. cbv zeta. set (s := sqrt _). assert (0 <= s) by apply sqrt_pos. lra.
  Qed.
  Hypothesis HT : normal tb.
  Lemma fade_8_1 n : 0 <= control sr h 6 (fading 8) n <= 1.
  Proof. unfold control. apply lfo_range; [exact HS|apply HH|]. intros t Ht. unfold fading. split; [left; apply exp_pos|]. rewrite <- exp_0. apply exp_le. lra. Qed.
  Lemma cymbal_mixed_top n : Rabs (cymbal_mixed tb sr h r n) <= 3.00003.
  Proof.
    unfold cymbal_mixed. pose proof (fade_8_1 n) as F. set (c := control _ _ _ _ n) in *. unfold clang_of.
    pose proof (wave_level tb sr h HT (2 * 0 + 1) (clang_pitch tb sr h 0 (near r 0 1339.0586) 54127 (near r 1 1703.2929)) n) as A. pose proof (wave_level tb sr h HT (2 * 1 + 1) (clang_pitch tb sr h 1 (near r 2 2090.1314) 43480 (near r 3 1425.6187)) n) as B. pose proof (wave_level tb sr h HT (2 * 2 + 1) (clang_pitch tb sr h 2 (near r 4 1189.1727) 56771 (near r 5 1954.3242)) n) as C.
    set (x := wave_of _ _ _ (2 * 0 + 1) _ n) in *. set (y := wave_of _ _ _ (2 * 1 + 1) _ n) in *. set (z := wave_of _ _ _ (2 * 2 + 1) _ n) in *. clearbody x y z c.
    rewrite Rabs_mult, (Rabs_pos_eq c) by lra. assert (S : Rabs (x + y + z) <= 3.00003) by (pose proof (Rabs_triang (x + y) z); pose proof (Rabs_triang x y); lra). pose proof (Rabs_pos (x + y + z)). nra.
  Qed.
  Lemma cymbal_low n : 40000 < sr -> Rabs (lowpassed sr (control sr h 7 cymbal_cutoff) (cymbal_mixed tb sr h r) n) <= 3.466 * spread 20000.
  Proof.
    intros S4. eapply Rle_trans; [apply (low_swept sr (control sr h 7 cymbal_cutoff) (cymbal_mixed tb sr h r) (tan (PI * 20000 / sr)) 3.00003)|].
    - apply warped_range; [lra|lra|]. intros k. pose proof (cymbal_cut_range sr h HS HH k). lra.
    - exact cymbal_mixed_top.
    - unfold spread. cbv zeta. set (s := sqrt _). assert (0 <= s) by apply sqrt_pos. lra.
  Qed.
  Lemma small_tan : 40000 < sr -> 0 <= tan (PI * 2500 / sr) <= 0.58.
  Proof.
    intros S4. pose proof PI_RGT_0 as PI0. assert (A : 0 < PI * 2500 / sr) by (apply Rdiv_lt_0_compat; lra). assert (B : PI * 2500 / sr < PI / 6) by (apply Rmult_lt_reg_r with sr; [lra|]; unfold Rdiv; rewrite Rmult_assoc, Rinv_l by lra; nra).
    split; [left; apply tan_gt_0; lra|]. apply Rle_trans with (tan (PI / 6)); [left; apply tan_increasing; lra|]. rewrite tan_PI6. assert (S3 : 1.73 <= sqrt 3) by (rewrite <- (sqrt_square 1.73) by lra; apply sqrt_le_1_alt; lra). apply Rmult_le_reg_r with (sqrt 3); [lra|]. unfold Rdiv. rewrite Rmult_assoc, Rinv_l by lra. lra.
  Qed.
  Lemma cymbal_swept n : 40000 < sr -> Rabs (cymbal_of tb sr h r n) <= 14.6 * spread 20000.
  Proof.
    intros S4. unfold cymbal_of. eapply Rle_trans; [apply faded|]. set (X := 3.466 * spread 20000).
    eapply Rle_trans; [apply (high_swept sr (fun _ => 2500) (lowpassed sr (control sr h 7 cymbal_cutoff) (cymbal_mixed tb sr h r)) 0.58 X)|].
    - intros k. unfold warped. apply small_tan, S4.
    - intros k. apply cymbal_low, S4.
    - assert (P : 0 <= spread 20000) by apply sqrt_pos. assert (Q : sqrt (4 + 0.58 + 9 * (0.58 * 0.58)) <= 2.765) by (rewrite <- (sqrt_square 2.765) by lra; apply sqrt_le_1_alt; lra). pose proof (sqrt_pos (4 + 0.58 + 9 * (0.58 * 0.58))). set (q := sqrt _) in *. clearbody q. unfold X. set (p := spread 20000) in *. clearbody p. nra.
  Qed.
End Drums.
