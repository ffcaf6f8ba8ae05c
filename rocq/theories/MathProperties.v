(* C37, C38, C57, C58: easing functions, splines, conversions and noise. *)
From Coq Require Import QArith SpecFloat Reals List.
From Verif Require Import MathModel MathSpec MathReals MathNoise MathExamples.
Import ListNotations.
Local Open Scope R_scope.
Notation Rn := Rnum_ops.

(* C37, with real arithmetic. *)
Theorem C37_easing_exact :
  (eases (smooth3 Rn) /\ symmetric (smooth3 Rn)) /\ (eases (smooth5 Rn) /\ symmetric (smooth5 Rn)) /\ (eases (smooth7 Rn) /\ symmetric (smooth7 Rn)) /\ (eases (smooth9 Rn) /\ symmetric (smooth9 Rn)).
Proof. destruct smooth_symmetric as (A & B & C & D). exact (conj (conj smooth3_eases A) (conj (conj smooth5_eases B) (conj (conj smooth7_eases C) (conj smooth9_eases D)))). Qed.
Print Assumptions C37_easing_exact.

(* The sine ease (with the exact pi) and the arcs ease too, and the arcs are inverse to each other. *)
Theorem C37_arcs : eases (sine_ease Rn (PI * (1 / 2)) PI (5 * PI * PI)) /\ eases (uparc Rn sqrt) /\ eases (downarc Rn sqrt)
  /\ forall x, in01 x -> uparc Rn sqrt (downarc Rn sqrt x) = x /\ downarc Rn sqrt (uparc Rn sqrt x) = x.
Proof. exact (conj sine_ease_eases (conj uparc_eases (conj downarc_eases (fun x H => conj (proj1 (arcs x H)) (proj1 (proj2 (arcs x H))))))). Qed.
Print Assumptions C37_arcs.

(* In f32 the smooth curves of degrees 5, 7 and 9 exceed 1 for some x in [0, 1]. *)
Theorem C37_range_f32_refuted :
  (SFleb near5 f32_one = true /\ SFltb f32_one (smooth5 f32_ops near5) = true)
  /\ (SFleb near7 f32_one = true /\ SFltb f32_one (smooth7 f32_ops near7) = true)
  /\ (SFleb near9 f32_one = true /\ SFltb f32_one (smooth9 f32_ops near9) = true).
Proof. repeat split; vm_compute; reflexivity. Qed.
Print Assumptions C37_range_f32_refuted.

Theorem C37_lerp : forall a b,
  (forall t, in01 t -> within a b (lerp Rn a b t)) /\ lerp Rn a b 0 = a /\ lerp Rn a b 1 = b
  /\ (a <> b -> (forall t, delerp Rn a b (lerp Rn a b t) = t) /\ (forall x, lerp Rn a b (delerp Rn a b x) = x)).
Proof.
  intros a b. split; [exact (lerp_within a b)|]. split; [unfold lerp; cbn; ring|]. split; [unfold lerp; cbn; ring|].
  intros H. exact (conj (fun t => lerp_delerp a b t H) (fun x => delerp_lerp a b x H)).
Qed.
Print Assumptions C37_lerp.
Example C37_lerp_case : in01 (1 / 4) /\ within 3 (-1) (lerp Rn 3 (-1) (1 / 4)) /\ 3 <> -1.
Proof. split; [unfold in01; Lra.lra|]. split; [apply C37_lerp; unfold in01; Lra.lra|]. intros H. Lra.lra. Qed.

(* clamp gives the nearest number in range *)
Theorem C37_clamp : forall a b x, a <= b ->
  a <= clamp Rn a b x <= b /\ (a <= x <= b -> clamp Rn a b x = x) /\ (forall y, a <= y <= b -> Rabs (x - clamp Rn a b x) <= Rabs (x - y))
  /\ clamp01 Rn x = clamp Rn 0 1 x /\ clamp11 Rn x = clamp Rn (-1) 1 x.
Proof. intros a b x H. exact (conj (clamp_range a b x H) (conj (clamp_id a b x) (conj (clamp_nearest a b x) (conj (clamp01_is x) (clamp11_is x))))). Qed.
Print Assumptions C37_clamp.
Example C37_clamp_case : clamp Rn (-2) 3 1 = 1.
Proof. destruct (C37_clamp (-2) 3 1) as (_ & H & _); [Lra.lra|]. apply H. Lra.lra. Qed.

(* C38. *)
Theorem C38_spline : forall y0 y1 y2 y3,
  (spline Rn y0 y1 y2 y3 0 = y1 /\ spline Rn y0 y1 y2 y3 1 = y2)
  /\ (forall a b c x, let p t := a * t * t + b * t + c in y0 = p (-1) -> y1 = p 0 -> y2 = p 1 -> y3 = p 2 -> spline Rn y0 y1 y2 y3 x = p x)
  /\ (forall lo hi x, lo <= y0 <= hi -> lo <= y1 <= hi -> lo <= y2 <= hi -> lo <= y3 <= hi -> in01 x ->
      lo - (hi - lo) / 8 <= spline Rn y0 y1 y2 y3 x <= hi + (hi - lo) / 8).
Proof.
  intros y0 y1 y2 y3. split; [exact (spline_ends y0 y1 y2 y3)|]. split; [|intros lo hi x; exact (spline_over lo hi y0 y1 y2 y3 x)].
  intros a b c x p -> -> -> ->. exact (spline_quadratic a b c x).
Qed.
Print Assumptions C38_spline.

(* The bound is reached. *)
Example C38_spline_case : (spline Qnum_ops (-1) 1 1 (-1) (1 # 2) == 1 + (1 - (-1)) / 8)%Q.
Proof. vm_compute. reflexivity. Qed.

(* Full statement: for all data, spline_mono stays between the middle points ("never overshoots"), and is monotone for monotone data.
   Missing: data that fall twice in a row; see below. *)
Theorem C38_mono_partial : forall y0 y1 y2 y3,
  (spline_mono Rn y0 y1 y2 y3 0 = y1 /\ spline_mono Rn y0 y1 y2 y3 1 = y2)
  /\ (forall x, ~ (y1 < y0 /\ y2 < y1) -> ~ (y2 < y1 /\ y3 < y2) -> in01 x -> within y1 y2 (spline_mono Rn y0 y1 y2 y3 x))
  /\ (forall x x', y0 <= y1 -> y1 <= y2 -> y2 <= y3 -> 0 <= x -> x <= x' -> x' <= 1 -> spline_mono Rn y0 y1 y2 y3 x <= spline_mono Rn y0 y1 y2 y3 x').
Proof.
  intros y0 y1 y2 y3. exact (conj (spline_mono_ends y0 y1 y2 y3) (conj (spline_mono_within y0 y1 y2 y3) (spline_mono_rises y0 y1 y2 y3))).
Qed.
Print Assumptions C38_mono_partial.

(* The hypotheses hold of rising data, and of data with a turn at both points. *)
Example C38_mono_case : ~ (1 < 0 /\ 3 < 1) /\ ~ (3 < 1 /\ 4 < 3) /\ ~ (3 < 1 /\ 1 < 3) /\ ~ (1 < 3 /\ 3 < 1).
Proof. repeat split; intros [H1 H2]; Lra.lra. Qed.

(* Whenever the data fall twice in a row, spline_mono overshoots: it starts by rising. *)
Theorem C38_mono_refuted : forall y0 y1 y2 y3, y1 < y0 -> y2 < y1 -> exists x, in01 x /\ ~ within y1 y2 (spline_mono Rn y0 y1 y2 y3 x).
Proof.
  intros y0 y1 y2 y3 A B. destruct (spline_mono_over y0 y1 y2 y3 A B) as (x & X & H). exists x. split; [unfold in01; Lra.lra|].
  intros [L U]. rewrite Rmax_left in U by Lra.lra. Lra.lra.
Qed.
Print Assumptions C38_mono_refuted.
Example C38_falling_case : (spline_mono Qnum_ops 3 2 1 0 (1 # 4) == 71 # 32)%Q.
Proof. exact mono_overshoot. Qed.

(* C57. *)
Theorem C57_inverses : forall a b, a <> b ->
  (forall t, delerp11 Rn a b (lerp11 Rn a b t) = t) /\ (forall x, lerp11 Rn a b (delerp11 Rn a b x) = x)
  /\ (0 < a -> 0 < b -> (forall t, dexerp Rn ln a b (xerp Rn exp ln a b t) = t /\ dexerp11 Rn ln a b (xerp11 Rn exp ln a b t) = t)
      /\ (forall x, 0 < x -> xerp Rn exp ln a b (dexerp Rn ln a b x) = x /\ xerp11 Rn exp ln a b (dexerp11 Rn ln a b x) = x)
      /\ (forall t, in01 t -> within a b (xerp Rn exp ln a b t))).
Proof.
  intros a b H. exact (conj (fun t => lerp11_delerp11 a b t H) (conj (fun x => delerp11_lerp11 a b x H) (fun A B =>
    conj (fun t => xerp_dexerp a b t A B H) (conj (fun x => dexerp_xerp a b x A B H) (fun t => xerp_within a b t A B))))).
Qed.
Print Assumptions C57_inverses.
Example C57_inverses_case : dexerp Rn ln 20 20000 (xerp Rn exp ln 20 20000 (1 / 3)) = 1 / 3 /\ xerp Rn exp ln 20 20000 (dexerp Rn ln 20 20000 440) = 440.
Proof. destruct (C57_inverses 20 20000) as (_ & _ & H); [intros E; Lra.lra|]. destruct H as (A & B & _); try Lra.lra. split; [apply A|apply B; Lra.lra]. Qed.

Theorem C57_decibels : (forall g, 0 < g -> db_amp Rn exp ln (amp_db Rn ln g) = g) /\ (forall d, amp_db Rn ln (db_amp Rn exp ln d) = d)
  /\ db_amp Rn exp ln 0 = 1 /\ (forall c d, db_amp Rn exp ln (c + d) = db_amp Rn exp ln c * db_amp Rn exp ln d) /\ db_amp Rn exp ln 20 = 10.
Proof. exact decibels. Qed.
Print Assumptions C57_decibels.
Example C57_decibels_case : db_amp Rn exp ln (amp_db Rn ln (1 / 2)) = 1 / 2.
Proof. apply C57_decibels. Lra.lra. Qed.

Theorem C57_tuning : midi_hz Rn exp ln 69 = 440 /\ (forall x, midi_hz Rn exp ln (x + 12) = 2 * midi_hz Rn exp ln x)
  /\ semitone_ratio Rn exp ln 0 = 1 /\ semitone_ratio Rn exp ln 12 = 2
  /\ (forall x y, semitone_ratio Rn exp ln (x + y) = semitone_ratio Rn exp ln x * semitone_ratio Rn exp ln y)
  /\ (forall x y, midi_hz Rn exp ln (x + y) = midi_hz Rn exp ln x * semitone_ratio Rn exp ln y).
Proof. exact tuning. Qed.
Print Assumptions C57_tuning.

Theorem C57_soft : (forall x, -1 < softsign Rn x < 1) /\ (forall x y, x < y -> softsign Rn x < softsign Rn y) /\ (forall x, softsign Rn (- x) = - softsign Rn x)
  /\ (forall x, 0 < softexp Rn x) /\ (forall x y, x < y -> softexp Rn x < softexp Rn y)
  /\ (forall x, (0 < x -> softexp Rn x = x * x + x + 1) /\ (x <= 0 -> softexp Rn x = 1 / (1 - x)))
  /\ softexp Rn 0 = 1 /\ derivable_pt_lim (softexp Rn) 0 1.
Proof.
  split; [exact softsign_range|]. split; [exact softsign_rises|]. split; [exact softsign_odd|]. split; [exact softexp_pos|]. split; [exact softexp_rises|]. split; [|exact softexp_tangent].
  intros x. rewrite softexp_branch. split; intros H; destruct (Rlt_dec 0 x); Lra.lra.
Qed.
Print Assumptions C57_soft.
Example C57_soft_case : softsign Rn (-1) < softsign Rn 2 /\ softexp Rn 2 = 7 /\ softexp Rn (-3) = 1 / 4.
Proof.
  destruct C57_soft as (_ & A & _ & _ & _ & B & _). split; [apply A; Lra.lra|]. split; [rewrite (proj1 (B 2)) by Lra.lra; Lra.lra|rewrite (proj2 (B (-3))) by Lra.lra; Lra.lra].
Qed.

(* softmix is a mean m of its arguments, on the side of the average that the bias says, times a factor k just below 1. The factor comes
   from the 1.0e-10 that guards the division: full statement without it ("average when bias = 0") does not hold, see below. *)
Theorem C57_softmix_partial : forall x y bias, exists m k,
  softmix Rn x y bias = m * k /\ within x y m /\ 0 < k < 1 /\ (bias = 0 -> m = (x + y) / 2 /\ k = 2 / (2 + 1 / 10000000000))
  /\ (0 <= bias -> (x + y) / 2 <= m) /\ (bias <= 0 -> m <= (x + y) / 2).
Proof.
  intros x y bias. destruct (softmix_is x y bias) as (E & W & P & N). pose proof (softexp_pos (x * bias)) as PA. pose proof (softexp_pos (y * bias)) as PB.
  eexists _, _. split; [exact E|]. split; [exact W|]. split; [|split; [|exact (conj P N)]].
  - split; [apply Rdiv_lt_0_compat; Lra.lra|]. apply Rmult_lt_reg_r with (r := softexp Rn (x * bias) + softexp Rn (y * bias) + 1 / 10000000000); [Lra.lra|]. unfold Rdiv at 1. rewrite Rmult_assoc, Rinv_l by Lra.lra. Lra.lra.
  - intros Z. split; [apply Rle_antisym; [apply N|apply P]; Lra.lra|]. rewrite Z, !Rmult_0_r. destruct softexp_tangent as [T _]. rewrite T. now replace (1 + 1) with 2 by Lra.lra.
Qed.
Print Assumptions C57_softmix_partial.
Example C57_softmix_case : (softmix Qnum_ops 1 3 1 == (1 * 3 + 3 * 13) / (3 + 13 + (1 # 10000000000)))%Q.
Proof. vm_compute. reflexivity. Qed.

(* In f64 softmix of 1 and 1 with bias 0 is not 1 (in f32 it is). *)
Theorem C57_average_refuted : softmix f64_ops (nofZ f64_ops 1) (nofZ f64_ops 1) (nofZ f64_ops 0) <> nofZ f64_ops 1 /\ softmix f32_ops f32_one f32_one (nofZ f32_ops 0) = f32_one.
Proof. split; [vm_compute; discriminate|vm_compute; reflexivity]. Qed.
Print Assumptions C57_average_refuted.

Theorem C57_periodic : forall hz t,
  (hz <> 0 -> forall z, sqr_hz Rn hz (t + IZR z / hz) = sqr_hz Rn hz t /\ tri_hz Rn hz (t + IZR z / hz) = tri_hz Rn hz t)
  /\ (0 <= t * hz < 1 / 2 -> sqr_hz Rn hz t = 1) /\ (1 / 2 <= t * hz < 1 -> sqr_hz Rn hz t = -1)
  /\ (-1 / 4 <= t * hz <= 1 / 4 -> tri_hz Rn hz t = 4 * (t * hz)) /\ (1 / 4 <= t * hz <= 3 / 4 -> tri_hz Rn hz t = 2 - 4 * (t * hz))
  /\ -1 <= tri_hz Rn hz t <= 1.
Proof.
  intros hz t. split; [exact (fun H z => conj (sqr_period hz t z H) (tri_period hz t z H))|]. destruct (sqr_shape hz t) as [A B]. destruct (tri_shape hz t) as [C D].
  exact (conj A (conj B (conj C (conj D (tri_range hz t))))).
Qed.
Print Assumptions C57_periodic.
Example C57_periodic_case : sqr_hz Rn 440 (1 / 1000 + IZR 3 / 440) = 1.
Proof. destruct (C57_periodic 440 (1 / 1000)) as (A & B & _). destruct (A ltac:(intros E; Lra.lra) 3%Z) as [C _]. rewrite C. apply B. Lra.lra. Qed.

Theorem C57_dissonance : forall f0 f1, 0 <= f0 -> 0 <= f1 -> in01 (dissonance Rn exp f0 f1) /\ (dissonance Rn exp f0 f1 = 0 <-> f0 = f1).
Proof. exact dissonance_range. Qed.
Print Assumptions C57_dissonance.
Example C57_dissonance_case : dissonance Rn exp 440 466 <> 0.
Proof. destruct (C57_dissonance 440 466) as [_ H]; [Lra.lra|Lra.lra|]. intros E. apply H in E. Lra.lra. Qed.

(* C58: the hashes of funutd are any functions whose results are words. *)
Theorem C58_ease_noise : forall hash64a e seed x, (forall s, word 64 (hash64a s)) -> keeps01 e ->
  let point i := get_point Rn hash64a seed i in
  -1 <= ease_noise Rn hash64a e seed x <= 1 /\ within (point (Int_part x)) (point (Int_part x + 1)%Z) (ease_noise Rn hash64a e seed x)
  /\ (starts0 e -> forall i, ease_noise Rn hash64a e seed (IZR i) = point i /\ -1 <= point i < 1).
Proof.
  intros hash64a e seed x W K. split; [exact (ease_noise_range hash64a hash64a W e seed x K)|]. split; [exact (ease_noise_within hash64a e seed x K)|].
  intros Z i. split; [exact (ease_noise_at hash64a e seed i Z)|exact (hash11_range hash64a hash64a W _)].
Qed.
Print Assumptions C58_ease_noise.
(* Hashes turned into numbers are in their intervals. *)
Theorem C58_hash_numbers : forall hash64a s, (forall s, word 64 (hash64a s)) -> 0 <= hash01 Rn hash64a s < 1 /\ -1 <= hash11 Rn hash64a s < 1.
Proof. exact (fun ha s W => conj (hash01_range ha ha W s) (hash11_range ha ha W s)). Qed.
Print Assumptions C58_hash_numbers.
Example C58_ease_case : (forall s, word 64 (constant_hash s)) /\ keeps01 (Pair (Ease (smooth3 Rn)) (Ease (smooth9 Rn))) /\ starts0 (Pair (Ease (smooth3 Rn)) (Ease (smooth9 Rn))).
Proof. exact (conj constant_word smooth3_keeps). Qed.

Theorem C58_spline_noise : forall hash64a hash64g seed x, (forall s, word 64 (hash64a s)) -> -1 <= spline_noise Rn hash64a hash64g seed x <= 1.
Proof. exact (fun ha hg seed x W => spline_noise_range ha hg W seed x). Qed.
Print Assumptions C58_spline_noise.
Example C58_spline_noise_case : -1 <= spline_noise Rn constant_hash (fun s => s) 7%N (5 / 2) <= 1.
Proof. exact (C58_spline_noise constant_hash _ 7%N (5 / 2) constant_word). Qed.

(* With no octaves the functions panic, otherwise they do not, and the result is in range. *)
Theorem C58_fractal : forall hash64a hash64g e draws roughness x, (forall s, word 64 (hash64a s)) -> keeps01 e -> 0 <= roughness -> draws <> [] ->
  (exists y, fractal Rn (spline_noise Rn hash64a hash64g) draws roughness x = Some y /\ -1 <= y <= 1)
  /\ (exists y, fractal Rn (ease_noise Rn hash64a e) draws roughness x = Some y /\ -1 <= y <= 1).
Proof.
  intros ha hg e draws r x W K R D. destruct draws as [|d draws]; [congruence|].
  split; eexists; (split; [reflexivity|]).
  - exact (fractal_range _ (d :: draws) r x _ (fun s y => spline_noise_range ha hg W s y) R eq_refl).
  - exact (fractal_range _ (d :: draws) r x _ (fun s y => ease_noise_range ha ha W e s y K) R eq_refl).
Qed.
Print Assumptions C58_fractal.
Example C58_fractal_case : exists y, fractal Rn (spline_noise Rn constant_hash (fun s => s)) [(0, 7%N); (1 / 2, 8%N)] (1 / 2) (5 / 2) = Some y /\ -1 <= y <= 1.
Proof.
  refine (proj1 (C58_fractal constant_hash _ (Pair (Ease (smooth3 Rn)) (Ease (smooth9 Rn))) [(0, 7%N); (1 / 2, 8%N)] (1 / 2) (5 / 2) constant_word (proj1 smooth3_keeps) _ _)); [Lra.lra|discriminate].
Qed.
