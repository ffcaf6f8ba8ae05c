(* Lemmas about the construction of wavetables. *)
From Coq Require Import Reals Lra Lia.
From Verif Require Import OverProofs OscProofs TableProofs.
From Verif Require Import OverSpec TableSpec.
Local Open Scope R_scope.

Lemma fade_range f : 0 <= fade f <= 1.
Proof.
  unfold fade. assert (H : 0 <= limit01 ((22000 - f) / 2000) <= 1) by (unfold limit01; repeat destruct (Rle_dec _ _); lra). revert H. generalize (limit01 ((22000 - f) / 2000)). intros x H. cbn zeta.
  replace (6 * x ^ 5 - 15 * x ^ 4 + 10 * x ^ 3) with (x * x * x * ((6 * x - 15) * x + 10)) by ring. split.
  - apply Rmult_le_pos; nra.
  - assert (0 <= (1 - x) * (1 - x) * (1 - x) * (6 * x * x + 3 * x + 1)); [|nra]. apply Rmult_le_pos; [|nra]. apply Rmult_le_pos; nra.
Qed.
Lemma fade_low f : f <= 20000 -> fade f = 1.
Proof. intros H. unfold fade, limit01. assert (1 <= (22000 - f) / 2000) by lra. repeat destruct (Rle_dec _ _); lra. Qed.
Lemma fade_pos f : f < 22000 -> 0 < fade f.
Proof.
  intros H. unfold fade. assert (G : 0 < limit01 ((22000 - f) / 2000) <= 1) by (unfold limit01; assert (0 < (22000 - f) / 2000) by lra; repeat destruct (Rle_dec _ _); lra). revert G. generalize (limit01 ((22000 - f) / 2000)). intros x G. cbn zeta.
  replace (6 * x ^ 5 - 15 * x ^ 4 + 10 * x ^ 3) with (x * x * x * ((6 * x - 15) * x + 10)) by ring. apply Rmult_lt_0_compat; [|nra]. apply Rmult_lt_0_compat; [|lra]. nra.
Qed.
Lemma sounding_mult a c : 0 <= c -> sounding (a * c) = sounding a * c.
Proof. intros H. unfold sounding. destruct (Rlt_dec 0 a), (Rlt_dec 0 (a * c)); try ring; [|nra]. assert (a * c = 0) by nra. lra. Qed.
Lemma weight_fade amplitude pitch i : weight Rnum_ops amplitude pitch i = amplitude pitch i * fade (pitch * INR i).
Proof.
  unfold weight. rewrite limit01_clamp. cbn [nmul Rnum_ops]. f_equal. unfold fade. rewrite INR_IZR_INZ. unfold delerp, smooth5. cbn [nofZ nmul nsub nadd ndiv Rnum_ops].
  replace ((pitch * IZR (Z.of_nat i) - 22000) / (20000 - 22000)) with ((22000 - pitch * IZR (Z.of_nat i)) / 2000) by field. cbn zeta. ring.
Qed.

Section Wave.
  Variables (phase : nat -> R) (amplitude : R -> nat -> R) (pitch : R).
  Notation w i := (weight Rnum_ops amplitude pitch i).
  Notation insertR := (insert Rnum_ops Rnum_ops idR sin cos (2 * PI) phase amplitude pitch).
  Definition polar (i : nat) : R * R := (w i * cos (2 * PI * phase i), w i * sin (2 * PI * phase i)).
  Lemma insert_ok : forall is a a', insertR is a = Val a' -> length a' = length a /\ (forall i, In i is -> 0 < w i -> (i < length a)%nat) /\
    forall k, (k < length a)%nat -> nth k a' (0, 0) = if in_dec Nat.eq_dec k is then (if Rlt_dec 0 (w k) then polar k else nth k a (0, 0)) else nth k a (0, 0).
  Proof.
    induction is as [|i is IH]; intros a a' H; cbn [insert] in H. { injection H as <-. refine (conj eq_refl (conj _ _)); [contradiction|]. intros k Hk. destruct (in_dec _ _ _) as [[]|]; reflexivity. }
    cbn zeta in H. change (nltb Rnum_ops (n0 Rnum_ops) (w i)) with (if Rlt_dec 0 (w i) then true else false) in H. destruct (Rlt_dec 0 (w i)) as [P|P].
    - destruct (Nat.ltb i (length a)) eqn:L; [|discriminate]. apply Nat.ltb_lt in L. destruct (IH _ _ H) as (Le & Hi & Hn). rewrite length_upd in Le, Hi. rewrite length_upd in Hn. split; [exact Le|]. split. { intros j [->|J] Q; auto. }
      intros k Hk. rewrite Hn by exact Hk. destruct (Nat.eq_dec i k) as [->|D].
      + assert (U : nth k (upd a k (nmul Rnum_ops (w k) (cos (nmul Rnum_ops (2 * PI) (phase k))), nmul Rnum_ops (w k) (sin (nmul Rnum_ops (2 * PI) (phase k))))) (0, 0) = polar k) by (rewrite nth_upd; replace (Nat.eqb k k && Nat.ltb k (length a))%bool with true by (symmetry; apply andb_true_intro; split; [apply Nat.eqb_refl|now apply Nat.ltb_lt]); reflexivity).
        rewrite U. destruct (in_dec Nat.eq_dec k is), (in_dec Nat.eq_dec k (k :: is)) as [|N]; try (destruct (Rlt_dec 0 (w k)); [reflexivity|contradiction]); exfalso; apply N; now left.
      + rewrite nth_upd. replace (Nat.eqb i k) with false by (symmetry; apply Nat.eqb_neq; congruence). cbn [andb]. destruct (in_dec Nat.eq_dec k is), (in_dec Nat.eq_dec k (i :: is)) as [N|N]; try reflexivity; [exfalso; apply N; now right|]. destruct N; [congruence|contradiction].
    - destruct (IH _ _ H) as (Le & Hi & Hn). split; [exact Le|]. split. { intros j [->|J] Q; auto. contradiction. }
      intros k Hk. rewrite Hn by exact Hk. destruct (Nat.eq_dec i k) as [->|D].
      + destruct (Rlt_dec 0 (w k)); [contradiction|]. destruct (in_dec Nat.eq_dec k is), (in_dec Nat.eq_dec k (k :: is)); reflexivity.
      + destruct (in_dec Nat.eq_dec k is), (in_dec Nat.eq_dec k (i :: is)) as [N|N]; try reflexivity; [exfalso; apply N; now right|]. destruct N; [congruence|contradiction].
  Qed.
  Lemma insert_fits : forall is a, (forall i, In i is -> (i < length a)%nat) -> exists a', insertR is a = Val a'.
  Proof.
    induction is as [|i is IH]; intros a H; cbn [insert]; [eauto|]. cbn zeta. destruct (nltb Rnum_ops _ _).
    - replace (Nat.ltb i (length a)) with true by (symmetry; apply Nat.ltb_lt, H; now left). apply IH. intros j J. rewrite length_upd. apply H. now right.
    - apply IH. intros j J. apply H. now right.
  Qed.
  Lemma insert_outcome : forall is a, insertR is a <> Undefined.
  Proof. induction is as [|i is IH]; intros a; cbn [insert]; [discriminate|]. cbn zeta. destruct (nltb Rnum_ops _ _); [|apply IH]. destruct (Nat.ltb _ _); [apply IH|discriminate]. Qed.
  Lemma total_upto n m f : (forall i, (n <= i)%nat -> f i = 0) -> (n <= m)%nat -> total m f = total n f.
  Proof. intros Z H. induction H; [reflexivity|]. cbn [total]. rewrite IHle, Z by lia. ring. Qed.
  Lemma total_same n m f : (forall i, (n <= i)%nat -> f i = 0) -> (forall i, (m <= i)%nat -> f i = 0) -> total n f = total m f.
  Proof. intros A B. destruct (Nat.le_ge_cases n m); [symmetry|]; apply total_upto; auto. Qed.
  Lemma make_wave_ok ifft wave : is_inverse_dft ifft -> make_waveR ifft pitch phase amplitude = Val wave ->
    let h := harmonics Rnum_ops pitch in let n := wave_length h in
    length wave = n /\ forall k, (k < n)%nat -> nth k wave 0 = total h (fun i => sounding (amplitude pitch (S i)) * fade (pitch * INR (S i)) * sin (2 * PI * (INR (S i) * INR k / INR n + phase (S i)))).
  Proof.
    intros D H h n. unfold make_wave in H. fold h in H. fold n in H. change (n0 Rnum_ops) with 0 in H. destruct (insertR (seq 1 h) (repeat (0, 0) n)) as [a| |] eqn:E; cbn [bind] in H; [|discriminate|discriminate]. injection H as <-.
    destruct (insert_ok _ _ _ E) as (L & Hi & Hn). rewrite repeat_length in L, Hi, Hn. destruct (D a) as [L' Hd]. rewrite L in L', Hd. split; [now rewrite map_length|]. intros k Hk.
    rewrite (nth_indep _ 0 (nmul Rnum_ops (snd (0, 0)) (nofZ Rnum_ops (Z.of_nat n)))) by now rewrite map_length, L'. rewrite (map_nth (fun x => nmul Rnum_ops (snd x) (nofZ Rnum_ops (Z.of_nat n)))). rewrite Hd by exact Hk. cbn [snd nmul nofZ Rnum_ops]. rewrite <- INR_IZR_INZ.
    assert (N0 : INR n <> 0) by (apply not_0_INR; lia). replace (total n (fun k0 => _) / INR n * INR n) with (total n (fun j => fst (nth j a (0, 0)) * sin (turn j k n) + snd (nth j a (0, 0)) * cos (turn j k n))) by (field; exact N0).
    set (g := fun i => match i with O => 0 | S j => if Nat.ltb j h then sounding (amplitude pitch i) * fade (pitch * INR i) * sin (2 * PI * (INR i * INR k / INR n + phase i)) else 0 end).
    assert (S1 : forall i, (1 <= i <= h)%nat -> sounding (amplitude pitch i) * fade (pitch * INR i) = sounding (w i)) by (intros i _; rewrite weight_fade; symmetry; apply sounding_mult; apply fade_range).
    rewrite (total_ext n _ g).
    - transitivity (total (S h) g).
      + apply total_same.
        * intros i Hl. unfold g. destruct i as [|j]; [reflexivity|]. destruct (Nat.ltb_spec j h); [|reflexivity]. rewrite S1 by lia. unfold sounding. destruct (Rlt_dec 0 (w (S j))) as [P|P]; [|ring]. specialize (Hi (S j) ltac:(apply in_seq; lia) P). lia.
        * intros i Hl. unfold g. destruct i as [|j]; [reflexivity|]. destruct (Nat.ltb_spec j h); [lia|reflexivity].
      + rewrite total_first. unfold g at 1. rewrite Rplus_0_l. apply total_ext. intros i Hl. unfold g. destruct (Nat.ltb_spec i h); [reflexivity|lia].
    - intros i Hl. rewrite Hn by exact Hl. rewrite nth_repeat. unfold g. destruct (in_dec Nat.eq_dec i (seq 1 h)) as [I|I].
      + apply in_seq in I. destruct i as [|j]; [lia|]. destruct (Nat.ltb_spec j h); [|lia]. rewrite S1 by lia. unfold sounding. destruct (Rlt_dec 0 (w (S j))) as [P|P]; [|cbn [fst snd]; ring].
        unfold polar. cbn [fst snd]. replace (2 * PI * (INR (S j) * INR k / INR n + phase (S j))) with (turn (S j) k n + 2 * PI * phase (S j)) by (unfold turn; field; exact N0). rewrite sin_plus. ring.
      + destruct i as [|j]; [cbn [fst snd]; ring|]. destruct (Nat.ltb_spec j h); [|cbn [fst snd]; ring]. destruct I. apply in_seq. lia.
  Qed.
End Wave.
Lemma harmonics_ok pitch i : 0 < pitch -> (i <= harmonics Rnum_ops pitch)%nat <-> pitch * INR i <= 22000.
Proof.
  intros P. unfold harmonics. cbn [nfloor nofZ ndiv Rnum_ops]. set (q := 22000 / pitch). assert (Q : 0 < q) by (unfold q; apply Rdiv_lt_0_compat; lra). assert (E : pitch * q = 22000) by (unfold q; field; lra).
  destruct (base_Int_part q) as [B1 B2]. assert (Z0 : (0 <= Int_part q)%Z). { assert (-1 < Int_part q)%Z; [|lia]. apply lt_IZR. lra. }
  rewrite INR_IZR_INZ. split; intros H.
  - assert (IZR (Z.of_nat i) <= IZR (Int_part q)) by (apply IZR_le; lia). nra.
  - assert (Z.of_nat i < Int_part q + 1)%Z; [|lia]. apply lt_IZR. rewrite plus_IZR. assert (IZR (Z.of_nat i) <= q) by (apply (Rmult_le_reg_l pitch); lra). lra.
Qed.
Lemma wave_length_pow h : exists k, (5 <= k <= 13)%nat /\ wave_length h = (2 ^ k)%nat.
Proof.
  unfold wave_length, TableModel.next_pow2. set (m := Nat.log2_up (4 * h)). change 32%nat with (2 ^ 5)%nat.
  assert (M : forall a b, (a <= b)%nat -> (2 ^ a <= 2 ^ b)%nat) by (intros; apply Nat.pow_le_mono_r; lia).
  destruct (Nat.le_gt_cases m 5). { exists 5%nat. split; [lia|]. rewrite Nat.max_r by now apply M. apply Nat.min_l. apply M. lia. }
  rewrite Nat.max_l by (apply M; lia). destruct (Nat.le_gt_cases m 13). { exists m. split; [lia|]. apply Nat.min_l. now apply M. } exists 13%nat. split; [lia|]. apply Nat.min_r. apply M. lia.
Qed.
Lemma wave_length_oversampled h : (h <= 2 ^ 11)%nat -> (4 * h <= wave_length h)%nat.
Proof.
  intros H. unfold wave_length, TableModel.next_pow2. assert (4 * h <= 2 ^ Nat.log2_up (4 * h))%nat by (destruct h as [|h]; [cbn; lia|]; apply Nat.log2_up_spec; lia).
  assert (4 * h <= 2 ^ 13)%nat. { replace (2 ^ 13)%nat with (4 * 2 ^ 11)%nat by (change 13%nat with (2 + 11)%nat; now rewrite Nat.pow_add_r). lia. } apply Nat.min_glb; [|assumption]. eapply Nat.le_trans; [|apply Nat.le_max_l]; assumption.
Qed.
Lemma wave_length_fits h : (h < 2 ^ 13)%nat -> (h < wave_length h)%nat.
Proof.
  intros H. destruct (Nat.eq_dec h 0) as [->|Z]. { destruct (wave_length_pow 0) as (k & _ & ->). apply Nat.neq_0_lt_0. apply Nat.pow_nonzero. lia. }
  unfold wave_length, TableModel.next_pow2. assert (4 * h <= 2 ^ Nat.log2_up (4 * h))%nat by (apply Nat.log2_up_spec; lia). apply Nat.min_glb_lt; [|assumption]. apply Nat.lt_le_trans with (4 * h)%nat; [lia|]. eapply Nat.le_trans; [|apply Nat.le_max_l]; assumption.
Qed.
Lemma make_wave_defined ifft pitch phase amplitude : 0 < pitch -> 22000 < pitch * INR (2 ^ 13) -> exists wave, make_waveR ifft pitch phase amplitude = Val wave.
Proof.
  intros P H. unfold make_wave. set (h := harmonics Rnum_ops pitch). assert (Hh : (h < 2 ^ 13)%nat). { destruct (Nat.lt_ge_cases h (2 ^ 13)) as [|G]; [assumption|]. apply (harmonics_ok pitch _ P) in G. lra. }
  destruct (insert_fits phase amplitude pitch (seq 1 h) (repeat (n0 Rnum_ops, n0 Rnum_ops) (wave_length h))) as [a E]. { intros i I. rewrite repeat_length. apply in_seq in I. pose proof (wave_length_fits h Hh). lia. }
  rewrite E. cbn [bind]. eauto.
Qed.
Lemma make_wave_panics ifft pitch phase amplitude : 0 < pitch -> pitch * INR (2 ^ 13) < 22000 -> 0 < amplitude pitch (2 ^ 13)%nat -> make_waveR ifft pitch phase amplitude = Panics.
Proof.
  intros P H A. unfold make_wave. set (h := harmonics Rnum_ops pitch). assert (Hh : (2 ^ 13 <= h)%nat) by (apply (harmonics_ok pitch _ P); lra).
  destruct (insert Rnum_ops Rnum_ops _ sin cos (2 * PI) phase amplitude pitch (seq 1 h) (repeat (n0 Rnum_ops, n0 Rnum_ops) (wave_length h))) as [a| |] eqn:E; [|reflexivity|now apply insert_outcome in E].
  destruct (insert_ok _ _ _ _ _ _ E) as (_ & Hi & _). rewrite repeat_length in Hi. destruct (wave_length_pow h) as (k & K & W).
  assert ((2 ^ 13 < wave_length h)%nat). { apply Hi. { apply in_seq. pose proof (Nat.pow_nonzero 2 13). lia. } rewrite weight_fade. apply Rmult_lt_0_compat; [exact A|]. now apply fade_pos. }
  rewrite W in H0. apply Nat.pow_lt_mono_r_iff in H0; lia.
Qed.
Lemma make_wave_total ifft pitch phase amplitude : make_waveR ifft pitch phase amplitude <> Undefined.
Proof. unfold make_wave. cbn zeta. destruct (insert _ _ _ _ _ _ _ _ _ _ _) eqn:E; cbn [bind]; try discriminate. now apply insert_outcome in E. Qed.
Notation buildR ifft := (build Rnum_ops Rnum_ops idR sin cos (2 * PI) ifft).
Section Build.
  Variables (ifft : list (R * R) -> list (R * R)) (factor max_pitch : R) (phase : nat -> R) (amplitude : R -> nat -> R).
  Hypothesis F1 : 1 < factor.
  Notation bld fuel pitch := (buildR ifft fuel pitch factor max_pitch phase amplitude).
  Lemma build_unfold fuel pitch : bld fuel pitch = if Rle_dec pitch max_pitch then match fuel with O => Undefined | S fuel => do w <- make_waveR ifft pitch phase amplitude; do tb <- bld fuel (pitch * factor); Val ((pitch, w) :: tb) end else Val [].
  Proof. destruct fuel; cbn [build]; change (nleb Rnum_ops pitch max_pitch) with (if Rle_dec pitch max_pitch then true else false); destruct (Rle_dec _ _); reflexivity. Qed.
  Lemma build_ok : forall fuel pitch tb, 0 < pitch -> bld fuel pitch = Val tb -> pitches tb pitch factor max_pitch /\ Forall (fun t => make_waveR ifft (fst t) phase amplitude = Val (snd t)) tb.
  Proof.
    induction fuel as [|fuel IH]; intros pitch tb P H; rewrite build_unfold in H; destruct (Rle_dec pitch max_pitch) as [L|L]; try discriminate;
      try (injection H as <-; split; [|constructor]; intros k; cbn [length]; split; [|lia]; split; [lia|]; intros Q; exfalso; apply L; assert (1 <= factor ^ k) by (apply pow_R1_Rle; lra); nra).
    destruct (make_waveR ifft pitch phase amplitude) as [w| |] eqn:Ew; cbn [bind] in H; try discriminate. destruct (bld fuel (pitch * factor)) as [tb'| |] eqn:Eb; cbn [bind] in H; try discriminate. injection H as <-.
    assert (P' : 0 < pitch * factor) by (apply Rmult_lt_0_compat; lra). destruct (IH _ _ P' Eb) as [Hp Hf]. split; [|constructor; [exact Ew|exact Hf]]. intros [|k]; cbn [length nth fst pow]. { rewrite Rmult_1_r. split; [split; [intros; exact L|lia]|reflexivity]. }
    destruct (Hp k) as [A B]. rewrite <- Rmult_assoc. split; [rewrite <- A; lia|]. intros Hk. apply B. lia.
  Qed.
  Lemma build_ends : forall fuel pitch, max_pitch < pitch * factor ^ fuel -> bld fuel pitch <> Undefined.
  Proof.
    induction fuel as [|fuel IH]; intros pitch H; rewrite build_unfold; destruct (Rle_dec pitch max_pitch) as [L|L]; try discriminate. { cbn [pow] in H. lra. }
    destruct (make_waveR ifft pitch phase amplitude) as [w| |] eqn:Ew; cbn [bind]; try discriminate; [|now apply make_wave_total in Ew]. specialize (IH (pitch * factor)). destruct (bld fuel (pitch * factor)); cbn [bind]; try discriminate. exfalso. apply IH; [|reflexivity]. cbn [pow] in H. now rewrite Rmult_assoc.
  Qed.
  Lemma build_more : forall fuel pitch n, (fuel <= n)%nat -> bld fuel pitch <> Undefined -> bld n pitch = bld fuel pitch.
  Proof.
    induction fuel as [|fuel IH]; intros pitch n Hn H; rewrite build_unfold in H; rewrite (build_unfold n), (build_unfold _ pitch); destruct (Rle_dec pitch max_pitch); try contradiction; try reflexivity. destruct n as [|n]; [lia|].
    destruct (make_waveR ifft pitch phase amplitude) as [w| |]; cbn [bind] in *; try reflexivity. rewrite (IH (pitch * factor) n); [reflexivity|lia|]. intros E. rewrite E in H. contradiction.
  Qed.
  Lemma build_defined : forall fuel pitch, 22000 < pitch * INR (2 ^ 13) -> 0 < pitch -> bld fuel pitch <> Panics.
  Proof.
    induction fuel as [|fuel IH]; intros pitch H P; rewrite build_unfold; destruct (Rle_dec pitch max_pitch); try discriminate. destruct (make_wave_defined ifft pitch phase amplitude P H) as [w ->]. cbn [bind].
    specialize (IH (pitch * factor)). assert (0 < INR (2 ^ 13)) by (apply lt_0_INR, Nat.neq_0_lt_0, Nat.pow_nonzero; lia). assert (0 < pitch * INR (2 ^ 13)) by lra. destruct (bld fuel (pitch * factor)); cbn [bind]; try discriminate. intros _. apply IH; [|nra|reflexivity].
    replace (pitch * factor * INR (2 ^ 13)) with (pitch * INR (2 ^ 13) * factor) by ring. revert H H1. generalize (pitch * INR (2 ^ 13)). intros q Hq Hp. nra.
  Qed.
End Build.
Lemma factor_gt per : 0 < per -> 1 < Rpower 2 (1 / per).
Proof. intros H. pose proof (Rpower_lt 2 0 (1 / per)) as X. rewrite Rpower_O in X by lra. apply X; [lra|]. apply Rdiv_lt_0_compat; lra. Qed.
Lemma pow_unbounded factor pitch m : 1 < factor -> 0 < pitch -> exists k, m < pitch * factor ^ k.
Proof.
  intros F P. destruct (Pow_x_infinity factor ltac:(rewrite Rabs_pos_eq; lra) (m / pitch + 1)) as [k H]. exists k. specialize (H k (le_n k)). rewrite Rabs_pos_eq in H by (apply pow_le; lra).
  replace m with (pitch * (m / pitch)) by (field; lra). apply Rmult_lt_compat_l; lra.
Qed.

(* ---- normalizing ---- *)
Lemma fold_max_ge l : forall m, m <= fold_left (fun m x => Rmax m (Rabs x)) l m /\ (forall x, In x l -> Rabs x <= fold_left (fun m x => Rmax m (Rabs x)) l m) /\
  (fold_left (fun m x => Rmax m (Rabs x)) l m = m \/ exists x, In x l /\ fold_left (fun m x => Rmax m (Rabs x)) l m = Rabs x).
Proof.
  induction l as [|y l IH]; intros m; cbn [fold_left In]. { refine (conj _ (conj _ _)); [lra|contradiction|now left]. }
  destruct (IH (Rmax m (Rabs y))) as (A & B & C). pose proof (Rmax_l m (Rabs y)). pose proof (Rmax_r m (Rabs y)). refine (conj _ (conj _ _)); [lra| |].
  - intros x [<-|I]; [lra|auto].
  - destruct C as [C|(x & I & C)]; [|right; eauto]. rewrite C. unfold Rmax. destruct (Rle_dec m (Rabs y)); [right; eauto|now left].
Qed.
Lemma largest_ok tb : let m := largest Rnum_ops tb in 0 <= m /\ (forall t x, In t tb -> In x (snd t) -> Rabs x <= m) /\ (m = 0 \/ exists t x, In t tb /\ In x (snd t) /\ m = Rabs x).
Proof.
  cbn zeta. unfold largest. cbn [nmax nabs n0 nofZ Rnum_ops].
  assert (G : forall tb m, m <= fold_left (fun m t => fold_left (fun m x => Rmax m (Rabs x)) (snd t) m) tb m /\ (forall t x, In t tb -> In x (snd t) -> Rabs x <= fold_left (fun (m : R) (t : R * list R) => fold_left (fun m x => Rmax m (Rabs x)) (snd t) m) tb m) /\
    (fold_left (fun m t => fold_left (fun m x => Rmax m (Rabs x)) (snd t) m) tb m = m \/ exists t x, In t tb /\ In x (snd t) /\ fold_left (fun (m : R) (t : R * list R) => fold_left (fun m x => Rmax m (Rabs x)) (snd t) m) tb m = Rabs x)).
  { clear tb. induction tb as [|t tb IH]; intros m; cbn [fold_left In]. { refine (conj _ (conj _ _)); [lra|contradiction|now left]. }
    destruct (fold_max_ge (snd t) m) as (A & B & C). destruct (IH (fold_left (fun m x => Rmax m (Rabs x)) (snd t) m)) as (A' & B' & C'). refine (conj _ (conj _ _)); [lra| |].
    - intros u x [<-|I] J; [specialize (B x J); lra|eauto].
    - destruct C' as [C'|(u & x & I & J & C')]; [|right; exists u, x; auto]. rewrite C'. destruct C as [C|(x & I & C)]; [now left|right; exists t, x; auto]. }
  exact (G tb 0).
Qed.
Lemma normalize_ok tb : exists z, 0 < z /\ normal (normalize Rnum_ops tb) /\ normalize Rnum_ops tb = map (fun t => (fst t, map (fun x => x * z) (snd t))) tb.
Proof.
  unfold normalize. destruct (largest_ok tb) as (P & B & C). set (m := largest Rnum_ops tb) in *. cbn zeta. change (nltb Rnum_ops (n0 Rnum_ops) m) with (if Rlt_dec 0 m then true else false). destruct (Rlt_dec 0 m) as [M|M].
  - exists (1 / m). assert (Z : 0 < 1 / m) by (apply Rdiv_lt_0_compat; lra). split; [exact Z|]. split; [|reflexivity]. split.
    + intros t x I J. apply in_map_iff in I. destruct I as (u & <- & I). cbn [snd] in J. apply in_map_iff in J. destruct J as (y & <- & J). cbn [nmul ndiv n1 nofZ Rnum_ops]. rewrite Rabs_mult, (Rabs_pos_eq (1 / m)) by lra. specialize (B u y I J). apply (Rmult_le_reg_r m); [lra|]. replace (Rabs y * (1 / m) * m) with (Rabs y) by (field; lra). lra.
    + destruct C as [C|(t & x & I & J & C)]; [lra|]. left. exists (fst t, map (fun x => nmul Rnum_ops x (ndiv Rnum_ops (n1 Rnum_ops) m)) (snd t)), (x * (1 / m)). split; [apply in_map_iff; eauto|]. split; [apply in_map_iff; exists x; split; [reflexivity|exact J]|]. rewrite Rabs_mult, (Rabs_pos_eq (1 / m)) by lra. rewrite <- C. field. lra.
  - exists 1. split; [lra|]. assert (M0 : m = 0) by lra. assert (Z : forall t x, In t tb -> In x (snd t) -> x = 0). { intros t x I J. specialize (B t x I J). pose proof (Rabs_pos x). destruct (Req_dec x 0) as [|N]; [assumption|]. apply Rabs_pos_lt in N. lra. }
    split; [split; [|now right]|].
    + intros t x I J. rewrite (Z t x I J), Rabs_R0. lra.
    + rewrite <- (map_id tb) at 1. apply map_ext_in. intros [p t] I. cbn [fst snd]. f_equal. rewrite <- (map_id t) at 1. apply map_ext. intros x. ring.
Qed.
Lemma nth_scaled (tb : list (R * list R)) z k : (k < length tb)%nat -> nth k (map (fun t => (fst t, map (fun x => x * z) (snd t))) tb) (0, []) = (fst (nth k tb (0, [])), map (fun x => x * z) (snd (nth k tb (0, [])))).
Proof. intros H. rewrite (nth_indep _ (0, []) ((fun t : R * list R => (fst t, map (fun x => x * z) (snd t))) (0, []))) by now rewrite map_length. rewrite (map_nth (fun t : R * list R => (fst t, map (fun x => x * z) (snd t)))). reflexivity. Qed.
Lemma table_new_ok ifft fuel mn mx per phase amplitude tb : is_inverse_dft ifft -> 0 < mn -> 0 < per -> table_newR ifft fuel mn mx per phase amplitude = Val tb ->
  pitches tb mn (Rpower 2 (1 / per)) mx /\ sized tb /\ filled tb (partials phase amplitude) /\ normal tb.
Proof.
  intros D M P H. pose proof (factor_gt per P) as F. unfold table_new in H. change (Rpower (nofZ Rnum_ops 2) (ndiv Rnum_ops (n1 Rnum_ops) per)) with (Rpower 2 (1 / per)) in H. set (factor := Rpower 2 (1 / per)) in *.
  destruct (buildR ifft fuel mn factor mx phase amplitude) as [t0| |] eqn:E; cbn [bind] in H; try discriminate. injection H as <-. destruct (build_ok _ _ _ _ _ F _ _ _ M E) as [Hp Hf]. destruct (normalize_ok t0) as (z & Z & N & Ez). rewrite Ez in N |- *. clear Ez. rewrite Forall_forall in Hf.
  refine (conj _ (conj _ (conj _ N))).
  - intros k. rewrite map_length. destruct (Hp k) as [A B]. split; [exact A|]. intros Hk. rewrite nth_scaled by exact Hk. cbn [fst]. auto.
  - intros t I. apply in_map_iff in I. destruct I as (u & <- & I). cbn [fst snd]. rewrite map_length. destruct (make_wave_ok _ _ _ _ _ D (Hf u I)) as [L _]. rewrite L. split; [apply wave_length_pow|]. apply wave_length_oversampled.
  - exists z. split; [exact Z|]. intros k Hk p t n Hn. rewrite map_length in Hk. assert (I : In (nth k t0 (0, [])) t0) by now apply nth_In. subst p t. rewrite nth_scaled in * by exact Hk. cbn [fst snd] in *. rewrite map_length in *. destruct (make_wave_ok _ _ _ _ _ D (Hf _ I)) as [L W]. rewrite L in Hn.
    rewrite (nth_indep _ 0 ((fun x => x * z) 0)) by (rewrite map_length, L; exact Hn). rewrite (map_nth (fun x => x * z)). rewrite W by exact Hn. rewrite L. rewrite Rmult_comm. f_equal. unfold partials. apply total_ext. intros i _. cbn zeta. f_equal. f_equal. f_equal. f_equal. unfold Rdiv. ring.
Qed.
Lemma table_new_ends ifft mn mx per phase amplitude : 0 < mn -> 0 < per -> exists f r, r <> Undefined /\ (forall fuel, (f <= fuel)%nat -> table_newR ifft fuel mn mx per phase amplitude = r) /\ (22000 < mn * INR (2 ^ 13) -> exists tb, r = Val tb).
Proof.
  intros M P. pose proof (factor_gt per P) as F. unfold table_new. change (Rpower (nofZ Rnum_ops 2) (ndiv Rnum_ops (n1 Rnum_ops) per)) with (Rpower 2 (1 / per)). set (factor := Rpower 2 (1 / per)) in *. destruct (pow_unbounded factor mn mx F M) as [f Hf].
  pose proof (build_ends ifft factor mx phase amplitude f mn Hf) as U. exists f, (do tb <- buildR ifft f mn factor mx phase amplitude; Val (normalize Rnum_ops tb)). split; [|split].
  - destruct (buildR ifft f mn factor mx phase amplitude); cbn [bind]; congruence.
  - intros fuel L. rewrite (build_more ifft factor mx phase amplitude f mn fuel L U). reflexivity.
  - intros B. pose proof (build_defined ifft factor mx phase amplitude F f mn B M) as N. destruct (buildR ifft f mn factor mx phase amplitude); cbn [bind]; [eauto|contradiction|contradiction].
Qed.
Lemma table_new_panics ifft fuel mn mx per phase amplitude : 0 < mn -> mn * INR (2 ^ 13) < 22000 -> mn <= mx -> 0 < amplitude mn (2 ^ 13)%nat -> table_newR ifft (S fuel) mn mx per phase amplitude = Panics.
Proof. intros M H L A. unfold table_new. rewrite build_unfold. destruct (Rle_dec mn mx); [|contradiction]. now rewrite make_wave_panics. Qed.
Lemma pitches_rising tb mn factor mx : 0 < mn -> 1 < factor -> pitches tb mn factor mx -> rising tb.
Proof. intros M F H i j [A B]. destruct (H i) as [_ Hi], (H j) as [_ Hj]. rewrite Hi, Hj by lia. apply Rmult_lt_compat_l; [exact M|]. now apply Rlt_pow. Qed.
Lemma table_new_tables_ok tb mn factor mx : 0 < mn -> 1 < factor -> pitches tb mn factor mx -> sized tb -> mn * factor ^ 2 <= mx -> tables_ok tb.
Proof.
  intros M F H S L. split; [|split]. { apply H in L. lia. } { eapply pitches_rising; eauto. } rewrite Forall_forall. intros t I. destruct (S t I) as [(k & K & E) _]. exists k. split; [lia|exact E].
Qed.
(* ---- from_wave ---- *)
Lemma from_wave_partials rfft norm arg x pitch t : is_real_dft rfft -> is_polar norm arg ->
  partials (wave_phase Rnum_ops idR (2 * PI) arg (rfft x)) (wave_amplitude Rnum_ops idR norm (rfft x)) pitch t =
  total (top pitch) (fun i => let k := S i in if Nat.ltb k (length x / 2) then fade (pitch * INR k) * (cosine_part x k * sin (2 * PI * (INR k * t)) - sine_part x k * cos (2 * PI * (INR k * t))) else 0).
Proof.
  intros D P. unfold partials. apply total_ext. intros i _. cbn zeta. destruct (D x) as [L H]. unfold wave_amplitude, wave_phase. destruct (Nat.ltb_spec (S i) (length x / 2)) as [B|B].
  - rewrite (Base.nth_error_nth' _ _ (0, 0)) by lia. rewrite H by lia. fold (cosine_part x (S i)). fold (sine_part x (S i)). destruct (P (cosine_part x (S i), - sine_part x (S i))) as (A & Re & Im). cbn [fst snd] in Re, Im.
    cbn [ndiv Rnum_ops]. set (n := norm _) in *. set (g := arg _) in *. assert (S : sounding n = n) by (unfold sounding; destruct (Rlt_dec 0 n); lra). rewrite S. pose proof PI_RGT_0.
    replace (2 * PI * (INR (Datatypes.S i) * t + g / (2 * PI))) with (2 * PI * (INR (Datatypes.S i) * t) + g) by (field; lra). rewrite sin_plus.
    transitivity (fade (pitch * INR (Datatypes.S i)) * (n * cos g * sin (2 * PI * (INR (Datatypes.S i) * t)) + n * sin g * cos (2 * PI * (INR (Datatypes.S i) * t)))); [ring|]. rewrite Re, Im. ring.
  - replace (nth_error (rfft x) (S i)) with (@None (R * R)) by (symmetry; apply nth_error_None; lia). unfold sounding. cbn [n0 nofZ Rnum_ops]. destruct (Rlt_dec 0 0); lra.
Qed.
