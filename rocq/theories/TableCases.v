(* The lemmas that TableProperties.v states, and examples. *)
From Coq Require Import Reals Lra Lia Psatz.
From Verif Require Import OverProofs OscProofs TableProofs TableBuild TableFloat.
From Verif Require Import OverSpec TableSpec.
Local Open Scope R_scope.

Definition three_tables : list (R * list R) := [(100, [0; 1; 0; -1]); (200, [0; 1; 0; -1]); (400, [0; -1])].
Lemma three_tables_ok : tables_ok three_tables.
Proof.
  split; [cbn; lia|]. split.
  - intros i j [A B]. cbn [length three_tables] in B. destruct i as [|[|i]], j as [|[|[|j]]]; try lia; cbn [nth fst three_tables]; lra.
  - repeat constructor; cbn [snd length]; [exists 2%nat|exists 2%nat|exists 1%nat]; split; try lia; reflexivity.
Qed.
Lemma read_any_hint tb hint f phase : tables_ok tb -> (hint <= length tb - 3)%nat -> 0 <= phase < 1 -> exists r, (r <= length tb - 3)%nat /\ readR tb hint f phase = Val (level tb f phase, r).
Proof. intros ok H P. destruct (read_level (at_ Rnum_ops) tb hint f phase ok (fun t Ht => at_ok t phase Ht P) H) as (r & _ & B & E). eauto. Qed.
Lemma band_limit tb f phase : tables_ok tb -> 0 < pit tb 0 -> 0 <= f <= pit tb (length tb - 1) ->
  exists j w, (j + 1 < length tb)%nat /\ 0 <= w <= 1 /\ level tb f phase = (1 - w) * sample (wav tb j) phase + w * sample (wav tb (j + 1)) phase /\
    forall k, (w <> 1 /\ (k <= top (pit tb j))%nat) \/ (k <= top (pit tb (j + 1)))%nat -> f * INR k <= 22000.
Proof.
  intros ok P [F0 F]. destruct (level_band tb f phase ok F) as (j & w & J & W & E & A & B). exists j, w. split; [exact J|]. split; [exact W|]. split; [exact E|].
  assert (Q : forall i, (i < length tb)%nat -> 0 < pit tb i) by (intros [|i] Hi; [exact P|]; pose proof (rise tb ok 0 (S i) ltac:(lia)); lra).
  intros k K. pose proof (pos_INR k). destruct K as [[N K]|K].
  - specialize (A ltac:(lra)). apply (harmonics_ok _ _ (Q j ltac:(lia))) in K. nra.
  - apply (harmonics_ok _ _ (Q (j + 1)%nat ltac:(lia))) in K. nra.
Qed.
Lemma synth_output tb (s : @synth R) l : tables_ok tb -> (sy_hint s <= length tb - 3)%nat -> exists s' o, synth_runR tb s l = Val (s', o) /\ length o = length l /\ (sy_hint s' <= length tb - 3)%nat /\
  (forall n f, nth_error l n = Some f -> let p := phase_after s (firstn (S n) l) in nth_error o n = Some (level tb (Rabs f) p, p)).
Proof. intros ok H. destruct (run_ok tb ok l s H) as (s' & o & E & B & L & O & _). exists s', o. refine (conj E (conj L (conj B O))). Qed.
Lemma run_keeps tb : forall l (s s' : @synth R) o, synth_runR tb s l = Val (s', o) -> sy_hash s' = sy_hash s /\ sy_init s' = sy_init s /\ sy_sr s' = sy_sr s /\ sy_sd s' = sy_sd s.
Proof.
  induction l as [|f l IH]; intros s s' o H; cbn [synth_run] in H. { injection H as <- <-. auto. }
  destruct (synth_tick Rnum_ops tb s f) as [[s1 y]| |] eqn:E; cbn [bind] in H; try discriminate. destruct (synth_runR tb s1 l) as [[s2 o2]| |] eqn:E2; cbn [bind] in H; try discriminate. injection H as <- <-.
  destruct (IH _ _ _ E2) as (A & B & C & D). unfold synth_tick in E. destruct (table_read _ _ _ _ _ _) as [[z h]| |]; cbn [bind] in E; try discriminate. injection E as <- <-. auto.
Qed.
Lemma reset_forgets tb rnd (s s1 : @synth R) l o1 l' : tables_ok tb -> (sy_hint s <= length tb - 3)%nat -> synth_runR tb s l = Val (s1, o1) ->
  exists s2 s3 o, synth_runR tb (synth_reset rnd s1) l' = Val (s2, o) /\ synth_runR tb (synth_reset rnd s) l' = Val (s3, o).
Proof.
  intros ok H E. destruct (run_ok tb ok l s H) as (s1' & o' & E' & B & _). rewrite E in E'. injection E' as <- <-. destruct (run_keeps _ _ _ _ _ E) as (K1 & K2 & K3 & K4).
  destruct (run_hint tb ok l' (synth_reset rnd s) (sy_hint s1) H B) as (sa & sb & o & Ea & Eb). exists sb, sa, o. split; [|exact Ea]. rewrite <- Eb. f_equal. unfold synth_reset, synth_at, synth_start. cbn [sy_phase sy_hash sy_init sy_sr sy_sd]. now rewrite K1, K2, K3, K4.
Qed.
Lemma rate_changed tb (s s1 : @synth R) before o1 sr l : tables_ok tb -> (sy_hint s <= length tb - 3)%nat -> before <> [] -> synth_runR tb s before = Val (s1, o1) ->
  exists s' o, synth_runR tb (synth_set_sr Rnum_ops s1 sr) l = Val (s', o) /\ length o = length l /\
  (forall n f, nth_error l n = Some f -> let p := frac (phase_after s before + turns (1 / sr) (firstn (S n) l)) in nth_error o n = Some (level tb (Rabs f) p, p)).
Proof.
  intros ok H N E. destruct (run_ok tb ok before s H) as (s1' & o' & E' & B & _ & _ & Ph & _). rewrite E in E'. injection E' as <- <-. specialize (Ph N).
  destruct (run_ok tb ok l (synth_set_sr Rnum_ops s1 sr) B) as (s' & o & E2 & _ & L & O & _). exists s', o. split; [exact E2|]. split; [exact L|]. intros n f Hn. specialize (O n f Hn). cbn [synth_set_sr sy_phase sy_sd] in O. rewrite Ph in O. exact O.
Qed.
Lemma set_phase_heard tb rnd (s : @synth R) p f l : tables_ok tb -> (sy_hint s <= length tb - 3)%nat -> exists s' y o, synth_runR tb (synth_reset rnd (synth_set_phase s p)) (f :: l) = Val (s', (y, frac (p + f * sy_sd s)) :: o).
Proof.
  intros ok H. destruct (run_ok tb ok (f :: l) (synth_reset rnd (synth_set_phase s p)) H) as (s' & o & E & _ & L & O & _). specialize (O 0%nat f eq_refl). destruct o as [|y o]; [discriminate|]. cbn [nth_error firstn turns] in O. injection O as ->.
  exists s'. eexists. exists o. rewrite E. cbn [turns sy_phase sy_sd synth_reset synth_start synth_set_phase sy_init]. rewrite Rplus_0_r. reflexivity.
Qed.
Lemma turns_repeat sd f n : turns sd (repeat f n) = INR n * (f * sd).
Proof. induction n as [|n IH]; [cbn [repeat turns INR]; ring|]. cbn [repeat turns]. rewrite IH, S_INR. ring. Qed.
Lemma blocks_case : 0 <= sy_phase (synth_new Rnum_ops 64) < 1 /\ steady (length (repeat 2 16) / 8) (repeat 2 16) /\ clear_of_end (synth_new Rnum_ops 64) (repeat 2 16).
Proof.
  split; [cbn; lra|]. split. { cbn. repeat split; repeat constructor. } intros n H. rewrite repeat_length in H. unfold phase_after. cbn [sy_phase sy_sd synth_new n0 n1 nofZ ndiv Rnum_ops].
  assert (E : firstn n (repeat 2 16) = repeat 2 n) by (do 17 (destruct n as [|n]; [reflexivity|]); lia). rewrite E, turns_repeat. assert (N : INR n <= 16) by (replace 16 with (INR 16) by (cbn; lra); now apply le_INR). pose proof (pos_INR n). rewrite frac_id; lra.
Qed.
Lemma phase_synth_output tb (s : @psynth R) l : tables_ok tb -> (ps_hint s <= length tb - 3)%nat -> 0 <= ps_phase s < 1 -> exists s' o, psynth_runR tb s l = Val (s', o) /\ (ps_hint s' <= length tb - 3)%nat /\ 0 <= ps_phase s' < 1 /\ length o = length l /\
  forall n x, nth_error l n = Some x -> exists c, 0 <= c <= 1 / 2 /\ nth_error o n = Some (level tb (c * ps_sr s) (frac x)) /\
    (n = 0%nat -> ps_ready s = false -> c = 1 / 2) /\ (n = 0%nat -> ps_ready s = true -> c = circular (frac x) (ps_phase s)) /\ (forall m x', n = S m -> nth_error l m = Some x' -> c = circular (frac x) (frac x')).
Proof.
  intros ok H P. destruct (prun_ok tb ok l s H P) as (s' & o & E & B & P' & L & O). exists s', o. refine (conj E (conj B (conj P' (conj L _)))). intros n x Hn. eexists. split; [|split; [exact (O n x Hn)|]].
  - assert (Q : forall q, 0 <= psynth_freqs q (frac x) <= 1 / 2) by (intros [q|]; cbn [psynth_freqs]; [apply circular_range|lra]). apply Q.
  - split; [|split].
    + intros -> ->. reflexivity.
    + intros -> ->. reflexivity.
    + intros m x' -> Hm. rewrite Hm. reflexivity.
Qed.
Lemma prun_keeps tb : forall l (s s' : @psynth R) o, psynth_runR tb s l = Val (s', o) -> ps_sr s' = ps_sr s.
Proof.
  induction l as [|f l IH]; intros s s' o H; cbn [psynth_run] in H. { injection H as <- <-. auto. }
  destruct (psynth_tick Rnum_ops tb s f) as [[s1 y]| |] eqn:E; cbn [bind] in H; try discriminate. destruct (psynth_runR tb s1 l) as [[s2 o2]| |] eqn:E2; cbn [bind] in H; try discriminate. injection H as <- <-.
  rewrite (IH _ _ _ E2). unfold psynth_tick in E. cbn zeta in E. destruct (table_read _ _ _ _ _ _) as [[z h]| |]; cbn [bind] in E; try discriminate. injection E as <- <-. reflexivity.
Qed.
Lemma phase_reset_forgets tb (s s1 : @psynth R) l o1 l' : tables_ok tb -> (ps_hint s <= length tb - 3)%nat -> 0 <= ps_phase s < 1 -> psynth_runR tb s l = Val (s1, o1) ->
  exists s2 s3 o, psynth_runR tb (psynth_reset s1) l' = Val (s2, o) /\ psynth_runR tb (psynth_reset s) l' = Val (s3, o).
Proof.
  intros ok H P E. destruct (prun_ok tb ok l s H P) as (s1' & o' & E' & B & P' & _). rewrite E in E'. injection E' as <- <-. pose proof (prun_keeps _ _ _ _ _ E) as K.
  destruct (prun_ok tb ok l' (psynth_reset s1) B P') as (sa & oa & Ea & _ & _ & La & Oa). destruct (prun_ok tb ok l' (psynth_reset s) H P) as (sb & ob & Eb & _ & _ & Lb & Ob). exists sa, sb, oa. split; [exact Ea|]. rewrite Eb. do 2 f_equal.
  apply (nth_ext _ _ 0 0); [congruence|]. intros n Hn. destruct (nth_error l' n) as [x|] eqn:X; [|apply nth_error_None in X; lia]. specialize (Oa n x X). specialize (Ob n x X). cbn [ps_ready ps_phase ps_sr psynth_reset] in Oa, Ob. rewrite K in Oa. apply (nth_error_nth _ _ 0) in Oa. apply (nth_error_nth _ _ 0) in Ob. congruence.
Qed.
Lemma table_new_builds ifft mn mx per phase amplitude : is_inverse_dft ifft -> 0 < mn -> 0 < per -> exists n r, r <> Undefined /\ (forall fuel, (n <= fuel)%nat -> table_newR ifft fuel mn mx per phase amplitude = r) /\
  (22000 < mn * INR (2 ^ 13) -> exists tb, r = Val tb /\ (mn * Rpower 2 (1 / per) ^ 2 <= mx -> tables_ok tb)).
Proof.
  intros D M P. destruct (table_new_ends ifft mn mx per phase amplitude M P) as (n & r & U & A & B). exists n, r. split; [exact U|]. split; [exact A|]. intros H. destruct (B H) as [tb ->]. exists tb. split; [reflexivity|]. intros G.
  destruct (table_new_ok _ _ _ _ _ _ _ _ D M P (A n (le_n n))) as (Hp & Hs & _). exact (table_new_tables_ok tb mn (Rpower 2 (1 / per)) mx M (factor_gt per P) Hp Hs G).
Qed.
Lemma pow13 : INR (2 ^ 13) = 8192. Proof. rewrite pow_INR. change (INR 2) with 2. ring. Qed.
Lemma builds_case : 22000 < 20 * INR (2 ^ 13) /\ 20 * Rpower 2 (1 / 4) ^ 2 <= 20000.
Proof.
  split; [rewrite pow13; lra|]. assert (Rpower 2 (1 / 4) <= 2) by (rewrite <- (Rpower_1 2) at 2 by lra; apply Rle_Rpower; lra). assert (0 < Rpower 2 (1 / 4)) by apply exp_pos. nra.
Qed.
Lemma low_pitch_case : 2 * INR (2 ^ 13) < 22000 /\ 0 < saw_amplitude Rnum_ops 2 (2 ^ 13)%nat.
Proof. split; [rewrite pow13; lra|]. unfold saw_amplitude, inv. cbn [ndiv n1 nofZ Rnum_ops]. rewrite <- INR_IZR_INZ, pow13. lra. Qed.
Lemma few_case : 20000 < 20 * Rpower 2 (1 / (1 / 5)) ^ 2.
Proof. replace (1 / (1 / 5)) with (INR 5) by (cbn; field). rewrite Rpower_pow by lra. lra. Qed.
Lemma long_wave h : (2 ^ 11 < h)%nat -> wave_length h = (2 ^ 13)%nat.
Proof.
  intros H. unfold wave_length, TableModel.next_pow2. apply Nat.min_r. eapply Nat.le_trans; [|apply Nat.le_max_l]. apply Nat.pow_le_mono_r; [lia|]. assert (12 < Nat.log2_up (4 * h))%nat; [|lia]. 
  apply (Nat.pow_lt_mono_r_iff 2); [lia|]. apply Nat.lt_le_trans with (4 * h)%nat; [|apply Nat.log2_up_spec; lia]. change 12%nat with (1 + 11)%nat. rewrite Nat.pow_add_r. change (2 ^ 1)%nat with 2%nat. lia.
Qed.
Lemma alias_case : wave_length (top 4) = (2 ^ 13)%nat /\ 4 * INR (2 ^ 12 + 2 ^ 9) <= 20000 /\ 4 * INR (2 ^ 13 - (2 ^ 12 + 2 ^ 9)) <= 20000.
Proof.
  assert (A : INR (2 ^ 12) = 4096) by (rewrite pow_INR; change (INR 2) with 2; ring). assert (B : INR (2 ^ 9) = 512) by (rewrite pow_INR; change (INR 2) with 2; ring).
  assert (C : (2 ^ 12 + 2 ^ 9 <= 2 ^ 13)%nat). { change 13%nat with (1 + 12)%nat. rewrite Nat.pow_add_r. change (2 ^ 1)%nat with 2%nat. pose proof (Nat.pow_le_mono_r 2 9 12). lia. }
  split; [|split].
  - apply long_wave. apply (harmonics_ok 4 (S (2 ^ 11))); [lra|]. rewrite S_INR, pow_INR. change (INR 2) with 2. lra.
  - rewrite plus_INR, A, B. lra.
  - rewrite minus_INR by exact C. rewrite plus_INR, A, B, pow13. lra.
Qed.
Lemma from_wave_filled ifft rfft norm arg fuel mn mx per x tb : is_inverse_dft ifft -> is_real_dft rfft -> is_polar norm arg -> 0 < mn -> 0 < per -> from_waveR ifft rfft arg norm fuel mn mx per x = Val tb ->
  filled tb (fun pitch t => total (top pitch) (fun i => let k := S i in if Nat.ltb k (length x / 2) then fade (pitch * INR k) * (cosine_part x k * sin (2 * PI * (INR k * t)) - sine_part x k * cos (2 * PI * (INR k * t))) else 0)).
Proof.
  intros I D P M Q H. unfold from_wave in H. destruct (table_new_ok _ _ _ _ _ _ _ _ I M Q H) as (_ & _ & (z & Z & F) & _). exists z. split; [exact Z|]. intros k Hk p t n Hn. etransitivity; [exact (F k Hk n Hn)|]. f_equal. now apply from_wave_partials.
Qed.
