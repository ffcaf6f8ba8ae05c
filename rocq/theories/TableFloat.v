(* Wavetables with binary32 numbers, and examples. *)
From Coq Require Import Reals Lra Lia Psatz SpecFloat.
From Verif Require Import OverProofs OscProofs TableProofs OscFloat TableBuild.
From Verif Require Import OverSpec TableSpec.
Local Open Scope R_scope.

(* ---- NaN ---- *)
Notation nan := S754_nan.
Lemma nan_look t : at_ f32_ops t nan = Undefined.
Proof. unfold at_. rewrite mul_nan. reflexivity. Qed.
Lemma lt_nan x : nltb f32_ops nan x = false. Proof. destruct x; reflexivity. Qed.
Lemma le_nan x : nleb f32_ops x nan = false. Proof. destruct x as [[]|[]| |[]]; reflexivity. Qed.
Lemma search_nan (tb : list (f32 * list f32)) : forall fuel i0 i1, (i1 - i0 <= fuel)%nat -> (i0 <= i1)%nat -> (i1 < length tb)%nat -> search f32_ops fuel tb nan i0 i1 = Val i1.
Proof.
  induction fuel as [|fuel IH]; intros i0 i1 H L B; cbn [search]; destruct (Nat.ltb_spec i0 i1); try lia; try (f_equal; lia).
  assert (D : (i0 <= (i0 + i1) / 2 < i1)%nat) by (split; [apply Nat.div_le_lower_bound|apply Nat.div_lt_upper_bound]; lia). set (i := ((i0 + i1) / 2)%nat) in *.
  rewrite (index_ok _ _ (nan, [])) by lia. cbn [bind]. rewrite lt_nan. rewrite (index_ok _ _ (nan, [])) by lia. cbn [bind]. rewrite lt_nan. apply IH; lia.
Qed.
Lemma read_nan (tb : list (f32 * list f32)) hint : (3 <= length tb)%nat -> (hint < length tb)%nat -> table_read f32_ops (at_ f32_ops) tb hint nan nan = Undefined.
Proof.
  intros L H. unfold table_read, table_index. rewrite (index_ok _ hint (nan, [])) by lia. cbn [bind]. rewrite le_nan. cbn [bind]. destruct (Nat.ltb_spec (length tb) 3); [lia|]. rewrite search_nan by lia. cbn [bind].
  rewrite (index_ok _ (length tb - 3) (nan, [])) by lia. cbn [bind]. rewrite (index_ok _ (length tb - 3 + 1) (nan, [])) by lia. cbn [bind]. rewrite nan_look. reflexivity.
Qed.
Lemma synth_nan (tb : list (f32 * list f32)) s : (3 <= length tb)%nat -> (sy_hint s < length tb)%nat -> synth_tick f32_ops tb s nan = Undefined.
Proof.
  intros L H. unfold synth_tick. rewrite nan_mul. assert (E : nadd f32_ops (sy_phase s) nan = nan) by (destruct (sy_phase s) as [[]|[]| |[]]; reflexivity). rewrite E.
  unfold OscModel.wrap. rewrite nan_sub. change (nabs f32_ops nan) with nan. rewrite read_nan by assumption. reflexivity.
Qed.
Lemma psynth_nan (tb : list (f32 * list f32)) s : (3 <= length tb)%nat -> (ps_hint s < length tb)%nat -> psynth_tick f32_ops tb s nan = Undefined \/ psynth_tick f32_ops tb s nan = Panics.
Proof.
  intros L H. unfold psynth_tick. cbn zeta. assert (W : OscModel.wrap f32_ops nan = nan) by (unfold OscModel.wrap; apply nan_sub). rewrite W. set (f := nmul _ _ _). unfold table_read.
  destruct (table_index f32_ops tb (ps_hint s) f) as [i| |]; cbn [bind]; auto. unfold index. destruct (nth_error tb i) as [t|]; cbn [bind]; auto. destruct (nth_error tb (i + 1)) as [t1|]; cbn [bind]; auto. rewrite nan_look. auto.
Qed.
(* ---- blocks ---- *)
Definition f32c (z : Z) : f32 := nofZ f32_ops z.
Definition four : list (f32 * list f32) := [(f32c 1, [f32c 1]); (f32c 2, [f32c 2]); (f32c 4, [f32c 4]); (f32c 8, [f32c 8])].
Definition at_rest : @synth f32 := synth_new f32_ops (f32c 64).
Definition sweep : list f32 := [f32c 1; f32c 8; f32c 8; f32c 8; f32c 8; f32c 8; f32c 8; f32c 8].
Definition heard (r : outcome (@synth f32 * list (f32 * f32))) (n : nat) : option (f32 * f32) := match r with Val (_, o) => nth_error o n | _ => None end.
Definition both (P : f32 * f32 -> f32 * f32 -> bool) (a b : option (f32 * f32)) : bool := match a, b with Some x, Some y => P x y | _, _ => false end.
Lemma both_spec P a b : both P a b = true -> exists x y, a = Some x /\ b = Some y /\ P x y = true.
Proof. destruct a as [x|], b as [y|]; try discriminate. intros H. exists x, y. auto. Qed.
Lemma sweep_differs : exists x y, heard (synth_run f32_ops four at_rest sweep) 1 = Some x /\ heard (synth_process f32_ops four at_rest sweep) 1 = Some y /\ nltb f32_ops (nmul f32_ops (fst y) (f32c 3)) (fst x) = true.
Proof. apply (both_spec (fun x y => nltb f32_ops (nmul f32_ops (fst y) (f32c 3)) (fst x))). vm_compute. reflexivity. Qed.
Definition near_end : @synth f32 := mkSynth (nsub f32_ops (n1 f32_ops) (ndiv f32_ops (n1 f32_ops) (f32c 8388608))) 0 None 0 (n1 f32_ops) (n1 f32_ops).
Lemma phase_negative : exists x y, heard (synth_run f32_ops four near_end (repeat (n1 f32_ops) 8)) 0 = Some x /\ heard (synth_process f32_ops four near_end (repeat (n1 f32_ops) 8)) 0 = Some y /\
  (nleb f32_ops (n0 f32_ops) (snd x) && nltb f32_ops (snd y) (n0 f32_ops))%bool = true.
Proof. apply (both_spec (fun x y => nleb f32_ops (n0 f32_ops) (snd x) && nltb f32_ops (snd y) (n0 f32_ops))%bool). vm_compute. reflexivity. Qed.

(* ---- there are transforms as required ---- *)
Definition idft (a : list (R * R)) : list (R * R) := let N := length a in
  map (fun n => (total N (fun k => fst (nth k a (0, 0)) * cos (turn k n N) - snd (nth k a (0, 0)) * sin (turn k n N)) / INR N, total N (fun k => fst (nth k a (0, 0)) * sin (turn k n N) + snd (nth k a (0, 0)) * cos (turn k n N)) / INR N)) (seq 0 N).
Lemma idft_ok : is_inverse_dft idft.
Proof.
  intros a N. unfold idft. fold N. split; [now rewrite map_length, seq_length|]. intros n H. cbn zeta. set (f := fun n : nat => (_, _)). rewrite (nth_indep _ (0, 0) (f 0%nat)) by now rewrite map_length, seq_length. rewrite (map_nth f), seq_nth by exact H. reflexivity.
Qed.
Definition rdft (x : list R) : list (R * R) := map (fun k => (cosine_part x k, - sine_part x k)) (seq 0 (length x / 2)).
Lemma rdft_ok : is_real_dft rdft.
Proof.
  intros x N. unfold rdft. fold N. split; [now rewrite map_length, seq_length|]. intros k H. set (f := fun k : nat => (_, _)). rewrite (nth_indep _ (0, 0) (f 0%nat)) by (rewrite map_length, seq_length; lia). rewrite (map_nth f), seq_nth by lia. reflexivity.
Qed.
Definition pnorm (x : R * R) : R := sqrt (fst x * fst x + snd x * snd x).
Definition parg (x : R * R) : R := if Req_EM_T (pnorm x) 0 then 0 else if Rle_dec 0 (snd x) then acos (fst x / pnorm x) else - acos (fst x / pnorm x).
Lemma polar_ok : is_polar pnorm parg.
Proof.
  intros [a b]. unfold parg. assert (S : 0 <= a * a + b * b) by nra. assert (P : 0 <= pnorm (a, b)) by apply sqrt_pos. assert (Q : pnorm (a, b) * pnorm (a, b) = a * a + b * b) by (unfold pnorm; cbn [fst snd]; now apply sqrt_sqrt). cbn [fst snd]. set (n := pnorm (a, b)) in *. split; [exact P|].
  destruct (Req_EM_T n 0) as [Z|Z]. { rewrite Z in Q. assert (a = 0) by nra. assert (b = 0) by nra. subst. rewrite Z. lra. }
  assert (N : 0 < n) by lra. set (q := a / n). assert (A : a = n * q) by (unfold q; field; lra). assert (B : b * b = n * n * (1 - q * q)) by (rewrite A in Q; nra). assert (QQ : q * q <= 1) by (assert (0 <= n * n * (1 - q * q)) by nra; destruct (Rle_dec (q * q) 1); [assumption|]; assert (0 < n * n) by nra; nra).
  assert (R : -1 <= q <= 1) by nra. assert (SB : n * sqrt (1 - q²) = Rabs b). { rewrite <- (sqrt_Rsqr_abs b). unfold Rsqr. rewrite B. rewrite (Rmult_assoc n n). rewrite <- Rmult_assoc. rewrite sqrt_mult by nra. rewrite sqrt_square by lra. reflexivity. }
  destruct (Rle_dec 0 b).
  - rewrite cos_acos by exact R. rewrite sin_acos by exact R. rewrite SB, Rabs_pos_eq by lra. split; [symmetry; exact A|reflexivity].
  - rewrite cos_neg, sin_neg, cos_acos by exact R. rewrite sin_acos by exact R. split; [symmetry; exact A|]. rewrite Ropp_mult_distr_r_reverse, SB, Rabs_left by lra. lra.
Qed.
(* ---- a cosine as a wave ---- *)
Definition cosine_wave : list R := [1; 0; -1; 0].
Lemma cosine_wave_parts : cosine_part cosine_wave 1 = 2 /\ sine_part cosine_wave 1 = 0.
Proof.
  unfold cosine_part, sine_part, cosine_wave, turn. cbn [length total nth INR].
  replace (2 * PI * (1 * 0 / (1 + 1 + 1 + 1))) with 0 by field. replace (2 * PI * (1 * (1 + 1) / (1 + 1 + 1 + 1))) with PI by field. rewrite cos_0, cos_PI, sin_0, sin_PI. split; ring.
Qed.
Lemma cosine_partials rfft norm arg pitch t : is_real_dft rfft -> is_polar norm arg -> 0 < pitch <= 22000 ->
  partials (wave_phase Rnum_ops idR (2 * PI) arg (rfft cosine_wave)) (wave_amplitude Rnum_ops idR norm (rfft cosine_wave)) pitch t = 2 * fade pitch * sin (2 * PI * t).
Proof.
  intros D P H. rewrite from_wave_partials by assumption. assert (T : (1 <= top pitch)%nat) by (apply harmonics_ok; cbn [INR]; lra). destruct (top pitch) as [|n]; [lia|]. rewrite total_first. destruct cosine_wave_parts as [A B]. cbn zeta. change (length cosine_wave) with 4%nat. change (4 / 2)%nat with 2%nat. cbn [Nat.ltb Nat.leb]. rewrite A, B. cbn [INR]. rewrite (total_zero n); [|reflexivity]. rewrite !Rmult_1_r, Rmult_1_l. ring.
Qed.
Lemma from_cosine ifft rfft norm arg fuel mn mx per tb : is_inverse_dft ifft -> is_real_dft rfft -> is_polar norm arg -> 0 < mn -> mx <= 22000 -> 0 < per -> from_waveR ifft rfft arg norm fuel mn mx per cosine_wave = Val tb ->
  forall k, (k < length tb)%nat -> nth 0 (wav tb k) 0 = 0.
Proof.
  intros I D P M X Q H k Hk. unfold from_wave in H. destruct (table_new_ok _ _ _ _ _ _ _ _ I M Q H) as (Hp & Hs & (z & Z & F) & _). specialize (F k Hk). cbn zeta in F. destruct (Hp k) as [K1 K2]. specialize (K2 Hk). apply K1 in Hk as Hm.
  assert (L : (0 < length (wav tb k))%nat) by (destruct (Hs (nth k tb (0, [])) (nth_In _ _ Hk)) as [(j & J & ->) _]; apply Nat.neq_0_lt_0, Nat.pow_nonzero; lia).
  rewrite (F 0%nat L). rewrite cosine_partials; auto.
  - cbn [INR]. unfold Rdiv. rewrite Rmult_0_l, Rmult_0_r, sin_0. ring.
  - rewrite K2. split; [|lra]. apply Rmult_lt_0_compat; [exact M|]. apply pow_lt. pose proof (factor_gt per Q). lra.
Qed.
(* ---- fewer than 3 tables ---- *)
Lemma few_tables ifft fuel mn mx per phase amplitude tb : is_inverse_dft ifft -> 0 < mn -> 0 < per -> mx < mn * Rpower 2 (1 / per) ^ 2 -> table_newR ifft fuel mn mx per phase amplitude = Val tb -> forall s f, synth_tick Rnum_ops tb s f = Panics \/ synth_tick Rnum_ops tb s f = Undefined.
Proof.
  intros I M P H E s f. destruct (table_new_ok _ _ _ _ _ _ _ _ I M P E) as (Hp & _). assert (L : (length tb < 3)%nat) by (destruct (Hp 2%nat) as [A _]; destruct (Nat.lt_ge_cases 2 (length tb)) as [B|B]; [apply A in B; lra|lia]).
  unfold synth_tick. destruct (too_few tb (sy_hint s) (nabs Rnum_ops f) (OscModel.wrap Rnum_ops (nadd Rnum_ops (sy_phase s) (nmul Rnum_ops f (sy_sd s)))) L) as [-> | ->]; auto.
Qed.
(* ---- aliases in tables of low pitches ---- *)
Lemma alias_sin i k n : (i <= n)%nat -> (0 < n)%nat -> sin (2 * PI * (INR (n - i) * (INR k / INR n))) = - sin (2 * PI * (INR i * (INR k / INR n))).
Proof.
  intros H N. rewrite minus_INR by exact H. assert (INR n <> 0) by (apply not_0_INR; lia). replace (2 * PI * ((INR n - INR i) * (INR k / INR n))) with (- (2 * PI * (INR i * (INR k / INR n))) + 2 * INR k * PI) by (field; assumption). rewrite sin_period. apply sin_neg.
Qed.
(* ---- the named tables ---- *)
Lemma half_turn t : sin (2 * PI * (t + 1 / 2)) = - sin (2 * PI * t).
Proof. replace (2 * PI * (t + 1 / 2)) with (2 * PI * t + PI) by field. apply neg_sin. Qed.
Lemma alternating i : (-1) ^ i = if Nat.odd i then -1 else 1.
Proof. induction i as [|i IH]; [reflexivity|]. cbn [pow]. rewrite IH. rewrite Nat.odd_succ, <- Nat.negb_odd. destruct (Nat.odd i); cbn; ring. Qed.
Lemma saw_partials pitch t : partials (saw_phase Rnum_ops) (saw_amplitude Rnum_ops) pitch t = total (top pitch) (fun i => let k := S i in (-1) ^ i / INR k * fade (pitch * INR k) * sin (2 * PI * (INR k * t))).
Proof.
  unfold partials. apply total_ext. intros i _. cbn zeta. assert (A : saw_amplitude Rnum_ops pitch (S i) = 1 / INR (S i)) by (unfold saw_amplitude, inv; cbn [ndiv n1 nofZ Rnum_ops]; now rewrite INR_IZR_INZ). rewrite A.
  assert (0 < INR (S i)) by (apply lt_0_INR; lia). assert (0 < 1 / INR (S i)) by (apply Rdiv_lt_0_compat; lra). unfold sounding. destruct (Rlt_dec 0 (1 / INR (S i))); [|contradiction]. unfold saw_phase, half_if. rewrite Nat.even_succ.
  rewrite alternating. destruct (Nat.odd i); cbn [ndiv n0 n1 nofZ Rnum_ops]; [rewrite half_turn|rewrite Rplus_0_r]; field; lra.
Qed.
Lemma square_partials pitch t : partials (square_phase Rnum_ops) (square_amplitude Rnum_ops) pitch t = total (top pitch) (fun i => let k := S i in if Nat.odd k then 1 / INR k * fade (pitch * INR k) * sin (2 * PI * (INR k * t)) else 0).
Proof.
  unfold partials. apply total_ext. intros i _. cbn zeta. unfold square_phase, square_amplitude, sounding. cbn [n0 nofZ Rnum_ops]. rewrite Rplus_0_r. destruct (Nat.odd (S i)).
  - assert (A : inv Rnum_ops (S i) = 1 / INR (S i)) by (unfold inv; cbn [ndiv n1 nofZ Rnum_ops]; now rewrite INR_IZR_INZ). rewrite A. assert (0 < INR (S i)) by (apply lt_0_INR; lia). assert (0 < 1 / INR (S i)) by (apply Rdiv_lt_0_compat; lra). destruct (Rlt_dec 0 (1 / INR (S i))); [reflexivity|contradiction].
  - destruct (Rlt_dec 0 0); lra.
Qed.
Lemma triangle_partials pitch t : partials (triangle_phase Rnum_ops) (triangle_amplitude Rnum_ops) pitch t =
  total (top pitch) (fun i => let k := S i in if Nat.odd k then (-1) ^ (i / 2) / (INR k * INR k) * fade (pitch * INR k) * sin (2 * PI * (INR k * t)) else 0).
Proof.
  unfold partials. apply total_ext. intros i _. cbn zeta. unfold triangle_phase, triangle_amplitude, sounding, half_if. destruct (Nat.odd (S i)) eqn:O.
  - assert (A : inv Rnum_ops (S i * S i) = 1 / (INR (S i) * INR (S i))) by (unfold inv; cbn [ndiv n1 nofZ Rnum_ops]; now rewrite <- mult_INR, INR_IZR_INZ). rewrite A. assert (0 < INR (S i)) by (apply lt_0_INR; lia). assert (0 < 1 / (INR (S i) * INR (S i))) by (apply Rdiv_lt_0_compat; nra).
    destruct (Rlt_dec 0 (1 / (INR (S i) * INR (S i)))); [|contradiction]. rewrite Nat.odd_succ in O. apply Nat.even_spec in O. destruct O as [j ->]. rewrite (Nat.mul_comm 2 j), Nat.div_mul by lia. rewrite alternating.
    assert (M : Nat.eqb (S (j * 2) mod 4) 3 = Nat.odd j). { destruct (Nat.Even_or_Odd j) as [[m ->]|[m ->]].
      - replace (S (2 * m * 2)) with (1 + m * 4)%nat by lia. rewrite Nat.mod_add by lia. rewrite Nat.odd_mul. reflexivity.
      - replace (S ((2 * m + 1) * 2)) with (3 + m * 4)%nat by lia. rewrite Nat.mod_add by lia. rewrite Nat.odd_add, Nat.odd_mul. reflexivity. }
    rewrite M. destruct (Nat.odd j); cbn [ndiv n0 n1 nofZ Rnum_ops]; [rewrite half_turn|rewrite Rplus_0_r]; unfold Rdiv; ring.
  - cbn [n0 nofZ Rnum_ops]. destruct (Rlt_dec 0 0); lra.
Qed.
Lemma total_one n f i : (i < n)%nat -> (forall j, (j < n)%nat -> j <> i -> f j = 0) -> total n f = f i.
Proof.
  intros H Z. induction n as [|n IH]; [lia|]. cbn [total]. destruct (Nat.eq_dec i n) as [->|N].
  - rewrite total_zero; [ring|]. intros j Hj. apply Z; lia.
  - rewrite IH; [rewrite (Z n); [ring|lia|lia]|lia|]. intros j Hj. apply Z. lia.
Qed.
Lemma only_wave ifft pitch c i w : is_inverse_dft ifft -> 0 < pitch -> (1 <= i)%nat -> pitch * INR i <= 20000 -> make_waveR ifft pitch (fun _ => c) (only i) = Val w ->
  length w = wave_length (top pitch) /\ forall k, (k < length w)%nat -> nth k w 0 = sin (2 * PI * (INR i * (INR k / INR (length w)) + c)).
Proof.
  intros D P I F E. destruct (make_wave_ok _ _ _ _ _ D E) as [L W]. change (harmonics Rnum_ops pitch) with (top pitch) in *. split; [exact L|]. rewrite L. intros k Hk. rewrite W by exact Hk. assert (T : (i <= top pitch)%nat) by (apply harmonics_ok; lra).
  rewrite (total_one _ _ (i - 1)); [|lia|].
  - replace (S (i - 1)) with i by lia. unfold only. rewrite Nat.eqb_refl. rewrite fade_low by lra. unfold sounding. destruct (Rlt_dec 0 1); [|lra]. replace (INR i * INR k / INR (wave_length (top pitch))) with (INR i * (INR k / INR (wave_length (top pitch)))) by (unfold Rdiv; ring). ring.
  - intros j Hj N. unfold only. destruct (Nat.eqb_spec (S j) i); [lia|]. unfold sounding. destruct (Rlt_dec 0 0); lra.
Qed.
Lemma only_defined ifft pitch c i : 0 < pitch -> (i < wave_length (top pitch))%nat -> exists w, make_waveR ifft pitch (fun _ => c) (only i) = Val w.
Proof.
  intros P H. unfold make_wave. change (harmonics Rnum_ops pitch) with (top pitch). destruct (insert Rnum_ops Rnum_ops _ sin cos (2 * PI) (fun _ => c) (only i) pitch (seq 1 (top pitch)) (repeat (n0 Rnum_ops, n0 Rnum_ops) (wave_length (top pitch)))) as [a| |] eqn:E; [cbn [bind]; eauto| |now apply insert_outcome in E].
  exfalso. assert (G : forall is a, (i < length a)%nat -> insert Rnum_ops Rnum_ops (fun x => x) sin cos (2 * PI) (fun _ => c) (only i) pitch is a <> Panics).
  { clear E. induction is as [|j is IH]; intros a Ha; cbn [insert]; [discriminate|]. cbn zeta. change (nltb Rnum_ops (n0 Rnum_ops) (weight Rnum_ops (only i) pitch j)) with (if Rlt_dec 0 (weight Rnum_ops (only i) pitch j) then true else false).
    destruct (Rlt_dec 0 (weight Rnum_ops (only i) pitch j)) as [Q|Q]; [|now apply IH]. rewrite weight_fade in Q. unfold only in Q. destruct (Nat.eqb_spec j i) as [->|]; [|lra]. replace (Nat.ltb i (length a)) with true by (symmetry; now apply Nat.ltb_lt). apply IH. now rewrite length_upd. }
  apply (G _ _) in E; [contradiction|]. now rewrite repeat_length.
Qed.
Lemma alias_wave ifft pitch i : is_inverse_dft ifft -> 0 < pitch -> let n := wave_length (top pitch) in (0 < i < n)%nat -> pitch * INR i <= 20000 -> pitch * INR (n - i) <= 20000 ->
  exists w, make_waveR ifft pitch (fun _ => 0) (only i) = Val w /\ make_waveR ifft pitch (fun _ => 1 / 2) (only (n - i)) = Val w.
Proof.
  intros D P n I A B. destruct (only_defined ifft pitch 0 i P ltac:(fold n; lia)) as [w E]. destruct (only_defined ifft pitch (1 / 2) (n - i) P ltac:(fold n; lia)) as [v E']. exists w. split; [exact E|]. rewrite E'. f_equal. assert (I1 : (1 <= i)%nat) by lia. assert (I2 : (1 <= n - i)%nat) by lia.
  destruct (only_wave _ _ _ _ _ D P I1 A E) as [L W]. destruct (only_wave _ _ _ _ _ D P I2 B E') as [L' W']. fold n in L, L'. apply (nth_ext _ _ 0 0); [congruence|]. intros k Hk. rewrite W' by exact Hk. rewrite W by lia. rewrite L, L'. rewrite half_turn, alias_sin by lia. rewrite Rplus_0_r. ring.
Qed.
