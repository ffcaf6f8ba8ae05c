(* Proofs about the organ, soft saw and Hammond tables. *)
From Coq Require Import Reals Lra Lia Psatz.
From Verif Require Import OverProofs OscProofs TableProofs TableBuild TableFloat TableCases.
From Verif Require Import OverSpec TableSpec.
From Verif Require Export TimbreSpec.
From Verif Require Import TableSpec.
Local Open Scope R_scope.

Lemma tz_odd_fuel n : forall z m, (2 ^ z * (2 * m + 1) <= n)%nat -> trailing_zeros_in n (2 ^ z * (2 * m + 1)) = z.
Proof.
  induction n as [|n IH]; intros z m H.
  - assert (0 < 2 ^ z)%nat by (apply Nat.neq_0_lt_0, Nat.pow_nonzero; lia). nia.
  - cbn [trailing_zeros_in]. destruct z as [|z].
    + replace (2 ^ 0 * (2 * m + 1))%nat with (2 * m + 1)%nat by (cbn; lia). rewrite Nat.even_add, Nat.even_mul. reflexivity.
    + assert (P : (0 < 2 ^ z)%nat) by (apply Nat.neq_0_lt_0, Nat.pow_nonzero; lia).
      replace (2 ^ S z * (2 * m + 1))%nat with (2 * (2 ^ z * (2 * m + 1)))%nat by (cbn [Nat.pow]; lia). rewrite Nat.even_mul. cbn [Nat.even orb]. rewrite Nat.div2_double. f_equal. apply IH. cbn [Nat.pow] in H. nia.
Qed.
Lemma tz_eq z m : trailing_zeros (2 ^ z * (2 * m + 1)) = z.
Proof. apply tz_odd_fuel. lia. Qed.
Lemma shifted_eq z m : shifted (2 ^ z * (2 * m + 1)) = (2 * m + 1)%nat.
Proof. unfold shifted. rewrite tz_eq, Nat.shiftr_div_pow2, Nat.mul_comm, Nat.div_mul; auto. apply Nat.pow_nonzero. lia. Qed.
Lemma split_odd k : (1 <= k)%nat -> exists z m, k = (2 ^ z * (2 * m + 1))%nat.
Proof.
  induction k as [k IH] using lt_wf_ind. intros Hk. destruct (Nat.Even_or_Odd k) as [[j ->]|[j ->]].
  - destruct (IH j) as (z & m & ->); [lia|lia|]. exists (S z), m. cbn [Nat.pow]. lia.
  - exists 0%nat, j. cbn. lia.
Qed.
Lemma pow2_pos z : (1 <= 2 ^ z)%nat. Proof. apply Nat.neq_0_lt_0, Nat.pow_nonzero. lia. Qed.
Lemma inv_eq n : inv Rnum_ops n = 1 / INR n.
Proof. unfold inv. cbn [ndiv n1 nofZ Rnum_ops]. now rewrite INR_IZR_INZ. Qed.
Lemma inv_pos n : (1 <= n)%nat -> 0 < inv Rnum_ops n.
Proof. intros H. rewrite inv_eq. apply Rdiv_lt_0_compat; [lra|]. apply lt_0_INR. lia. Qed.
Lemma inv_lt a b : (1 <= a < b)%nat -> inv Rnum_ops b < inv Rnum_ops a.
Proof. intros H. rewrite !inv_eq. unfold Rdiv. rewrite !Rmult_1_l. apply Rinv_lt_contravar; [|apply lt_INR; lia]. apply Rmult_lt_0_compat; apply lt_0_INR; lia. Qed.

(* amplitudes *)
Lemma organ_amplitude_eq p z m : organ_amplitude Rnum_ops p (2 ^ z * (2 * m + 1)) = 1 / INR (2 ^ z * (2 * m + 1) + (2 * m + 1) ^ 3).
Proof. unfold organ_amplitude. cbv zeta. rewrite shifted_eq, inv_eq. do 2 f_equal. cbn [Nat.pow]. lia. Qed.
Lemma organ_pos p k : (1 <= k)%nat -> 0 < organ_amplitude Rnum_ops p k.
Proof. intros H. unfold organ_amplitude. cbv zeta. apply inv_pos. lia. Qed.
Lemma organ_octave p z : organ_amplitude Rnum_ops p (2 ^ z) = 1 / (2 ^ z + 1).
Proof. replace (2 ^ z)%nat with (2 ^ z * (2 * 0 + 1))%nat by lia. rewrite organ_amplitude_eq. replace (2 ^ z * (2 * 0 + 1) + (2 * 0 + 1) ^ 3)%nat with (2 ^ z + 1)%nat by (cbn [Nat.mul Nat.add]; rewrite Nat.pow_1_l; lia). now rewrite plus_INR, pow_INR. Qed.
Lemma organ_octaves p i k : is_octave i -> (1 <= k)%nat -> ~ is_octave k -> (i < k + 26)%nat -> organ_amplitude Rnum_ops p k < organ_amplitude Rnum_ops p i.
Proof.
  intros [z ->] Hk Ho Hi. destruct (split_odd k Hk) as (y & m & ->). unfold organ_amplitude. cbv zeta. rewrite shifted_eq. assert (S1 : shifted (2 ^ z) = 1%nat) by (pose proof (shifted_eq z 0) as E; now rewrite Nat.mul_1_r in E). rewrite S1.
  apply inv_lt. pose proof (pow2_pos z). split; [lia|]. assert (1 <= m)%nat. { destruct m; [|lia]. exfalso. apply Ho. exists y. lia. }
  assert (27 <= (2 * m + 1) * (2 * m + 1) * (2 * m + 1))%nat by nia. lia.
Qed.
Lemma hammond_first p k : (1 <= k <= 3)%nat -> hammond_amplitude Rnum_ops p k = 1.
Proof. intros H. destruct k as [|[|[|[|k]]]]; try lia; reflexivity. Qed.
Lemma hammond_rest p k : (4 <= k)%nat -> hammond_amplitude Rnum_ops p k = match shifted k with 1%nat => inv Rnum_ops ((trailing_zeros k + 1) * (trailing_zeros k + 1)) | 3%nat => inv Rnum_ops ((trailing_zeros k + 1) * (trailing_zeros k + 1)) | 9%nat => 1 / 5 * inv Rnum_ops ((trailing_zeros k + 1) * (trailing_zeros k + 1)) | _ => 0 end.
Proof. intros H. destruct k as [|[|[|[|k]]]]; try lia. reflexivity. Qed.
Lemma hammond_range p k : (4 <= k)%nat -> 0 <= hammond_amplitude Rnum_ops p k <= 1 / 4.
Proof.
  intros H. rewrite hammond_rest by exact H. destruct (split_odd k ltac:(lia)) as (z & m & ->). rewrite shifted_eq, tz_eq.
  assert (P : 0 < inv Rnum_ops ((z + 1) * (z + 1))) by (apply inv_pos; lia).
  assert (L : (1 <= z)%nat -> inv Rnum_ops ((z + 1) * (z + 1)) <= 1 / 4).
  { intros Hz. rewrite inv_eq. apply Rmult_le_reg_r with (INR ((z + 1) * (z + 1))); [apply lt_0_INR; lia|]. unfold Rdiv. rewrite Rmult_assoc, Rinv_l by (apply not_0_INR; lia).
    assert (INR 4 <= INR ((z + 1) * (z + 1))) by (apply le_INR; nia). cbn [INR] in *. lra. }
  assert (L1 : inv Rnum_ops ((z + 1) * (z + 1)) <= 1).
  { rewrite inv_eq. apply Rmult_le_reg_r with (INR ((z + 1) * (z + 1))); [apply lt_0_INR; lia|]. unfold Rdiv. rewrite Rmult_assoc, Rinv_l by (apply not_0_INR; lia).
    assert (INR 1 <= INR ((z + 1) * (z + 1))) by (apply le_INR; nia). cbn [INR] in *. lra. }
  assert (Z1 : (m <= 1)%nat -> (1 <= z)%nat). { intros Hm. destruct z; [|lia]. cbn in H. lia. }
  destruct m as [|[|[|[|[|m]]]]]; [| | | | |replace (2 * S (S (S (S (S m)))) + 1)%nat with (S (S (S (S (S (S (S (S (S (S (S (2 * m)))))))))))) by lia; lra]; cbn [Nat.mul Nat.add]; try lra.
  - specialize (L (Z1 ltac:(lia))). lra.
  - specialize (L (Z1 ltac:(lia))). lra.
Qed.
Lemma hammond_silent p k : (1 <= k)%nat -> hammond_amplitude Rnum_ops p k <> 0 <-> exists z, (k = 2 ^ z \/ k = 3 * 2 ^ z \/ k = 9 * 2 ^ z)%nat.
Proof.
  intros Hk. destruct (le_lt_dec k 3) as [H3|H3].
  - rewrite hammond_first by lia. split; [|lra]. intros _. destruct k as [|[|[|[|k]]]]; try lia; [exists 0%nat|exists 1%nat|exists 0%nat]; cbn; auto.
  - rewrite hammond_rest by lia. destruct (split_odd k Hk) as (z & m & ->). rewrite shifted_eq, tz_eq. assert (P : 0 < inv Rnum_ops ((z + 1) * (z + 1))) by (apply inv_pos; lia).
    assert (X : (exists y, 2 ^ z * (2 * m + 1) = 2 ^ y \/ 2 ^ z * (2 * m + 1) = 3 * 2 ^ y \/ 2 ^ z * (2 * m + 1) = 9 * 2 ^ y)%nat <-> (m = 0 \/ m = 1 \/ m = 4)%nat).
    { split.
      - intros (y & H). assert (S1 : forall c, (2 ^ z * (2 * m + 1) = (2 * c + 1) * 2 ^ y)%nat -> m = c).
        { intros c E. pose proof (f_equal shifted E) as G. rewrite shifted_eq in G. rewrite (Nat.mul_comm (2 * c + 1)), shifted_eq in G. lia. }
        destruct H as [H|[H|H]]; [left; apply (S1 0%nat); lia|right; left; apply (S1 1%nat); lia|right; right; apply (S1 4%nat); lia].
      - intros [-> |[-> | ->]]; exists z; lia. }
    rewrite X. destruct m as [|[|[|[|[|m]]]]]; [| | | | |replace (2 * S (S (S (S (S m)))) + 1)%nat with (S (S (S (S (S (S (S (S (S (S (S (2 * m)))))))))))) by lia; split; [intros H; exfalso; now apply H|lia]]; cbn [Nat.mul Nat.add].
    + split; [lia|]. intros _. lra.
    + split; [lia|]. intros _. lra.
    + split; [intros H; exfalso; now apply H|lia].
    + split; [intros H; exfalso; now apply H|lia].
    + split; [lia|]. intros _. lra.
Qed.
Lemma soft_saw_eq p k : soft_saw_amplitude Rnum_ops p k = 1 / (INR k * INR k).
Proof. unfold soft_saw_amplitude. rewrite inv_eq, mult_INR. reflexivity. Qed.
Lemma soft_saw_pos p k : (1 <= k)%nat -> 0 < soft_saw_amplitude Rnum_ops p k.
Proof. intros H. unfold soft_saw_amplitude. apply inv_pos. nia. Qed.
Lemma soft_saw_triangle p k : Nat.odd k = true -> soft_saw_amplitude Rnum_ops p k = triangle_amplitude Rnum_ops p k /\ soft_saw_phase Rnum_ops k = triangle_phase Rnum_ops k.
Proof. intros H. unfold soft_saw_amplitude, triangle_amplitude, soft_saw_phase, triangle_phase, half_if. rewrite H. split; [reflexivity|]. destruct (Nat.eqb _ 3); reflexivity. Qed.

(* no overflow *)
Lemma top_20 pitch : 20 <= pitch -> (top pitch <= 1100)%nat.
Proof.
  intros H. unfold top. destruct (base_Int_part (22000 / pitch)) as [B1 B2]. assert (Q : 22000 / pitch <= 1100). { apply Rmult_le_reg_r with pitch; [lra|]. unfold Rdiv. rewrite Rmult_assoc, Rinv_l by lra. lra. }
  assert (Int_part (22000 / pitch) <= 1100)%Z by (apply le_IZR; lra). lia.
Qed.
Lemma shifted_le k : (1 <= k)%nat -> (shifted k <= k)%nat.
Proof. intros H. destruct (split_odd k H) as (z & m & ->). rewrite shifted_eq. pose proof (pow2_pos z). nia. Qed.
Lemma no_overflow pitch k : 20 <= pitch -> (1 <= k <= top pitch)%nat -> (Z.of_nat (k + shifted k * shifted k * shifted k) < 2 ^ 32 /\ Z.of_nat (k * k) < 2 ^ 32)%Z.
Proof.
  intros Hp [Hk Ht]. pose proof (top_20 pitch Hp). pose proof (shifted_le k Hk). rewrite Nat2Z.inj_add, !Nat2Z.inj_mul. set (a := Z.of_nat (shifted k)). set (b := Z.of_nat k).
  assert (0 <= a <= 1100)%Z by lia. assert (0 <= b <= 1100)%Z by lia. change (2 ^ 32)%Z with 4294967296%Z. assert (a * a <= 1210000)%Z by nia. split; nia.
Qed.

(* mixing *)
Lemma half_eq : half_if Rnum_ops true = 1 / 2. Proof. reflexivity. Qed.
Lemma organ_soft_phase k : organ_phase Rnum_ops k = soft_saw_phase Rnum_ops k. Proof. reflexivity. Qed.
Lemma same_phase v w : (forall pitch k, 0 < tm_amplitude v pitch k -> 0 < tm_amplitude w pitch k -> tm_phase v k = tm_phase w k) -> mixable v w.
Proof.
  intros H a x y pitch k Ha Hx Hy Hk. unfold component, sounding. destruct (Rlt_dec 0 (tm_amplitude v pitch k)) as [L1|N1], (Rlt_dec 0 (tm_amplitude w pitch k)) as [L2|N2].
  - exists (tm_phase v k). intros t. rewrite (H pitch k L1 L2). ring.
  - exists (tm_phase v k). intros t. ring.
  - exists (tm_phase w k). intros t. ring.
  - exists 0. intros t. ring.
Qed.
Lemma organ_triangle pitch k : 0 < triangle_amplitude Rnum_ops pitch k -> organ_phase Rnum_ops k = triangle_phase Rnum_ops k.
Proof. unfold triangle_amplitude, organ_phase, triangle_phase, half_if. destruct (Nat.odd k); [|cbn; lra]. intros _. destruct (Nat.eqb _ 3); reflexivity. Qed.
Lemma good_mixes : mixable organ_timbre soft_saw_timbre /\ mixable organ_timbre triangle_timbre /\ mixable soft_saw_timbre triangle_timbre.
Proof.
  split; [|split]; apply same_phase; cbn [tm_phase tm_amplitude organ_timbre soft_saw_timbre triangle_timbre]; intros pitch k H1 H2; [reflexivity|apply (organ_triangle pitch); auto|]. rewrite <- organ_soft_phase. apply (organ_triangle pitch). auto.
Qed.
(* partials 3, 7, 11... of saw are opposite *)
Lemma mod4_odd k : (k mod 4 = 3)%nat -> Nat.odd k = true /\ (1 <= k)%nat.
Proof.
  intros H. pose proof (Nat.div_mod_eq k 4) as E. rewrite H in E. split; [|lia]. rewrite E. rewrite Nat.odd_add, Nat.odd_mul. reflexivity.
Qed.
Lemma saw_opposite w pitch k t : (k mod 4 = 3)%nat -> w = organ_timbre \/ w = soft_saw_timbre \/ w = triangle_timbre -> component w pitch k t = - (sounding (tm_amplitude w pitch k) * fade (pitch * INR k) * sin (2 * PI * (INR k * t))).
Proof.
  intros Hk Hw. assert (P : tm_phase w k = 1 / 2).
  { destruct Hw as [-> |[-> | ->]]; cbn [tm_phase organ_timbre soft_saw_timbre triangle_timbre]; unfold organ_phase, soft_saw_phase, triangle_phase; rewrite Hk; reflexivity. }
  unfold component. rewrite P, half_turn. ring.
Qed.
Lemma saw_straight pitch k t : (k mod 4 = 3)%nat -> component saw_timbre pitch k t = 1 / INR k * fade (pitch * INR k) * sin (2 * PI * (INR k * t)).
Proof.
  intros Hk. destruct (mod4_odd k Hk) as [Ho H1]. unfold component. cbn [tm_phase tm_amplitude saw_timbre]. unfold saw_phase, saw_amplitude, half_if. rewrite <- Nat.negb_odd, Ho. cbn [negb]. change (n0 Rnum_ops) with 0. rewrite Rplus_0_r.
  unfold sounding. pose proof (inv_pos k H1). destruct (Rlt_dec 0 (inv Rnum_ops k)); [|contradiction]. now rewrite inv_eq.
Qed.
Lemma amplitude_pos w pitch k : (k mod 4 = 3)%nat -> w = organ_timbre \/ w = soft_saw_timbre \/ w = triangle_timbre -> 0 < tm_amplitude w pitch k.
Proof.
  intros Hk Hw. destruct (mod4_odd k Hk) as [Ho H1]. destruct Hw as [-> |[-> | ->]]; cbn [tm_amplitude organ_timbre soft_saw_timbre triangle_timbre]; [now apply organ_pos|now apply soft_saw_pos|]. unfold triangle_amplitude. rewrite Ho. apply inv_pos. nia.
Qed.
Lemma cancels w x y pitch k : (k mod 4 = 3)%nat -> w = organ_timbre \/ w = soft_saw_timbre \/ w = triangle_timbre -> 0 < x -> 0 < y ->
  exists a, 0 < a < 1 /\ forall t, (1 - a) * (x * component saw_timbre pitch k t) + a * (y * component w pitch k t) = 0.
Proof.
  intros Hk Hw Hx Hy. pose proof (amplitude_pos w pitch k Hk Hw) as P. destruct (mod4_odd k Hk) as [Ho H1]. assert (S1 : 0 < 1 / INR k) by (apply Rdiv_lt_0_compat; [lra|apply lt_0_INR; lia]).
  set (u := x * (1 / INR k)). set (v := y * tm_amplitude w pitch k). assert (0 < u) by (apply Rmult_lt_0_compat; auto). assert (0 < v) by (apply Rmult_lt_0_compat; auto).
  exists (u / (u + v)). split.
  - split; [apply Rdiv_lt_0_compat; lra|]. apply Rmult_lt_reg_r with (u + v); [lra|]. unfold Rdiv. rewrite Rmult_assoc, Rinv_l by lra. lra.
  - intros t. rewrite saw_straight, (saw_opposite w) by auto. unfold sounding. destruct (Rlt_dec 0 (tm_amplitude w pitch k)); [|contradiction]. set (g := fade _). set (s := sin _).
    replace (x * (1 / INR k * g * s)) with (u * (g * s)) by (unfold u; ring). replace (y * - (tm_amplitude w pitch k * g * s)) with (- v * (g * s)) by (unfold v; ring). field. lra.
Qed.
Lemma fade_low f : f <= 20000 -> fade f = 1.
Proof. intros H. unfold fade. cbv zeta. assert (E : limit01 ((22000 - f) / 2000) = 1). { unfold limit01. assert (1 <= (22000 - f) / 2000) by lra. unfold Rmin, Rmax. repeat destruct (Rle_dec _ _); lra. } rewrite E. ring. Qed.
Lemma bad_mix w : w = organ_timbre \/ w = soft_saw_timbre \/ w = triangle_timbre -> ~ mixable saw_timbre w.
Proof.
  intros Hw H. destruct (cancels w 1 1 100 3 eq_refl Hw ltac:(lra) ltac:(lra)) as (a & Ha & E). destruct (H a 1 1 100 3%nat ltac:(lra) ltac:(lra) ltac:(lra) ltac:(lia)) as (phase & G).
  pose proof (amplitude_pos w 100 3 eq_refl Hw) as P. assert (S1 : 0 < tm_amplitude saw_timbre 100 3) by (cbn [tm_amplitude saw_timbre]; unfold saw_amplitude; apply inv_pos; lia).
  set (t := (1 / 4 - phase) / 3). specialize (G t). rewrite E in G. rewrite fade_low in G by (cbn [INR]; lra). replace (2 * PI * (INR 3 * t + phase)) with (PI / 2) in G by (unfold t; cbn [INR]; field). rewrite sin_PI2 in G.
  unfold sounding in G. destruct (Rlt_dec 0 (tm_amplitude saw_timbre 100 3)); [|contradiction]. destruct (Rlt_dec 0 (tm_amplitude w 100 3)); [|contradiction]. nra.
Qed.
(* whole waves *)
Lemma partials_components w pitch t : partials (tm_phase w) (tm_amplitude w) pitch t = total (top pitch) (fun i => component w pitch (S i) t).
Proof. reflexivity. Qed.
Lemma sign_eq k t : sin (2 * PI * (INR k * t + soft_saw_phase Rnum_ops k)) = (if Nat.eqb (k mod 4) 1 then 1 else -1) * sin (2 * PI * (INR k * t)).
Proof.
  unfold soft_saw_phase. rewrite half_eq. change (n0 Rnum_ops) with 0. pose proof (Nat.div_mod_eq k 4) as D. pose proof (Nat.mod_upper_bound k 4 ltac:(lia)) as B. destruct (k mod 4)%nat as [|[|[|[|r]]]]; try lia; cbn [Nat.eqb].
  - replace (Nat.odd k) with false by (rewrite D, Nat.odd_add, Nat.odd_mul; reflexivity). rewrite half_turn. ring.
  - replace (Nat.odd k) with true by (rewrite D, Nat.odd_add, Nat.odd_mul; reflexivity). rewrite Rplus_0_r. ring.
  - replace (Nat.odd k) with false by (rewrite D, Nat.odd_add, Nat.odd_mul; reflexivity). rewrite half_turn. ring.
  - rewrite half_turn. ring.
Qed.
Lemma soft_saw_partials pitch t : partials (soft_saw_phase Rnum_ops) (soft_saw_amplitude Rnum_ops) pitch t =
  total (top pitch) (fun i => let k := S i in (if Nat.eqb (k mod 4) 1 then 1 else -1) / (INR k * INR k) * fade (pitch * INR k) * sin (2 * PI * (INR k * t))).
Proof.
  unfold partials. apply total_ext. intros i _. cbv zeta. rewrite sign_eq. pose proof (soft_saw_pos pitch (S i) ltac:(lia)) as P. unfold sounding. destruct (Rlt_dec 0 _) as [|N]; [|contradiction]. rewrite soft_saw_eq. unfold Rdiv. ring.
Qed.
Lemma organ_partials pitch t : partials (organ_phase Rnum_ops) (organ_amplitude Rnum_ops) pitch t =
  total (top pitch) (fun i => let k := S i in (if Nat.eqb (k mod 4) 1 then 1 else -1) / INR (k + shifted k ^ 3) * fade (pitch * INR k) * sin (2 * PI * (INR k * t))).
Proof.
  unfold partials. apply total_ext. intros i _. cbv zeta. rewrite organ_soft_phase, sign_eq. pose proof (organ_pos pitch (S i) ltac:(lia)) as P. unfold sounding. destruct (Rlt_dec 0 _) as [|N]; [|contradiction].
  unfold organ_amplitude. cbv zeta. rewrite inv_eq. replace (S i + shifted (S i) ^ 3)%nat with (S i + shifted (S i) * shifted (S i) * shifted (S i))%nat by (cbn [Nat.pow]; lia). unfold Rdiv. ring.
Qed.
Lemma hammond_partials pitch t : partials (hammond_phase Rnum_ops) (hammond_amplitude Rnum_ops) pitch t =
  total (top pitch) (fun i => let k := S i in hammond_amplitude Rnum_ops pitch k * fade (pitch * INR k) * sin (2 * PI * (INR k * t))).
Proof.
  unfold partials. apply total_ext. intros i _. cbv zeta. unfold hammond_phase. change (n0 Rnum_ops) with 0. rewrite Rplus_0_r. f_equal. f_equal. unfold sounding. destruct (Rlt_dec 0 _) as [|N]; [reflexivity|].
  assert (0 <= hammond_amplitude Rnum_ops pitch (S i)). { destruct (le_lt_dec (S i) 3); [rewrite hammond_first by lia; lra|apply hammond_range; lia]. } lra.
Qed.
(* the tables *)
Lemma timbre_tables ifft (w : timbre) : is_inverse_dft ifft -> exists n tb, (forall fuel, (n <= fuel)%nat -> table_newR ifft fuel 20 20000 4 (tm_phase w) (tm_amplitude w) = Val tb) /\
  tables_ok tb /\ pitches tb 20 (Rpower 2 (1 / 4)) 20000 /\ filled tb (partials (tm_phase w) (tm_amplitude w)) /\ normal tb.
Proof.
  intros Hi. destruct (table_new_builds ifft 20 20000 4 (tm_phase w) (tm_amplitude w) Hi ltac:(lra) ltac:(lra)) as (n & r & _ & H & B). destruct builds_case as [C1 C2]. destruct (B C1) as (tb & -> & T).
  exists n, tb. split; [exact H|]. split; [exact (T C2)|]. pose proof (table_new_ok ifft n 20 20000 4 (tm_phase w) (tm_amplitude w) tb Hi ltac:(lra) ltac:(lra) (H n (le_n n))) as (A & _ & F & N). auto.
Qed.
(* cases *)
Lemma octave_case : is_octave 8 /\ ~ is_octave 6 /\ (8 < 6 + 26)%nat.
Proof.
  split; [exists 3%nat; reflexivity|]. split; [|lia]. intros [z E]. destruct z as [|[|[|z]]]; cbn in E; lia.
Qed.
Lemma shifted_case : shifted 12 = 3%nat /\ shifted 7 = 7%nat /\ shifted 64 = 1%nat /\ trailing_zeros 12 = 2%nat.
Proof. repeat split; reflexivity. Qed.
Lemma top_case : (1 <= 1100 <= top 20)%nat.
Proof. unfold top. replace (22000 / 20) with (IZR 1100) by lra. split; [lia|]. destruct (base_Int_part (IZR 1100)) as [A B]. assert (IZR 1099 < IZR (Int_part (IZR 1100))) by lra. apply lt_IZR in H. lia. Qed.
Lemma shifted_is k : (1 <= k)%nat -> k = (2 ^ trailing_zeros k * shifted k)%nat /\ Nat.odd (shifted k) = true.
Proof.
  intros H. destruct (split_odd k H) as (z & m & ->). rewrite tz_eq, shifted_eq. split; [reflexivity|]. rewrite Nat.odd_add, Nat.odd_mul. reflexivity.
Qed.
