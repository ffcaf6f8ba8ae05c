(* WAV files: samples, bits, sample rates, and sizes that do not fit. *)
From Coq Require Import Reals ZArith List SpecFloat Bool Lia Lra Psatz.
From Flocq Require Import Core.Core IEEE754.BinarySingleNaN.
From Verif Require Import Base FloatLink.
From Verif Require Export WavParse.
Local Open Scope Z_scope.

(* ---- bits ---- *)
Lemma digits_bounds m : 2 ^ (Z.pos (digits2_pos m) - 1) <= Z.pos m < 2 ^ Z.pos (digits2_pos m).
Proof.
  induction m as [m IH|m IH|]; cbn [digits2_pos]; [| |cbn; lia].
  - rewrite Pos2Z.inj_succ. replace (Z.succ (Z.pos (digits2_pos m)) - 1) with (Z.succ (Z.pos (digits2_pos m) - 1)) by lia. rewrite !Z.pow_succ_r by lia. lia.
  - rewrite Pos2Z.inj_succ. replace (Z.succ (Z.pos (digits2_pos m)) - 1) with (Z.succ (Z.pos (digits2_pos m) - 1)) by lia. rewrite !Z.pow_succ_r by lia. lia.
Qed.
Lemma valid_cases s m e : valid_binary 24 128 (S754_finite s m e) = true -> e <= 104 /\ Z.pos m < 2 ^ 24 /\ (if Z.pos m <? 2 ^ 23 then e = -149 else -149 <= e).
Proof.
  unfold valid_binary, bounded, canonical_mantissa. intros H. apply andb_prop in H. destruct H as [H1 H2]. apply Zeq_bool_eq in H1. apply Zle_bool_imp_le in H2. unfold SpecFloat.fexp, emin in H1. pose proof (digits_bounds m) as [D1 D2]. set (d := Z.pos (digits2_pos m)) in *.
  assert (D : d <= 24) by lia. assert (P : 2 ^ d <= 2 ^ 24) by (apply Z.pow_le_mono_r; lia). split; [lia|]. split; [lia|]. destruct (Z.ltb_spec (Z.pos m) (2 ^ 23)); [|lia]. destruct (Z.eq_dec d 24) as [E|E]; [|lia]. rewrite E in D1. cbn in D1. lia.
Qed.
Lemma fields (s : bool) E M : 0 <= E < 256 -> 0 <= M < 2 ^ 23 -> let y := (if s then 2 ^ 31 else 0) + (E * 2 ^ 23 + M) in 0 <= y < 2 ^ 32 /\ (2 ^ 31 <=? y) = s /\ y / 2 ^ 23 mod 256 = E /\ y mod 2 ^ 23 = M.
Proof.
  intros HE HM y. assert (B : 0 <= E * 2 ^ 23 + M < 2 ^ 31) by lia. assert (Y : y = ((if s then 256 else 0) + E) * 2 ^ 23 + M) by (unfold y; destruct s; lia). split; [unfold y; destruct s; lia|]. split; [unfold y; destruct s; [apply Z.leb_le|apply Z.leb_gt]; lia|].
  assert (Q : y / 2 ^ 23 = (if s then 256 else 0) + E) by (symmetry; apply (Z.div_unique_pos _ _ _ M); lia). assert (Mm : y mod 2 ^ 23 = M) by (symmetry; apply (Z.mod_unique_pos _ _ ((if s then 256 else 0) + E)); lia). rewrite Q, Mm. split; [|reflexivity].
  symmetry. apply (Z.mod_unique_pos _ _ (if s then 1 else 0)); destruct s; lia.
Qed.
Lemma bits_ok x : valid_binary 24 128 x = true -> 0 <= bits32 x < 2 ^ 32 /\ from_bits32 (bits32 x) = x.
Proof.
  destruct x as [s|s| |s m e]; intros V.
  - destruct s; vm_compute; repeat split; congruence.
  - destruct s; vm_compute; repeat split; congruence.
  - vm_compute. repeat split; congruence.
  - destruct (valid_cases s m e V) as (H1 & H2 & H3). unfold bits32. destruct (Z.ltb_spec (Z.pos m) (2 ^ 23)) as [L|L].
    + subst e. destruct (fields s 0 (Z.pos m) ltac:(lia) ltac:(lia)) as (A & B & C & D). rewrite Z.mul_0_l, Z.add_0_l in *. split; [exact A|]. unfold from_bits32. rewrite B, C, D. reflexivity.
    + destruct (fields s (e + 150) (Z.pos m - 2 ^ 23) ltac:(lia) ltac:(lia)) as (A & B & C & D). split; [exact A|]. unfold from_bits32. rewrite B, C, D. destruct (Z.eqb_spec (e + 150) 255); [lia|]. destruct (Z.eqb_spec (e + 150) 0); [lia|]. replace (Z.pos m - 2 ^ 23 + 2 ^ 23) with (Z.pos m) by lia. now replace (e + 150 - 150) with e by lia.
Qed.
Lemma signed_ok x : -32768 <= x <= 32767 -> 0 <= as_unsigned 16 x < 2 ^ 16 /\ signed16 (as_unsigned 16 x) = x.
Proof.
  intros H. unfold as_unsigned, signed16. pose proof (Z.mod_pos_bound x (2 ^ 16) ltac:(lia)) as B. split; [exact B|]. pose proof (Z.div_mod x (2 ^ 16) ltac:(lia)) as D. destruct (Z.ltb_spec (x mod 2 ^ 16) (2 ^ 15)); lia.
Qed.

(* ---- rounding ---- *)
Local Open Scope R_scope.
Definition rhalf (r : R) : Z := if Rlt_dec r 0 then (- Zfloor (- r + / 2))%Z else Zfloor (r + / 2).
Lemma round_half s m e : sf_round (S754_finite s m e) = rhalf (real (S754_finite s m e)).
Proof.
  assert (P : forall m e, (if (0 <=? e)%Z then Z.pos m * 2 ^ e else (Z.pos m + 2 ^ (- e - 1)) / 2 ^ (- e))%Z = Zfloor (IZR (Z.pos m) * bpow radix2 e + / 2)).
  { clear. intros m e. destruct (Z.leb_spec 0 e) as [L|L].
    - symmetry. apply Zfloor_imp. rewrite plus_IZR, mult_IZR. rewrite <- IZR_Zpower by lia. cbn [radix2 radix_val]. change (Zpower 2 e) with (2 ^ e)%Z. lra.
    - rewrite <- Zfloor_div by (apply Z.pow_nonzero; lia). f_equal. rewrite plus_IZR. change (2 ^ (- e - 1))%Z with (Zpower (radix_val radix2) (- e - 1)). change (2 ^ (- e))%Z with (Zpower (radix_val radix2) (- e)). rewrite !IZR_Zpower by lia.
      replace (bpow radix2 (- e - 1)) with (bpow radix2 (- e) / 2). { rewrite bpow_opp. pose proof (bpow_gt_0 radix2 e). field. lra. }
      replace (- e - 1)%Z with (- e + -1)%Z by lia. rewrite bpow_plus. change (bpow radix2 (-1)) with (/ 2). lra. }
  assert (B : 0 < IZR (Z.pos m) * bpow radix2 e) by (apply Rmult_lt_0_compat; [apply IZR_lt; lia|apply bpow_gt_0]). unfold sf_round, rhalf. rewrite P. unfold real, SF2R, F2R. cbn [Fnum Fexp cond_Zopp]. destruct s; cbn [cond_Zopp].
  - change (Z.neg m) with (- Z.pos m)%Z. rewrite opp_IZR. destruct (Rlt_dec (- IZR (Z.pos m) * bpow radix2 e) 0); [|lra]. do 2 f_equal. ring.
  - destruct (Rlt_dec (IZR (Z.pos m) * bpow radix2 e) 0); [lra|reflexivity].
Qed.
Lemma round_real x : is_finite_SF x = true -> sf_round x = rhalf (real x).
Proof.
  destruct x as [s|s| |s m e]; try discriminate; intros _; [|apply round_half]. unfold sf_round, rhalf. change (real (S754_zero s)) with 0. destruct (Rlt_dec 0 0); [lra|]. symmetry. apply Zfloor_imp. cbn [Z.add]. lra.
Qed.
Lemma rhalf_near r : Rabs (IZR (rhalf r) - r) <= / 2.
Proof.
  unfold rhalf. destruct (Rlt_dec r 0).
  - rewrite opp_IZR. pose proof (Zfloor_lb (- r + / 2)). pose proof (Zfloor_ub (- r + / 2)). apply Rabs_le. lra.
  - pose proof (Zfloor_lb (r + / 2)). pose proof (Zfloor_ub (r + / 2)). apply Rabs_le. lra.
Qed.
Lemma rhalf_mono a b : a <= b -> (rhalf a <= rhalf b)%Z.
Proof.
  intros H. unfold rhalf. destruct (Rlt_dec a 0), (Rlt_dec b 0); try lra.
  - apply Z.opp_le_mono. rewrite !Z.opp_involutive. apply Zfloor_le. lra.
  - pose proof (Zfloor_lub 0 (- a + / 2) ltac:(lra)). pose proof (Zfloor_lub 0 (b + / 2) ltac:(lra)). lia.
  - apply Zfloor_le. lra.
Qed.
Lemma rhalf_bound r k d : 0 <= d < / 2 -> Rabs r <= IZR k + d -> (- k <= rhalf r <= k)%Z.
Proof.
  intros D H. apply Rabs_le_inv in H. unfold rhalf. assert (G : forall y, 0 <= y <= IZR k + d -> (0 <= Zfloor (y + / 2) <= k)%Z). { intros y Y. split; [apply Zfloor_lub; lra|]. pose proof (Zfloor_lb (y + / 2)). assert (IZR (Zfloor (y + / 2)) < IZR (k + 1)) by (rewrite plus_IZR; lra). apply lt_IZR in H1. lia. }
  destruct (Rlt_dec r 0); [pose proof (G (- r) ltac:(lra))|pose proof (G r ltac:(lra))]; lia.
Qed.
Definition clamped (r : R) : R := Rmax (-1) (Rmin 1 r).
Lemma fin_m1 : fin32 (nofZ f32_ops (-1)) /\ real (nofZ f32_ops (-1)) = -1. Proof. split; [split; reflexivity|]. vm_compute. lra. Qed.
Lemma fin_1 : fin32 (n1 f32_ops) /\ real (n1 f32_ops) = 1. Proof. split; [split; reflexivity|]. vm_compute. lra. Qed.
Lemma fin_nan x : fin32 x -> sf_is_nan x = false. Proof. intros [F _]. destruct x; [reflexivity|reflexivity|discriminate|reflexivity]. Qed.
Lemma clamp_ok x : fin32 x -> fin32 (clamp11 x) /\ real (clamp11 x) = clamped (real x).
Proof.
  intros F. destruct fin_m1 as [M Rm]. destruct fin_1 as [O Ro]. unfold clamp11. cbn [nmin nmax f32_ops sf_ops]. change (sf_ops 24 128) with f32_ops. unfold sf_max. rewrite (fin_nan _ F), (fin_nan _ M).
  change (SFltb x (nofZ f32_ops (-1))) with (nltb f32_ops x (nofZ f32_ops (-1))). rewrite ltb32, Rm by assumption. unfold clamped. destruct (Rlt_bool_spec (real x) (-1)).
  - unfold sf_min. rewrite (fin_nan _ M), (fin_nan _ O). change (SFltb (n1 f32_ops) (nofZ f32_ops (-1))) with (nltb f32_ops (n1 f32_ops) (nofZ f32_ops (-1))). rewrite ltb32, Rm, Ro by assumption. destruct (Rlt_bool_spec 1 (-1)); [lra|]. split; [assumption|]. rewrite Rmin_right by lra. rewrite Rmax_left by lra. assumption.
  - unfold sf_min. rewrite (fin_nan _ F), (fin_nan _ O). change (SFltb (n1 f32_ops) x) with (nltb f32_ops (n1 f32_ops) x). rewrite ltb32, Ro by assumption. destruct (Rlt_bool_spec 1 (real x)).
    + split; [assumption|]. rewrite Rmin_left by lra. rewrite Rmax_right by lra. assumption.
    + split; [assumption|]. rewrite Rmin_right by lra. rewrite Rmax_right by lra. reflexivity.
Qed.
Definition fs : R := 16776955 / 512.
Lemma fs_fin : fin32 full_scale /\ real full_scale = fs. Proof. split; [split; reflexivity|]. unfold real, full_scale, SF2R, F2R, fs. cbn. lra. Qed.
Lemma fs_neg : is32 (- fs). Proof. exists (S754_finite true 16776955 (-9)). split; [split; reflexivity|]. unfold real, SF2R, F2R, fs. cbn. lra. Qed.
Lemma clamped_range r : -1 <= clamped r <= 1. Proof. unfold clamped. split; [apply Rmax_l|]. apply Rmax_lub; [lra|apply Rmin_l]. Qed.
Lemma sample_real x : fin32 x -> sample16 x = rhalf (rnd32 (clamped (real x) * fs)) /\ Rabs (rnd32 (clamped (real x) * fs)) <= fs.
Proof.
  intros F. destruct (clamp_ok x F) as [C Rc]. destruct fs_fin as [G Rg]. pose proof (clamped_range (real x)) as B. destruct (mul32 _ _ (- fs) fs C G fs_neg ltac:(exists full_scale; auto) ltac:(rewrite Rc, Rg; unfold fs; lra)) as (M1 & M2 & M3). rewrite Rc, Rg in M2.
  assert (A : Rabs (rnd32 (clamped (real x) * fs)) <= fs) by (rewrite <- M2; apply Rabs_le; lra). split; [|exact A]. unfold sample16. rewrite <- M2. rewrite <- M2 in A. set (y := nmul f32_ops (clamp11 x) full_scale) in *. rewrite <- (round_real y) by apply M1.
  assert (Bz : (-32767 <= sf_round y <= 32767)%Z). { rewrite round_real by apply M1. apply (rhalf_bound _ 32767 (251 / 512)); [lra|]. eapply Rle_trans; [exact A|]. unfold fs. lra. }
  unfold sf_cast. destruct M1 as [M1 _]. destruct y; try discriminate; lia.
Qed.
Lemma rnd_near c : -1 <= c <= 1 -> Rabs (rnd32 (c * fs) - c * fs) <= / 1024.
Proof.
  intros B. pose proof (rnd32_err (c * fs) 15 ltac:(lia)) as E. replace (bpow radix2 (15 - 25)) with (/ 1024) in E by (cbn; lra). apply E. change (bpow radix2 15) with 32768. apply Rabs_def1; unfold fs; lra.
Qed.
Lemma sample_near x : fin32 x -> Rabs (IZR (sample16 x) - 32767.49 * clamped (real x)) <= 1 / 2 + 1 / 500.
Proof.
  intros F. destruct (sample_real x F) as [-> _]. pose proof (clamped_range (real x)) as B. set (c := clamped (real x)) in *. pose proof (rhalf_near (rnd32 (c * fs))) as E1. pose proof (rnd_near c B) as E2. apply Rabs_le_inv in E1, E2. apply Rabs_le. unfold fs in *. lra.
Qed.
Lemma sample_mono x y : fin32 x -> fin32 y -> real x <= real y -> (sample16 x <= sample16 y)%Z.
Proof.
  intros Fx Fy H. destruct (sample_real x Fx) as [-> _]. destruct (sample_real y Fy) as [-> _]. apply rhalf_mono. apply rnd_mono; [exact prec24|]. apply Rmult_le_compat_r; [unfold fs; lra|]. unfold clamped. apply Rle_max_compat_l. apply Rle_min_compat_l. exact H.
Qed.
Lemma sample_range x : valid_binary 24 128 x = true -> (-32767 <= sample16 x <= 32767)%Z.
Proof.
  intros V. destruct (is_finite_SF x) eqn:F.
  - destruct (sample_real x (conj F V)) as [-> A]. apply (rhalf_bound _ 32767 (251 / 512)); [lra|]. eapply Rle_trans; [exact A|]. unfold fs. lra.
  - destruct x as [s|s| |s m e]; try discriminate; [destruct s|]; vm_compute; split; discriminate.
Qed.
Lemma rate_near w : is_finite_SF (w_rate w) = true -> 0 <= real (w_rate w) <= 4294967296 -> Rabs (IZR (wav_rate w) - real (w_rate w)) <= / 2.
Proof.
  intros F H. unfold wav_rate, sf_cast. assert (B : (0 <= sf_round (w_rate w) <= 4294967296)%Z). { rewrite round_real by assumption. unfold rhalf. destruct (Rlt_dec (real (w_rate w)) 0); [lra|]. split; [apply Zfloor_lub; lra|]. pose proof (Zfloor_lb (real (w_rate w) + / 2)). assert (L : IZR (Zfloor (real (w_rate w) + / 2)) < IZR 4294967297) by lra. apply lt_IZR in L. lia. }
  destruct (w_rate w) eqn:E; try discriminate; rewrite <- E in *; rewrite Z.min_r by lia; rewrite Z.max_r by lia; rewrite round_real by assumption; apply rhalf_near.
Qed.

(* ---- sizes that do not fit ---- *)
Local Open Scope Z_scope.
Lemma le_16_bound x : 0 <= le (bytes16 x) < 2 ^ 16.
Proof. unfold bytes16, le. pose proof (Z.mod_pos_bound x 256 ltac:(lia)). pose proof (Z.mod_pos_bound (x / 2 ^ 8) 256 ltac:(lia)). lia. Qed.
Lemma le_32_bound x : 0 <= le (bytes32 x) < 2 ^ 32.
Proof. unfold bytes32, le. pose proof (Z.mod_pos_bound x 256 ltac:(lia)). pose proof (Z.mod_pos_bound (x / 2 ^ 8) 256 ltac:(lia)). pose proof (Z.mod_pos_bound (x / 2 ^ 16) 256 ltac:(lia)). pose proof (Z.mod_pos_bound (x / 2 ^ 24) 256 ltac:(lia)). lia. Qed.
Lemma parse_some f v : parse f = Some v -> le (sub f 4 4) = Z.of_nat (length f) - 8 /\ le (sub f 32 2) = Z.of_nat (wav_channels v * Z.to_nat (le (sub f 34 2) / 8)).
Proof.
  unfold parse. match goal with |- (if ?b then _ else _) = _ -> _ => destruct b eqn:E end; [|discriminate]. intros H. injection H as <-. cbn [wav_channels]. repeat (apply andb_prop in E; destruct E as [E ?]). split; apply Z.eqb_eq; assumption.
Qed.
Lemma unsigned_cases checks n x : 0 <= n -> 0 <= x -> unsigned checks n x = Panics /\ checks = true \/ exists y, unsigned checks n x = Val y.
Proof. intros N X. unfold unsigned. destruct (x <? 2 ^ n); [eauto|]. destruct checks; [auto|eauto]. Qed.
Lemma does_not_fit checks format bytes enc w : (format = 1 /\ bytes = 2%nat) \/ (format = 3 /\ bytes = 4%nat) -> (forall x, length (enc x) = bytes) -> wave_ok w ->
  2 ^ 16 <= Z.of_nat bytes * Z.of_nat (channels w) \/ 2 ^ 32 <= Z.of_nat bytes * Z.of_nat (channels w) * Z.of_nat (w_len w) + 36 ->
  write_wav checks format bytes enc w (mkdevice [] []) = Panics /\ checks = true \/ exists f, file_of (write_wav checks format bytes enc w) f /\ forall v, parse f = Some v -> wav_channels v <> channels w.
Proof.
  intros Hf Henc ok H. destruct ok as [C F]. unfold write_wav, file_of. destruct (Nat.ltb_spec 0 (channels w)); [|lia]. set (dl := Z.of_nat bytes * Z.of_nat (channels w) * Z.of_nat (w_len w)) in *.
  assert (D0 : 0 <= dl) by (unfold dl; nia). pose proof (rate_range w) as R. unfold header.
  destruct (unsigned_cases checks 32 (as_unsigned 32 dl + 36) ltac:(lia) ltac:(unfold as_unsigned; pose proof (Z.mod_pos_bound dl (2 ^ 32)); lia)) as [[-> ->]|[riff ->]]; cbn [bind]; [auto|].
  destruct (unsigned_cases checks 64 (wav_rate w * Z.of_nat (channels w)) ltac:(lia) ltac:(nia)) as [[-> ->]|[ps ->]]; cbn [bind]; [auto|].
  set (sb := if format =? 1 then 2 else 4). assert (SB : sb = Z.of_nat bytes) by (destruct Hf as [[-> ->]|[-> ->]]; reflexivity).
  destruct (unsigned_cases checks 32 (as_unsigned 32 ps * sb) ltac:(lia) ltac:(unfold as_unsigned; pose proof (Z.mod_pos_bound ps (2 ^ 32)); lia)) as [[-> ->]|[ps2 ->]]; cbn [bind]; [auto|].
  destruct (unsigned_cases checks 16 (as_unsigned 16 (Z.of_nat (channels w)) * sb) ltac:(lia) ltac:(unfold as_unsigned; pose proof (Z.mod_pos_bound (Z.of_nat (channels w)) (2 ^ 16)); lia)) as [[-> ->]|[fr ->]]; cbn [bind]; [auto|].
  right. rewrite (body_ok enc w (conj C F)). cbn [bind]. set (h := b_riff :: _). set (l := concat (map (chunks enc w) (seq 0 (w_len w)))). assert (S : Forall small (h ++ l)).
  { apply Forall_app. split; [unfold h, small; repeat constructor|]. apply Forall_forall. intros c Hc. apply in_concat in Hc. destruct Hc as (k & Hk & Hc). apply in_map_iff in Hk. destruct Hk as (i & <- & _). pose proof (chunk_length enc bytes w Henc i) as L. rewrite Forall_forall in L. specialize (L c Hc). unfold small. lia. }
  destruct (write_each (mkbw [] (mkdevice [] [])) (h ++ l)) as [b o] eqn:W. destruct (written (mkdevice [] []) _ b o S W) as [_ K]. destruct (K ltac:(constructor)) as (-> & G & Rl). cbn [d_got app] in G.
  exists (concat (h ++ l)). split.
  { rewrite <- G. assert (d_fails (bw_drop b) = []) as Fl; [|destruct (bw_drop b) as [g fl]; cbn in Fl |- *; now subst].
    assert (Q : forall l1 b2 b3 o3, d_fails (bw_dev b2) = [] -> write_each b2 l1 = (b3, o3) -> d_fails (bw_dev b3) = []).
    { clear. induction l1 as [|x l1 IH]; intros b2 b3 o3 Hp Hw; cbn [write_each] in Hw; [injection Hw as <- <-; exact Hp|]. destruct (write_all b2 x) as [b4 o4] eqn:Ew. assert (P4 : d_fails (bw_dev b4) = []).
      { unfold write_all in Ew. destruct (Nat.leb _ _); [injection Ew as <- <-; exact Hp|]. unfold flush_buf, d_take in Ew. rewrite Hp in Ew. injection Ew as <- <-. reflexivity. }
      destruct o4; [eapply IH; eauto|]. injection Hw as <- <-. exact P4. }
    pose proof (Q _ (mkbw [] (mkdevice [] [])) _ _ eq_refl W) as Qb. unfold bw_drop, flush_buf, d_take. rewrite Qb. reflexivity. }
  intros v V E. destruct (parse_some _ _ V) as [P1 P2]. rewrite concat_app in P1, P2. assert (Lh : length (concat h) = 44%nat) by reflexivity. rewrite sub_app in P1 by (rewrite Lh; lia). rewrite (sub_app _ _ 32 2), (sub_app _ _ 34 2) in P2 by (rewrite Lh; lia). rewrite app_length, Lh in P1. unfold l in P1. rewrite concat_chunks in P1. fold (data enc w) in P1. rewrite (data_length enc bytes w Henc) in P1.
  assert (E4 : sub (concat h) 4 4 = bytes32 riff) by reflexivity. assert (E32 : sub (concat h) 32 2 = bytes16 fr) by reflexivity. assert (E34 : sub (concat h) 34 2 = bytes16 (sb * 8)) by reflexivity. rewrite E4 in P1. rewrite E32, E34 in P2. rewrite (le16 (sb * 8)) in P2 by (destruct Hf as [[_ ?]|[_ ?]]; subst bytes; lia). rewrite Z.div_mul, SB, Nat2Z.id, E in P2 by lia.
  pose proof (le_32_bound riff). pose proof (le_16_bound fr). destruct H as [H|H]; [lia|]. assert (dl = Z.of_nat (w_len w * (channels w * bytes))) by (unfold dl; lia). lia.
Qed.

(* ---- the two formats ---- *)
Lemma bytes16_length x : length (bytes16 x) = 2%nat. Proof. reflexivity. Qed.
Lemma bytes32_length x : length (bytes32 x) = 4%nat. Proof. reflexivity. Qed.
Lemma wav16_ok checks w : wave_ok w -> valid_wave w -> fits 2 w -> exists f, (forall d, reliable d -> exists d', write_wav16 checks w d = Val (d', true) /\ d_got d' = d_got d ++ f) /\
  exists v, parse f = Some v /\ wav_format v = 1 /\ wav_channels v = channels w /\ wav_hz v = wav_rate w /\ wav_bits v = 16 /\ map (map signed16) (wav_frames v) = map (fun i => map sample16 (frame w i)) (seq 0 (w_len w)).
Proof.
  intros O V F. assert (Hf : (1 = 1 /\ 2%nat = 2%nat) \/ (1 = 3 /\ 2%nat = 4%nat)) by auto. exists (file 1 2 (fun x => bytes16 (as_unsigned 16 (sample16 x))) w). split; [intros d R; exact (write_file checks 1 2 (fun x => bytes16 (as_unsigned 16 (sample16 x))) w Hf (fun x => eq_refl) O F d R)|].
  eexists. split; [exact (parse_file 1 2 (fun x => bytes16 (as_unsigned 16 (sample16 x))) w Hf (fun x => eq_refl) O F)|]. cbn [wav_format wav_channels wav_hz wav_bits wav_frames]. repeat (split; [reflexivity|]). rewrite map_map. apply map_ext_in. intros i I. apply in_seq in I. rewrite map_map. apply map_ext_in. intros x X.
  pose proof (V i ltac:(lia)) as Vi. rewrite Forall_forall in Vi. pose proof (sample_range x (Vi x X)). destruct (signed_ok (sample16 x) ltac:(lia)) as [B S]. rewrite le16 by exact B. exact S.
Qed.
Lemma wav32_ok checks w : wave_ok w -> valid_wave w -> fits 4 w -> exists f, (forall d, reliable d -> exists d', write_wav32 checks w d = Val (d', true) /\ d_got d' = d_got d ++ f) /\
  exists v, parse f = Some v /\ wav_format v = 3 /\ wav_channels v = channels w /\ wav_hz v = wav_rate w /\ wav_bits v = 32 /\ map (map from_bits32) (wav_frames v) = map (frame w) (seq 0 (w_len w)).
Proof.
  intros O V F. assert (Hf : (3 = 1 /\ 4%nat = 2%nat) \/ (3 = 3 /\ 4%nat = 4%nat)) by auto. exists (file 3 4 (fun x => bytes32 (bits32 x)) w). split; [intros d R; exact (write_file checks 3 4 (fun x => bytes32 (bits32 x)) w Hf (fun x => eq_refl) O F d R)|].
  eexists. split; [exact (parse_file 3 4 (fun x => bytes32 (bits32 x)) w Hf (fun x => eq_refl) O F)|]. cbn [wav_format wav_channels wav_hz wav_bits wav_frames]. repeat (split; [reflexivity|]). rewrite map_map. apply map_ext_in. intros i I. apply in_seq in I. rewrite map_map. rewrite <- (map_id (frame w i)) at 2. apply map_ext_in. intros x X.
  pose proof (V i ltac:(lia)) as Vi. rewrite Forall_forall in Vi. destruct (bits_ok x (Vi x X)) as [B S]. rewrite le32 by exact B. exact S.
Qed.
Lemma prefix_ok sixteen checks w d : wave_ok w -> fits (bytes_as sixteen) w -> exists f d' okay pre post, file_of (write_as sixteen checks w) f /\ write_as sixteen checks w d = Val (d', okay) /\ f = pre ++ post /\ d_got d' = d_got d ++ pre /\ (okay = true -> (length post <= 8 * 1024)%nat).
Proof.
  intros O F. assert (G : forall format bytes enc, (format = 1 /\ bytes = 2%nat) \/ (format = 3 /\ bytes = 4%nat) -> (forall x, length (enc x) = bytes) -> fits (Z.of_nat bytes) w -> exists f d' okay pre post, file_of (write_wav checks format bytes enc w) f /\ write_wav checks format bytes enc w d = Val (d', okay) /\ f = pre ++ post /\ d_got d' = d_got d ++ pre /\ (okay = true -> (length post <= 8 * 1024)%nat)).
  { intros format bytes enc Hf He Fi. destruct (write_prefix checks format bytes enc w Hf He O Fi d) as (d' & okay & pre & post & E & P & Q & L). exists (file format bytes enc w), d', okay, pre, post. split; [|auto]. destruct (write_written checks format bytes enc w Hf O Fi (mkdevice [] [])) as (b & o & E0 & W).
    destruct (written _ _ b o (all_small format bytes enc w Hf He) W) as [_ K]. destruct (K ltac:(constructor)) as (-> & Gt & _). rewrite file_concat in Gt. cbn [d_got app] in Gt. unfold file_of. rewrite E0. f_equal. f_equal. assert (d_fails (bw_drop b) = []) as Fl; [|destruct (bw_drop b) as [g fl]; cbn in Fl, Gt |- *; now subst].
    assert (T : forall l1 b2 b3 o3, d_fails (bw_dev b2) = [] -> write_each b2 l1 = (b3, o3) -> d_fails (bw_dev b3) = []).
    { clear. induction l1 as [|x l1 IH]; intros b2 b3 o3 Hp Hw; cbn [write_each] in Hw; [injection Hw as <- <-; exact Hp|]. destruct (write_all b2 x) as [b4 o4] eqn:Ew. assert (P4 : d_fails (bw_dev b4) = []).
      { unfold write_all in Ew. destruct (Nat.leb _ _); [injection Ew as <- <-; exact Hp|]. unfold flush_buf, d_take in Ew. rewrite Hp in Ew. injection Ew as <- <-. reflexivity. }
      destruct o4; [eapply IH; eauto|]. injection Hw as <- <-. exact P4. }
    pose proof (T _ (mkbw [] (mkdevice [] [])) _ _ eq_refl W) as Qb. unfold bw_drop, flush_buf, d_take. rewrite Qb. reflexivity. }
  destruct sixteen; unfold write_as, bytes_as in *; [apply (G 1 2%nat)|apply (G 3 4%nat)]; auto.
Qed.
Lemma lost_ok sixteen checks w d : wave_ok w -> fits (bytes_as sixteen) w -> 44 + bytes_as sixteen * Z.of_nat (channels w) * Z.of_nat (w_len w) <= 8192 -> exists d', write_as sixteen checks w d = Val (d', true).
Proof.
  intros O F L. assert (G : forall format bytes enc, (format = 1 /\ bytes = 2%nat) \/ (format = 3 /\ bytes = 4%nat) -> (forall x, length (enc x) = bytes) -> fits (Z.of_nat bytes) w -> 44 + Z.of_nat bytes * Z.of_nat (channels w) * Z.of_nat (w_len w) <= 8192 -> exists d', write_wav checks format bytes enc w d = Val (d', true)).
  { intros format bytes enc Hf He Fi Li. apply (write_lost checks format bytes enc w Hf O Fi). unfold file. rewrite app_length, (data_len bytes enc w He). unfold head. rewrite header_length. unfold capacity. zify. nia. }
  destruct sixteen; unfold write_as, bytes_as in *; [apply (G 1 2%nat)|apply (G 3 4%nat)]; auto.
Qed.
(* nothing is written *)
Lemma lost_nothing sixteen checks w got : wave_ok w -> fits (bytes_as sixteen) w -> 44 + bytes_as sixteen * Z.of_nat (channels w) * Z.of_nat (w_len w) <= 8192 -> write_as sixteen checks w (mkdevice got [Some 0%nat]) = Val (mkdevice got [], true).
Proof.
  intros O F L. assert (G : forall format bytes enc, (format = 1 /\ bytes = 2%nat) \/ (format = 3 /\ bytes = 4%nat) -> (forall x, length (enc x) = bytes) -> fits (Z.of_nat bytes) w -> 44 + Z.of_nat bytes * Z.of_nat (channels w) * Z.of_nat (w_len w) <= 8192 -> write_wav checks format bytes enc w (mkdevice got [Some 0%nat]) = Val (mkdevice got [], true)).
  { intros format bytes enc Hf He Fi Li. destruct (write_written checks format bytes enc w Hf O Fi (mkdevice got [Some 0%nat])) as (b & o & E & W). assert (Lf : (length (file format bytes enc w) <= capacity)%nat) by (unfold file; rewrite app_length, (data_len bytes enc w He); unfold head; rewrite header_length; unfold capacity; zify; nia).
    rewrite small_file in W by (rewrite file_concat; cbn [length Nat.add]; exact Lf). rewrite file_concat in W. injection W as <- <-. rewrite E. unfold bw_drop, flush_buf, d_take. cbn [bw_dev bw_buf d_fails d_got app tl]. assert (P : (0 < length (file format bytes enc w))%nat) by (unfold file; rewrite app_length; unfold head; rewrite header_length; lia).
    destruct (Nat.ltb_spec 0 (length (file format bytes enc w))); [|lia]. cbn [fst bw_dev firstn]. now rewrite app_nil_r. }
  destruct sixteen; unfold write_as, bytes_as in *; [apply (G 1 2%nat)|apply (G 3 4%nat)]; auto.
Qed.
Lemma sizes_ok sixteen checks w : wave_ok w -> 2 ^ 16 <= bytes_as sixteen * Z.of_nat (channels w) \/ 2 ^ 32 <= bytes_as sixteen * Z.of_nat (channels w) * Z.of_nat (w_len w) + 36 ->
  write_as sixteen checks w (mkdevice [] []) = Panics /\ checks = true \/ exists f, file_of (write_as sixteen checks w) f /\ forall v, parse f = Some v -> wav_channels v <> channels w.
Proof. intros O H. destruct sixteen; [apply (does_not_fit checks 1 2%nat)|apply (does_not_fit checks 3 4%nat)]; auto. Qed.
