(* Proofs about the MLS generator: next is linear over GF(2); its order is computed with bit matrices. *)
From Verif Require Import MlsModel.
From Coq Require Import Znumtheory.
Open Scope N_scope.

(* ---------- parity of the bit count is linear ---------- *)

Lemma count_ones_double x : count_ones (N.double x) = count_ones x.
Proof. destruct x; reflexivity. Qed.
Lemma count_ones_succ_double x : count_ones (N.succ_double x) = N.succ (count_ones x).
Proof. destruct x; reflexivity. Qed.

Lemma odd_popcount_pos_lxor p q :
  N.odd (count_ones (Pos.lxor p q)) = xorb (N.odd (popcount_pos p)) (N.odd (popcount_pos q)).
Proof.
  revert q; induction p as [p IH|p IH|]; intros [q|q|]; cbn [Pos.lxor popcount_pos];
    rewrite ?count_ones_double, ?count_ones_succ_double, ?N.odd_succ, ?IH;
    cbn [count_ones popcount_pos]; rewrite <- ?N.negb_odd, ?N.odd_succ, <- ?N.negb_odd, ?IH;
    try reflexivity;
    try (destruct (N.odd (popcount_pos p)), (N.odd (popcount_pos q)); reflexivity);
    try (destruct (N.odd (popcount_pos p)); reflexivity);
    try (destruct (N.odd (popcount_pos q)); reflexivity).
Qed.

Lemma odd_count_ones_lxor a b :
  N.odd (count_ones (N.lxor a b)) = xorb (N.odd (count_ones a)) (N.odd (count_ones b)).
Proof.
  destruct a as [|p], b as [|q]; cbn [N.lxor count_ones]; try reflexivity.
  - now destruct (N.odd (popcount_pos q)).
  - now destruct (N.odd (popcount_pos p)).
  - apply odd_popcount_pos_lxor.
Qed.

Definition poly (n : N) := nth (N.to_nat (n - 1)) mls_poly 0.

Lemma land_1_odd x : N.land x 1 = N.b2n (N.odd x).
Proof.
  change 1 with (N.ones 1) at 1. rewrite N.land_ones. change (2 ^ 1) with 2.
  rewrite <- N.bit0_odd, N.bit0_mod. reflexivity.
Qed.

Lemma testbit_b2n b i : N.testbit (N.b2n b) i = (i =? 0) && b.
Proof. destruct b, i; cbn; auto; destruct p; auto. Qed.

Lemma testbit_mls_length n i : N.testbit (mls_length n) i = (i <? n).
Proof.
  unfold mls_length. rewrite <- N.pred_sub, <- N.ones_equiv.
  destruct (N.ltb_spec i n); [apply N.ones_spec_low|apply N.ones_spec_high]; auto.
Qed.

Lemma next_testbit n s i : n <= 31 ->
  N.testbit (mls_next n s) i =
  (i <? n) && (if i =? 0 then N.odd (count_ones (N.land (poly n) s)) else N.testbit s (i - 1)).
Proof.
  intros Hn. unfold mls_next. fold (poly n).
  rewrite N.land_spec, N.lor_spec, testbit_mls_length, land_1_odd, testbit_b2n.
  destruct (N.ltb_spec i n) as [Hi|Hi]; rewrite ?andb_false_r, ?andb_true_r; auto.
  rewrite N.mod_pow2_bits_low by lia.
  destruct (N.eqb_spec i 0) as [->|H0].
  - rewrite N.shiftl_spec_low by lia. reflexivity.
  - rewrite N.shiftl_spec_high by lia. now rewrite orb_false_r.
Qed.

Lemma next_linear n a b : n <= 31 -> mls_next n (N.lxor a b) = N.lxor (mls_next n a) (mls_next n b).
Proof.
  intros Hn. apply N.bits_inj; intros i. rewrite N.lxor_spec, !next_testbit by auto.
  destruct (i <? n); cbn [andb]; auto.
  destruct (i =? 0).
  - rewrite <- odd_count_ones_lxor. do 2 f_equal. apply N.bits_inj; intros j.
    rewrite N.lxor_spec, !N.land_spec, N.lxor_spec.
    destruct (N.testbit (poly n) j), (N.testbit a j), (N.testbit b j); reflexivity.
  - apply N.lxor_spec.
Qed.

Lemma next_0 n : mls_next n 0 = 0.
Proof. unfold mls_next. rewrite N.land_0_r. cbn. reflexivity. Qed.

Lemma next_lt n s : mls_next n s < 2 ^ n.
Proof.
  unfold mls_next, mls_length. replace (2 ^ n - 1) with (N.ones n) by (rewrite N.ones_equiv; lia).
  rewrite N.land_ones.
  apply N.mod_lt, N.pow_nonzero. lia.
Qed.

(* ---------- bit matrices: list of columns ---------- *)

Fixpoint mapply (cols : list N) (v : N) : N :=
  match cols with
  | [] => 0
  | c :: r => N.lxor (if N.odd v then c else 0) (mapply r (N.div2 v))
  end.
Definition mcomp (a b : list N) : list N := map (mapply a) b.
Fixpoint mpow (a : list N) (p : positive) : list N :=
  match p with
  | xH => a
  | xO q => let b := mpow a q in mcomp b b
  | xI q => let b := mpow a q in mcomp a (mcomp b b)
  end.
Definition cols (f : N -> N) (n : nat) : list N := map (fun i => f (2 ^ N.of_nat i)) (seq 0 n).
Definition madd (a b : list N) : list N := map (fun p => N.lxor (fst p) (snd p)) (combine a b).

Definition linear (f : N -> N) := f 0 = 0 /\ forall a b, f (N.lxor a b) = N.lxor (f a) (f b).

Lemma lxor4 a b c d : N.lxor (N.lxor a b) (N.lxor c d) = N.lxor (N.lxor a c) (N.lxor b d).
Proof.
  apply N.bits_inj; intros i; rewrite !N.lxor_spec.
  destruct (N.testbit a i), (N.testbit b i), (N.testbit c i), (N.testbit d i); reflexivity.
Qed.

Lemma div2_lxor a b : N.div2 (N.lxor a b) = N.lxor (N.div2 a) (N.div2 b).
Proof. rewrite !N.div2_spec. apply N.shiftr_lxor. Qed.
Lemma odd_lxor a b : N.odd (N.lxor a b) = xorb (N.odd a) (N.odd b).
Proof. rewrite <- !N.bit0_odd. apply N.lxor_spec. Qed.

Lemma mapply_linear c : linear (mapply c).
Proof.
  split.
  - induction c as [|x c IH]; cbn; auto.
  - induction c as [|x c IH]; intros a b; cbn [mapply]; auto.
    rewrite div2_lxor, IH, odd_lxor, lxor4. f_equal.
    destruct (N.odd a), (N.odd b); cbn [xorb]; rewrite ?N.lxor_nilpotent, ?N.lxor_0_l, ?N.lxor_0_r; auto.
Qed.

Lemma shiftl_split v k :
  N.shiftl v k = N.lxor (if N.odd v then 2 ^ k else 0) (N.shiftl (N.div2 v) (k + 1)).
Proof.
  apply N.bits_inj; intros i. rewrite N.lxor_spec.
  assert (Hif : N.testbit (if N.odd v then 2 ^ k else 0) i = N.odd v && (i =? k)).
  { destruct (N.odd v); cbn [andb]; [|apply N.bits_0].
    rewrite N.pow2_bits_eqb. apply N.eqb_sym. }
  rewrite Hif. destruct (N.lt_ge_cases i k) as [H|H].
  - rewrite !N.shiftl_spec_low by lia. destruct (N.eqb_spec i k); [lia|]. now rewrite andb_false_r.
  - rewrite (N.shiftl_spec_high') by lia.
    clear Hif. destruct (N.eqb_spec i k) as [E|Hne]; [subst i|].
    + rewrite N.shiftl_spec_low by lia. rewrite N.sub_diag, N.bit0_odd, andb_true_r, xorb_false_r. reflexivity.
    + rewrite N.shiftl_spec_high' by lia. rewrite N.div2_spec, N.shiftr_spec' , andb_false_r, xorb_false_l.
      f_equal; lia.
Qed.

Lemma linear_cols_gen f : linear f -> forall m k v, v < 2 ^ N.of_nat m ->
  f (N.shiftl v (N.of_nat k)) = mapply (map (fun i => f (2 ^ N.of_nat i)) (seq k m)) v.
Proof.
  intros [H0 Hl]. induction m as [|m IH]; intros k v Hv.
  - cbn in Hv. assert (v = 0) by lia. subst. now rewrite N.shiftl_0_l.
  - cbn [seq map mapply]. rewrite shiftl_split, Hl.
    replace (N.of_nat k + 1) with (N.of_nat (S k)) by lia.
    rewrite <- IH.
    + f_equal. destruct (N.odd v); auto.
    + rewrite N.div2_div. apply N.div_lt_upper_bound; [lia|].
      rewrite Nat2N.inj_succ, N.pow_succ_r' in Hv. exact Hv.
Qed.

Lemma linear_cols f n v : linear f -> v < 2 ^ N.of_nat n -> f v = mapply (cols f n) v.
Proof.
  intros Hf Hv. rewrite <- (N.shiftl_0_r v) at 1. exact (linear_cols_gen f Hf n 0%nat v Hv).
Qed.

Lemma mapply_mcomp a b v : mapply (mcomp a b) v = mapply a (mapply b v).
Proof.
  destruct (mapply_linear a) as [H0 Hl].
  revert v; induction b as [|c b IH]; intros v; cbn [mcomp map mapply]; [now rewrite H0|].
  rewrite Hl. unfold mcomp in IH. rewrite IH. f_equal. destruct (N.odd v); auto.
Qed.

Lemma mapply_mpow a p v : mapply (mpow a p) v = Nat.iter (Pos.to_nat p) (mapply a) v.
Proof.
  revert v; induction p as [p IH|p IH|]; intros v; cbn [mpow]; cbv zeta.
  - rewrite !mapply_mcomp, !IH, Pos2Nat.inj_xI. cbn [Nat.iter nat_rect]. f_equal.
    replace (2 * Pos.to_nat p)%nat with (Pos.to_nat p + Pos.to_nat p)%nat by lia.
    symmetry. apply iter_add.
  - rewrite !mapply_mcomp, !IH, Pos2Nat.inj_xO.
    replace (2 * Pos.to_nat p)%nat with (Pos.to_nat p + Pos.to_nat p)%nat by lia.
    symmetry. apply iter_add.
  - reflexivity.
Qed.

Lemma mapply_madd a b v : length a = length b -> mapply (madd a b) v = N.lxor (mapply a v) (mapply b v).
Proof.
  revert b v; induction a as [|x a IH]; intros [|y b] v H; cbn in H; try discriminate; cbn [madd combine map mapply fst snd]; auto.
  unfold madd in IH. rewrite IH by lia. rewrite lxor4. f_equal.
  destruct (N.odd v); auto.
Qed.

Lemma length_mpow a p : length (mpow a p) = length a.
Proof. induction p; cbn [mpow]; unfold mcomp; cbv zeta; rewrite ?map_length; auto. Qed.
Lemma length_cols f n : length (cols f n) = n.
Proof. unfold cols; now rewrite map_length, seq_length. Qed.

Definition idm (n : nat) := cols (fun x => x) n.
Lemma mapply_idm n v : v < 2 ^ N.of_nat n -> mapply (idm n) v = v.
Proof. intros H. symmetry. apply (linear_cols (fun x => x)); auto. split; auto. Qed.

(* ---------- the computed certificate ---------- *)

Definition factors : list (list positive) := [
  [];
  [3];
  [7];
  [3; 5];
  [31];
  [3; 3; 7];
  [127];
  [3; 5; 17];
  [7; 73];
  [3; 11; 31];
  [23; 89];
  [3; 3; 5; 7; 13];
  [8191];
  [3; 43; 127];
  [7; 31; 151];
  [3; 5; 17; 257];
  [131071];
  [3; 3; 3; 7; 19; 73];
  [524287];
  [3; 5; 5; 11; 31; 41];
  [7; 7; 127; 337];
  [3; 23; 89; 683];
  [47; 178481];
  [3; 3; 5; 7; 13; 17; 241];
  [31; 601; 1801];
  [3; 2731; 8191];
  [7; 73; 262657];
  [3; 5; 29; 43; 113; 127];
  [233; 1103; 2089];
  [3; 3; 7; 11; 31; 151; 331];
  [2147483647] ]%positive.

Definition len_pos (n : nat) : positive := Pos.pred (2 ^ Pos.of_nat n).
Definition eqm (a b : list N) := forallb (fun p => fst p =? snd p) (combine a b).

(* T = 2^n-1; M^T = 1; and M^(T/p) + 1 has T-th power 1 (so it is invertible) for all prime factors p of T. *)
Definition cert (n : nat) : bool :=
  let m := cols (mls_next (N.of_nat n)) n in
  let t := len_pos n in
  let i := idm n in
  let fs := nth (n - 1) factors [] in
  eqm (mpow m t) i &&
  forallb (fun p =>
    match (Npos t / Npos p)%N with
    | N0 => false
    | Npos q => ((Npos q * Npos p)%N =? Npos t) && eqm (mpow (madd (mpow m q) i) t) i
    end) fs.

(* trial division *)
Fixpoint zrange (k : nat) (d : Z) : list Z := match k with O => [] | S k' => d :: zrange k' (d + 1)%Z end.
Definition isprime (p : Z) : bool :=
  (1 <? p)%Z && forallb (fun d => negb (p mod d =? 0)%Z) (zrange (Z.to_nat (Z.sqrt p - 1)) 2).

Lemma in_zrange k d x : (d <= x < d + Z.of_nat k)%Z -> In x (zrange k d).
Proof.
  revert d; induction k as [|k IH]; intros d H; cbn [zrange]; [lia|].
  destruct (Z.eq_dec d x) as [->|Hn]; [now left|right]. apply IH. lia.
Qed.

Lemma isprime_sound p : isprime p = true -> prime p.
Proof.
  unfold isprime. rewrite andb_true_iff, Z.ltb_lt, forallb_forall. intros [H1 H2].
  apply prime_alt. split; auto. intros n Hn [m Hm].
  assert (Hs := Z.sqrt_spec p ltac:(lia)). cbv zeta in Hs. assert (Hs0 := Z.sqrt_nonneg p).
  assert (Hdiv : forall d, (1 < d <= Z.sqrt p)%Z -> (p mod d <> 0)%Z).
  { intros d Hd Hz. specialize (H2 d). rewrite Hz in H2. cbn in H2.
    assert (false = true); [apply H2, in_zrange|discriminate].
    rewrite Z2Nat.id; lia. }
  assert (Hm0 : (1 < m)%Z) by nia.
  destruct (Z.le_gt_cases n (Z.sqrt p)) as [Hle|Hgt].
  - apply (Hdiv n ltac:(lia)). subst p. apply Z.mod_mul. lia.
  - apply (Hdiv m); [|rewrite Hm, Z.mul_comm; apply Z.mod_mul; intros ->; discriminate].
    split; [lia|]. destruct (Z.le_gt_cases m (Z.sqrt p)); auto.
    assert (Hq : (Z.succ (Z.sqrt p) * Z.succ (Z.sqrt p) <= m * n)%Z) by (apply Z.mul_le_mono_nonneg; lia).
    lia.
Qed.

Definition prod (l : list positive) : positive := fold_right Pos.mul 1%positive l.
Definition fact_ok (n : nat) : bool :=
  let fs := nth (n - 1) factors [] in
  Pos.eqb (prod fs) (len_pos n) && forallb (fun p => isprime (Zpos p)) fs.

Definition all_n : list nat := seq 1 31.
Lemma certs : forallb cert all_n = true. Proof. vm_compute. reflexivity. Qed.
Lemma facts : forallb fact_ok all_n = true. Proof. vm_compute. reflexivity. Qed.

Lemma prime_dvd_prod q fs : prime q -> (forall p, In p fs -> prime (Zpos p)) ->
  (q | Zpos (prod fs))%Z -> exists p, In p fs /\ q = Zpos p.
Proof.
  intros Hq. induction fs as [|p fs IH]; intros Hp Hd; cbn [prod fold_right] in Hd.
  - exfalso. destruct Hq as [Hq1 _]. apply Z.divide_1_r_nonneg in Hd; lia.
  - rewrite Pos2Z.inj_mul in Hd. apply prime_mult in Hd; auto.
    destruct Hd as [Hd|Hd].
    + exists p. split; [now left|]. apply prime_div_prime; auto. apply Hp; now left.
    + destruct IH as (r & Hr & E); auto.
      { intros; apply Hp; now right. }
      exists r; split; auto; now right.
Qed.

Lemma exists_prime_divisor (m : Z) : (1 < m)%Z -> exists q, prime q /\ (q | m)%Z.
Proof.
  intros Hm. assert (H0 : (0 <= m)%Z) by lia. revert Hm.
  pattern m. apply Z_lt_induction; auto. clear m H0.
  intros m IH Hm. destruct (prime_dec m) as [Hp|Hp].
  - exists m; split; auto. apply Z.divide_refl.
  - apply not_prime_divide in Hp; auto. destruct Hp as (n & Hn & Hd).
    destruct (IH n) as (q & Hq & Hqd); [lia|lia|].
    exists q; split; auto. eapply Z.divide_trans; eauto.
Qed.

Lemma eqm_sound a b v : length a = length b -> eqm a b = true -> mapply a v = mapply b v.
Proof.
  unfold eqm. revert b v; induction a as [|x a IH]; intros [|y b] v Hl H; cbn in *; try discriminate; auto.
  apply andb_true_iff in H as [H1 H2]. apply N.eqb_eq in H1. subst. f_equal. apply IH; auto.
Qed.

(* ---------- period ---------- *)

Section Period.
  Variable n : nat.
  Hypothesis Hn : (1 <= n <= 31)%nat.
  Let nn := N.of_nat n.
  Let m := cols (mls_next nn) n.
  Let t := len_pos n.

  Lemma Hcert : cert n = true.
  Proof. pose proof certs as H. rewrite forallb_forall in H. apply H. apply in_seq. lia. Qed.
  Lemma Hfact : fact_ok n = true.
  Proof. pose proof facts as H. rewrite forallb_forall in H. apply H. apply in_seq. lia. Qed.

  Lemma t_spec : Npos t = mls_length nn.
  Proof.
    unfold t, len_pos, mls_length, nn.
    assert (Hc : forallb (fun k => Npos (len_pos k) =? 2 ^ N.of_nat k - 1) all_n = true) by (vm_compute; reflexivity).
    rewrite forallb_forall in Hc. apply N.eqb_eq. apply Hc. apply in_seq. lia.
  Qed.

  Lemma next_is_linear : linear (mls_next nn).
  Proof. split; [apply next_0|]. intros. apply next_linear. unfold nn. lia. Qed.

  Lemma iter_lt k v : v < 2 ^ nn -> mls_iter nn k v < 2 ^ nn.
  Proof. intros H. destruct k; cbn; auto. apply next_lt. Qed.

  Lemma iter_m k v : v < 2 ^ nn -> Nat.iter k (mapply m) v = mls_iter nn k v.
  Proof.
    intros Hv. induction k as [|k IH]; auto. unfold mls_iter in *. cbn [Nat.iter nat_rect].
    unfold Nat.iter in *. rewrite IH. symmetry. apply linear_cols; [apply next_is_linear|].
    apply (iter_lt k); auto.
  Qed.

  Lemma iter_T v : v < 2 ^ nn -> mls_iter nn (Pos.to_nat t) v = v.
  Proof.
    intros Hv. rewrite <- iter_m by auto. rewrite <- mapply_mpow.
    pose proof Hcert as H. unfold cert in H. cbv zeta in H. apply andb_true_iff in H as [H _].
    fold nn m t in H.
    rewrite (eqm_sound _ _ v) with (2 := H).
    - apply mapply_idm; auto.
    - rewrite length_mpow. unfold m, idm. now rewrite !length_cols.
  Qed.

  Lemma iter_zero k (c : list N) : Nat.iter k (mapply c) 0 = 0.
  Proof. induction k as [|k IH]; auto. cbn [Nat.iter nat_rect]. unfold Nat.iter in *. rewrite IH. apply mapply_linear. Qed.

  Lemma no_subperiod p v : In p (nth (n - 1) factors []) -> v < 2 ^ nn -> v <> 0 ->
    exists q : positive, (q * p = t)%positive /\ mls_iter nn (Pos.to_nat q) v <> v.
  Proof.
    intros Hp Hv Hv0.
    pose proof Hcert as H. unfold cert in H. cbv zeta in H. apply andb_true_iff in H as [_ H].
    rewrite forallb_forall in H. specialize (H p Hp). fold nn m t in H.
    destruct (Npos t / Npos p) as [|q]; [discriminate|].
    apply andb_true_iff in H as [H1 H2]. apply N.eqb_eq in H1.
    exists q. split; [injection H1; auto|]. intros Hfix. apply Hv0.
    set (a := madd (mpow m q) (idm n)) in *.
    assert (Hlen : length (mpow m q) = length (idm n)).
    { rewrite length_mpow. unfold m, idm. now rewrite !length_cols. }
    assert (Ha : mapply a v = 0).
    { unfold a. rewrite mapply_madd by auto.
      rewrite mapply_mpow, iter_m, Hfix, mapply_idm by auto. apply N.lxor_nilpotent. }
    rewrite <- (mapply_idm n v Hv). rewrite <- (eqm_sound _ _ v) with (2 := H2).
    - rewrite mapply_mpow. destruct (Pos2Nat.is_succ t) as [k Hk]. rewrite Hk.
      replace (S k) with (k + 1)%nat by lia. rewrite iter_add. cbn [Nat.iter nat_rect]. 
      rewrite Ha. apply iter_zero.
    - rewrite length_mpow. unfold a, madd. rewrite map_length, combine_length, Hlen.
      unfold idm. rewrite !length_cols. lia.
  Qed.

  Lemma iter_mul k j v : mls_iter nn k v = v -> mls_iter nn (j * k) v = v.
  Proof.
    intros H. induction j as [|j IH]; auto. cbn [Nat.mul]. unfold mls_iter in *.
    rewrite iter_add, IH. exact H.
  Qed.

  Lemma period_dvd v k : v < 2 ^ nn -> v <> 0 -> mls_iter nn k v = v -> Nat.divide (Pos.to_nat t) k.
  Proof.
    intros Hv Hv0 Hk. set (T := Pos.to_nat t). assert (HT := iter_T v Hv). fold T in HT.
    assert (HTpos : (0 < T)%nat) by apply Pos2Nat.is_pos.
    destruct (Nat.eq_dec k 0) as [->|Hk0]; [apply Nat.divide_0_r|].
    set (g := Nat.gcd k T).
    assert (Hg : mls_iter nn g v = v).
    { destruct (Nat.gcd_bezout_pos k T ltac:(lia)) as (a & b & Hab). fold g in Hab.
      assert (H1 := iter_mul k a v Hk). rewrite Hab in H1. unfold mls_iter in *.
      rewrite iter_add in H1. fold (mls_iter nn (b * T) v) in H1. rewrite iter_mul in H1; auto. }
    assert (HgT : Nat.divide g T) by apply Nat.gcd_divide_r.
    assert (Hgk : Nat.divide g k) by apply Nat.gcd_divide_l.
    destruct HgT as [c Hc].
    destruct (Nat.eq_dec c 1) as [->|Hc1].
    { replace T with g by lia. exact Hgk. }
    exfalso. assert (1 < c)%nat by (destruct c as [|[|c]]; lia).
    destruct (exists_prime_divisor (Z.of_nat c)) as (q & Hq & Hqc); [lia|].
    pose proof Hfact as HF. unfold fact_ok in HF. cbv zeta in HF. apply andb_true_iff in HF as [HF1 HF2].
    apply Pos.eqb_eq in HF1. fold t in HF1. rewrite forallb_forall in HF2.
    destruct (prime_dvd_prod q (nth (n - 1) factors [])) as (p & Hp & Eq); auto.
    { intros; apply isprime_sound; auto. }
    { rewrite HF1. replace (Zpos t) with (Z.of_nat T) by (unfold T; lia). rewrite Hc, Nat2Z.inj_mul.
      apply Z.divide_mul_l. exact Hqc. }
    subst q. destruct (no_subperiod p v Hp Hv Hv0) as (r & Hr & Hne). apply Hne.
    destruct Hqc as [e He].
    assert (He0 : (0 <= e)%Z) by nia.
    assert (Hrr : Pos.to_nat r = (Z.to_nat e * g)%nat).
    { apply (Nat.mul_cancel_r _ _ (Pos.to_nat p)); [lia|].
      rewrite <- Pos2Nat.inj_mul, Hr. fold T. rewrite Hc.
      apply Nat2Z.inj. rewrite !Nat2Z.inj_mul, Z2Nat.id by lia. rewrite He, positive_nat_Z. ring. }
    rewrite Hrr. apply iter_mul; auto.
  Qed.
End Period.

(* ---------- the closed facts, with n : N ---------- *)

Lemma length_pos n : 1 <= n <= 31 -> 0 < mls_length n /\ mls_length n < 2 ^ n.
Proof.
  intros H. unfold mls_length. assert (2 ^ 1 <= 2 ^ n) by (apply N.pow_le_mono_r; lia).
  change (2 ^ 1) with 2 in *. lia.
Qed.

Lemma to_nat_len n : 1 <= n <= 31 -> Pos.to_nat (len_pos (N.to_nat n)) = N.to_nat (mls_length n).
Proof.
  intros H. rewrite <- (N2Nat.id n) at 2. rewrite <- t_spec by lia. reflexivity.
Qed.

Lemma mls_period n s k : 1 <= n <= 31 -> 1 <= s <= mls_length n ->
  (mls_iter n k s = s <-> exists j, k = (j * N.to_nat (mls_length n))%nat).
Proof.
  intros Hn Hs. pose proof (length_pos n Hn) as [_ Hl].
  assert (Hs2 : s < 2 ^ n) by lia.
  assert (E : N.of_nat (N.to_nat n) = n) by apply N2Nat.id.
  split.
  - intros H. assert (HD := period_dvd (N.to_nat n) ltac:(lia) s k).
    rewrite E in HD. destruct HD as [j Hj]; auto; [lia|]. exists j. now rewrite <- to_nat_len.
  - intros [j ->]. rewrite <- to_nat_len by auto.
    assert (HI := iter_T (N.to_nat n) ltac:(lia) s). rewrite E in HI. specialize (HI Hs2).
    assert (HM := iter_mul (N.to_nat n) (Pos.to_nat (len_pos (N.to_nat n))) j s). rewrite E in HM. auto.
Qed.

Lemma mls_next_range n s : 1 <= n <= 31 -> 1 <= s <= mls_length n -> 1 <= mls_next n s <= mls_length n.
Proof.
  intros Hn Hs. pose proof (next_lt n s). unfold mls_length in *. split; [|lia].
  destruct (N.eq_dec (mls_next n s) 0) as [H0|]; [|lia]. exfalso.
  pose proof (length_pos n Hn) as [Hl _]. unfold mls_length in Hl.
  assert (HP := proj2 (mls_period n s (N.to_nat (mls_length n)) Hn Hs) (ex_intro _ 1%nat (eq_sym (Nat.mul_1_l _)))).
  unfold mls_length in HP. destruct (N.to_nat (2 ^ n - 1)) as [|j] eqn:E; [lia|].
  replace (S j) with (j + 1)%nat in HP by lia. unfold mls_iter in HP. rewrite iter_add in HP.
  cbn [Nat.iter nat_rect] in HP. rewrite H0 in HP.
  assert (HZ : forall k, Nat.iter k (mls_next n) 0 = 0).
  { induction k as [|k IH]; auto. cbn [Nat.iter nat_rect]. unfold Nat.iter in *. rewrite IH. apply next_0. }
  rewrite HZ in HP. lia.
Qed.

Lemma mls_iter_range n k s : 1 <= n <= 31 -> 1 <= s <= mls_length n -> 1 <= mls_iter n k s <= mls_length n.
Proof.
  intros Hn Hs. induction k as [|k IH]; auto. unfold mls_iter; rewrite iter_S; fold (mls_iter n).
  apply mls_next_range; auto.
Qed.

Lemma mls_iter_add n a b s : mls_iter n (a + b) s = mls_iter n a (mls_iter n b s).
Proof. apply iter_add. Qed.

Lemma mls_states_distinct n s i j : 1 <= n <= 31 -> 1 <= s <= mls_length n ->
  (i < N.to_nat (mls_length n))%nat -> (j < N.to_nat (mls_length n))%nat ->
  mls_iter n i s = mls_iter n j s -> i = j.
Proof.
  intros Hn Hs. revert i j.
  assert (W : forall i j, (i <= j)%nat -> (j < N.to_nat (mls_length n))%nat ->
              mls_iter n i s = mls_iter n j s -> i = j).
  { intros i j Hij Hj E. set (T := N.to_nat (mls_length n)) in *.
    assert (HT : mls_iter n T s = s) by (apply mls_period; auto; exists 1%nat; fold T; lia).
    assert (H1 : mls_iter n (T - i + j) s = s).
    { rewrite mls_iter_add, <- E, <- mls_iter_add. replace (T - i + i)%nat with T by lia. auto. }
    apply mls_period in H1; auto. destruct H1 as [c Hc]. fold T in Hc.
    destruct c as [|[|c]]; lia. }
  intros i j Hi Hj E. destruct (Nat.le_ge_cases i j); [apply W; auto|symmetry; apply W; auto].
Qed.

Lemma mls_visits_all n s x : 1 <= n <= 31 -> 1 <= s <= mls_length n -> 1 <= x <= mls_length n ->
  exists k, (k < N.to_nat (mls_length n))%nat /\ mls_iter n k s = x.
Proof.
  intros Hn Hs Hx. set (T := N.to_nat (mls_length n)).
  set (l := map (fun k => N.to_nat (mls_iter n k s)) (seq 0 T)).
  assert (Hnd : NoDup l).
  { unfold l. 
    assert (G : forall c, NoDup c -> (forall k, In k c -> (k < T)%nat) ->
              NoDup (map (fun k => N.to_nat (mls_iter n k s)) c)).
    { induction c as [|a c IH]; intros Hc Hb; cbn [map]; constructor.
      - intros Hin. apply in_map_iff in Hin as (k & Ek & Hk). inversion Hc; subst.
        apply N2Nat.inj in Ek. apply mls_states_distinct in Ek; auto.
        + subst; contradiction.
        + apply Hb; now right.
        + apply Hb; now left.
      - inversion Hc; subst. apply IH; auto. intros; apply Hb; now right. }
    apply G; [apply seq_NoDup|]. intros k Hk. apply in_seq in Hk. lia. }
  assert (Hin : In (N.to_nat x) l).
  { apply (NoDup_length_incl Hnd (l' := seq 1 T)).
    - unfold l. rewrite map_length, !seq_length. lia.
    - intros y Hy. unfold l in Hy. apply in_map_iff in Hy as (k & <- & Hk).
      apply in_seq. pose proof (mls_iter_range n k s Hn Hs). unfold T. lia.
    - apply in_seq. unfold T. lia. }
  unfold l in Hin. apply in_map_iff in Hin as (k & Ek & Hk). apply in_seq in Hk.
  exists k. split; [lia|]. apply N2Nat.inj; auto.
Qed.

(* The output bits at times k .. k+n-1 are the bits of the state at time k, top bit first. *)
Lemma mls_bit_shift n s j i : n <= 31 -> N.of_nat j <= i -> i < n ->
  N.testbit (mls_iter n j s) i = N.testbit s (i - N.of_nat j).
Proof.
  intros Hn. revert i; induction j as [|j IH]; intros i Hj Hi.
  - cbn. now rewrite N.sub_0_r.
  - unfold mls_iter; rewrite iter_S; fold (mls_iter n). rewrite next_testbit by auto.
    destruct (N.ltb_spec i n); [|lia]. destruct (N.eqb_spec i 0); [lia|]. cbn [andb].
    change (nat_rect _ s _ j) with (mls_iter n j s) || idtac.
    fold (Nat.iter j (mls_next n) s). fold (mls_iter n j s).
    rewrite IH by lia. f_equal. lia.
Qed.

Lemma mls_value_bit n s : mls_value n s = N.b2n (N.testbit s (n - 1)).
Proof. unfold mls_value. rewrite land_1_odd, <- N.bit0_odd, N.shiftr_spec', N.add_0_l. reflexivity. Qed.

Lemma mls_output_state n a b : 1 <= n <= 31 -> a < 2 ^ n -> b < 2 ^ n ->
  (forall j, (N.of_nat j < n) -> mls_value n (mls_iter n j a) = mls_value n (mls_iter n j b)) -> a = b.
Proof.
  intros Hn Ha Hb H. apply N.bits_inj; intros i.
  destruct (N.lt_ge_cases i n) as [Hi|Hi].
  - specialize (H (N.to_nat (n - 1 - i)) ltac:(lia)). rewrite !mls_value_bit in H.
    apply N.b2n_inj in H. rewrite !mls_bit_shift in H by lia.
    replace (n - 1 - N.of_nat (N.to_nat (n - 1 - i))) with i in H by lia. exact H.
  - assert (G : forall x, x < 2 ^ n -> N.testbit x i = false).
    { intros x Hx. destruct (N.eq_dec x 0) as [->|]; [apply N.bits_0|].
      apply N.bits_above_log2. apply N.lt_le_trans with n; auto. apply N.log2_lt_pow2; lia. }
    now rewrite !G.
Qed.

Lemma mls_output_period n s p : 1 <= n <= 31 -> 1 <= s <= mls_length n ->
  ((forall k, mls_value n (mls_iter n (k + p) s) = mls_value n (mls_iter n k s)) <->
   exists j, p = (j * N.to_nat (mls_length n))%nat).
Proof.
  intros Hn Hs. rewrite <- (mls_period n s p Hn Hs). pose proof (length_pos n Hn) as [_ Hl]. split.
  - intros H. apply (mls_output_state n); auto; try lia.
    + pose proof (mls_iter_range n p s Hn Hs). lia.
    + intros j _. rewrite <- mls_iter_add. apply H.
  - intros H k. rewrite mls_iter_add, H. reflexivity.
Qed.

Lemma mls_new_range n st : mls_new n = Some st -> fst st = n /\ 1 <= n <= 31 /\ 1 <= snd st <= mls_length n.
Proof.
  unfold mls_new. destruct (_ && _) eqn:E; [|discriminate]. intros [= <-]; cbn [fst snd].
  apply andb_true_iff in E as [E1 E2]. apply N.leb_le in E1, E2.
  pose proof (length_pos n (conj E1 E2)). unfold mls_length in *. lia.
Qed.

Lemma mls_new_with_seed_range n seed st : mls_new_with_seed n seed = Some st ->
  fst st = n /\ 1 <= n <= 31 /\ 1 <= snd st <= mls_length n.
Proof.
  unfold mls_new_with_seed. destruct (_ && _) eqn:E; [|discriminate]. intros Hst.
  assert (Est : st = (n, 1 + seed mod (2 ^ n - 1))) by congruence. subst st. cbn [fst snd]. clear Hst.
  apply andb_true_iff in E as [E1 E2]. apply N.leb_le in E1, E2.
  pose proof (length_pos n (conj E1 E2)). unfold mls_length in *. set (L := 2 ^ n - 1) in *.
  pose proof (N.mod_lt seed L ltac:(lia)). set (r := seed mod L) in *. lia.
Qed.

Lemma range_len n s : 1 <= s < 2 ^ n <-> 1 <= s <= mls_length n.
Proof. unfold mls_length. lia. Qed.

Lemma mls_initial n seed :
  (1 <= n <= 31 -> exists s1 s2, mls_new n = Some (n, s1) /\ mls_new_with_seed n seed = Some (n, s2) /\
       1 <= s1 < 2 ^ n /\ 1 <= s2 < 2 ^ n) /\
  (~ (1 <= n <= 31) -> mls_new n = None /\ mls_new_with_seed n seed = None).
Proof.
  split.
  - intros Hn. destruct (mls_new n) as [[n1 s1]|] eqn:E1.
    2: { unfold mls_new in E1. destruct (N.leb_spec 1 n), (N.leb_spec n 31); try lia; discriminate. }
    destruct (mls_new_with_seed n seed) as [[n2 s2]|] eqn:E2.
    2: { unfold mls_new_with_seed in E2. destruct (N.leb_spec 1 n), (N.leb_spec n 31); try lia; discriminate. }
    destruct (mls_new_range _ _ E1) as (F1 & _ & H1). destruct (mls_new_with_seed_range _ _ _ E2) as (F2 & _ & H2).
    cbn [fst snd] in *. subst. exists s1, s2. rewrite !range_len. auto.
  - intros Hn. unfold mls_new, mls_new_with_seed.
    destruct (N.leb_spec 1 n), (N.leb_spec n 31); cbn [andb]; auto; exfalso; lia.
Qed.

Lemma mult_conv n k : (exists j, k = (j * N.to_nat (mls_length n))%nat) <-> exists j, N.of_nat k = j * (2 ^ n - 1).
Proof.
  unfold mls_length. split; intros [j Hj].
  - exists (N.of_nat j). lia.
  - exists (N.to_nat j). apply Nat2N.inj. rewrite Nat2N.inj_mul, !N2Nat.id. exact Hj.
Qed.

Lemma mls_full_period n s : 1 <= n <= 31 -> 1 <= s < 2 ^ n ->
  (forall k, 1 <= mls_iter n k s < 2 ^ n) /\
  (forall k, mls_iter n k s = s <-> exists j, N.of_nat k = j * (2 ^ n - 1)) /\
  (forall x, 1 <= x < 2 ^ n -> exists k, N.of_nat k < 2 ^ n - 1 /\ mls_iter n k s = x).
Proof.
  intros Hn Hs. apply range_len in Hs. repeat split.
  - apply (mls_iter_range n k s Hn Hs).
  - apply range_len, (mls_iter_range n k s Hn Hs).
  - intros H. apply mult_conv, (mls_period n s k Hn Hs), H.
  - intros H. apply (mls_period n s k Hn Hs), mult_conv, H.
  - intros x Hx. apply range_len in Hx. destruct (mls_visits_all n s x Hn Hs Hx) as (k & Hk & E).
    exists k. split; auto. unfold mls_length in Hk. lia.
Qed.

Lemma mls_output_period_N n s p : 1 <= n <= 31 -> 1 <= s < 2 ^ n ->
  ((forall k, mls_value n (mls_iter n (k + p) s) = mls_value n (mls_iter n k s)) <->
   exists j, N.of_nat p = j * (2 ^ n - 1)).
Proof.
  intros Hn Hs. apply range_len in Hs. rewrite (mls_output_period n s p Hn Hs). apply mult_conv.
Qed.
