From Verif Require Import HashModel.
Open Scope N_scope.

(* f restricted to w-bit words is a permutation *)
Definition word (w x : N) : Prop := x < 2 ^ w.
Definition inj_on (w : N) (f : N -> N) := forall x y, word w x -> word w y -> f x = f y -> x = y.
Definition into (w : N) (f : N -> N) := forall x, word w x -> word w (f x).

Lemma pow2_pos w : 0 < 2 ^ w.
Proof. assert (2 ^ w <> 0) by (apply N.pow_nonzero; lia). lia. Qed.

Lemma word_bits w x : word w x <-> (forall i, w <= i -> N.testbit x i = false).
Proof.
  unfold word. split.
  - intros H i Hi. destruct (N.eq_dec x 0) as [->|]; [apply N.bits_0|].
    apply N.bits_above_log2. apply N.lt_le_trans with w; auto. apply N.log2_lt_pow2; lia.
  - intros H. pose proof (pow2_pos w). replace x with (x mod 2 ^ w); [apply N.mod_lt; lia|].
    apply N.bits_inj; intros i. destruct (N.lt_ge_cases i w).
    + now rewrite N.mod_pow2_bits_low.
    + rewrite N.mod_pow2_bits_high by auto. symmetry; auto.
Qed.

Lemma word_lxor w a b : word w a -> word w b -> word w (N.lxor a b).
Proof. rewrite !word_bits. intros Ha Hb i Hi. rewrite N.lxor_spec, Ha, Hb; auto. Qed.
Lemma word_shiftr w a k : word w a -> word w (N.shiftr a k).
Proof. rewrite !word_bits. intros Ha i Hi. rewrite N.shiftr_spec'. apply Ha. lia. Qed.

Lemma xsr_into w k : into w (xsr k).
Proof. intros x Hx. apply word_lxor, word_shiftr; auto. Qed.

Lemma lxor_eq_0 a b : N.lxor a b = 0 -> a = b.
Proof. apply N.lxor_eq. Qed.

Lemma xsr_inj k x y : 0 < k -> xsr k x = xsr k y -> x = y.
Proof.
  intros Hk H. unfold xsr in H. set (d := N.lxor x y).
  assert (Hd : d = N.shiftr d k).
  { unfold d. rewrite N.shiftr_lxor. apply N.bits_inj; intros i.
    apply (f_equal (fun z => N.testbit z i)) in H. rewrite !N.lxor_spec in *.
    destruct (N.testbit x i), (N.testbit y i), (N.testbit (N.shiftr x k) i), (N.testbit (N.shiftr y k) i);
      cbn in *; congruence. }
  apply lxor_eq_0. fold d. rewrite N.shiftr_div_pow2 in Hd.
  destruct (N.eq_dec d 0); auto. exfalso.
  assert (2 ^ 1 <= 2 ^ k) by (apply N.pow_le_mono_r; lia). change (2 ^ 1) with 2 in *.
  assert (d / 2 ^ k < d) by (apply N.div_lt; lia). lia.
Qed.

Lemma wmul_into w c : into w (fun x => wmul w x c).
Proof. intros x _. apply N.mod_lt, N.pow_nonzero. lia. Qed.

Lemma wmul_inv w c c' x : word w x -> (c * c') mod 2 ^ w = 1 mod 2 ^ w -> wmul w (wmul w x c) c' = x.
Proof.
  unfold wmul, word. intros Hx Hc. pose proof (pow2_pos w).
  rewrite N.mul_mod_idemp_l by lia. rewrite <- N.mul_assoc, <- N.mul_mod_idemp_r, Hc, N.mul_mod_idemp_r by lia.
  rewrite N.mul_1_r. apply N.mod_small; auto.
Qed.

Lemma wmul_inj w c c' : (c * c') mod 2 ^ w = 1 mod 2 ^ w -> inj_on w (fun x => wmul w x c).
Proof.
  intros Hc x y Hx Hy H. rewrite <- (wmul_inv w c c' x Hx Hc), <- (wmul_inv w c c' y Hy Hc). now f_equal.
Qed.

Lemma inj_comp w f g : inj_on w f -> inj_on w g -> into w f -> inj_on w (fun x => g (f x)).
Proof. intros Hf Hg If x y Hx Hy H. apply Hf; auto. Qed.
Lemma into_comp w f g : into w f -> into w g -> into w (fun x => g (f x)).
Proof. intros Hf Hg x Hx. auto. Qed.

Lemma lxor_const_into w c : word w c -> into w (fun x => N.lxor x c).
Proof. intros Hc x Hx. apply word_lxor; auto. Qed.
Lemma lxor_const_inj w c : inj_on w (fun x => N.lxor x c).
Proof.
  intros x y _ _ H. apply (f_equal (fun z => N.lxor z c)) in H.
  now rewrite !N.lxor_assoc, !N.lxor_nilpotent, !N.lxor_0_r in H.
Qed.

(* pigeonhole: injective on words implies surjective on words *)
Lemma inj_surj w f : into w f -> inj_on w f -> forall y, word w y -> exists x, word w x /\ f x = y.
Proof.
  intros Hi Hj y Hy. set (n := N.to_nat (2 ^ w)).
  set (l := map (fun k => N.to_nat (f (N.of_nat k))) (seq 0 n)).
  assert (Hw : forall k, In k (seq 0 n) -> word w (N.of_nat k)).
  { intros k Hk. apply in_seq in Hk. unfold word, n in *. lia. }
  assert (Hnd : NoDup l).
  { unfold l. assert (G : forall c, NoDup c -> incl c (seq 0 n) ->
      NoDup (map (fun k => N.to_nat (f (N.of_nat k))) c)).
    { induction c as [|a c IH]; intros Hc Hb; cbn [map]; constructor.
      - intros Hin. apply in_map_iff in Hin as (k & Ek & Hk). inversion Hc; subst.
        apply N2Nat.inj in Ek. apply Hj in Ek; [|apply Hw, Hb; now right|apply Hw, Hb; now left].
        apply Nat2N.inj in Ek. subst; contradiction.
      - inversion Hc; subst. apply IH; auto. intros z Hz; apply Hb; now right. }
    apply G; [apply seq_NoDup|apply incl_refl]. }
  assert (Hin : In (N.to_nat y) l).
  { apply (NoDup_length_incl Hnd (l' := seq 0 n)).
    - unfold l. rewrite map_length, !seq_length. lia.
    - intros z Hz. unfold l in Hz. apply in_map_iff in Hz as (k & <- & Hk).
      apply in_seq. specialize (Hi _ (Hw k Hk)). unfold word, n in *. lia.
    - apply in_seq. unfold word, n in *. lia. }
  unfold l in Hin. apply in_map_iff in Hin as (k & Ek & Hk).
  exists (N.of_nat k). split; auto. apply N2Nat.inj; auto.
Qed.

Lemma xsr_inj_on w k : 0 < k -> inj_on w (xsr k).
Proof. intros Hk x y _ _. apply xsr_inj; auto. Qed.

Lemma wmul_word w x c : word w (wmul w x c).
Proof. apply N.mod_lt, N.pow_nonzero. lia. Qed.
#[local] Hint Resolve wmul_word : wd.
Lemma xsr_word w k x : word w x -> word w (xsr k x).
Proof. apply xsr_into. Qed.
#[local] Hint Resolve xsr_word : wd.
Lemma lxor_c64 x : word 64 x -> word 64 (N.lxor x 0x5555555555555555).
Proof. intros. apply word_lxor; auto. reflexivity. Qed.
#[local] Hint Resolve lxor_c64 : wd.

(* peel one multiplication with known inverse c' *)
Ltac peel_mul c' H :=
  match type of H with wmul ?w _ ?c = _ =>
    apply (wmul_inj w c c' ltac:(vm_compute; reflexivity)) in H; [|auto with wd|auto with wd] end.
Ltac peel_xsr H := apply xsr_inj in H; [|lia].

Lemma hash1_into : into 64 hash1.
Proof. intros x Hx. unfold hash1; cbv zeta. auto with wd. Qed.
Lemma hash1_inj : inj_on 64 hash1.
Proof.
  intros x y Hx Hy H. unfold hash1 in H; cbv zeta in H.
  peel_xsr H. peel_mul 14982988110149298331 H. peel_xsr H. peel_mul 14982988110149298331 H.
  peel_xsr H. peel_mul 2323857671730065597 H. eapply lxor_const_inj; eauto.
Qed.

Lemma rnd1_int_into : into 64 rnd1_int.
Proof. intros x Hx. unfold rnd1_int; cbv zeta. auto with wd. Qed.
Lemma rnd1_int_inj : inj_on 64 rnd1_int.
Proof.
  intros x y Hx Hy H. unfold rnd1_int in H; cbv zeta in H.
  peel_xsr H. peel_mul 3573116690164977347 H. peel_xsr H. peel_mul 10871156337175269513 H.
  peel_xsr H. peel_mul 17428512612931826493 H. eapply lxor_const_inj; eauto.
Qed.

Lemma hash32x_into : into 32 hash32x.
Proof. intros x Hx. unfold hash32x; cbv zeta. auto with wd. Qed.
Lemma hash32x_inj : inj_on 32 hash32x.
Proof.
  intros x y Hx Hy H. unfold hash32x, MUL_X in H; cbv zeta in H.
  peel_mul 295559667 H. peel_xsr H. peel_mul 295559667 H. peel_xsr H. peel_mul 295559667 H. peel_xsr H. exact H.
Qed.

Lemma rnd1_num_bound x : word 64 x -> rnd1_num x < 2 ^ 53.
Proof.
  intros Hx. unfold rnd1_num. rewrite N.shiftr_div_pow2. apply N.div_lt_upper_bound; [discriminate|].
  change (2 ^ 11 * 2 ^ 53) with (2 ^ 64). apply rnd1_int_into; auto.
Qed.

(* every multiple of 2^-53 in [0,1) is produced *)
Lemma rnd1_num_surj k : k < 2 ^ 53 -> exists x, word 64 x /\ rnd1_num x = k.
Proof.
  intros Hk. destruct (inj_surj 64 rnd1_int rnd1_int_into rnd1_int_inj (N.shiftl k 11)) as (x & Hx & E).
  - unfold word. rewrite N.shiftl_mul_pow2. change (2 ^ 64) with (2 ^ 53 * 2 ^ 11). apply N.mul_lt_mono_pos_r; auto. reflexivity.
  - exists x; split; auto. unfold rnd1_num. rewrite E. rewrite N.shiftr_shiftl_l by lia. now rewrite N.shiftl_0_r.
Qed.

Lemma rotl5_testbit x i : word 64 x ->
  N.testbit (rotl5 x) i = if i <? 5 then N.testbit x (i + 59) else if i <? 64 then N.testbit x (i - 5) else false.
Proof.
  intros Hx. unfold rotl5. rewrite N.lor_spec, N.shiftr_spec'.
  destruct (N.ltb_spec i 5).
  - rewrite N.mod_pow2_bits_low, N.shiftl_spec_low by lia. reflexivity.
  - rewrite (proj1 (word_bits 64 x) Hx (i + 59)) by lia. rewrite orb_false_r.
    destruct (N.ltb_spec i 64).
    + rewrite N.mod_pow2_bits_low, N.shiftl_spec_high' by lia. reflexivity.
    + apply N.mod_pow2_bits_high; lia.
Qed.
Lemma rotl5_into : into 64 rotl5.
Proof.
  intros x Hx. apply word_bits. intros i Hi. rewrite rotl5_testbit by auto.
  destruct (N.ltb_spec i 5); [lia|]. destruct (N.ltb_spec i 64); [lia|reflexivity].
Qed.
Lemma rotl5_inj : inj_on 64 rotl5.
Proof.
  intros x y Hx Hy H. apply N.bits_inj; intros i.
  destruct (N.lt_ge_cases i 59) as [Hi|Hi].
  - apply (f_equal (fun z => N.testbit z (i + 5))) in H. rewrite !rotl5_testbit in H by auto.
    destruct (N.ltb_spec (i + 5) 5); [lia|]. destruct (N.ltb_spec (i + 5) 64); [|lia].
    now replace (i + 5 - 5) with i in H by lia.
  - destruct (N.lt_ge_cases i 64) as [Hi2|Hi2].
    + apply (f_equal (fun z => N.testbit z (i - 59))) in H. rewrite !rotl5_testbit in H by auto.
      destruct (N.ltb_spec (i - 59) 5); [|lia]. now replace (i - 59 + 59) with i in H by lia.
    + rewrite (proj1 (word_bits 64 x) Hx i), (proj1 (word_bits 64 y) Hy i); auto.
Qed.

Lemma atto_word s d : word 64 (atto_hash s d).
Proof. apply wmul_word. Qed.
Lemma atto_inj_data s a b : word 64 s -> word 64 a -> word 64 b -> atto_hash s a = atto_hash s b -> a = b.
Proof.
  intros Hs Ha Hb H. unfold atto_hash in H.
  apply (wmul_inj 64 0x517cc1b727220a95 2323857671730065597 ltac:(vm_compute; reflexivity)) in H;
    [|apply word_lxor; auto using rotl5_into ..].
  apply (f_equal (N.lxor (rotl5 s))) in H.
  now rewrite <- !N.lxor_assoc, !N.lxor_nilpotent, !N.lxor_0_l in H.
Qed.
Lemma atto_inj_state s t a : word 64 s -> word 64 t -> word 64 a -> atto_hash s a = atto_hash t a -> s = t.
Proof.
  intros Hs Ht Ha H. unfold atto_hash in H.
  apply (wmul_inj 64 0x517cc1b727220a95 2323857671730065597 ltac:(vm_compute; reflexivity)) in H;
    [|apply word_lxor; auto using rotl5_into ..].
  apply rotl5_inj; auto. eapply (lxor_const_inj 64); eauto; apply rotl5_into; auto.
Qed.

(* two data sequences of equal length hashed from the same seed agree in all intermediate states only if equal *)
Lemma atto_inj_trace xs : forall ys s, word 64 s -> Forall (word 64) xs -> Forall (word 64) ys ->
  length xs = length ys ->
  (forall k, fold_left atto_hash (firstn k xs) s = fold_left atto_hash (firstn k ys) s) -> xs = ys.
Proof.
  induction xs as [|x xs IH]; intros [|y ys] s Hs Hx Hy Hl H; cbn in Hl; try discriminate; auto.
  inversion Hx; inversion Hy; subst.
  assert (x = y) by (apply (atto_inj_data s); auto; exact (H 1%nat)). subst. f_equal.
  apply (IH ys (atto_hash s y)); auto using atto_word.
  intros k. exact (H (S k)).
Qed.

(* ---------- noise ---------- *)
Section NoiseProofs.
  Context {A : Type}.
  Variable conv : N -> A.
  Let sample (state : N) (i : nat) : A := conv (N.shiftr (hash32x (wadd 32 state (N.of_nat i + 1))) 8).

  Lemma wadd_wadd w a b c : wadd w (wadd w a b) c = wadd w a (b + c).
  Proof. unfold wadd. rewrite N.add_mod_idemp_l by (apply N.pow_nonzero; lia). f_equal. lia. Qed.

  Fixpoint noise_ticks (n : nat) (state : N) : N * list A :=
    match n with
    | O => (state, [])
    | S n' => let '(s, x) := noise_tick conv state in let '(s', xs) := noise_ticks n' s in (s', x :: xs)
    end.

  Lemma noise_ticks_spec n state : state < 2 ^ 32 ->
    noise_ticks n state = (wadd 32 state (N.of_nat n), map (sample state) (seq 0 n)).
  Proof.
    revert state; induction n as [|n IH]; intros state Hs; cbn [noise_ticks].
    - f_equal. unfold wadd. cbn. rewrite N.add_0_r. symmetry. apply N.mod_small; auto.
    - unfold noise_tick; cbv zeta. rewrite IH by (apply N.mod_lt; discriminate). rewrite wadd_wadd.
      f_equal; [f_equal; lia|]. cbn [seq map]. f_equal. rewrite <- seq_shift, map_map.
      apply map_ext. intros i. unfold sample. rewrite wadd_wadd. do 4 f_equal. lia.
  Qed.

  Lemma noise_word_nth lanes : forall pos out j d, (pos + length lanes <= length out)%nat ->
    nth j (noise_word conv lanes pos out) d =
    if (Nat.leb pos j && Nat.ltb j (pos + length lanes))%nat
    then conv (N.shiftr (hash32x (nth (j - pos) lanes 0)) 8) else nth j out d.
  Proof.
    induction lanes as [|s r IH]; intros pos out j d H; cbn [noise_word length] in *.
    - destruct (Nat.leb_spec pos j), (Nat.ltb_spec j (pos + 0)); cbn; auto; lia.
    - rewrite IH by (rewrite length_upd; lia). rewrite nth_upd.
      destruct (Nat.leb_spec (S pos) j), (Nat.ltb_spec j (S pos + length r)),
        (Nat.leb_spec pos j), (Nat.ltb_spec j (pos + S (length r))), (Nat.eqb_spec pos j),
        (Nat.ltb_spec pos (length out)); cbn [andb]; try lia; auto.
      + replace (j - pos)%nat with (S (j - S pos)) by lia. reflexivity.
      + subst. now rewrite Nat.sub_diag.
  Qed.
  Lemma length_noise_word lanes pos out : length (noise_word conv lanes pos out) = length out.
  Proof. revert pos out; induction lanes; intros; cbn [noise_word]; auto. rewrite IHlanes. apply length_upd. Qed.

  Let lanes (state : N) (i : nat) := map (fun j => wadd 32 state (N.of_nat (8 * i + j) + 1)) (seq 0 8).

  Lemma noise_words_nth state d k : forall i out j, (8 * (i + k) <= length out)%nat ->
    nth j (noise_words conv k i (lanes state i) out) d =
    if (Nat.leb (8 * i) j && Nat.ltb j (8 * (i + k)))%nat then sample state j else nth j out d.
  Proof.
    induction k as [|k IH]; intros i out j H; cbn [noise_words].
    - destruct (Nat.leb_spec (8 * i) j), (Nat.ltb_spec j (8 * (i + 0))); cbn [andb]; auto; lia.
    - assert (El : map (fun s => wadd 32 s 8) (lanes state i) = lanes state (S i)).
      { unfold lanes. rewrite map_map. apply map_ext. intros a. rewrite wadd_wadd. f_equal. lia. }
      rewrite El, IH by (rewrite length_noise_word; lia).
      assert (L8 : length (lanes state i) = 8%nat) by reflexivity.
      rewrite noise_word_nth by (rewrite L8; lia). rewrite L8.
      destruct (Nat.leb_spec (8 * S i) j), (Nat.ltb_spec j (8 * (S i + k))), (Nat.leb_spec (8 * i) j),
        (Nat.ltb_spec j (8 * i + 8)), (Nat.ltb_spec j (8 * (i + S k))); cbn [andb]; try lia; auto.
      unfold sample, lanes.
      rewrite nth_map_seq by lia. do 4 f_equal. lia.
  Qed.
  Lemma length_noise_words k : forall i l out, length (noise_words conv k i l out) = length out.
  Proof. induction k; intros; cbn [noise_words]; auto. rewrite IHk. apply length_noise_word. Qed.

  Lemma noise_block size state out : (size <= 64)%nat -> length out = 64%nat -> state < 2 ^ 32 ->
    fst (noise_process conv size state out) = fst (noise_ticks size state) /\
    firstn size (snd (noise_process conv size state out)) = snd (noise_ticks size state).
  Proof.
    intros Hs Ho Hst. rewrite noise_ticks_spec by auto. cbn [fst snd]. split; auto.
    unfold noise_process; cbv zeta; cbn [snd].
    change (map _ (seq 0 8)) with (lanes state 0) at 1.
    assert (Hi : (size <= 8 * simd_items size <= 64)%nat).
    { unfold simd_items. pose proof (Nat.div_mod_eq (size + 7) 8).
      pose proof (Nat.mod_upper_bound (size + 7) 8 ltac:(lia)). lia. }
    apply (nth_ext_len _ _ (conv 0)).
    - rewrite firstn_length, length_noise_words, map_length, seq_length. lia.
    - intros j Hj. rewrite firstn_length, length_noise_words in Hj.
      rewrite nth_map_seq by lia. rewrite nth_firstn_lt by lia.
      rewrite noise_words_nth by lia.
      destruct (Nat.leb_spec (8 * 0) j), (Nat.ltb_spec j (8 * (0 + simd_items size))); cbn [andb]; auto; lia.
  Qed.
End NoiseProofs.

Lemma noise_24bit s : N.shiftr (hash32x s) 8 < 2 ^ 24.
Proof.
  rewrite N.shiftr_div_pow2. apply N.div_lt_upper_bound; [discriminate|].
  change (2 ^ 8 * 2 ^ 24) with (2 ^ 32). unfold hash32x; cbv zeta. apply wmul_word.
Qed.

Section NoiseRender.
  Context {A : Type}.
  Variable conv : N -> A.
  (* render blocks of the given sizes, each into a channel with arbitrary previous contents *)
  Fixpoint noise_render (blocks : list (nat * list A)) (state : N) : N * list A :=
    match blocks with
    | [] => (state, [])
    | (size, out) :: r =>
        let '(s1, o1) := noise_process conv size state out in
        let '(s2, xs) := noise_render r s1 in (s2, firstn size o1 ++ xs)
    end.

  Lemma noise_ticks_app a b state :
    noise_ticks conv (a + b) state =
    (let '(s1, x1) := noise_ticks conv a state in let '(s2, x2) := noise_ticks conv b s1 in (s2, x1 ++ x2)).
  Proof.
    revert state; induction a as [|a IH]; intros state; cbn [Nat.add noise_ticks].
    - now destruct (noise_ticks conv b state).
    - destruct (noise_tick conv state) as [s x]. rewrite IH.
      destruct (noise_ticks conv a s) as [s1 x1]. destruct (noise_ticks conv b s1) as [s2 x2]. reflexivity.
  Qed.

  Lemma noise_render_ticks blocks : forall state, state < 2 ^ 32 ->
    Forall (fun b => (fst b <= 64)%nat /\ length (snd b) = 64%nat) blocks ->
    noise_render blocks state = noise_ticks conv (list_sum (map fst blocks)) state.
  Proof.
    induction blocks as [|[size out] r IH]; intros state Hs Hb; cbn [noise_render map list_sum fold_right fst]; auto.
    inversion Hb as [|? ? [H1 H2] H3]; subst. cbn [fst snd] in *.
    destruct (noise_block conv size state out H1 H2 Hs) as [E1 E2].
    destruct (noise_process conv size state out) as [s1 o1] eqn:Ep. cbn [fst snd] in *.
    fold (list_sum (map fst r)). rewrite noise_ticks_app.
    destruct (noise_ticks conv size state) as [s1' x1'] eqn:Et. cbn [fst snd] in *. subst.
    rewrite IH; auto. injection Ep as Ep1 _. rewrite <- Ep1. apply N.mod_lt. discriminate.
  Qed.
End NoiseRender.

Lemma permutation_of_words w f : into w f -> inj_on w f ->
  (forall x, x < 2 ^ w -> f x < 2 ^ w) /\
  (forall x y, x < 2 ^ w -> y < 2 ^ w -> f x = f y -> x = y) /\
  (forall y, y < 2 ^ w -> exists x, x < 2 ^ w /\ f x = y).
Proof. intros Hi Hj. repeat split; auto. intros y Hy. exact (inj_surj w f Hi Hj y Hy). Qed.

(* exact-arithmetic range of the noise sample *)
From Coq Require Import QArith.
Definition noise_value_exact (k : N) : Q := (Z.of_N k # 1) * (2 # (2 ^ 24 - 1)) - 1.
Lemma noise_value_range s : (-(1) <= noise_value_exact (N.shiftr (hash32x s) 8) <= 1)%Q.
Proof.
  pose proof (noise_24bit s) as H. set (k := N.shiftr (hash32x s) 8) in *.
  change (2 ^ 24)%N with 16777216%N in H.
  unfold noise_value_exact, Qle, Qminus, Qplus, Qmult, Qopp; cbn [Qnum Qden].
  change (2 ^ 24 - 1)%positive with 16777215%positive. lia.
Qed.
