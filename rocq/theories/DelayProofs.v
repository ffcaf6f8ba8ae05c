(* Proofs about delay lines. *)
From Coq Require Import ZArith Lia.
From Verif Require Export DelaySpec UnitProofs.

Section Ring.
  Context {A : Type}.
  Variable zero : A.
  (* a ring buffer of length L, to be written next at i, holds the history: the latest sample first *)
  Definition holds (L : nat) (buf : list A) (i : nat) (hist : list A) : Prop :=
    length buf = L /\ i < L /\ forall j, j < L -> nth ((i + (L - 1 - j)) mod L) buf zero = nth j hist zero.
  Lemma holds_new L : 0 < L -> holds L (repeat zero L) 0 [].
  Proof. intros H. split; [apply repeat_length|]. split; [exact H|]. intros j Hj. rewrite nth_repeat. now destruct j. Qed.
  Lemma ring_prev L i : i < L -> ((i + 1) mod L + (L - 1)) mod L = i.
  Proof. intros H. rewrite Nat.add_mod_idemp_l by lia. replace (i + 1 + (L - 1)) with (i + 1 * L) by lia. rewrite Nat.mod_add by lia. now apply Nat.mod_small. Qed.
  Lemma ring_other L i j : i < L -> S j < L -> ((i + 1) mod L + (L - 1 - S j)) mod L = (i + (L - 1 - j)) mod L.
  Proof. intros H Hj. rewrite Nat.add_mod_idemp_l by lia. f_equal. lia. Qed.
  Lemma ring_distinct L i j : i < L -> S j < L -> (i + (L - 1 - j)) mod L <> i.
  Proof.
    intros H Hj E. destruct (Nat.lt_ge_cases (i + (L - 1 - j)) L) as [G|G].
    - rewrite Nat.mod_small in E by exact G. lia.
    - replace (i + (L - 1 - j)) with (i - 1 - j + 1 * L) in E by lia. rewrite Nat.mod_add in E by lia. rewrite Nat.mod_small in E by lia. lia.
  Qed.
  Lemma holds_write L buf i hist x : holds L buf i hist -> holds L (upd buf i x) ((i + 1) mod L) (x :: hist).
  Proof.
    intros (H1 & H2 & H3). split; [now rewrite length_upd|]. split; [apply Nat.mod_upper_bound; lia|]. intros [|j] Hj.
    - rewrite Nat.sub_0_r. rewrite ring_prev by exact H2. rewrite nth_upd, Nat.eqb_refl by lia. cbn [andb]. destruct (Nat.ltb_spec i (length buf)); [reflexivity|lia].
    - rewrite ring_other by lia. rewrite nth_upd. pose proof (ring_distinct L i j H2 Hj) as D. destruct (Nat.eqb_spec i ((i + (L - 1 - j)) mod L)) as [E|_]; [congruence|]. cbn. apply H3. lia.
  Qed.
  (* reading j samples before the latest, by any index that is right modulo L *)
  Lemma holds_read L buf i hist j q : holds L buf i hist -> j < L -> q < L -> (Z.of_nat q mod Z.of_nat L = (Z.of_nat i - 1 - Z.of_nat j) mod Z.of_nat L)%Z -> nth q buf zero = nth j hist zero.
  Proof.
    intros (H1 & H2 & H3) Hj Hq E. rewrite <- (H3 j Hj). f_equal. apply Nat2Z.inj. rewrite <- (Z.mod_small (Z.of_nat q) (Z.of_nat L)) by lia. rewrite E.
    rewrite Nat2Z.inj_mod. replace (Z.of_nat (i + (L - 1 - j))) with (Z.of_nat i - 1 - Z.of_nat j + 1 * Z.of_nat L)%Z by lia. rewrite Z.mod_add by lia. reflexivity.
  Qed.
  Lemma holds_tail L buf i x hist : holds L buf i (x :: hist) -> nth ((i + (L - 1)) mod L) buf zero = x.
  Proof. intros (H1 & H2 & H3). specialize (H3 0 ltac:(lia)). now rewrite Nat.sub_0_r in H3. Qed.
End Ring.

(* ---- the fixed delays ---- *)
Section Fixed.
  Context {A : Type}.
  Variable zero : A.
  Lemma delay_tick_ok L s hist x : holds zero L (l_buf s) (l_i s) hist ->
    let (s', o) := delay_tick zero s [x] in holds zero L (l_buf s') (l_i s') (x :: hist) /\ o = [nth (L - 1) (x :: hist) zero].
  Proof.
    intros H. pose proof (holds_write zero L _ _ _ x H) as W. destruct H as (H1 & H2 & H3). unfold delay_tick. cbn [nth]. rewrite length_upd, H1.
    assert (E : (if Nat.leb L (S (l_i s)) then 0 else S (l_i s)) = (l_i s + 1) mod L).
    { destruct (Nat.leb_spec L (S (l_i s))) as [G|G]; [replace (l_i s + 1) with L by lia; now rewrite Nat.mod_same by lia|rewrite Nat.mod_small; lia]. }
    rewrite E. cbn [l_buf l_i]. split; [exact W|]. f_equal. destruct W as (W1 & W2 & W3). specialize (W3 (L - 1) ltac:(lia)). replace (L - 1 - (L - 1)) with 0 in W3 by lia. rewrite Nat.add_0_r, Nat.mod_mod in W3 by lia. exact W3.
  Qed.
  Lemma delay_ticks_ok L xs : forall s hist, holds zero L (l_buf s) (l_i s) hist ->
    let r := ticks (delay_tick zero) s (map (fun x => [x]) xs) in
    holds zero L (l_buf (fst r)) (l_i (fst r)) (rev xs ++ hist) /\ snd r = map (fun k => [nth (L - 1) (rev (firstn (S k) xs) ++ hist) zero]) (seq 0 (length xs)).
  Proof.
    induction xs as [|x xs IH]; intros s hist H; cbn [map ticks length seq rev app fst snd]; [auto|].
    pose proof (delay_tick_ok L s hist x H) as T. destruct (delay_tick zero s [x]) as [s1 o]. destruct T as [T1 T2]. specialize (IH s1 (x :: hist) T1). cbv zeta in IH. destruct (ticks (delay_tick zero) s1 (map (fun x => [x]) xs)) as [s2 os]. cbn [fst snd] in *. destruct IH as [I1 I2].
    split; [rewrite <- app_assoc; exact I1|]. subst o os. f_equal. rewrite <- (seq_shift (length xs) 0), map_map. apply map_ext. intros k. cbn [firstn rev]. now rewrite <- app_assoc.
  Qed.
  Lemma nth_rev_firstn (xs : list A) k j : k < length xs -> nth j (rev (firstn (S k) xs) ++ []) zero = ago zero xs k j.
  Proof.
    intros H. rewrite app_nil_r. unfold ago. assert (E : length (firstn (S k) xs) = S k) by (rewrite firstn_length; lia). destruct (Nat.leb_spec j k) as [G|G].
    - rewrite rev_nth by lia. rewrite E. rewrite nth_firstn_lt by lia. now replace (S k - S j) with (k - j) by lia.
    - apply nth_overflow. rewrite rev_length. lia.
  Qed.
  Lemma delayed_nth n (xs : list A) k : k < length xs -> nth k (delayed zero n xs) zero = ago zero xs k n.
  Proof.
    intros H. unfold delayed, ago. rewrite nth_firstn_lt by exact H. destruct (Nat.leb_spec n k).
    - rewrite app_nth2; rewrite repeat_length; [reflexivity|lia].
    - rewrite app_nth1 by (rewrite repeat_length; lia). apply nth_repeat.
  Qed.
  Lemma delayed_length n (xs : list A) : length (delayed zero n xs) = length xs.
  Proof. unfold delayed. rewrite firstn_length, app_length, repeat_length. lia. Qed.
  Lemma delay_exact n (xs : list A) : snd (ticks (delay_tick zero) (line_new zero (n + 1)) (map (fun x => [x]) xs)) = map (fun x => [x]) (delayed zero n xs).
  Proof.
    destruct (delay_ticks_ok (n + 1) xs (line_new zero (n + 1)) [] (holds_new zero (n + 1) ltac:(lia))) as [_ E]. rewrite E.
    apply (nth_ext _ _ [] []); [now rewrite !map_length, seq_length, delayed_length|]. intros k Hk. rewrite map_length, seq_length in Hk.
    rewrite nth_map_seq by exact Hk. rewrite nth_rev_firstn by exact Hk. change [] with ((fun x : A => @nil A) zero) at 2.
    rewrite (nth_indep _ _ [zero]) by now rewrite map_length, delayed_length. rewrite (map_nth (fun x => [x])). rewrite delayed_nth by exact Hk. do 2 f_equal. lia.
  Qed.
  Lemma tick1_exact n (ins : list (list A)) : snd (ticks tick1 (tick1_new zero n) ins) = firstn (length ins) (repeat zero n :: ins).
  Proof.
    unfold tick1_new. generalize (repeat zero n) as s. induction ins as [|i ins IH]; intros s; [reflexivity|]. cbn [ticks tick1 length]. specialize (IH i). destruct (ticks tick1 i ins) as [s' os]. cbn [snd] in *. subst os. reflexivity.
  Qed.
  (* the buffer keeps its length, whatever the input *)
  Lemma delay_tick_len s i : length (l_buf (fst (delay_tick zero s i))) = length (l_buf s).
  Proof. unfold delay_tick. cbn. apply length_upd. Qed.
End Fixed.

(* ---- taps ---- *)
Lemma next_pow2_spec n : exists k, next_pow2 n = 2 ^ k /\ n <= next_pow2 n /\ 0 < next_pow2 n.
Proof.
  exists (Nat.log2_up n). split; [reflexivity|]. unfold next_pow2. split; [|apply Nat.neq_0_lt_0; apply Nat.pow_nonzero; lia].
  destruct (Nat.le_gt_cases n 1) as [H|H]; [pose proof (Nat.pow_nonzero 2 (Nat.log2_up n) ltac:(lia)); lia|]. apply Nat.log2_up_spec. lia.
Qed.
Lemma wrapi_mod L k z : L = 2 ^ k -> wrapi L z = Z.to_nat (z mod Z.of_nat L).
Proof.
  intros ->. unfold wrapi. f_equal. rewrite Nat2Z.inj_pow. change (Z.of_nat 2) with 2%Z. rewrite <- Z.land_ones by lia. f_equal. rewrite Z.ones_equiv. lia.
Qed.
Lemma mask_mod L k i : L = 2 ^ k -> mask_i L i = i mod L.
Proof. intros ->. unfold mask_i. rewrite <- Nat.land_ones. f_equal. rewrite Nat.ones_equiv. lia. Qed.

Section Taps.
  Context {F : Type}.
  Variable nm : num F.
  Notation zero := (n0 nm).
  Variables (at_ : list F -> Z -> F -> F) (interp : (nat -> F) -> F -> F) (L K : nat).
  Hypothesis pow : L = 2 ^ K.
  (* the tap reads the history, up to M samples after the sample it reads for *)
  Variable M : nat.
  Hypothesis reads : forall buf i hist m z dl, holds zero L buf i hist -> m <= M -> (z mod Z.of_nat L = (Z.of_nat i - 1 - Z.of_nat m) mod Z.of_nat L)%Z ->
    at_ buf z dl = interp (fun j => nth (m + j) hist zero) dl.
  Hypothesis interp_ext : forall f g dl, (forall j, f j = g j) -> interp f dl = interp g dl.

  Definition out_of (hist : list F) (dls : list F) : F := fold_left (fun a dl => nadd nm a (interp (fun j => nth j hist zero) dl)) dls zero.
  Lemma fold_ext {X Y} (f g : X -> Y -> X) l : (forall a b, f a b = g a b) -> forall x, fold_left f l x = fold_left g l x.
  Proof. intros H. induction l as [|y l IH]; intros x; cbn; [reflexivity|]. now rewrite H, IH. Qed.
  Lemma Lpos : 0 < L. Proof. subst L. apply Nat.neq_0_lt_0, Nat.pow_nonzero. lia. Qed.
  Lemma write_holds s hist x : holds zero L (l_buf s) (l_i s) hist -> holds zero L (l_buf (write s x)) (l_i (write s x)) (x :: hist).
  Proof.
    intros H. unfold write. cbn [l_buf l_i]. destruct H as (H1 & H2 & H3). rewrite H1. rewrite (wrapi_mod L K) by exact pow.
    replace (Z.to_nat ((Z.of_nat (l_i s) + 1) mod Z.of_nat L)) with ((l_i s + 1) mod L); [apply holds_write; repeat split; auto|].
    apply Nat2Z.inj. rewrite Nat2Z.inj_mod, Nat2Z.inj_add. rewrite Z2Nat.id; [reflexivity|]. apply Z.mod_pos_bound. pose proof Lpos. lia.
  Qed.
  Lemma sum_taps_ok buf i hist m z dls : holds zero L buf i hist -> m <= M -> (z mod Z.of_nat L = (Z.of_nat i - 1 - Z.of_nat m) mod Z.of_nat L)%Z ->
    sum_taps nm at_ buf z dls = out_of (skipn m hist) dls.
  Proof.
    intros H Hm Hz. unfold sum_taps, out_of. apply fold_ext. intros a dl. f_equal. rewrite (reads buf i hist m z dl H Hm Hz). apply interp_ext. intros j. now rewrite nth_skipn_add.
  Qed.
  Definition taps_inv (s : line F) (hist : list F) : Prop := holds zero L (l_buf s) (l_i s) hist.
  Lemma taps_tick_ok s hist i : taps_inv s hist -> taps_inv (fst (taps_tick nm at_ s i)) (nth 0 i zero :: hist) /\ snd (taps_tick nm at_ s i) = [out_of (nth 0 i zero :: hist) (tl i)].
  Proof.
    intros H. unfold taps_tick. cbn [fst snd]. pose proof (write_holds s hist (nth 0 i zero) H) as W. split; [exact W|]. f_equal.
    rewrite (sum_taps_ok _ _ _ 0 _ _ W); [reflexivity|lia|]. cbn [write l_i l_buf]. destruct H as (H1 & H2 & _). rewrite H1, (wrapi_mod L K) by exact pow.
    pose proof Lpos as HL. rewrite Z2Nat.id by (apply Z.mod_pos_bound; lia). rewrite Z.sub_0_r. rewrite Zminus_mod_idemp_l. f_equal. lia.
  Qed.
  (* the outputs of ticks over a history *)
  Fixpoint outs_of (hist : list F) (ins : list (list F)) : list (list F) :=
    match ins with [] => [] | i :: r => let h := nth 0 i zero :: hist in [out_of h (tl i)] :: outs_of h r end.
  Definition push_all (hist : list F) (ins : list (list F)) : list F := rev (map (fun i => nth 0 i zero) ins) ++ hist.
  Lemma taps_ticks_ok ins : forall s hist, taps_inv s hist ->
    taps_inv (fst (ticks (taps_tick nm at_) s ins)) (push_all hist ins) /\ snd (ticks (taps_tick nm at_) s ins) = outs_of hist ins.
  Proof.
    induction ins as [|i ins IH]; intros s hist H; cbn [ticks outs_of]; [auto|]. destruct (taps_tick_ok s hist i H) as [T1 T2]. destruct (taps_tick nm at_ s i) as [s1 o]. cbn [fst snd] in *.
    destruct (IH s1 _ T1) as [I1 I2]. destruct (ticks (taps_tick nm at_) s1 ins) as [s2 os]. cbn [fst snd] in *. split; [|congruence]. unfold push_all in *. cbn [map rev]. rewrite <- app_assoc. exact I1.
  Qed.
  Lemma outs_of_nth ins : forall hist k, k < length ins ->
    nth k (outs_of hist ins) [] = [out_of (push_all hist (firstn (S k) ins)) (tl (nth k ins []))].
  Proof.
    induction ins as [|i ins IH]; intros hist k Hk; [cbn in Hk; lia|]. destruct k as [|k]; [reflexivity|]. cbn [outs_of nth length] in *. rewrite IH by lia. unfold push_all. cbn [firstn map rev]. now rewrite <- app_assoc.
  Qed.
  Lemma outs_of_length ins : forall hist, length (outs_of hist ins) = length ins.
  Proof. induction ins as [|i ins IH]; intros hist; cbn; [reflexivity|]. now rewrite IH. Qed.
  Lemma taps_stream s ins k : taps_inv s [] -> k < length ins -> nth k (snd (ticks (taps_tick nm at_) s ins)) [] = taps_out nm interp ins k.
  Proof.
    intros H Hk. destruct (taps_ticks_ok ins s [] H) as [_ E]. rewrite E, outs_of_nth by exact Hk. unfold taps_out, out_of. f_equal. apply fold_ext. intros a dl. f_equal. apply interp_ext. intros j.
    unfold push_all. rewrite <- firstn_map. apply nth_rev_firstn. now rewrite map_length.
  Qed.

  (* ---- blocks ---- *)
  Hypothesis HM : 7 <= M.
  Lemma write_all_holds xs : forall s hist, taps_inv s hist -> taps_inv (fold_left write xs s) (rev xs ++ hist).
  Proof. induction xs as [|x xs IH]; intros s hist H; cbn [fold_left rev app]; [exact H|]. rewrite <- app_assoc. apply IH. now apply write_holds. Qed.
  (* outputs are equal to those of the history; states need not be compared: a state is determined up to the history it holds *)
  Lemma ring_ext (s s' : line F) hist : taps_inv s hist -> taps_inv s' hist -> l_i s = l_i s' -> s = s'.
  Proof.
    intros (A1 & A2 & A3) (B1 & B2 & B3) E. destruct s as [b i], s' as [b' i']. cbn [l_buf l_i] in *. subst i'. f_equal. apply (nth_ext _ _ zero zero); [congruence|]. intros q Hq. rewrite A1 in Hq.
    assert (X : forall buf, holds zero L buf i hist -> nth q buf zero = nth ((i + L - 1 - q) mod L) hist zero).
    { intros buf H. pose proof Lpos. apply (holds_read zero L buf i hist); auto; [apply Nat.mod_upper_bound; lia|]. rewrite Nat2Z.inj_mod.
      rewrite Zminus_mod_idemp_r. replace (Z.of_nat i - 1 - Z.of_nat (i + L - 1 - q))%Z with (Z.of_nat q + (-1) * Z.of_nat L)%Z by lia. now rewrite Z.mod_add by lia. }
    rewrite (X b), (X b'); [reflexivity| |]; repeat split; auto.
  Qed.
  Lemma write_i (s : line F) x : length (l_buf s) = L -> l_i (write s x) = (l_i s + 1) mod L.
  Proof.
    intros H1. unfold write. cbn [l_i]. rewrite H1. rewrite (wrapi_mod L K) by exact pow. apply Nat2Z.inj. rewrite Nat2Z.inj_mod, Nat2Z.inj_add. rewrite Z2Nat.id; [reflexivity|]. apply Z.mod_pos_bound. pose proof Lpos. lia.
  Qed.
  Lemma write_ticks ins : forall s, fst (ticks (taps_tick nm at_) s ins) = fold_left write (map (fun i => nth 0 i zero) ins) s.
  Proof. induction ins as [|i ins IH]; intros s; cbn [ticks map fold_left]; [reflexivity|]. cbn [taps_tick]. specialize (IH (write s (nth 0 i zero))). destruct (ticks _ _ ins). cbn in *. exact IH. Qed.
  Lemma taps_len s i : length (snd (taps_tick nm at_ s i)) = 1. Proof. reflexivity. Qed.

  Definition all_set (w : nat) (vals : nat -> list F) (o : list (list F)) : list (list F) := fold_left (fun o k => set_frame o (8 * w + k) (vals k)) (seq 0 8) o.
  Lemma set_range_ok vals w : (forall k, length (vals k) = 1) -> forall ks o, shaped 1 o -> (forall k, In k ks -> 8 * w + k < MAXB) -> NoDup ks ->
    let o' := fold_left (fun o k => set_frame o (8 * w + k) (vals k)) ks o in
    shaped 1 o' /\ (forall k, In k ks -> frame zero o' (8 * w + k) = vals k) /\ (forall j, (forall k, In k ks -> j <> 8 * w + k) -> frame zero o' j = frame zero o j).
  Proof.
    intros Hl. induction ks as [|k ks IH]; intros o Ho Hk Hd; cbn [fold_left]; [split; [exact Ho|]; split; [contradiction|auto]|]. inversion Hd as [|? ? Hn Hd']; subst.
    assert (Ho' : shaped 1 (set_frame o (8 * w + k) (vals k))) by (apply set_frame_shaped; auto).
    destruct (IH _ Ho') as (I1 & I2 & I3); [intros; apply Hk; now right|exact Hd'|]. cbv zeta in *. split; [exact I1|]. split.
    - intros k' [<-|Hk']; [|now apply I2]. rewrite I3.
      + rewrite (frame_set_frame zero 1) by (auto; apply Hk; now left). now rewrite Nat.eqb_refl.
      + intros k' Hk' E. apply Hn. now replace k with k' by lia.
    - intros j Hj. rewrite I3 by (intros; apply Hj; now right). rewrite (frame_set_frame zero 1) by (auto; apply Hk; now left). destruct (Nat.eqb_spec (8 * w + k) j); [|reflexivity]. exfalso. apply (Hj k); [now left|auto].
  Qed.
  Lemma map_nth_seq (l : list (list F)) : map (fun k => nth k l []) (seq 0 (length l)) = l.
  Proof. apply (nth_ext _ _ [] []); [now rewrite map_length, seq_length|]. intros n Hn. rewrite map_length, seq_length in Hn. now rewrite nth_map_seq. Qed.
  Lemma word_ok s hist w inb out : taps_inv s hist -> shaped 1 out -> 8 * w + 8 <= MAXB ->
    let (s', out') := taps_word nm at_ s w inb out in
    let t := ticks (taps_tick nm at_) s (map (frame zero inb) (seq (8 * w) 8)) in
    s' = fst t /\ shaped 1 out' /\ map (frame zero out') (seq (8 * w) 8) = snd t /\ (forall j, j < 8 * w -> frame zero out' j = frame zero out j).
  Proof.
    intros H Ho Hw. unfold taps_word. set (ins := map (frame zero inb) (seq (8 * w) 8)).
    assert (Ei : map (fun j => nth 0 (frame zero inb (8 * w + j)) zero) (seq 0 8) = map (fun i => nth 0 i zero) ins). { subst ins. rewrite map_map. cbn [seq map]. rewrite !Nat.add_0_r. repeat (f_equal; try lia). }
    rewrite Ei. set (s' := fold_left write (map (fun i => nth 0 i zero) ins) s).
    assert (Hs' : taps_inv s' (push_all hist ins)) by (apply write_all_holds; exact H).
    destruct (taps_ticks_ok ins s hist H) as [_ Et]. cbv zeta. rewrite write_ticks, Et.
    destruct (set_range_ok (fun k => [sum_taps nm at_ (l_buf s') (Z.of_nat (l_i s') - (8 - Z.of_nat k)) (tl (frame zero inb (8 * w + k)))]) w (fun _ => eq_refl) (seq 0 8) out Ho) as (I1 & I2 & I3); [intros k Hk; apply in_seq in Hk; lia|apply seq_NoDup|].
    split; [reflexivity|]. split; [exact I1|]. split.
    - rewrite <- (map_nth_seq (outs_of hist ins)). rewrite outs_of_length. subst ins. rewrite map_length, seq_length.
      replace (seq (8 * w) 8) with (map (fun k => 8 * w + k) (seq 0 8)) at 1 by (cbn [seq map]; repeat (f_equal; try lia)). rewrite map_map. apply map_ext_in. intros k Hk. rewrite I2 by exact Hk. apply in_seq in Hk. cbn [Nat.add] in Hk. destruct Hk as [_ Hk].
      rewrite outs_of_nth by (rewrite map_length, seq_length; lia). f_equal.
      rewrite (sum_taps_ok _ _ _ (7 - k) _ _ Hs'); [|lia|f_equal; lia]. unfold push_all.
      rewrite (nth_indep _ [] (frame zero inb 0)) by (rewrite map_length, seq_length; lia). rewrite (map_nth (frame zero inb)). rewrite seq_nth by lia.
      f_equal. set (l := map (fun i => nth 0 i zero) (map (frame zero inb) (seq (8 * w) 8))). rewrite skipn_app.
      assert (Ll : length l = 8) by (subst l; now rewrite !map_length, seq_length).
      replace (7 - k - length (rev l)) with 0 by (rewrite rev_length; lia). cbn [skipn]. f_equal. rewrite <- firstn_map. fold l. rewrite skipn_rev. f_equal. f_equal. lia.
    - intros j Hj. apply I3. intros k _. lia.
  Qed.
  Lemma words_ok n : forall w s hist inb out, taps_inv s hist -> shaped 1 out -> 8 * (w + n) <= MAXB ->
    let r := taps_words nm at_ n w s inb out in
    let t := ticks (taps_tick nm at_) s (map (frame zero inb) (seq (8 * w) (8 * n))) in
    fst r = fst t /\ shaped 1 (snd r) /\ map (frame zero (snd r)) (seq (8 * w) (8 * n)) = snd t /\ (forall j, j < 8 * w -> frame zero (snd r) j = frame zero out j).
  Proof.
    induction n as [|n IH]; intros w s hist inb out H Ho Hw; cbn [taps_words].
    - rewrite Nat.mul_0_r. cbn. split; [reflexivity|]. split; [exact Ho|]. split; [reflexivity|auto].
    - pose proof (word_ok s hist w inb out H Ho ltac:(lia)) as W. destruct (taps_word nm at_ s w inb out) as [s1 out1]. cbv zeta in *. destruct W as (W1 & W2 & W3 & W4).
      destruct (taps_ticks_ok (map (frame zero inb) (seq (8 * w) 8)) s hist H) as [T1 _]. rewrite <- W1 in T1.
      destruct (IH (S w) s1 _ inb out1 T1 W2 ltac:(lia)) as (I1 & I2 & I3 & I4). destruct (taps_words nm at_ n (S w) s1 inb out1) as [s2 out2]. cbn [fst snd] in *.
      replace (8 * S n) with (8 + 8 * n) by lia. rewrite seq_app, map_app. rewrite ticks_app. destruct (ticks (taps_tick nm at_) s (map (frame zero inb) (seq (8 * w) 8))) as [s1' o1]. cbn [fst snd] in *. subst s1'.
      replace (8 * w + 8) with (8 * S w) by lia. destruct (ticks (taps_tick nm at_) s1 (map (frame zero inb) (seq (8 * S w) (8 * n)))) as [s2' o2]. cbn [fst snd] in *. split; [exact I1|]. split; [exact I2|]. split.
      + rewrite map_app. replace (8 * w + 8) with (8 * S w) by lia. rewrite I3. f_equal. rewrite <- W3. apply map_ext_in. intros j Hj. apply in_seq in Hj. apply I4. lia.
      + intros j Hj. rewrite I4 by lia. apply W4. exact Hj.
  Qed.
  Lemma taps_contract s hist nin : taps_inv s hist -> block_contract zero (taps_tick nm at_) (taps_process nm at_) nin 1 s.
  Proof.
    intros H size inb out Hs Hi Ho. unfold taps_process. pose proof (Nat.div_mod size 8 ltac:(lia)) as D. pose proof (Nat.mod_upper_bound size 8 ltac:(lia)) as D2.
    destruct (words_ok (size / 8) 0 s hist inb out H Ho) as (W1 & W2 & W3 & _); [lia|]. destruct (taps_words nm at_ (size / 8) 0 s inb out) as [s1 out1]. cbn [fst snd] in *. rewrite Nat.mul_0_r in *.
    set (q := 8 * (size / 8)) in *. 
    destruct (process_ticks_ok zero (taps_tick nm at_) 1 (fun _ => True) nin (fun x i _ _ => conj I (taps_len x i)) (size - q) q s1 inb out1 I (proj1 Hi) W2 ltac:(lia)) as (P1 & P2 & P3 & P4).
    destruct (process_ticks zero (taps_tick nm at_) (size - q) q s1 inb out1) as [s2 out2]. cbn [fst snd] in *. split; [|exact P2].
    unfold frames. replace size with (q + (size - q)) at 1 2 by lia. rewrite !seq_app, !map_app. rewrite ticks_app. cbn [Nat.add].
    destruct (ticks (taps_tick nm at_) s (map (frame zero inb) (seq 0 q))) as [s1' o1]. cbn [fst snd] in *. subst s1'.
    destruct (ticks (taps_tick nm at_) s1 (map (frame zero inb) (seq q (size - q)))) as [s2' o2]. cbn [fst snd] in *. subst s2'. f_equal. f_equal; [|exact P3].
    rewrite <- W3. apply map_ext_in. intros j Hj. apply in_seq in Hj. apply P4. lia.
  Qed.
End Taps.
