(* Proofs about the edits and the player of waves. *)
From Coq Require Import Lia.
From Verif Require Export WaveSpec BufProofs.

Section Edits.
  Context {A F : Type}.
  Variables (zero : A) (add : A -> A -> A).
  Notation wave := (wave A F).

  Lemma upd_split {X} (l : list X) c v : c < length l -> upd l c v = firstn c l ++ [v] ++ skipn (S c) l.
  Proof. revert c. induction l as [|x l IH]; intros [|c] H; cbn in *; try lia; [reflexivity|]. rewrite IH by lia. reflexivity. Qed.
  Lemma Forall_upd {X} (P : X -> Prop) l c v : Forall P l -> P v -> Forall P (upd l c v).
  Proof. intros H Hv. revert c. induction H; intros [|c]; cbn; constructor; auto. Qed.
  Lemma combine_seq_nth {X} (l : list X) d j k : j < length l -> nth j (combine (seq k (length l)) l) (0, d) = (k + j, nth j l d).
  Proof. intros H. rewrite combine_nth by now rewrite seq_length. now rewrite seq_nth. Qed.
  Lemma Forall_firstn_ {X} (P : X -> Prop) n l : Forall P l -> Forall P (firstn n l).
  Proof. intros H. revert n. induction H; intros [|n]; cbn; constructor; auto. Qed.
  Lemma Forall_skipn_ {X} (P : X -> Prop) n l : Forall P l -> Forall P (skipn n l).
  Proof. intros H. revert n. induction H; intros [|n]; cbn; auto. Qed.
  Lemma mixed_length off s l : length (mixed add off s l) = length l.
  Proof. unfold mixed. rewrite map_length, combine_length, seq_length. lia. Qed.
  Lemma mixed_nth off s l j : j < length l -> nth j (mixed add off s l) zero =
    let k := (Z.of_nat j - off)%Z in if (k <? 0)%Z then nth j l zero else match nth_error s (Z.to_nat k) with Some v => add (nth j l zero) v | None => nth j l zero end.
  Proof.
    intros H. unfold mixed. set (f := fun p : nat * A => _). rewrite (nth_indep _ zero (f (0, zero))) by (rewrite map_length, combine_length, seq_length; lia). rewrite map_nth, combine_seq_nth by exact H. reflexivity.
  Qed.
  Lemma mix_loop_ok c off s : forall n i (w : wave) ch, nth_error (w_vec w) c = Some ch -> (0 <= i)%Z -> (off <= i)%Z -> (i + Z.of_nat n <= Z.of_nat (length ch))%Z -> (i - off + Z.of_nat n <= Z.of_nat (length s))%Z ->
    exists ch', mix_loop add n i w c off s = Some (mkWave (upd (w_vec w) c ch') (w_rate w) (w_len w)) /\ length ch' = length ch /\
    forall j, nth j ch' zero = if ((i <=? Z.of_nat j) && (Z.of_nat j <? i + Z.of_nat n))%Z then add (nth j ch zero) (nth (Z.to_nat (Z.of_nat j - off)) s zero) else nth j ch zero.
  Proof.
    induction n as [|n IH]; intros i w ch E H0 H1 H2 H3; cbn [mix_loop].
    - exists ch. split; [|split; [reflexivity|]].
      + f_equal. destruct w as [v r l]. cbn in *. f_equal. symmetry. apply nth_error_ext. intros k. destruct (Nat.eq_dec k c) as [->|Hk]; [|rewrite nth_error_upd_ne by congruence; reflexivity]. rewrite nth_error_upd_eq; [congruence|]. apply nth_error_Some. congruence.
      + intros j. destruct (Z.leb_spec i (Z.of_nat j)); destruct (Z.ltb_spec (Z.of_nat j) (i + Z.of_nat 0)); cbn [andb]; try reflexivity. lia.
    - destruct (nth_error s (Z.to_nat (i - off))) as [v|] eqn:Es; [|apply nth_error_None in Es; lia]. unfold w_mix, w_at, w_set. rewrite E.
      destruct (nth_error ch (Z.to_nat i)) as [x|] eqn:Ex; [|apply nth_error_None in Ex; lia]. destruct (Nat.ltb_spec (Z.to_nat i) (length ch)) as [Hl|Hl]; [|lia].
      set (ch1 := upd ch (Z.to_nat i) (add x v)). assert (Lc : c < length (w_vec w)) by (apply nth_error_Some; congruence).
      destruct (IH (i + 1)%Z (mkWave (upd (w_vec w) c ch1) (w_rate w) (w_len w)) ch1) as (ch' & I1 & I2 & I3).
      + cbn [w_vec]. now apply nth_error_upd_eq.
      + lia.
      + lia.
      + subst ch1. rewrite length_upd. lia.
      + lia.
      + exists ch'. split; [rewrite I1; cbn [w_vec w_rate w_len]; do 2 f_equal|].
        { apply nth_error_ext. intros k. destruct (Nat.eq_dec k c) as [->|Hk]; [rewrite !nth_error_upd_eq; rewrite ?length_upd; auto|rewrite !nth_error_upd_ne by congruence; reflexivity]. }
        split; [rewrite I2; subst ch1; apply length_upd|]. intros j. rewrite I3. subst ch1. rewrite nth_upd. apply nth_error_nth with (d := zero) in Ex. apply nth_error_nth with (d := zero) in Es.
        destruct (Z.leb_spec (i + 1) (Z.of_nat j)); destruct (Z.ltb_spec (Z.of_nat j) (i + 1 + Z.of_nat n)); destruct (Z.leb_spec i (Z.of_nat j)); destruct (Z.ltb_spec (Z.of_nat j) (i + Z.of_nat (S n))); destruct (Nat.eqb_spec (Z.to_nat i) j); try lia; cbn [andb]; try reflexivity.
        destruct (Nat.ltb_spec (Z.to_nat i) (length ch)); [|lia]. subst j. rewrite Z2Nat.id by lia. now rewrite Ex, Es.
  Qed.
  Lemma mix_channel_ok c off s (w : wave) ch : nth_error (w_vec w) c = Some ch -> length ch = w_len w ->
    mix_channel add w c off s = Some (mkWave (upd (w_vec w) c (mixed add off s ch)) (w_rate w) (w_len w)).
  Proof.
    intros E Hl. unfold mix_channel. set (lo := Z.max off 0). set (hi := Z.min (off + Z.of_nat (length s)) (Z.of_nat (w_len w))).
    destruct (Z.le_gt_cases hi lo) as [Hh|Hh].
    - replace (Z.to_nat (hi - lo)) with 0 by lia. cbn [mix_loop]. f_equal. destruct w as [v r l]. cbn in *. f_equal. symmetry. apply nth_error_ext. intros k.
      destruct (Nat.eq_dec k c) as [->|Hk]; [|rewrite nth_error_upd_ne by congruence; reflexivity]. rewrite nth_error_upd_eq by (apply nth_error_Some; congruence). rewrite E. f_equal. apply (nth_ext _ _ zero zero); [apply mixed_length|]. rewrite mixed_length. intros j Hj. rewrite mixed_nth by exact Hj. cbv zeta. destruct (Z.ltb_spec (Z.of_nat j - off) 0) as [G|G]; [reflexivity|].
      destruct (nth_error s _) as [x|] eqn:Ex; [|reflexivity]. assert (Z.to_nat (Z.of_nat j - off) < length s) by (apply nth_error_Some; congruence). lia.
    - destruct (mix_loop_ok c off s (Z.to_nat (hi - lo)) lo w ch E) as (ch' & M1 & M2 & M3); try lia. rewrite M1. do 3 f_equal. apply (nth_ext _ _ zero zero); [now rewrite M2, mixed_length|]. rewrite M2. intros j Hj. rewrite M3, mixed_nth by exact Hj. cbv zeta.
      destruct (Z.ltb_spec (Z.of_nat j - off) 0) as [G|G].
      + destruct (Z.leb_spec lo (Z.of_nat j)); cbn [andb]; [lia|reflexivity].
      + destruct (nth_error s (Z.to_nat (Z.of_nat j - off))) as [v|] eqn:Ev.
        * assert (Z.to_nat (Z.of_nat j - off) < length s) by (apply nth_error_Some; congruence). apply nth_error_nth with (d := zero) in Ev. destruct (Z.leb_spec lo (Z.of_nat j)); destruct (Z.ltb_spec (Z.of_nat j) (lo + Z.of_nat (Z.to_nat (hi - lo)))); cbn [andb]; try lia. now rewrite Ev.
        * apply nth_error_None in Ev. destruct (Z.leb_spec lo (Z.of_nat j)); destruct (Z.ltb_spec (Z.of_nat j) (lo + Z.of_nat (Z.to_nat (hi - lo)))); cbn [andb]; try lia; reflexivity.
  Qed.
  Lemma vec_resize_spec n ch : vec_resize zero n ch = firstn n (ch ++ repeat zero n).
  Proof. unfold vec_resize. rewrite firstn_app. f_equal. generalize (n - length ch) (Nat.le_sub_l n (length ch)). intros k. revert n. induction k as [|k IH]; intros [|n] H; cbn; try lia; auto. f_equal. apply IH. lia. Qed.
  Lemma vec_resize_same ch : firstn (length ch) (ch ++ repeat zero (length ch)) = ch.
  Proof. rewrite firstn_app, Nat.sub_diag, firstn_all, app_nil_r. reflexivity. Qed.
  Lemma vec_resize_length n ch : length (vec_resize zero n ch) = n.
  Proof. unfold vec_resize. rewrite app_length, firstn_length, repeat_length. lia. Qed.
  Lemma resize_ok (w : wave) n : rect w -> w_vec w <> [] -> resize zero w n = Some (mkWave (map (vec_resize zero n) (w_vec w)) (w_rate w) n).
  Proof.
    intros [H1 H2] H. unfold resize, channels. destruct (w_vec w) as [|x v] eqn:E; [congruence|]. cbn [length Nat.ltb Nat.leb]. f_equal. f_equal. destruct (Nat.eqb_spec n (w_len w)) as [->|Hn]; [|reflexivity].
    symmetry. rewrite <- (map_id (x :: v)) at 2. apply map_ext_in. intros ch Hc. rewrite Forall_forall in H1. rewrite <- (H1 ch Hc). rewrite vec_resize_spec. apply vec_resize_same.
  Qed.
  Lemma resize_rect (w : wave) n : w_vec w <> [] -> rect (mkWave (map (vec_resize zero n) (w_vec w)) (w_rate w) n).
  Proof. intros H. split; cbn [w_vec w_len]; [|intros E; apply map_eq_nil in E; contradiction]. rewrite Forall_map. apply Forall_forall. intros. apply vec_resize_length. Qed.

  (* append *)
  Hypothesis add_zero : forall x, add zero x = x.
  Lemma mixed_pad (a b : list A) : mixed add (Z.of_nat (length a)) b (vec_resize zero (length a + length b) a) = a ++ b.
  Proof.
    apply (nth_ext _ _ zero zero); [rewrite mixed_length, vec_resize_length, app_length; lia|]. rewrite mixed_length, vec_resize_length. intros j Hj. rewrite mixed_nth by (now rewrite vec_resize_length). cbv zeta.
    unfold vec_resize. rewrite firstn_all2 by lia. replace (length a + length b - length a) with (length b) by lia.
    destruct (Z.ltb_spec (Z.of_nat j - Z.of_nat (length a)) 0) as [G|G].
    - rewrite !app_nth1 by lia. reflexivity.
    - rewrite !app_nth2 by lia. replace (Z.to_nat (Z.of_nat j - Z.of_nat (length a))) with (j - length a) by lia. rewrite nth_repeat. destruct (nth_error b (j - length a)) as [v|] eqn:E; [|apply nth_error_None in E; lia]. apply nth_error_nth with (d := zero) in E. now rewrite E, add_zero.
  Qed.
  Lemma append_loop_ok off (src : wave) : forall n c (w : wave), c + n = length (w_vec w) -> length (w_vec src) = length (w_vec w) -> Forall (fun ch => length ch = w_len w) (w_vec w) ->
    append_loop add n c w off src = Some (mkWave (firstn c (w_vec w) ++ map (fun p => mixed add (Z.of_nat off) (snd p) (fst p)) (combine (skipn c (w_vec w)) (skipn c (w_vec src)))) (w_rate w) (w_len w)).
  Proof.
    induction n as [|n IH]; intros c w Hc Hl Hf; cbn [append_loop].
    - rewrite skipn_all2 by lia. cbn [combine map]. rewrite app_nil_r, firstn_all2 by lia. now destruct w.
    - destruct (nth_error (w_vec src) c) as [s|] eqn:Es; [|apply nth_error_None in Es; lia]. destruct (nth_error (w_vec w) c) as [ch|] eqn:Ec; [|apply nth_error_None in Ec; lia].
      rewrite Forall_forall in Hf. rewrite (mix_channel_ok c _ s w ch Ec) by (apply Hf; eapply nth_error_In; eauto). rewrite IH; cbn [w_vec w_rate w_len]; rewrite ?length_upd; try lia.
      + do 2 f_equal. assert (Lc : c < length (w_vec w)) by lia. rewrite (upd_split (w_vec w) c) by exact Lc.
        assert (Lf : length (firstn c (w_vec w)) = c) by (rewrite firstn_length; lia).
        assert (E1 : forall (X : list A) t, firstn (S c) (firstn c (w_vec w) ++ X :: t) = firstn c (w_vec w) ++ [X]).
        { intros X t. rewrite firstn_app, Lf. rewrite firstn_all2 by lia. replace (S c - c) with 1 by lia. reflexivity. }
        assert (E2 : forall (X : list A) t, skipn (S c) (firstn c (w_vec w) ++ X :: t) = t).
        { intros X t. rewrite skipn_app, Lf. rewrite skipn_all2 by lia. replace (S c - c) with 1 by lia. reflexivity. }
        cbn [app]. rewrite E1, E2, <- app_assoc. f_equal.
        assert (S1 : skipn c (w_vec w) = ch :: skipn (S c) (w_vec w)). { clear -Ec. revert c Ec. generalize (w_vec w). intros l. induction l as [|y l IHl]; intros [|c] E; cbn in *; try discriminate; [congruence|now apply IHl]. }
        assert (S2 : skipn c (w_vec src) = s :: skipn (S c) (w_vec src)). { clear -Es. revert c Es. generalize (w_vec src). intros l. induction l as [|y l IHl]; intros [|c] E; cbn in *; try discriminate; [congruence|now apply IHl]. }
        rewrite S1, S2. reflexivity.
      + apply Forall_upd; [now apply Forall_forall|]. rewrite mixed_length. apply Hf. eapply nth_error_In; eauto.
  Qed.
  Lemma append_ok (w src : wave) : rect w -> rect src -> length (w_vec src) = length (w_vec w) -> w_vec w <> [] ->
    append zero add w src = Some (mkWave (map (fun p => fst p ++ snd p) (combine (w_vec w) (w_vec src))) (w_rate w) (w_len w + w_len src)).
  Proof.
    intros Hw Hs Hl Hn. unfold append, channels. rewrite <- Hl, Nat.eqb_refl. rewrite (resize_ok _ _ Hw Hn). cbn [w_vec]. rewrite append_loop_ok; cbn [w_vec w_len w_rate]; rewrite ?map_length; auto.
    - cbn [firstn skipn app]. do 2 f_equal. destruct Hw as [Hw _], Hs as [Hs _]. revert Hw Hs Hl. generalize (w_vec src) (w_vec w). intros b a. revert b. induction a as [|x a IH]; intros [|y b] Ha Hb L; try discriminate; [reflexivity|]. inversion Ha; inversion Hb; subst. cbn [map combine fst snd]. rewrite IH; auto. f_equal. rewrite <- H1, <- H5. apply mixed_pad.
    - apply (resize_rect w (w_len w + w_len src) Hn).
  Qed.

  (* retain *)
  Lemma shift_down_ok i0 ch : forall n i c, length c = length ch -> 0 < i0 -> i0 <= i -> i + n <= length ch ->
    (forall j, nth j c zero = if Nat.ltb j (i - i0) then nth (j + i0) ch zero else nth j ch zero) ->
    length (shift_down zero n i i0 c) = length ch /\ forall j, nth j (shift_down zero n i i0 c) zero = if Nat.ltb j (i + n - i0) then nth (j + i0) ch zero else nth j ch zero.
  Proof.
    induction n as [|n IH]; intros i c Hl H0 Hi Hn Hc; cbn [shift_down].
    - split; [exact Hl|]. now rewrite Nat.add_0_r.
    - destruct (IH (S i) (upd c (i - i0) (nth i c zero))) as [I1 I2]; [now rewrite length_upd|lia|lia|lia| |split; [exact I1|intros j; rewrite I2; now replace (S i + n) with (i + S n) by lia]].
      intros j. rewrite nth_upd. rewrite !Hc. destruct (Nat.eqb_spec (i - i0) j) as [E|E].
      + subst j. destruct (Nat.ltb_spec (i - i0) (length c)); [|lia]. destruct (Nat.ltb_spec i (i - i0)); [lia|]. destruct (Nat.ltb_spec (i - i0) (S i - i0)); [|lia]. cbn [andb]. replace (i - i0 + i0) with i by lia. reflexivity.
      + destruct (Nat.ltb_spec j (i - i0)); destruct (Nat.ltb_spec j (S i - i0)); try lia; reflexivity.
  Qed.
  Lemma span_slice start len (l : list A) : (0 <= len)%Z -> (start <= Z.of_nat (length l))%Z ->
    let i0 := Z.to_nat (Z.max start 0) in let i1 := Nat.min (length l) (Z.to_nat (Z.max 0 (start + len))) in span start len l = firstn (i1 - i0) (skipn i0 l).
  Proof.
    intros H0 H1. cbv zeta. unfold span.
    assert (G : forall (m : list A) k, map snd (filter (fun p : nat * A => Z.leb start (Z.of_nat (fst p)) && Z.ltb (Z.of_nat (fst p)) (start + len)) (combine (seq k (length m)) m)) =
      firstn (Nat.min (length m + k) (Z.to_nat (Z.max 0 (start + len))) - Nat.max k (Z.to_nat (Z.max start 0))) (skipn (Z.to_nat (Z.max start 0) - k) m)).
    { induction m as [|x m IH]; intros k; cbn [length seq combine filter map]; [now rewrite skipn_nil, firstn_nil|]. cbn [fst]. specialize (IH (S k)).
      destruct (Z.leb_spec start (Z.of_nat k)) as [P|P]; cbn [andb].
      - replace (Z.to_nat (Z.max start 0) - k) with 0 by lia. cbn [skipn]. destruct (Z.ltb_spec (Z.of_nat k) (start + len)) as [Q|Q]; cbn [map snd].
        + rewrite IH. replace (Z.to_nat (Z.max start 0) - S k) with 0 by lia. cbn [skipn]. replace (Nat.min (S (length m) + k) (Z.to_nat (Z.max 0 (start + len))) - Nat.max k (Z.to_nat (Z.max start 0))) with (S (Nat.min (length m + S k) (Z.to_nat (Z.max 0 (start + len))) - Nat.max (S k) (Z.to_nat (Z.max start 0)))) by lia. reflexivity.
        + rewrite IH. replace (Nat.min (length m + S k) (Z.to_nat (Z.max 0 (start + len))) - Nat.max (S k) (Z.to_nat (Z.max start 0))) with 0 by lia. replace (Nat.min (S (length m) + k) (Z.to_nat (Z.max 0 (start + len))) - Nat.max k (Z.to_nat (Z.max start 0))) with 0 by lia. reflexivity.
      - rewrite IH. replace (Z.to_nat (Z.max start 0) - k) with (S (Z.to_nat (Z.max start 0) - S k)) by lia. cbn [skipn]. f_equal. lia. }
    specialize (G l 0). rewrite G. f_equal; [lia|]. f_equal. lia.
  Qed.
  Lemma retain_ok (w : wave) start len : rect w -> allowed w (Retain start len) -> retain zero w start len = Some (mkWave (map (span start len) (w_vec w)) (w_rate w) (Nat.min (w_len w) (Z.to_nat (Z.max 0 (start + len))) - Z.to_nat (Z.max start 0))).
  Proof.
    intros Hw (Hn & Hs & Hs2 & Hl & Ho). unfold retain, as_isize. destruct (Z.ltb_spec len (2 ^ 63)) as [_|G]; [|lia]. unfold isize_add. destruct (Z.leb_spec (- 2 ^ 63) (start + len)) as [_|G]; [|lia]. destruct (Z.ltb_spec (start + len) (2 ^ 63)) as [_|G]; [|lia]. cbn [andb].
    set (i0 := Z.to_nat (Z.max start 0)). set (i1 := Nat.min (w_len w) (Z.to_nat (Z.max 0 (start + len)))).
    assert (L : i1 < i0 -> False). { subst i0 i1. lia. } destruct (Nat.ltb_spec i1 i0) as [G|G]; [exfalso; auto|]. clear L.
    set (v := if Nat.ltb 0 i0 then _ else _).
    assert (Hv : Forall (fun ch => length ch = w_len w) v /\ v <> [] /\ map (firstn (i1 - i0)) v = map (span start len) (w_vec w)).
    { destruct Hw as [Hr _]. subst v. destruct (Nat.ltb_spec 0 i0) as [P|P].
      - rewrite Forall_forall in Hr. assert (Hsd : forall ch, In ch (w_vec w) -> length (shift_down zero (i1 - i0) i0 i0 ch) = length ch /\ forall j, nth j (shift_down zero (i1 - i0) i0 i0 ch) zero = if Nat.ltb j (i0 + (i1 - i0) - i0) then nth (j + i0) ch zero else nth j ch zero).
        { intros ch Hc. apply shift_down_ok; auto; [rewrite (Hr _ Hc); subst i1; lia|]. intros j. destruct (Nat.ltb_spec j (i0 - i0)); [lia|reflexivity]. }
        split; [|split].
        + rewrite Forall_map. apply Forall_forall. intros ch Hc. destruct (Hsd ch Hc) as [E _]. rewrite E. auto.
        + intros E. apply map_eq_nil in E. contradiction.
        + rewrite map_map. apply map_ext_in. intros ch Hc. destruct (Hsd ch Hc) as [E1 E2]. rewrite span_slice by (rewrite ?(Hr _ Hc); lia). rewrite (Hr _ Hc). fold i0 i1.
          assert (Hi1 : i1 <= length ch) by (rewrite (Hr _ Hc); subst i1; lia).
          apply (nth_ext _ _ zero zero); [rewrite !firstn_length, skipn_length, E1; lia|]. rewrite firstn_length, E1. intros j Hj. rewrite !nth_firstn_lt by lia. rewrite E2, nth_skipn_add. destruct (Nat.ltb_spec j (i0 + (i1 - i0) - i0)); [|lia]. f_equal. lia.
      - split; [exact Hr|]. split; [exact Hn|]. apply map_ext_in. intros ch Hc. rewrite Forall_forall in Hr. rewrite span_slice by (rewrite ?(Hr _ Hc); lia). rewrite (Hr _ Hc). fold i0 i1. replace i0 with 0 by lia. reflexivity. }
    destruct Hv as (V1 & V2 & V3). clearbody v. rewrite resize_ok; [|split; [exact V1|contradiction]|exact V2]. cbn [w_vec w_rate]. do 2 f_equal. rewrite <- V3. apply map_ext_in. intros ch Hc. rewrite Forall_forall in V1. unfold vec_resize. rewrite (V1 _ Hc). replace (i1 - i0 - w_len w) with 0 by (subst i1; lia). cbn [repeat]. now rewrite app_nil_r.
  Qed.

  Lemma combine_zipw {X Y Z} (f : X -> Y -> Z) a : forall b, zipw f a b = map (fun p => f (fst p) (snd p)) (combine a b).
  Proof. induction a as [|x a IH]; intros [|y b]; cbn; auto. now rewrite IH. Qed.
  Lemma nth_error_split_upd {X} (l : list X) c x : nth_error l c = Some x -> c < length l.
  Proof. intros E. apply nth_error_Some. congruence. Qed.
  Lemma edited_shape (w : wave) l : length (edited zero add w (PushFrame l)) = Nat.min (length (w_vec w)) (match l with [_] => length (w_vec w) | _ => length l end).
  Proof. destruct l as [|x [|y l]]; cbn [edited]; rewrite map_length, ?combine_length; cbn [length]; lia. Qed.

  Lemma edit_ok (w : wave) e : rect w -> allowed w e -> exists w', do_edit zero add w e = Some w' /\ w_vec w' = edited zero add w e /\ w_rate w' = w_rate w /\ rect w'.
  Proof.
    intros Hw Ha. pose proof Hw as [R1 R2]. destruct e as [s|c s|c|c off s|src|f|n|st len|c i x|c i x]; cbn [do_edit allowed] in *.
    - unfold push_channel, channels. destruct (w_vec w) as [|y v] eqn:E.
      + cbn [length Nat.eqb orb]. eexists; split; [reflexivity|]. cbn [w_vec w_rate w_len edited]. rewrite E. split; [reflexivity|]. split; [reflexivity|]. split; cbn; [constructor; auto|discriminate].
      + destruct Ha as [Ha|Ha]; [discriminate|]. cbn [length Nat.eqb orb]. rewrite Ha, Nat.eqb_refl. eexists; split; [reflexivity|]. cbn [w_vec w_rate w_len edited]. rewrite E. split; [reflexivity|]. split; [reflexivity|]. split; cbn [w_vec w_len]; [apply Forall_app; split; auto|discriminate].
    - unfold insert_channel, channels. destruct Ha as [Ha Hc]. destruct (Nat.leb_spec c (length (w_vec w))) as [_|G]; [|lia]. destruct (w_vec w) as [|y v] eqn:E.
      + cbn [length Nat.eqb orb]. eexists; split; [reflexivity|]. cbn [w_vec w_rate w_len edited]. rewrite E. split; [reflexivity|]. split; [reflexivity|]. cbn in Hc. assert (c = 0) by lia. subst c. split; cbn; [constructor; auto|discriminate].
      + destruct Ha as [Ha|Ha]; [discriminate|]. cbn [Nat.eqb orb length]. rewrite Ha, Nat.eqb_refl. eexists; split; [reflexivity|]. cbn [w_vec w_rate w_len edited]. rewrite E. split; [reflexivity|]. split; [reflexivity|]. split; cbn [w_vec w_len].
        * apply Forall_app. rewrite <- (firstn_skipn c (y :: v)) in R1. apply Forall_app in R1. destruct R1. split; auto.
        * intros X. apply app_eq_nil in X. destruct X. discriminate.
    - unfold remove_channel, channels. destruct (nth_error (w_vec w) c) as [ch|] eqn:E; [|apply nth_error_None in E; lia]. eexists; split; [reflexivity|]. cbn [w_vec w_rate w_len edited]. split; [reflexivity|]. split; [reflexivity|]. split; cbn [w_vec w_len].
      + destruct (Nat.eqb_spec (length (w_vec w)) 1) as [G|G].
        * assert (c = 0) by lia. subst c. destruct (w_vec w) as [|y [|z v]]; cbn in *; try lia. constructor.
        * apply Forall_app. split; [now apply Forall_firstn_|now apply Forall_skipn_].
      + intros X. destruct (Nat.eqb_spec (length (w_vec w)) 1) as [G|G]; [reflexivity|]. apply (f_equal (@length _)) in X. rewrite app_length, firstn_length, skipn_length in X. cbn [length] in X. lia.
    - destruct (nth_error (w_vec w) c) as [ch|] eqn:E; [|apply nth_error_None in E; lia]. assert (Hch : length ch = w_len w). { rewrite Forall_forall in R1. apply R1. eapply nth_error_In; eauto. } rewrite (mix_channel_ok c off s w ch E Hch).
      eexists; split; [reflexivity|]. cbn [w_vec w_rate w_len edited]. apply nth_error_nth with (d := []) in E. split; [rewrite E; now apply upd_split|]. split; [reflexivity|]. split; cbn [w_vec w_len].
      + apply Forall_upd; [exact R1|now rewrite mixed_length].
      + intros X. apply R2. destruct (w_vec w); [reflexivity|]. destruct c; discriminate.
    - destruct Ha as (A1 & A2 & A3). rewrite (append_ok w src Hw A1 A2 A3). eexists; split; [reflexivity|]. cbn [w_vec w_rate w_len edited]. split; [reflexivity|]. split; [reflexivity|]. split; cbn [w_vec w_len].
      + destruct A1 as [A1 _]. rewrite Forall_map. apply Forall_forall. intros [a b] Hp. cbn [fst snd]. rewrite app_length. rewrite Forall_forall in A1, R1. rewrite (R1 a), (A1 b); [reflexivity|eapply in_combine_r; eauto|eapply in_combine_l; eauto].
      + intros X. apply map_eq_nil in X. apply (f_equal (@length _)) in X. rewrite combine_length in X. rewrite A2, Nat.min_id in X. destruct (w_vec w); [contradiction|discriminate].
    - assert (Hp : exists w', push w f = Some w' /\ w_vec w' = edited zero add w (PushFrame f) /\ w_rate w' = w_rate w /\ w_len w' = if Nat.ltb 0 (channels w) then S (w_len w) else w_len w).
      { unfold push. destruct f as [|x [|y f]].
        - destruct Ha as [Ha|Ha]; [discriminate|]. unfold channels. rewrite <- Ha. cbn [length Nat.eqb]. eexists; split; [reflexivity|]. cbn [w_vec w_rate w_len edited]. rewrite combine_zipw. auto.
        - eexists; split; [reflexivity|]. cbn. auto.
        - destruct Ha as [Ha|Ha]; [discriminate|]. unfold channels. rewrite Ha, Nat.eqb_refl. eexists; split; [reflexivity|]. cbn [w_vec w_rate w_len edited]. now rewrite combine_zipw. }
      destruct Hp as (w' & P1 & P2 & P3 & P4). exists w'. split; [exact P1|]. split; [exact P2|]. split; [exact P3|]. unfold channels in P4. pose proof (edited_shape w f) as Sh. rewrite <- P2 in Sh. split.
      + rewrite P2, P4. rewrite Forall_forall in R1. destruct (w_vec w) as [|z v] eqn:E.
        * destruct f as [|x [|y f]]; cbn [edited]; rewrite E; constructor.
        * cbn [length Nat.ltb Nat.leb]. assert (G : forall ch u, In ch (z :: v) -> length (ch ++ [u : A]) = S (w_len w)) by (intros ch u Hc; rewrite app_length, (R1 _ Hc); cbn; lia).
          apply Forall_forall. intros ch Hch. destruct f as [|x [|y f]]; cbn [edited] in Hch; rewrite E in Hch; apply in_map_iff in Hch; destruct Hch as (p & <- & Hp); apply G; try exact Hp; destruct p; eapply in_combine_l; eauto.
      + intros X. rewrite X in Sh. cbn [length] in Sh. rewrite P4. destruct (w_vec w) as [|z v] eqn:E; [cbn; auto|]. exfalso. destruct f as [|x [|y f]]; cbn [length] in *; destruct Ha; lia.
    - rewrite (resize_ok w n Hw Ha). eexists; split; [reflexivity|]. cbn [w_vec w_rate w_len edited]. split; [apply map_ext; intros; apply vec_resize_spec|]. split; [reflexivity|]. now apply resize_rect.
    - rewrite (retain_ok w st len Hw Ha). eexists; split; [reflexivity|]. cbn [w_vec w_rate w_len edited]. split; [reflexivity|]. split; [reflexivity|]. destruct Ha as (A1 & A2 & A3 & A4 & A5). split; cbn [w_vec w_len].
      + rewrite Forall_map. apply Forall_forall. intros ch Hc. rewrite Forall_forall in R1. rewrite span_slice by (rewrite ?(R1 _ Hc); lia). rewrite (R1 _ Hc), firstn_length, skipn_length, (R1 _ Hc). lia.
      + intros X. apply map_eq_nil in X. contradiction.
    - destruct Ha as [A1 A2]. unfold w_set. destruct (nth_error (w_vec w) c) as [ch|] eqn:E; [|apply nth_error_None in E; lia]. assert (Hch : length ch = w_len w). { rewrite Forall_forall in R1. apply R1. eapply nth_error_In; eauto. } destruct (Nat.ltb_spec i (length ch)); [|lia].
      eexists; split; [reflexivity|]. cbn [w_vec w_rate w_len edited]. apply nth_error_nth with (d := []) in E. split; [rewrite E, <- (upd_split ch) by lia; now apply upd_split|]. split; [reflexivity|]. split; cbn [w_vec w_len].
      + apply Forall_upd; [exact R1|now rewrite length_upd].
      + intros X. apply R2. destruct (w_vec w); [reflexivity|]. destruct c; discriminate.
    - destruct Ha as [A1 A2]. unfold w_mix, w_at, w_set. destruct (nth_error (w_vec w) c) as [ch|] eqn:E; [|apply nth_error_None in E; lia]. assert (Hch : length ch = w_len w). { rewrite Forall_forall in R1. apply R1. eapply nth_error_In; eauto. } destruct (nth_error ch i) as [y|] eqn:Ey; [|apply nth_error_None in Ey; lia]. destruct (Nat.ltb_spec i (length ch)); [|lia].
      eexists; split; [reflexivity|]. cbn [w_vec w_rate w_len edited]. apply nth_error_nth with (d := []) in E. apply nth_error_nth with (d := zero) in Ey. split; [rewrite E, Ey, <- (upd_split ch) by lia; now apply upd_split|]. split; [reflexivity|]. split; cbn [w_vec w_len].
      + apply Forall_upd; [exact R1|now rewrite length_upd].
      + intros X. apply R2. destruct (w_vec w); [reflexivity|]. destruct c; discriminate.
  Qed.
End Edits.

(* ---- the waves that the constructors make ---- *)
Lemma zero_rect {A F} (zero : A) c (rate : F) n w : w_zero zero c rate n = Some w -> rect w.
Proof.
  unfold w_zero. destruct (_ || _)%bool eqn:E; [|discriminate]. intros H. injection H as <-. split; cbn [w_vec w_len].
  - apply Forall_forall. intros ch I. rewrite (repeat_spec _ _ _ I). apply repeat_length.
  - intros V. destruct c; [|discriminate]. cbn in E. now apply Nat.eqb_eq in E.
Qed.
Lemma from_rect {A F} (rate : F) (l : list A) : rect (w_from rate l).
Proof. split; cbn [w_from w_vec w_len]; [repeat constructor|discriminate]. Qed.
