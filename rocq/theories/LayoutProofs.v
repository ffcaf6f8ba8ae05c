From Verif Require Export LayoutSpec BufProofs.
From Coq Require Import Arith.

Lemma shl3 c : Nat.shiftl c 3 = 8 * c.
Proof. rewrite Nat.shiftl_mul_pow2. change (2 ^ 3) with 8. lia. Qed.
Lemma shr3 c : Nat.shiftr c 3 = c / 8.
Proof. now rewrite Nat.shiftr_div_pow2. Qed.
Lemma land7 i : Nat.land i 7 = i mod 8.
Proof. change 7 with (Nat.ones 3). now rewrite Nat.land_ones. Qed.
Ltac shifts := rewrite ?shl3, ?shr3, ?land7 in *.

Lemma nth_error_skipn' {X} (l : list X) n i : nth_error (skipn n l) i = nth_error l (n + i).
Proof. revert l. induction n as [|n IH]; intros [|x l]; cbn; auto. now destruct i. Qed.
Section Rows.
  Context {A : Type}.
  Notation mem := (list (list A)).
  Lemma concat_at (k : nat) : forall (b : mem) q r, Forall (fun w => length w = k) b -> r < k -> nth_error (concat b) (k * q + r) = match nth_error b q with Some w => nth_error w r | None => None end.
  Proof.
    induction b as [|w b IH]; intros q r H L; cbn [concat]; [now rewrite !(proj2 (nth_error_None _ _)) by (cbn; lia)|]. apply Forall_cons_iff in H as [H1 H2]. destruct q as [|q].
    - rewrite Nat.mul_0_r. cbn. apply nth_error_app1. lia.
    - rewrite nth_error_app2 by lia. replace (k * S q + r - length w) with (k * q + r) by lia. cbn [nth_error]. auto.
  Qed.
  Lemma divs i : i = 8 * (i / 8) + i mod 8 /\ i mod 8 < 8.
  Proof. split; [apply Nat.div_mod; lia|apply Nat.mod_upper_bound; lia]. Qed.
  Lemma sample_word (b : mem) c i : Forall (fun w => length w = 8) b -> sample b c i = match nth_error b (8 * c + i / 8) with Some w => nth_error w (i mod 8) | None => None end.
  Proof. intros H. unfold sample. destruct (divs i) as [E L]. rewrite <- (concat_at 8) by auto. f_equal. lia. Qed.
  Lemma well_channels n (b : mem) : well n b -> channels b = n.
  Proof. intros [H _]. unfold channels. shifts. rewrite H, Nat.mul_comm. apply Nat.div_mul. lia. Qed.
  Lemma well_word n (b : mem) c i : well n b -> c < n -> i < 8 -> exists w, nth_error b (8 * c + i) = Some w /\ length w = 8.
  Proof.
    intros [H1 H2] Hc Hi. destruct (nth_error b (8 * c + i)) as [w|] eqn:E; [|apply nth_error_None in E; lia]. exists w. split; auto. rewrite Forall_forall in H2. apply H2. now apply nth_error_In in E.
  Qed.
  Lemma div8_lt i : i < 64 -> i / 8 < 8. Proof. intros H. apply Nat.div_lt_upper_bound; lia. Qed.
  Lemma asserted d c {X} (x : option X) : c = true -> asserts d c x = x.
  Proof. intros ->. unfold asserts. now rewrite andb_false_r. Qed.
  Lemma ltb_well n (b : mem) c : well n b -> c < n -> (c <? channels b) = true.
  Proof. intros H Hc. rewrite (well_channels _ _ H). now apply Nat.ltb_lt. Qed.

  Lemma at_f32_ok d n (b : mem) c i : well n b -> c < n -> i < 64 -> at_f32 d b c i = sample b c i.
  Proof. intros H Hc Hi. unfold at_f32. rewrite asserted by now apply (ltb_well n). shifts. now rewrite sample_word by apply H. Qed.
  Lemma sample_defined n (b : mem) c i : well n b -> c < n -> i < 64 -> sample b c i <> None.
  Proof.
    intros H Hc Hi. rewrite sample_word by apply H. destruct (well_word n b c (i / 8) H Hc (div8_lt i Hi)) as (w & -> & L). apply nth_error_Some. rewrite L. apply divs.
  Qed.
  Lemma at_ok d n (b : mem) c i : well n b -> c < n -> i < 8 -> exists w, at_ d b c i = Some w /\ length w = 8 /\ forall k, k < 8 -> nth_error w k = sample b c (8 * i + k).
  Proof.
    intros H Hc Hi. unfold at_. rewrite asserted by now apply (ltb_well n). shifts. destruct (well_word n b c i H Hc Hi) as (w & E & L). exists w. split; auto. split; auto. intros k Hk.
    rewrite sample_word by apply H. replace ((8 * i + k) / 8) with i by (apply Nat.div_unique with k; lia). rewrite E. replace ((8 * i + k) mod 8) with k by (apply Nat.mod_unique with i; lia). reflexivity.
  Qed.
  (* replacing one word *)
  Lemma store_word n (b : mem) c i w : well n b -> c < n -> i < 8 -> length w = 8 -> exists b', store b (8 * c + i) w = Some b' /\ changes n b b' c (8 * i) w.
  Proof.
    intros [H1 H2] Hc Hi Hw. unfold store. rewrite (proj2 (Nat.ltb_lt _ _)) by lia. exists (upd b (8 * c + i) w). split; auto.
    assert (F2 : Forall (fun w => length w = 8) (upd b (8 * c + i) w)).
    { apply Forall_forall. intros x Hx. apply In_nth_error in Hx as (j & Hj). rewrite nth_error_upd in Hj. rewrite Forall_forall in H2.
      destruct (Nat.eqb (8 * c + i) j); [destruct (Nat.ltb (8 * c + i) (length b)); congruence|]. apply H2. eapply nth_error_In; eauto. }
    split; [split; [now rewrite length_upd|exact F2]|]. intros c' i' Hc' Hi'. rewrite !sample_word by auto. destruct (divs i') as [D M]. pose proof (div8_lt i' Hi') as D8. rewrite Hw.
    destruct (Nat.eq_dec (8 * c + i) (8 * c' + i' / 8)) as [E|E].
    - assert (c' = c) by lia. assert (i' / 8 = i) by lia. subst c'. rewrite <- E, nth_error_upd_eq by lia. rewrite Nat.eqb_refl. cbn [andb]. rewrite (proj2 (Nat.leb_le _ _)) by lia. rewrite (proj2 (Nat.ltb_lt _ _)) by lia. cbn [andb]. f_equal. lia.
    - rewrite nth_error_upd_ne by auto. destruct (Nat.eqb_spec c' c); cbn [andb]; auto. subst c'. destruct (Nat.leb_spec (8 * i) i'); cbn [andb]; auto. destruct (Nat.ltb_spec i' (8 * i + 8)); auto. exfalso. apply E. f_equal. apply Nat.div_unique with (i' - 8 * i); lia.
  Qed.
  Lemma set_ok d n (b : mem) c i w : well n b -> c < n -> i < 8 -> length w = 8 -> exists b', set_ d b c i w = Some b' /\ changes n b b' c (8 * i) w.
  Proof. intros H Hc Hi Hw. unfold set_. rewrite asserted by now apply (ltb_well n). shifts. now apply store_word. Qed.
  Lemma set_f32_ok d n (b : mem) c i v : well n b -> c < n -> i < 64 -> exists b', set_f32 d b c i v = Some b' /\ changes n b b' c i [v].
  Proof.
    intros H Hc Hi. unfold set_f32. rewrite asserted by now apply (ltb_well n). shifts. destruct (divs i) as [D M]. destruct (well_word n b c (i / 8) H Hc (div8_lt i Hi)) as (w & E & L). rewrite E.
    unfold store at 1. rewrite (proj2 (Nat.ltb_lt _ _)) by lia. destruct (store_word n b c (i / 8) (upd w (i mod 8) v) H Hc (div8_lt i Hi) ltac:(now rewrite length_upd)) as (b' & S & W & C).
    exists b'. split; auto. split; auto. intros c' i' Hc' Hi'. rewrite C by auto. rewrite length_upd, L. destruct (Nat.eqb_spec c' c); cbn [andb]; auto. subst c'. cbn [length].
    destruct (Nat.eq_dec i' i) as [->|Q].
    - rewrite (proj2 (Nat.leb_le _ _)) by lia. rewrite (proj2 (Nat.ltb_lt _ _)) by lia. rewrite Nat.leb_refl. rewrite (proj2 (Nat.ltb_lt _ _)) by lia. cbn [andb]. rewrite Nat.sub_diag. replace (i - 8 * (i / 8)) with (i mod 8) by lia. cbn [nth_error]. apply nth_error_upd_eq. lia.
    - assert (X : (i <=? i') && (i' <? i + 1) = false) by (apply andb_false_iff; destruct (Nat.leb_spec i i'); [right; apply Nat.ltb_ge; lia|left; auto]). rewrite X.
      destruct (Nat.leb_spec (8 * (i / 8)) i'); cbn [andb]; auto. destruct (Nat.ltb_spec i' (8 * (i / 8) + 8)); auto. rewrite nth_error_upd_ne by lia. rewrite sample_word by apply H.
      assert (Y : i' / 8 = i / 8) by (symmetry; apply Nat.div_unique with (i' - 8 * (i / 8)); lia). rewrite Y, E. f_equal. destruct (divs i') as [D' M']. lia.
  Qed.
  Lemma add_ok d add_ n (b : mem) c i w : well n b -> c < n -> i < 8 -> length w = 8 ->
    exists old b', at_ d b c i = Some old /\ add d add_ b c i w = Some b' /\ changes n b b' c (8 * i) (zipw add_ old w).
  Proof.
    intros H Hc Hi Hw. unfold add, at_. rewrite !asserted by now apply (ltb_well n). shifts. destruct (well_word n b c i H Hc Hi) as (o & E & L). rewrite E.
    destruct (store_word n b c i (zipw add_ o w) H Hc Hi) as (b' & S & C); [rewrite zipw_length; lia|]. exists o, b'. auto.
  Qed.
  (* channels *)
  Lemma concat_skip k (b : mem) q : Forall (fun w => length w = k) b -> concat (skipn q b) = skipn (k * q) (concat b).
  Proof.
    revert q. induction b as [|w b IH]; intros q H; [now rewrite !skipn_nil|]. apply Forall_cons_iff in H as [H1 H2]. destruct q as [|q]; [now rewrite Nat.mul_0_r|]. cbn [skipn concat]. rewrite IH by auto.
    cbn beta in H1. rewrite Nat.mul_succ_r, skipn_app. rewrite (skipn_all2 w) by lia. cbn [app]. f_equal. lia.
  Qed.
  Lemma concat_first k (b : mem) q : Forall (fun w => length w = k) b -> concat (firstn q b) = firstn (k * q) (concat b).
  Proof.
    revert q. induction b as [|w b IH]; intros q H; [now rewrite !firstn_nil|]. apply Forall_cons_iff in H as [H1 H2]. destruct q as [|q]; [now rewrite Nat.mul_0_r|]. cbn [firstn concat]. rewrite IH by auto.
    cbn beta in H1. rewrite Nat.mul_succ_r, firstn_app. rewrite (firstn_all2 w) by lia. f_equal. f_equal. lia.
  Qed.
  Lemma Forall_first {X} (P : X -> Prop) n l : Forall P l -> Forall P (firstn n l).
  Proof. revert n. induction l; intros [|n] H; cbn; auto. apply Forall_cons_iff in H as []. auto. Qed.
  Lemma Forall_skip {X} (P : X -> Prop) n l : Forall P l -> Forall P (skipn n l).
  Proof. revert n. induction l; intros [|n] H; cbn; auto. apply Forall_cons_iff in H as []. auto. Qed.
  Lemma slice_ok {X} (b : list X) f t : f <= t -> t <= length b -> slice b f t = Some (firstn (t - f) (skipn f b)).
  Proof. intros H1 H2. unfold slice. rewrite (proj2 (Nat.leb_le _ _) H1), (proj2 (Nat.leb_le _ _) H2). reflexivity. Qed.
  Lemma channel_ok d n (b : mem) c : well n b -> c < n -> channel d b c = Some (firstn 8 (skipn (8 * c) b)).
  Proof. intros H Hc. unfold channel. rewrite asserted by now apply (ltb_well n). shifts. destruct H as [H _]. rewrite slice_ok by lia. f_equal. f_equal. lia. Qed.
  Lemma concat_length_well n (b : mem) : well n b -> length (concat b) = 64 * n.
  Proof. intros [H1 H2]. rewrite (concat_length_uniform 8) by auto. lia. Qed.
  Lemma channel_f32_ok d n (b : mem) c : well n b -> c < n -> exists ch, channel_f32 d b c = Some ch /\ length ch = 64 /\ forall i, i < 64 -> nth_error ch i = sample b c i.
  Proof.
    intros H Hc. unfold channel_f32. rewrite (channel_ok d n) by auto. rewrite asserted by now apply (ltb_well n). cbn [option_map].
    assert (E : firstn MAXB (concat (firstn 8 (skipn (8 * c) b))) = firstn 64 (skipn (64 * c) (concat b))).
    { pose proof (proj2 H) as H2. rewrite (concat_first 8) by now apply Forall_skip. rewrite (concat_skip 8) by auto. change (8 * 8) with 64. rewrite firstn_firstn. unfold MAXB. f_equal. f_equal. lia. }
    exists (firstn 64 (skipn (64 * c) (concat b))). rewrite E. split; auto. pose proof (concat_length_well n b H) as L. split; [rewrite firstn_length, skipn_length, L; lia|].
    intros i Hi. rewrite nth_error_firstn_lt by auto. unfold sample. rewrite nth_error_skipn'. reflexivity.
  Qed.

  Lemma splice_ok n m (b s : mem) f : well n b -> well m s -> f + m <= n ->
    let b' := firstn (8 * f) b ++ s ++ skipn (8 * (f + m)) b in
    well n b' /\ forall c i, c < n -> i < 64 -> sample b' c i = if Nat.leb f c && Nat.ltb c (f + m) then sample s (c - f) i else sample b c i.
  Proof.
    intros Wb Ws L b'. pose proof Wb as [B1 B2]. pose proof Ws as [S1 S2]. assert (W : well n b').
    { split; [unfold b'; rewrite !app_length, firstn_length, skipn_length; lia|]. unfold b'. apply Forall_app. split; [now apply Forall_first|]. apply Forall_app. split; auto. now apply Forall_skip. }
    split; auto. intros c i Hc Hi. rewrite !sample_word by (auto; apply W). pose proof (div8_lt i Hi) as D. unfold b'.
    destruct (Nat.leb_spec f c) as [G|G]; cbn [andb].
    - rewrite nth_error_app2 by (rewrite firstn_length; lia). rewrite firstn_length. replace (8 * c + i / 8 - Nat.min (8 * f) (length b)) with (8 * (c - f) + i / 8) by lia.
      destruct (Nat.ltb_spec c (f + m)) as [K|K]; [now rewrite nth_error_app1 by lia|]. rewrite nth_error_app2 by lia. rewrite nth_error_skipn'. rewrite S1. replace (8 * (f + m) + (8 * (c - f) + i / 8 - 8 * m)) with (8 * c + i / 8) by lia. reflexivity.
    - rewrite nth_error_app1 by (rewrite firstn_length; lia). now rewrite nth_error_firstn_lt by lia.
  Qed.
  Lemma channel_store_ok d n (b : mem) c i v : well n b -> c < n -> i < 64 -> exists b', channel_f32_store d b c i v = Some b' /\ changes n b b' c i [v].
  Proof.
    intros H Hc Hi. destruct (channel_f32_ok d n b c H Hc) as (ch & E & L & S). unfold channel_f32_store. unfold channel_f32 in E. rewrite asserted in * by now apply (ltb_well n).
    rewrite (channel_ok d n) in * by auto. cbn [option_map] in E. assert (E' : firstn MAXB (concat (firstn 8 (skipn (8 * c) b))) = ch) by congruence. rewrite E'. unfold store. rewrite L, (proj2 (Nat.ltb_lt _ _) Hi). shifts.
    assert (W1 : well 1 (slices 8 8 (upd ch i v))). { split; [now rewrite slices_length|]. apply slices_each. now rewrite length_upd. }
    destruct (splice_ok n 1 b _ c H W1 ltac:(lia)) as [W C]. eexists. split; [reflexivity|]. split; [exact W|]. intros c' i' Hc' Hi'. rewrite C by auto. cbn [length].
    destruct (Nat.eqb_spec c' c) as [->|Q]; cbn [andb].
    - rewrite Nat.leb_refl, (proj2 (Nat.ltb_lt _ _)) by lia. cbn [andb]. unfold sample at 1. rewrite concat_slices by now rewrite length_upd. replace (64 * (c - c) + i') with i' by lia. rewrite nth_error_upd.
      destruct (Nat.eqb_spec i i') as [->|Q']; [rewrite L, (proj2 (Nat.ltb_lt _ _)), Nat.leb_refl, (proj2 (Nat.ltb_lt _ _)), Nat.sub_diag by lia; reflexivity|]. rewrite S by auto.
      assert (X : (i <=? i') && (i' <? i + 1) = false) by (apply andb_false_iff; destruct (Nat.leb_spec i i'); [right; apply Nat.ltb_ge; lia|left; auto]). now rewrite X.
    - assert (X : (c <=? c') && (c' <? c + 1) = false) by (apply andb_false_iff; destruct (Nat.leb_spec c c'); [right; apply Nat.ltb_ge; lia|left; auto]). now rewrite X.
  Qed.
  Lemma subset_ok d n (b : mem) f m : well n b -> f + m <= n -> exists s, subset d b f m = Some s /\ well m s /\ forall c i, c < m -> i < 64 -> sample s c i = sample b (f + c) i.
  Proof.
    intros H L. pose proof H as [H1 H2]. unfold subset. rewrite asserted by (rewrite (well_channels _ _ H); now apply Nat.leb_le). shifts. rewrite slice_ok by lia. eexists. split; [reflexivity|].
    assert (W : well m (firstn (8 * (f + m) - 8 * f) (skipn (8 * f) b))) by (split; [rewrite firstn_length, skipn_length; lia|now apply Forall_first, Forall_skip]).
    split; auto. intros c i Hc Hi. rewrite !sample_word by (auto; apply W). pose proof (div8_lt i Hi). rewrite nth_error_firstn_lt by lia. rewrite nth_error_skipn'. replace (8 * f + (8 * c + i / 8)) with (8 * (f + c) + i / 8) by lia. reflexivity.
  Qed.
  Lemma through_ok d n (b : mem) f m g : well n b -> f + m <= n -> (forall s, well m s -> exists s', g s = Some s' /\ well m s') ->
    exists s s' b', subset d b f m = Some s /\ g s = Some s' /\ through_subset d b f m g = Some b' /\ well n b' /\
      forall c i, c < n -> i < 64 -> sample b' c i = if Nat.leb f c && Nat.ltb c (f + m) then sample s' (c - f) i else sample b c i.
  Proof.
    intros H L G. destruct (subset_ok d n b f m H L) as (s & E & W & _). destruct (G s W) as (s' & E' & W'). exists s, s'. unfold through_subset. rewrite E, E'. shifts.
    destruct (splice_ok n m b s' f H W' L) as [W2 C]. eexists. split; [reflexivity|]. split; [reflexivity|]. split; [reflexivity|]. split; [exact W2|exact C].
  Qed.
  (* owned buffers *)
  Variable zero : A.
  Lemma zeros_well k : Forall (fun w : list A => length w = 8) (repeat (repeat zero 8) k).
  Proof. apply Forall_forall. intros w Hw. apply repeat_spec in Hw. subst w. apply repeat_length. Qed.
  Lemma sample_zeros k c i : 8 * c + i / 8 < k -> sample (repeat (repeat zero 8) k) c i = Some zero.
  Proof.
    intros L. rewrite sample_word by apply zeros_well. rewrite (nth_error_nth' _ _ (repeat zero 8)) by now rewrite repeat_length. rewrite nth_repeat. pose proof (divs i) as [_ M].
    rewrite (nth_error_nth' _ _ zero) by now rewrite repeat_length. now rewrite nth_repeat.
  Qed.
  Lemma new_ok n : well n (vec_new zero n) /\ forall c i, c < n -> i < 64 -> sample (vec_new zero n) c i = Some zero.
  Proof. unfold vec_new. shifts. split; [split; [apply repeat_length|apply zeros_well]|]. intros c i Hc Hi. apply sample_zeros. pose proof (div8_lt i Hi). lia. Qed.
  Lemma clear_ok n b : well n b -> well n (vec_clear zero b) /\ forall c i, c < n -> i < 64 -> sample (vec_clear zero b) c i = Some zero.
  Proof. intros [H _]. unfold vec_clear. rewrite H. split; [split; [apply repeat_length|apply zeros_well]|]. intros c i Hc Hi. apply sample_zeros. pose proof (div8_lt i Hi). lia. Qed.
  Lemma resize_ok n m b : well n b -> well m (vec_resize zero b m) /\ forall c i, c < m -> i < 64 -> sample (vec_resize zero b m) c i = if Nat.ltb c n then sample b c i else Some zero.
  Proof.
    intros [H1 H2]. unfold vec_resize. shifts. assert (W : well m (firstn (8 * m) b ++ repeat (repeat zero 8) (8 * m - length b))).
    { split; [rewrite app_length, firstn_length, repeat_length; lia|]. apply Forall_app. split; [now apply Forall_first|apply zeros_well]. }
    split; auto. intros c i Hc Hi. pose proof (div8_lt i Hi). destruct (Nat.ltb_spec c n) as [L|L].
    - rewrite !sample_word by (auto; apply W). rewrite nth_error_app1 by (rewrite firstn_length; lia). now rewrite nth_error_firstn_lt by lia.
    - rewrite <- (sample_zeros (8 * m - length b) (c - n) i) by lia. rewrite !sample_word by (try apply W; apply zeros_well). rewrite nth_error_app2 by (rewrite firstn_length; lia). rewrite firstn_length. replace (8 * c + i / 8 - Nat.min (8 * m) (length b)) with (8 * (c - n) + i / 8) by lia. reflexivity.
  Qed.
  (* arrays *)
  Lemma array_well n (a : list mem) : well_array n a -> well n (arr_ref a).
  Proof.
    intros [H1 H2]. unfold arr_ref. split.
    - rewrite (concat_length_uniform 8); [lia|]. apply Forall_forall. intros x Hx. rewrite Forall_forall in H2. now destruct (H2 x Hx).
    - clear H1. induction H2 as [|x a [_ W] _ IH]; cbn; auto. apply Forall_app. split; auto.
  Qed.
  Lemma array_word n (a : list mem) c q : well_array n a -> q < 8 -> nth_error (arr_ref a) (8 * c + q) = match nth_error a c with Some ws => nth_error ws q | None => None end.
  Proof. intros [H1 H2] L. unfold arr_ref. clear H1. revert c. induction a as [|x a IH]; intros c; cbn [concat]; [now rewrite !(proj2 (nth_error_None _ _)) by (cbn; lia)|].
    apply Forall_cons_iff in H2 as [[W1 W2] H2]. destruct c as [|c]; [rewrite nth_error_app1 by lia; reflexivity|]. rewrite nth_error_app2 by lia. replace (8 * S c + q - length x) with (8 * c + q) by lia. cbn [nth_error]. auto. Qed.
  Lemma arr_at_ok d n (a : list mem) c i : well_array n a -> c < n -> i < 8 -> arr_at a c i = at_ d (arr_ref a) c i.
  Proof. intros H Hc Hi. unfold at_. rewrite asserted by (apply (ltb_well n); auto; now apply array_well). shifts. unfold arr_at. now rewrite (array_word n) by auto. Qed.
  Lemma arr_at_f32_ok d n (a : list mem) c i : well_array n a -> c < n -> i < 64 -> arr_at_f32 a c i = at_f32 d (arr_ref a) c i.
  Proof. intros H Hc Hi. unfold at_f32. rewrite asserted by (apply (ltb_well n); auto; now apply array_well). unfold arr_at_f32. shifts. rewrite (array_word n) by (auto; now apply div8_lt). now destruct (nth_error a c). Qed.
  Lemma arr_set_f32_ok d n (a : list mem) c i v : well_array n a -> c < n -> i < 64 -> exists a', arr_set_f32 a c i v = Some a' /\ well_array n a' /\ set_f32 d (arr_ref a) c i v = Some (arr_ref a').
  Proof.
    intros H Hc Hi. pose proof (array_well n a H) as W. unfold set_f32. rewrite asserted by now apply (ltb_well n). unfold arr_set_f32. shifts. pose proof (div8_lt i Hi) as D8. destruct (divs i) as [_ M]. rewrite (array_word n) by auto.
    destruct H as [H1 H2]. destruct (nth_error a c) as [ws|] eqn:E; [|apply nth_error_None in E; lia]. assert (Wc : well 1 ws) by (rewrite Forall_forall in H2; apply H2; eapply nth_error_In; eauto).
    pose proof Wc as [L1 L2]. destruct (nth_error ws (i / 8)) as [w|] eqn:E2; [|apply nth_error_None in E2; lia]. assert (Lw : length w = 8) by (rewrite Forall_forall in L2; apply L2; eapply nth_error_In; eauto).
    unfold store. rewrite Lw, (proj2 (Nat.ltb_lt _ _) M), L1. rewrite (proj2 (Nat.ltb_lt _ _)) by lia. rewrite (proj2 (Nat.ltb_lt _ _)) by lia. eexists. split; [reflexivity|].
    assert (R : forall (a : list mem) c ws, Forall (well 1) a -> nth_error a c = Some ws -> forall w', upd (concat a) (8 * c + i / 8) w' = concat (upd a c (upd ws (i / 8) w'))).
    { clear - D8. induction a as [|x a IH]; intros c ws H E w'; [destruct c; discriminate|]. apply Forall_cons_iff in H as [[W1 W2] H]. destruct c as [|c]; cbn [nth_error] in E.
      - injection E as ->. cbn [upd concat]. rewrite upd_app_l by lia. f_equal. 
      - cbn [upd concat]. rewrite upd_app_r by lia. f_equal. rewrite <- (IH c ws H E). f_equal. lia. }
    split; [|unfold arr_ref; rewrite (proj2 (Nat.ltb_lt _ _)) by (destruct W as [W1 _]; unfold arr_ref in W1; lia); f_equal; apply R; auto].
    split; [now rewrite length_upd|]. apply Forall_forall. intros x Hx. apply In_nth_error in Hx as (j & Hj). rewrite nth_error_upd in Hj. rewrite Forall_forall in H2. destruct (Nat.eqb c j); [|apply H2; eapply nth_error_In; eauto].
    destruct (Nat.ltb c (length a)); [|discriminate]. match type of Hj with Some ?u = Some x => assert (EX : x = u) by congruence; rewrite EX in *; clear EX Hj end. split; [now rewrite length_upd|]. apply Forall_forall. intros y Hy. apply In_nth_error in Hy as (k & Hk). rewrite nth_error_upd in Hk. rewrite Forall_forall in L2. destruct (Nat.eqb (i / 8) k); [|apply L2; eapply nth_error_In; eauto].
    destruct (Nat.ltb (i / 8) (length ws)); [|discriminate]. apply (f_equal (fun o => match o with Some z => length z | None => 0 end)) in Hk. rewrite <- Hk. now rewrite length_upd.
  Qed.
  (* the view of BufModel.v *)
  Lemma slices_at {X} n k : forall (l : list X) c, c < n -> nth_error (slices n k l) c = Some (firstn k (skipn (c * k) l)).
  Proof.
    induction n as [|n IH]; intros l c Hc; [lia|]. destruct c as [|c]; [reflexivity|]. cbn [slices nth_error]. rewrite IH by lia. f_equal. f_equal.
    cbn [Nat.mul]. generalize (c * k). clear. revert l. induction k as [|k IHk]; intros l m; [reflexivity|]. destruct l; cbn [skipn Nat.add]; [now rewrite skipn_nil|apply IHk].
  Qed.
  Lemma as_channels_ok n (b : mem) : well n b -> shaped n (as_channels n b) /\ forall c i, c < n -> i < 64 -> nth_error (nth c (as_channels n b) []) i = sample b c i.
  Proof.
    intros H. pose proof (concat_length_well n b H) as L. unfold as_channels. split; [split; [apply slices_length|apply slices_each; unfold MAXB; lia]|].
    intros c i Hc Hi. rewrite (nth_error_nth (slices n 64 (concat b)) c [] (slices_at n 64 _ c Hc)). rewrite nth_error_firstn_lt by auto. rewrite nth_error_skipn'. unfold sample. f_equal. lia.
  Qed.
  Lemma changes_abstract n (b b' : mem) c i v : well n b -> c < n -> i < 64 -> changes n b b' c i [v] ->
    as_channels n b' = upd (as_channels n b) c (upd (nth c (as_channels n b) []) i v).
  Proof.
    intros H Hc Hi [W C]. destruct (as_channels_ok n b H) as [[S1 S2] R], (as_channels_ok n b' W) as [[S1' S2'] R']. apply (nth_ext_len _ _ []); [now rewrite length_upd, S1, S1'|]. intros k Hk. rewrite S1' in Hk.
    rewrite nth_upd. rewrite S1. assert (LK : forall l, length l = n -> Forall (fun ch : list A => length ch = MAXB) l -> length (nth k l []) = 64).
    { intros l Ll Fl. rewrite Forall_forall in Fl. apply Fl. apply nth_In. lia. }
    assert (E : forall j, j < 64 -> nth_error (nth k (as_channels n b') []) j = nth_error (if Nat.eqb c k then upd (nth c (as_channels n b) []) i v else nth k (as_channels n b) []) j).
    { intros j Hj. rewrite R' by auto. rewrite C by auto. cbn [length]. rewrite (Nat.eqb_sym c k). destruct (Nat.eqb_spec k c) as [->|Q]; cbn [andb]; [|now rewrite R].
      rewrite nth_error_upd, (LK _ S1 S2), (proj2 (Nat.ltb_lt _ _) Hi). destruct (Nat.eqb_spec i j) as [->|Q]; [rewrite Nat.leb_refl, (proj2 (Nat.ltb_lt _ _)), Nat.sub_diag by lia; reflexivity|].
      assert (X : (i <=? j) && (j <? i + 1) = false) by (apply andb_false_iff; destruct (Nat.leb_spec i j); [right; apply Nat.ltb_ge; lia|left; auto]). rewrite X. now rewrite R. }
    assert (F : nth k (as_channels n b') [] = if Nat.eqb c k then upd (nth c (as_channels n b) []) i v else nth k (as_channels n b) []).
    { apply nth_error_ext. intros j. destruct (le_lt_dec 64 j) as [G|G]; [|now apply E]. rewrite !(proj2 (nth_error_None _ _)); auto; [|now rewrite (LK _ S1' S2')].
      destruct (Nat.eqb_spec c k) as [->|]; rewrite ?length_upd, (LK _ S1 S2); auto. }
    rewrite F. destruct (Nat.eqb_spec c k); cbn [andb]; auto. now rewrite (proj2 (Nat.ltb_lt _ _)) by lia.
  Qed.
End Rows.
