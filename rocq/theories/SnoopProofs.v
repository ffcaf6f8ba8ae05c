(* Snoop frontends show what was delivered; rings are first in, first out. *)
From Verif Require Export SnoopSpec BufProofs.

Global Opaque CHANNEL.
Lemma land_mod k x : Nat.land x (2 ^ k - 1) = x mod 2 ^ k.
Proof. rewrite <- Nat.land_ones. f_equal. rewrite Nat.ones_equiv. lia. Qed.
Lemma firstn_upd_snoc {A} (l : list A) i x : i < length l -> firstn (S i) (upd l i x) = firstn i l ++ [x].
Proof. revert i. induction l as [|y l IH]; intros [|i] H; cbn in *; try lia; auto. f_equal. rewrite <- IH by lia. reflexivity. Qed.

Section Proofs.
  Context {A : Type}.
  Variable zero : A.
  Notation snoop := (@snoop A).
  Variable k : nat.
  (* the ring of the frontend and its history *)
  Definition ringed (f : front) (h : list A) : Prop :=
    length (f_latest f) = 2 ^ k /\ f_index f = length h mod 2 ^ k /\ f_total f = length h /\
    forall i, i < 2 ^ k -> nth ((f_index f + 2 ^ k - i - 1) mod 2 ^ k) (f_latest f) zero = nth i (rev h) zero.
  Lemma pow_pos : 0 < 2 ^ k. Proof. apply Nat.neq_0_lt_0, Nat.pow_nonzero. lia. Qed.
  Lemma ringed_shows f h : ringed f h -> shows zero f h.
  Proof.
    intros (L & I & T & H). split; auto. intros i Hi. rewrite L in Hi. pose proof pow_pos as P. pose proof (Nat.mod_upper_bound (length h) (2 ^ k)) as M.
    unfold snoop_at. rewrite L, land_mod. destruct (Nat.leb_spec (f_index f + 2 ^ k) i); [lia|]. rewrite (nth_error_nth' _ _ zero).
    - f_equal. now apply H.
    - rewrite L. apply Nat.mod_upper_bound. lia.
  Qed.
  Lemma back_index x i n : x < n -> i < n -> (x + n - i - 1) mod n = if Nat.ltb i x then x - i - 1 else x + n - i - 1.
  Proof.
    intros X I. destruct (Nat.ltb_spec i x); [|apply Nat.mod_small; lia].
    replace (x + n - i - 1) with (x - i - 1 + 1 * n) by lia. rewrite Nat.mod_add by lia. apply Nat.mod_small. lia.
  Qed.
  Lemma ringed_put f h x : ringed f h -> ringed (front_put f x) (h ++ [x]).
  Proof.
    intros (L & I & T & H). pose proof pow_pos as P. unfold ringed, front_put. cbn [f_index f_total f_latest]. rewrite length_upd, app_length, L, land_mod. cbn [length].
    assert (IB : f_index f < 2 ^ k) by (rewrite I; apply Nat.mod_upper_bound; lia).
    assert (NI : (f_index f + 1) mod 2 ^ k = if Nat.eqb (f_index f + 1) (2 ^ k) then 0 else f_index f + 1).
    { destruct (Nat.eqb_spec (f_index f + 1) (2 ^ k)) as [->|N]; [apply Nat.mod_same; lia|apply Nat.mod_small; lia]. }
    split; [reflexivity|]. split; [|split; [lia|]].
    - rewrite I. rewrite Nat.add_mod_idemp_l by lia. reflexivity.
    - intros i Hi. rewrite rev_app_distr. cbn [rev app]. rewrite NI. set (x' := if Nat.eqb (f_index f + 1) (2 ^ k) then 0 else f_index f + 1).
      assert (XB : x' < 2 ^ k) by (unfold x'; destruct (Nat.eqb_spec (f_index f + 1) (2 ^ k)); lia). rewrite back_index by auto. rewrite nth_upd, L.
      destruct i as [|j]; cbn [nth].
      + assert (E : (if Nat.ltb 0 x' then x' - 0 - 1 else x' + 2 ^ k - 0 - 1) = f_index f).
        { unfold x'. destruct (Nat.eqb_spec (f_index f + 1) (2 ^ k)); [destruct (Nat.ltb_spec 0 0); lia|]. destruct (Nat.ltb_spec 0 (f_index f + 1)); lia. }
        rewrite E, Nat.eqb_refl. destruct (Nat.ltb_spec (f_index f) (2 ^ k)); [reflexivity|lia].
      + rewrite <- (H j) by lia. rewrite (back_index (f_index f)) by lia.
        assert (E : (if Nat.ltb (S j) x' then x' - S j - 1 else x' + 2 ^ k - S j - 1) = (if Nat.ltb j (f_index f) then f_index f - j - 1 else f_index f + 2 ^ k - j - 1)).
        { unfold x'. destruct (Nat.eqb_spec (f_index f + 1) (2 ^ k)); destruct (Nat.ltb_spec j (f_index f)).
          - destruct (Nat.ltb_spec (S j) 0); lia.
          - destruct (Nat.ltb_spec (S j) 0); lia.
          - destruct (Nat.ltb_spec (S j) (f_index f + 1)); lia.
          - destruct (Nat.ltb_spec (S j) (f_index f + 1)); lia. }
        rewrite E. destruct (Nat.eqb_spec (f_index f) (if Nat.ltb j (f_index f) then f_index f - j - 1 else f_index f + 2 ^ k - j - 1)) as [Q|Q]; auto.
        exfalso. destruct (Nat.ltb_spec j (f_index f)); lia.
  Qed.
  Lemma ringed_puts b : forall f h, ringed f h -> ringed (fold_left front_put b f) (h ++ b).
  Proof. induction b as [|x b IH]; intros f h H; cbn [fold_left]; [now rewrite app_nil_r|]. replace (h ++ x :: b) with ((h ++ [x]) ++ b) by (rewrite <- app_assoc; reflexivity). apply IH, ringed_put, H. Qed.

  (* the whole system *)
  Definition agrees (s : snoop) (d : delivery) : Prop :=
    ringed (s_front s) (d_seen d) /\ s_chan s = d_waiting d /\ length (b_data (s_back s)) = MAXB /\ b_index (s_back s) < MAXB /\
    length (d_part d) = b_index (s_back s) /\ firstn (b_index (s_back s)) (b_data (s_back s)) = d_part d.
  Lemma agrees_put s d x : agrees s d -> agrees (back_put s x) (pass d x).
  Proof.
    intros (R & C & L & I & P & E). unfold back_put, pass. rewrite app_length, P. cbn [length]. change 64 with MAXB.
    pose proof (firstn_upd_snoc (b_data (s_back s)) (b_index (s_back s)) x ltac:(lia)) as F. rewrite E in F.
    destruct (Nat.eqb_spec (b_index (s_back s) + 1) MAXB) as [Q|Q].
    - assert (D : upd (b_data (s_back s)) (b_index (s_back s)) x = d_part d ++ [x]). { rewrite <- F. replace (S (b_index (s_back s))) with MAXB by lia. rewrite firstn_all2; auto. rewrite length_upd. lia. }
      unfold agrees. cbn [s_front s_back s_chan b_index b_data d_seen d_part d_waiting]. rewrite length_upd. repeat split; auto; try lia; try apply R.
      rewrite D, C. unfold try_send. destruct (Nat.ltb (length (d_waiting d)) CHANNEL); reflexivity.
    - unfold agrees. cbn [s_front s_back s_chan b_index b_data d_seen d_part d_waiting]. rewrite length_upd, app_length. cbn [length].
      split; [exact R|]. split; [exact C|]. split; [exact L|]. split; [lia|]. split; [lia|]. rewrite <- F. f_equal. lia.
  Qed.
  Lemma agrees_puts xs : forall s d, agrees s d -> agrees (fold_left back_put xs s) (fold_left pass xs d).
  Proof. induction xs as [|x xs IH]; intros s d H; cbn [fold_left]; auto. apply IH, agrees_put, H. Qed.
  Lemma agrees_get s d : agrees s d -> agrees (fst (snoop_get s)) (deliver d Get) /\ (snd (snoop_get s) = match d_waiting d with [] => None | b :: _ => Some b end).
  Proof.
    intros (R & C & L & I & P & E). unfold snoop_get, deliver. rewrite C. destruct (d_waiting d) as [|b w]; cbn [try_recv hd tl fst snd].
    - rewrite app_nil_r. split; auto. repeat split; auto; apply R.
    - split; auto. split; [|repeat split; auto]. cbn [s_front d_seen]. now apply ringed_puts.
  Qed.
  Lemma agrees_loop fuel : forall s d, agrees s d -> length (d_waiting d) < fuel -> agrees (update_loop fuel s) (deliver d Update).
  Proof.
    induction fuel as [|fuel IH]; intros s d H F; [lia|]. cbn [update_loop]. destruct (agrees_get s d H) as [G1 G2]. destruct (snoop_get s) as [s' o]. cbn [fst snd] in *.
    destruct (d_waiting d) as [|b w] eqn:W; rewrite G2.
    - unfold deliver in *. rewrite W in *. cbn [tl hd concat] in *. exact G1.
    - specialize (IH s' _ G1). unfold deliver in *. rewrite W in *. cbn [tl hd concat d_part d_waiting d_seen length] in *. rewrite <- app_assoc in IH. apply IH. lia.
  Qed.
  Lemma fold_map {X Y Z} (f : X -> Z -> X) (g : Y -> Z) l : forall x, fold_left (fun s y => f s (g y)) l x = fold_left f (map g l) x.
  Proof. induction l as [|y l IH]; intros x; cbn; auto. Qed.
  Lemma first_samples (l : list A) n : n <= length l -> map (fun i => nth i l zero) (seq 0 n) = firstn n l.
  Proof.
    intros H. apply (nth_ext _ _ zero zero); rewrite map_length, seq_length, ?firstn_length; [lia|]. intros i Hi. rewrite nth_map_seq by auto. now rewrite nth_firstn_lt.
  Qed.
  Lemma agrees_step s d e : agrees s d -> proper e -> agrees (snoop_step zero s e) (deliver d e).
  Proof.
    intros H P. destruct e as [x|size inb out| | |]; cbn [snoop_step deliver].
    - now apply agrees_put.
    - destruct P as [P1 [P2 P3]]. destruct inb as [|ch [|? ?]]; try discriminate. inversion P3 as [|? ? P4 _]; subst. unfold snoop_process. cbn [fst hd].
      rewrite (fold_map back_put (fun i => nth i ch zero)), first_samples by lia. now apply agrees_puts.
    - destruct H as (R & C & L & I & Q & E). unfold agrees, snoop_reset. cbn. repeat split; auto; try apply R. unfold MAXB; lia.
    - now apply agrees_get.
    - unfold snoop_update. destruct H as (R & C & H). rewrite C. apply agrees_loop; [split; [exact R|split; [exact C|exact H]]|lia].
  Qed.
  Lemma agrees_run es : forall s d, agrees s d -> Forall proper es -> agrees (snoop_run zero es s) (fold_left deliver es d).
  Proof. induction es as [|e es IH]; intros s d H P; cbn [fold_left]; auto. inversion P; subst. apply (IH (snoop_step zero s e)); auto. now apply agrees_step. Qed.
End Proofs.

Section New.
  Context {A : Type}.
  Variable zero : A.
  Lemma agrees_new capacity : agrees zero (Nat.log2_up capacity) (snoop_new zero capacity) (mkDelivery [] [] []).
  Proof.
    unfold agrees, snoop_new, ringed, next_power_of_two. cbn [s_front s_back s_chan b_index b_data d_seen d_part d_waiting f_index f_total f_latest length firstn].
    rewrite !repeat_length. repeat split; auto.
    - symmetry. apply Nat.mod_0_l, Nat.pow_nonzero. lia.
    - intros i Hi. cbn [rev]. rewrite nth_repeat. now destruct i.
    - unfold MAXB; lia.
  Qed.
  Lemma history capacity es : Forall proper es -> shows zero (s_front (snoop_run zero es (snoop_new zero capacity))) (delivered es).
  Proof. intros P. eapply ringed_shows. exact (proj1 (agrees_run zero _ es _ _ (agrees_new capacity) P)). Qed.
  Lemma latest_length capacity es : Forall proper es -> length (f_latest (s_front (snoop_run zero es (snoop_new zero capacity)))) = next_power_of_two capacity.
  Proof. intros P. exact (proj1 (proj1 (agrees_run zero _ es _ _ (agrees_new capacity) P))). Qed.

  (* without loss: whole blocks of the stream *)
  Definition lossless (d : delivery) (str : list A) : Prop :=
    str = d_seen d ++ concat (d_waiting d) ++ d_part d /\ length (d_part d) < 64 /\ (exists q, length (d_seen d) = 64 * q) /\ Forall (fun b => length b = 64) (d_waiting d).
  Lemma lossless_pass d str x : lossless d str -> length (d_waiting d) < CHANNEL -> lossless (pass d x) (str ++ [x]).
  Proof.
    intros (E & P & Q & W) L. unfold pass. rewrite app_length. cbn [length]. destruct (Nat.eqb_spec (length (d_part d) + 1) 64) as [X|X].
    - destruct (Nat.ltb_spec (length (d_waiting d)) CHANNEL); [|lia]. unfold lossless. cbn [d_part d_waiting d_seen]. rewrite concat_app. cbn [concat length]. rewrite !app_nil_r. repeat split; auto; try lia.
      + rewrite E, !app_assoc. reflexivity.
      + apply Forall_app. split; auto. constructor; auto. rewrite app_length. cbn [length]. lia.
    - unfold lossless. cbn [d_part d_waiting d_seen]. rewrite app_length. cbn [length]. repeat split; auto; try lia. rewrite E, !app_assoc. reflexivity.
  Qed.
  (* a block completes at most once *)
  Lemma lossless_passes xs : forall d str, lossless d str -> length (d_waiting d) < CHANNEL -> length (d_part d) + length xs < 64 ->
    lossless (fold_left pass xs d) (str ++ xs) /\ length (d_waiting (fold_left pass xs d)) = length (d_waiting d).
  Proof.
    induction xs as [|x xs IH]; intros d str H L N; cbn [fold_left]; [now rewrite app_nil_r|]. cbn [length] in N.
    replace (str ++ x :: xs) with ((str ++ [x]) ++ xs) by (rewrite <- app_assoc; reflexivity). pose proof (lossless_pass d str x H L) as H'.
    assert (E : d_waiting (pass d x) = d_waiting d /\ length (d_part (pass d x)) = length (d_part d) + 1).
    { unfold pass. rewrite app_length. cbn [length]. destruct (Nat.eqb_spec (length (d_part d) + 1) 64); [lia|]. cbn [d_waiting d_part]. rewrite app_length. split; reflexivity. }
    destruct E as [E1 E2]. destruct (IH _ _ H') as [A1 A2]; rewrite ?E1, ?E2; try lia. split; auto. now rewrite A2, E1.
  Qed.
  Lemma lossless_block xs d str : lossless d str -> length (d_waiting d) < CHANNEL -> length xs <= 64 -> lossless (fold_left pass xs d) (str ++ xs).
  Proof.
    intros H L N. destruct (le_lt_dec 64 (length (d_part d) + length xs)) as [G|G]; [|now apply lossless_passes].
    destruct H as (E & P & Q & W). set (m := 64 - length (d_part d) - 1). assert (XS : m < length xs) by lia.
    destruct (nth_error xs m) as [x|] eqn:X; [|apply nth_error_None in X; lia].
    apply nth_error_split in X as (a & b & -> & La). rewrite app_length in *. cbn [length] in *.
    rewrite fold_left_app. cbn [fold_left]. destruct (lossless_passes a d str) as [B1 B2]; [now repeat split|auto|lia|].
    pose proof (lossless_pass _ _ x B1 ltac:(lia)) as B3. replace (str ++ a ++ x :: b) with (((str ++ a) ++ [x]) ++ b) by (rewrite <- !app_assoc; reflexivity).
    assert (PL : forall (ys : list A) (e : delivery), length (d_part e) + length ys < 64 -> length (d_part (fold_left pass ys e)) = length (d_part e) + length ys).
    { clear. induction ys as [|y ys IH]; intros e He; cbn [fold_left length] in *; [lia|]. assert (Y : length (d_part (pass e y)) = length (d_part e) + 1).
      { unfold pass. rewrite app_length. cbn [length]. destruct (Nat.eqb_spec (length (d_part e) + 1) 64); [lia|]. cbn [d_part]. rewrite app_length. reflexivity. }
      rewrite IH by lia. lia. }
    set (d1 := fold_left pass a d) in *. assert (P1 : length (d_part d1) = 63) by (unfold d1; rewrite PL; lia).
    assert (D2 : d_part (pass d1 x) = []). { unfold pass. rewrite app_length, P1. reflexivity. }
    (* the rest of the block does not complete another *)
    clear PL. assert (NL : length b < 64) by lia. revert NL B3 D2. generalize (pass d1 x) as d2. generalize ((str ++ a) ++ [x]) as st. clear. intros st d2 NL H D.
    assert (G : forall (ys : list A) e str, lossless e str -> length (d_part e) + length ys < 64 -> lossless (fold_left pass ys e) (str ++ ys)).
    { clear. induction ys as [|y ys IH]; intros e str H N; cbn [fold_left length] in *; [now rewrite app_nil_r|].
      replace (str ++ y :: ys) with ((str ++ [y]) ++ ys) by (rewrite <- app_assoc; reflexivity).
      assert (E : pass e y = mkDelivery (d_part e ++ [y]) (d_waiting e) (d_seen e)). { unfold pass. rewrite app_length. cbn [length]. destruct (Nat.eqb_spec (length (d_part e) + 1) 64); [lia|reflexivity]. }
      rewrite E. apply IH; [|cbn [d_part]; rewrite app_length; cbn [length]; lia]. destruct H as (H1 & H2 & H3 & H4). unfold lossless. cbn [d_part d_waiting d_seen]. rewrite app_length. cbn [length]. repeat split; auto; try lia. rewrite H1, !app_assoc. reflexivity. }
    apply G; auto. rewrite D. cbn. lia.
  Qed.
  Lemma lossless_step d str e : lossless d str -> length (d_waiting d) < CHANNEL -> proper e -> e <> Reset -> lossless (deliver d e) (str ++ passing e).
  Proof.
    intros H L P N. destruct e as [x|size inb out| | |]; cbn [deliver passing]; try congruence.
    - now apply lossless_pass.
    - apply lossless_block; auto. destruct P. unfold MAXB in *. rewrite firstn_length. lia.
    - rewrite app_nil_r. destruct H as (E & PP & (q & Q) & W). destruct (d_waiting d) as [|b w] eqn:WW; unfold lossless; cbn [d_part d_waiting d_seen hd tl concat] in *.
      + rewrite app_nil_r. repeat split; eauto.
      + inversion W; subst. repeat split; auto. * rewrite <- !app_assoc. reflexivity. * exists (q + 1). rewrite app_length. lia.
    - rewrite app_nil_r. destruct H as (E & PP & (q & Q) & W). unfold lossless. cbn [d_part d_waiting d_seen concat]. repeat split; auto.
      + rewrite E, <- !app_assoc. reflexivity.
      + exists (q + length (d_waiting d)). rewrite app_length, (concat_length_uniform 64) by auto. lia.
  Qed.
  Lemma lossless_run es : forall d str, lossless d str -> Forall proper es -> ~ In Reset es ->
    (forall n, length (d_waiting (fold_left deliver (firstn n es) d)) < CHANNEL) -> lossless (fold_left deliver es d) (str ++ stream es).
  Proof.
    induction es as [|e es IH]; intros d str H P N L; cbn [fold_left]; [cbn; now rewrite app_nil_r|]. inversion P; subst.
    unfold stream. cbn [map concat]. rewrite app_assoc. apply IH; auto.
    - apply lossless_step; auto. * exact (L 0). * intros ->. apply N. now left.
    - intros X. apply N. now right.
    - intros n. exact (L (S n)).
  Qed.
  (* more than CHANNEL blocks without a poll *)
  Lemma pass_run (xs : list A) : forall d, length (d_part d) + length xs < 64 -> fold_left pass xs d = mkDelivery (d_part d ++ xs) (d_waiting d) (d_seen d).
  Proof.
    induction xs as [|x xs IH]; intros d N; cbn [fold_left length] in *; [rewrite app_nil_r; now destruct d|].
    assert (E : pass d x = mkDelivery (d_part d ++ [x]) (d_waiting d) (d_seen d)). { unfold pass. rewrite app_length. cbn [length]. destruct (Nat.eqb_spec (length (d_part d) + 1) 64); [lia|reflexivity]. }
    rewrite E, IH by (cbn [d_part]; rewrite app_length; cbn [length]; lia). cbn [d_part d_waiting d_seen]. now rewrite <- app_assoc.
  Qed.
  Lemma pass_block (b : list A) d : length b = 64 -> d_part d = [] ->
    fold_left pass b d = mkDelivery [] (if Nat.ltb (length (d_waiting d)) CHANNEL then d_waiting d ++ [b] else d_waiting d) (d_seen d).
  Proof.
    intros L P. destruct (@exists_last _ b) as (a & x & ->); [intros ->; discriminate|]. rewrite app_length in L. cbn [length] in L.
    rewrite fold_left_app, (pass_run a) by (rewrite P; cbn; lia). rewrite P. cbn [fold_left app]. unfold pass. cbn [d_part d_waiting d_seen]. rewrite app_length. cbn [length].
    destruct (Nat.eqb_spec (length a + 1) 64); [reflexivity|lia].
  Qed.
  Lemma blocks_wait (b : list A) out n : length b = 64 -> fold_left deliver (repeat (Block 64 [b] out) n) (mkDelivery [] [] []) = mkDelivery [] (repeat b (Nat.min n CHANNEL)) [].
  Proof.
    intros L. induction n as [|n IH]; [reflexivity|]. replace (S n) with (n + 1) at 1 by lia. rewrite repeat_app, fold_left_app, IH. cbn [repeat fold_left deliver hd].
    rewrite firstn_all2 by lia. rewrite pass_block by auto. cbn [d_waiting d_seen]. rewrite repeat_length. f_equal.
    destruct (Nat.ltb_spec (Nat.min n CHANNEL) CHANNEL).
    - replace (Nat.min (S n) CHANNEL) with (Nat.min n CHANNEL + 1) by lia. now rewrite repeat_app.
    - f_equal. lia.
  Qed.
  (* after a final update the frontend has all the complete blocks of the stream *)
  Lemma latest capacity es : Forall proper es -> ~ In Reset es ->
    (forall n, length (s_chan (snoop_run zero (firstn n es) (snoop_new zero capacity))) < CHANNEL) ->
    shows zero (s_front (snoop_run zero (es ++ [Update]) (snoop_new zero capacity))) (firstn (64 * (length (stream es) / 64)) (stream es)).
  Proof.
    intros P N L. assert (P' : Forall proper (es ++ [Update])) by (apply Forall_app; split; auto; repeat constructor).
    pose proof (history capacity _ P') as H. assert (E : delivered (es ++ [Update]) = firstn (64 * (length (stream es) / 64)) (stream es)); [|now rewrite E in H].
    unfold delivered. rewrite fold_left_app. cbn [fold_left]. set (d := fold_left deliver es (mkDelivery [] [] [])).
    assert (LL : lossless d ([] ++ stream es)).
    { apply (lossless_run es _ []); auto.
      - split; [reflexivity|split; [cbn; lia|split; [now exists 0|constructor]]].
      - intros n. specialize (L n). destruct (agrees_run zero _ (firstn n es) _ _ (agrees_new capacity)) as (_ & C & _).
        + clear - P. revert n. induction P as [|e es H P IH]; intros [|n]; cbn; constructor; auto.
        + now rewrite <- C. }
    pose proof (lossless_step _ _ Update LL) as U. destruct LL as (E & PP & (q & Q) & W). cbn [app] in *. cbn [deliver d_seen d_waiting d_part concat].
    assert (LS : length (d_seen d ++ concat (d_waiting d)) = 64 * (q + length (d_waiting d))). { rewrite app_length, (concat_length_uniform 64) by auto. lia. }
    rewrite E, app_assoc, app_length, LS. replace (64 * (q + length (d_waiting d)) + length (d_part d)) with (length (d_part d) + (q + length (d_waiting d)) * 64) by lia.
    rewrite Nat.div_add by lia. rewrite Nat.div_small by auto. rewrite Nat.add_0_l. rewrite <- LS, firstn_app, Nat.sub_diag. cbn [firstn]. now rewrite app_nil_r, firstn_all.
  Qed.
End New.

Section Thru.
  Context {A : Type}.
  Variable zero : A.
  Lemma passes_thru (s : snoop) : (forall x, snd (snoop_tick zero s [x]) = [x]) /\
    forall size inb out, size <= MAXB -> shaped 1 inb -> shaped 1 out -> frames zero (snd (snoop_process zero s size inb out)) size = frames zero inb size.
  Proof.
    split; [reflexivity|]. intros size inb out H I O. unfold snoop_process. cbn [snd]. apply frames_ext. intros i Hi. apply frame_copy_simd; auto. destruct I, O. lia.
  Qed.
End Thru.

Section Ring.
  Context {X : Type}.
  Variable zero : X.
  Lemma ring_fifo capacity es : forall acc r, r <= length acc ->
    let '(c, os, oks) := ring_run zero capacity es (skipn r acc) in (os, oks) = fifo zero capacity es acc r.
  Proof.
    induction es as [|e es IH]; intros acc r R; [reflexivity|]. destruct e as [x|]; cbn [ring_run fifo].
    - unfold ring_send, try_send. rewrite skipn_length. destruct (Nat.ltb (length acc - r) capacity).
      + replace (skipn r acc ++ [x]) with (skipn r (acc ++ [x])). 2: { rewrite skipn_app. replace (r - length acc) with 0 by lia. reflexivity. }
        specialize (IH (acc ++ [x]) r). rewrite app_length in IH. specialize (IH ltac:(lia)). destruct (ring_run zero capacity es (skipn r (acc ++ [x]))) as [[c os] oks]. now rewrite <- IH.
      + specialize (IH acc r R). destruct (ring_run zero capacity es (skipn r acc)) as [[c os] oks]. now rewrite <- IH.
    - unfold ring_tick. destruct (Nat.ltb_spec r (length acc)) as [G|G].
      + destruct (nth_error acc r) as [y|] eqn:Y; [|apply nth_error_None in Y; lia]. apply nth_error_split in Y as (a & b & -> & <-).
        rewrite skipn_app, skipn_all, Nat.sub_diag. cbn [app skipn try_recv]. specialize (IH (a ++ y :: b) (S (length a))). rewrite app_length in IH. cbn [length] in IH. specialize (IH ltac:(lia)).
        assert (E : skipn (S (length a)) (a ++ y :: b) = b). { rewrite skipn_app, skipn_all2 by lia. replace (S (length a) - length a) with 1 by lia. reflexivity. }
        rewrite E in IH. destruct (ring_run zero capacity es b) as [[c os] oks]. rewrite <- IH. f_equal. rewrite app_nth2, Nat.sub_diag by lia. reflexivity.
      + assert (E : skipn r acc = []) by (apply skipn_all2; lia). specialize (IH acc r R). rewrite E in *. cbn [try_recv].
        destruct (ring_run zero capacity es []) as [[c os] oks]. rewrite <- IH. now rewrite nth_overflow by lia.
  Qed.
End Ring.
