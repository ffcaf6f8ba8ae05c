(* Proofs about the player, rendering and filtering. *)
From Coq Require Import Lia.
From Verif Require Export WaveProofs AdaptProofs.

Section Player.
  Context {A F : Type}.
  Variable zero : A.
  Lemma shift_down_len i0 : forall n i (c : list A), length (shift_down zero n i i0 c) = length c.
  Proof. induction n as [|n IH]; intros i c; cbn [shift_down]; [reflexivity|]. now rewrite IH, length_upd. Qed.
  (* the wave appended is a proper one *)
  Definition proper (e : wedit A F) : Prop := match e with Append v => rect v | _ => True end.
  Lemma edit_rect (add : A -> A -> A) (w : wave A F) e w' : (forall x, add zero x = x) -> rect w -> proper e -> do_edit zero add w e = Some w' -> rect w'.
  Proof.
    intros Hz Hw Hp E. assert (G : allowed w e -> rect w'). { intros Ha. destruct (edit_ok zero add Hz w e Hw Ha) as (w2 & D1 & _ & _ & D4). congruence. }
    pose proof Hw as [R1 R2]. destruct e as [s|c s|c|c off s|src|f|n|st len|c i x|c i x]; cbn [do_edit allowed proper] in *.
    - apply G. unfold push_channel, channels in E. destruct (Nat.eqb_spec (length (w_vec w)) 0) as [L|L]; [left; now apply length_zero_iff_nil|]. destruct (Nat.eqb_spec (w_len w) (length s)) as [K|K]; [right; auto|discriminate].
    - apply G. unfold insert_channel, channels in E. destruct (Nat.leb_spec c (length (w_vec w))) as [M|M]; [|destruct (_ || _); discriminate]. split; [|exact M]. destruct (Nat.eqb_spec (length (w_vec w)) 0) as [L|L]; [left; now apply length_zero_iff_nil|]. destruct (Nat.eqb_spec (w_len w) (length s)) as [K|K]; [right; auto|discriminate].
    - apply G. unfold remove_channel in E. destruct (nth_error (w_vec w) c) eqn:N; [|discriminate]. apply nth_error_Some. congruence.
    - destruct (Nat.lt_ge_cases c (length (w_vec w))) as [L|L]; [now apply G|]. unfold mix_channel in E. destruct (Z.to_nat _) as [|n]; cbn [mix_loop] in E; [congruence|]. destruct (nth_error s _); [|discriminate]. unfold w_mix, w_at in E. apply nth_error_None in L. rewrite L in E. discriminate.
    - apply G. unfold append, channels in E. destruct (Nat.eqb_spec (length (w_vec w)) (length (w_vec src))) as [L|L]; [|discriminate]. split; [exact Hp|]. split; [auto|]. intros N. unfold resize, channels in E. rewrite N in E. discriminate.
    - apply G. unfold push, channels in E. destruct f as [|x [|y f]]; [right|left; reflexivity|right]; match type of E with (if Nat.eqb ?a ?b then _ else _) = _ => destruct (Nat.eqb_spec a b) end; congruence.
    - apply G. intros N. unfold resize, channels in E. rewrite N in E. discriminate.
    - unfold retain in E. destruct (isize_add st (as_isize len)) as [e|]; [|discriminate]. set (i0 := Z.to_nat (Z.max st 0)) in *. set (i1 := Nat.min (w_len w) _) in *. destruct (Nat.ltb i1 i0); [discriminate|]. set (v := if Nat.ltb 0 i0 then _ else _) in E.
      assert (V : Forall (fun ch => length ch = w_len w) v /\ length v = length (w_vec w)). { subst v. destruct (Nat.ltb 0 i0); [|auto]. split; [|apply map_length]. rewrite Forall_map. eapply Forall_impl; [|exact R1]. cbn. intros a Ha. now rewrite shift_down_len. }
      clearbody v. destruct V as [V1 V2]. destruct v as [|x v]; [discriminate|]. assert (Hr : rect (mkWave (x :: v) (w_rate w) (w_len w))) by (split; cbn; [exact V1|discriminate]). rewrite (resize_ok zero add _ _ Hr) in E by discriminate. cbn [w_vec w_rate] in E. assert (X : w' = mkWave (map (vec_resize zero (i1 - i0)) (x :: v)) (w_rate w) (i1 - i0)) by congruence. subst w'. apply (resize_rect zero add (mkWave (x :: v) (w_rate w) (w_len w))). discriminate.
    - apply G. unfold w_set in E. destruct (nth_error (w_vec w) c) as [ch|] eqn:N; [|discriminate]. split; [apply nth_error_Some; congruence|]. destruct (Nat.ltb_spec i (length ch)) as [L|L]; [|discriminate]. rewrite Forall_forall in R1. rewrite <- (R1 ch); [exact L|]. eapply nth_error_In; eauto.
    - apply G. unfold w_mix, w_at in E. destruct (nth_error (w_vec w) c) as [ch|] eqn:N; [|discriminate]. split; [apply nth_error_Some; congruence|]. destruct (nth_error ch i) eqn:M; [|discriminate]. rewrite Forall_forall in R1. rewrite <- (R1 ch); [|eapply nth_error_In; eauto]. apply nth_error_Some. congruence.
  Qed.
  Lemma edits_rect (add : A -> A -> A) (es : list (wedit A F)) : (forall x, add zero x = x) -> Forall proper es -> forall w, rect w -> forall w', do_edits zero add w es = Some w' -> rect w'.
  Proof.
    intros Hz Hp. induction Hp as [|e es He Hp IH]; intros w Hw w' E; cbn [do_edits] in E; [congruence|]. destruct (do_edit zero add w e) as [w1|] eqn:E1; [|discriminate]. apply (IH w1); [|exact E]. eapply edit_rect; eauto.
  Qed.
  (* the place of the player after n ticks *)
  Definition placed (start end_ : nat) (loop_ : option nat) (samples : list A) (n : nat) (p : player A) : Prop :=
    p_samples p = samples /\ p_start p = start /\ p_end p = end_ /\ p_loop p = loop_ /\
    match played start end_ loop_ n with Some i => p_index p = i | None => end_ <= p_index p end.
  Lemma played_in start end_ loop_ n i : played start end_ loop_ n = Some i -> i < end_.
  Proof.
    unfold played. destruct (Nat.ltb_spec (start + n) end_); [intros [= <-]; lia|]. destruct (Nat.ltb_spec start end_); [|discriminate]. destruct loop_ as [q|]; [|discriminate]. destruct (Nat.ltb_spec q end_); [|discriminate].
    intros E. assert (X : i = q + (n - (end_ - start)) mod (end_ - q)) by congruence. pose proof (Nat.mod_upper_bound (n - (end_ - start)) (end_ - q) ltac:(lia)). lia.
  Qed.
  Lemma mod_succ m k : 0 < k -> S m mod k = if Nat.eqb (S (m mod k)) k then 0 else S (m mod k).
  Proof.
    intros Hk. pose proof (Nat.div_mod m k ltac:(lia)) as D. pose proof (Nat.mod_upper_bound m k ltac:(lia)) as B. destruct (Nat.eqb_spec (S (m mod k)) k) as [E|E].
    - symmetry. apply (Nat.mod_unique (S m) k (S (m / k))); lia.
    - symmetry. apply (Nat.mod_unique (S m) k (m / k)); lia.
  Qed.
  Lemma tick_placed start end_ loop_ samples n p : end_ <= length samples -> placed start end_ loop_ samples n p ->
    exists p', player_tick zero p = Some (p', match played start end_ loop_ n with Some i => nth i samples zero | None => zero end) /\ placed start end_ loop_ samples (S n) p'.
  Proof.
    intros He (P1 & P2 & P3 & P4 & P5). unfold player_tick. rewrite P1, P2, P3, P4. destruct (played start end_ loop_ n) as [i|] eqn:E.
    - pose proof (played_in _ _ _ _ _ E) as Hi. rewrite P5. clear P5. destruct (Nat.ltb_spec i end_); [|lia]. destruct (nth_error samples i) as [v|] eqn:Ev; [|apply nth_error_None in Ev; lia]. eexists. split; [apply nth_error_nth with (d := zero) in Ev; now rewrite Ev|].
      split; [reflexivity|]. split; [reflexivity|]. split; [reflexivity|]. split; [reflexivity|]. cbn [p_index]. unfold played in *.
      destruct (Nat.ltb_spec (start + n) end_) as [G|G].
      + assert (i = start + n) by congruence. subst i. destruct (Nat.ltb_spec (start + S n) end_) as [G2|G2].
        * destruct (Nat.eqb_spec (S (start + n)) end_); lia.
        * destruct (Nat.eqb_spec (S (start + n)) end_); [|lia]. destruct (Nat.ltb_spec start end_); [|lia]. destruct loop_ as [q|]; [|lia]. destruct (Nat.ltb_spec q end_); [|lia]. replace (S n - (end_ - start)) with 0 by lia. rewrite Nat.mod_0_l by lia. lia.
      + destruct (Nat.ltb_spec start end_) as [G3|G3]; [|discriminate]. destruct loop_ as [q|]; [|discriminate]. destruct (Nat.ltb_spec q end_) as [G4|G4]; [|discriminate]. destruct (Nat.ltb_spec (start + S n) end_); [lia|].
        set (m := n - (end_ - start)) in *. replace (S n - (end_ - start)) with (S m) by lia. rewrite mod_succ by lia. assert (X : i = q + m mod (end_ - q)) by congruence. 
        destruct (Nat.eqb_spec (S i) end_); destruct (Nat.eqb_spec (S (m mod (end_ - q))) (end_ - q)); lia.
    - destruct (Nat.ltb_spec (p_index p) end_); [lia|]. exists p. split; [reflexivity|]. split; [exact P1|]. split; [exact P2|]. split; [exact P3|]. split; [exact P4|].
      assert (X : played start end_ loop_ (S n) = None); [|rewrite X; exact P5]. unfold played in *. destruct (Nat.ltb_spec (start + n) end_); [discriminate|]. destruct (Nat.ltb_spec (start + S n) end_); [lia|]. destruct (start <? end_); [|reflexivity]. destruct loop_ as [q|]; [|reflexivity]. destruct (q <? end_); [discriminate|reflexivity].
  Qed.
  Lemma play_placed start end_ loop_ samples : end_ <= length samples -> forall n k p, placed start end_ loop_ samples k p ->
    exists p', play zero n p = Some (p', map (fun t => match played start end_ loop_ t with Some i => nth i samples zero | None => zero end) (seq k n)) /\ placed start end_ loop_ samples (k + n) p'.
  Proof.
    intros He. induction n as [|n IH]; intros k p Hp; cbn [play seq map].
    - exists p. rewrite Nat.add_0_r. auto.
    - destruct (tick_placed _ _ _ _ _ _ He Hp) as (p1 & T1 & T2). rewrite T1. destruct (IH (S k) p1 T2) as (p2 & I1 & I2). rewrite I1. exists p2. split; [reflexivity|]. now replace (k + S n) with (S k + n) by lia.
  Qed.
  Lemma start_placed start end_ loop_ samples i : placed start end_ loop_ samples 0 (player_reset (mkPlayer samples i start end_ loop_)).
  Proof.
    unfold placed, player_reset, played. cbn [p_samples p_start p_end p_loop p_index]. repeat (split; [reflexivity|]). rewrite Nat.add_0_r. destruct (Nat.ltb_spec start end_); [reflexivity|]. exact H.
  Qed.
  Lemma player_new_ok (w : wave A F) c start end_ loop_ ch : rect w -> nth_error (w_vec w) c = Some ch -> end_ <= w_len w ->
    player_new w c start end_ loop_ = Some (mkPlayer ch start start end_ loop_) /\ end_ <= length ch.
  Proof. intros [R _] E He. unfold player_new. rewrite E. destruct (Nat.leb_spec end_ (w_len w)); [|lia]. split; [reflexivity|]. rewrite Forall_forall in R. rewrite (R ch); [exact He|]. eapply nth_error_In; eauto. Qed.
End Player.

Section Render.
  Context {F P U : Type}.
  Variables (nm : num F) (ops : unit_ops F P U).
  Notation zero := (n0 nm).
  Hypothesis laws : unit_laws zero ops.
  Lemma block_samples_ok n ch : block_samples nm n ch = map (fun k => nth k ch zero) (seq 0 n).
  Proof.
    unfold block_samples. assert (Sh : forall b m, map (fun k => nth (b + k) ch zero) (seq 0 m) = map (fun k => nth k ch zero) (seq b m)).
    { intros b m. induction m as [|m IH]; [reflexivity|]. rewrite !seq_S, !map_app, IH. reflexivity. }
    assert (G : forall m, flat_map (fun j => map (fun k => nth (8 * j + k) ch zero) (seq 0 8)) (seq 0 m) = map (fun k => nth k ch zero) (seq 0 (8 * m))).
    { induction m as [|m IH]; [reflexivity|]. replace (8 * S m) with (8 * m + 8) by lia. rewrite (seq_S m 0), flat_map_app, IH, (seq_app (8 * m) 8), map_app. f_equal. change (flat_map ?f [?x]) with (f x ++ []). rewrite app_nil_r. apply (Sh (8 * m)). }
    rewrite G, Sh. rewrite <- map_app. f_equal. change (seq (8 * (n / 8)) (n mod 8)) with (seq (0 + 8 * (n / 8)) (n mod 8)). rewrite <- seq_app. f_equal. symmetry. apply Nat.div_mod. lia.
  Qed.
  Lemma frames_channel c (b : list (list F)) n : c < length b -> channel_of zero c (frames zero b n) = map (fun k => nth k (nth c b []) zero) (seq 0 n).
  Proof.
    intros H. unfold channel_of, frames. rewrite map_map. apply map_ext. intros k. unfold frame. rewrite (nth_indep _ zero ((fun ch => nth k ch zero) [])) by now rewrite map_length. now rewrite map_nth with (f := fun ch => nth k ch zero).
  Qed.
  Lemma nil_frames n : frames zero ([] : list (list F)) n = repeat [] n.
  Proof. unfold frames. change (frame zero []) with (fun _ : nat => @nil F). generalize 0. induction n as [|n IH]; intros k; cbn; [reflexivity|]. now rewrite IH. Qed.
  Lemma nil_shaped : shaped 0 ([] : list (list F)).
  Proof. split; [reflexivity|constructor]. Qed.
  Lemma channel_app c a b : channel_of zero c (a ++ b : list (list F)) = channel_of zero c a ++ channel_of zero c b.
  Proof. apply map_app. Qed.
  (* the channels with the next frames added *)
  Definition grown (outs : nat) (vec fs : list (list F)) : list (list F) := map (fun c => nth c vec [] ++ channel_of zero c fs) (seq 0 outs).
  Lemma grown_nil outs vec : length vec = outs -> grown outs vec [] = vec.
  Proof. intros <-. unfold grown. cbn. apply (nth_ext _ _ [] []); [now rewrite map_length, seq_length|]. rewrite map_length, seq_length. intros j Hj. rewrite (nth_map_seq (fun c => nth c vec [] ++ [])) by exact Hj. apply app_nil_r. Qed.
  Lemma grown_length outs vec fs : length (grown outs vec fs) = outs.
  Proof. unfold grown. now rewrite map_length, seq_length. Qed.
  Lemma grown_app outs vec a b : grown outs (grown outs vec a) b = grown outs vec (a ++ b).
  Proof. unfold grown. apply map_ext_in. intros c Hc. apply in_seq in Hc. rewrite (nth_map_seq (fun c => nth c vec [] ++ channel_of zero c a)) by lia. now rewrite channel_app, app_assoc. Qed.
  Lemma zipw_grown outs (g : list F -> list F) n vec b : length vec = outs -> length b = outs -> (forall ch, In ch b -> g ch = map (fun k => nth k ch zero) (seq 0 n)) ->
    zipw (fun v ch => v ++ g ch) vec b = grown outs vec (frames zero b n).
  Proof.
    intros Hv Hb Hg. assert (Lz : length (zipw (fun v ch => v ++ g ch) vec b) = outs) by (rewrite zipw_length; lia). apply (nth_ext _ _ [] []); [now rewrite grown_length|]. rewrite Lz. intros c Hc. unfold grown. rewrite (nth_map_seq (fun c => nth c vec [] ++ channel_of zero c (frames zero b n))) by exact Hc. rewrite frames_channel by lia.
    rewrite <- Hg by (apply nth_In; lia). clear Hg Lz. subst outs. revert b c Hb Hc. induction vec as [|v vec IH]; intros [|x b] [|c] Hb Hc; cbn in *; try lia; auto. apply IH; lia.
  Qed.
  Lemma firstn_map_nth n (ch : list F) : n <= length ch -> firstn n ch = map (fun k => nth k ch zero) (seq 0 n).
  Proof.
    intros H. apply (nth_ext _ _ zero zero); [rewrite firstn_length, map_length, seq_length; lia|]. rewrite firstn_length. intros j Hj. rewrite nth_firstn_lt by lia. now rewrite (nth_map_seq (fun k => nth k ch zero)) by lia.
  Qed.
  Lemma render_loop_ok len outs : forall fuel i u buf vec, len - i <= fuel -> i <= len -> u_ins ops u = 0 -> u_outs ops u = outs -> shaped outs buf -> length vec = outs ->
    render_loop nm ops fuel i len u buf vec = let r := ticks (u_tick ops) u (repeat [] (len - i)) in (fst r, grown outs vec (snd r)).
  Proof.
    induction fuel as [|fuel IH]; intros i u buf vec Hf Hi Hin Ho Hb Hv; cbn [render_loop]; destruct (Nat.ltb_spec i len) as [G|G]; try lia.
    1, 3: replace (len - i) with 0 by lia; cbn; now rewrite grown_nil.
    set (n := Nat.min (len - i) MAXB). assert (Hn : 0 < n <= MAXB) by (subst n; unfold MAXB; lia). assert (Hn2 : i + n <= len) by (subst n; lia).
    pose proof (ul_process _ _ laws u n [] buf (proj2 Hn)) as C. rewrite Hin, Ho in C. specialize (C nil_shaped Hb). rewrite nil_frames in C. pose proof (unit_arity zero ops laws (repeat [] n) u) as Ar.
    destruct (u_process ops u n [] buf) as [u1 b1]. destruct C as [C1 C2]. rewrite <- C1 in Ar. cbn [fst] in Ar. destruct Ar as [Ar1 Ar2].
    rewrite (IH (i + n) u1 b1) ; [|lia|lia|congruence|congruence|exact C2|rewrite zipw_length; destruct C2; lia]. 
    rewrite (zipw_grown outs (block_samples nm n) n vec b1 Hv (proj1 C2)) by (intros; apply block_samples_ok).
    replace (len - i) with (n + (len - (i + n))) by lia. rewrite repeat_app, ticks_app, <- C1. cbv zeta. destruct (ticks (u_tick ops) u1 (repeat [] (len - (i + n)))) as [u2 os]. cbn [fst snd]. now rewrite grown_app.
  Qed.
  Lemma grown_transpose outs fs : grown outs (repeat [] outs) fs = transpose zero outs fs.
  Proof. unfold grown, transpose. apply map_ext. intros c. now rewrite nth_repeat. Qed.
  Lemma transpose_rect outs (fs : list (list F)) (r : F) : 0 < outs -> rect (mkWave (transpose zero outs fs) r (length fs)).
  Proof. intros H. split; cbn [w_vec w_len]. - unfold transpose. rewrite Forall_map. apply Forall_forall. intros c _. unfold channel_of. apply map_length. - intros E. apply (f_equal (@length _)) in E. unfold transpose in E. rewrite map_length, seq_length in E. cbn in E. lia. Qed.

  Variable set_sr : U -> F -> U.
  Hypothesis rate_ins : forall u r, u_ins ops (set_sr u r) = u_ins ops u.
  Hypothesis rate_outs : forall u r, u_outs ops (set_sr u r) = u_outs ops u.
  Lemma render_ok sr dur u : u_ins ops u = 0 -> 0 < u_outs ops u -> nleb nm zero dur = true ->
    let n := round_us nm (nmul nm dur sr) in let r := ticks (u_tick ops) (set_sr u sr) (repeat [] n) in
    render nm ops set_sr sr dur u = Some (fst r, mkWave (transpose zero (u_outs ops u) (snd r)) sr n).
  Proof.
    intros H1 H2 H3. cbv zeta. unfold render. rewrite H1, H3. destruct (Nat.ltb_spec 0 (u_outs ops u)); [|lia]. cbn [Nat.eqb andb]. set (n := round_us nm (nmul nm dur sr)).
    rewrite (render_loop_ok n (u_outs ops u)); [|lia|lia|now rewrite rate_ins|now rewrite rate_outs|apply blank_shaped|apply repeat_length]. cbv zeta. rewrite Nat.sub_0_r, grown_transpose. reflexivity.
  Qed.

  (* filtering *)
  Definition wave_ok (w : wave F F) : Prop := Forall (fun ch => length ch = w_len w) (w_vec w).
  Lemma filter_loop_ok (w : wave F F) len outs : forall fuel i u inb outb vec, len - i <= fuel -> i <= len -> u_ins ops u = channels w -> u_outs ops u = outs -> shaped (channels w) inb -> shaped outs outb -> length vec = outs ->
    exists inb' outb', let r := ticks (u_tick ops) u (map (fun k => map (fun ch => nth k ch zero) (w_vec w)) (seq i (len - i))) in
    filter_loop nm ops fuel i len u w inb outb vec = (fst r, inb', outb', grown outs vec (snd r)) /\ shaped outs outb'.
  Proof.
    induction fuel as [|fuel IH]; intros i u inb outb vec Hf Hi Hin Ho Hib Hb Hv; cbn [filter_loop]; destruct (Nat.ltb_spec i len) as [G|G]; try lia.
    1, 3: exists inb, outb; replace (len - i) with 0 by lia; cbn; now rewrite grown_nil.
    set (n := Nat.min (len - i) MAXB). assert (Hn : 0 < n <= MAXB) by (subst n; unfold MAXB; lia). assert (Hn2 : i + n <= len) by (subst n; lia).
    set (inb1 := zipw _ (w_vec w) inb). 
    assert (S1 : shaped (channels w) inb1 /\ frames zero inb1 n = map (fun k => map (fun ch => nth k ch zero) (w_vec w)) (seq i n)).
    { subst inb1. destruct Hib as [L1 L2]. unfold channels in *. revert L1 L2. generalize (w_vec w) inb. clear - Hn. intros v. 
      assert (X : forall b, length b = length v -> Forall (fun ch => length ch = MAXB) b -> Forall (fun ch => length ch = MAXB) (zipw (fun ch b => map (fun k => if Nat.ltb k n then nth (i + k) ch zero else nth k b zero) (seq 0 MAXB)) v b) /\
         forall j, j < n -> frame zero (zipw (fun ch b => map (fun k => if Nat.ltb k n then nth (i + k) ch zero else nth k b zero) (seq 0 MAXB)) v b) j = map (fun ch => nth (i + j) ch zero) v).
      { induction v as [|x v IHv]; intros [|y b] L1 L2; cbn [length] in L1; try lia; cbn [zipw]; [split; [constructor|reflexivity]|]. inversion L2; subst. destruct (IHv b) as [I1 I2]; [lia|assumption|]. split.
        - constructor; [now rewrite map_length, seq_length|exact I1].
        - intros j Hj. unfold frame in *. cbn [map]. rewrite I2 by exact Hj. f_equal. rewrite (nth_map_seq (fun k => if Nat.ltb k n then nth (i + k) x zero else nth k y zero)) by lia. destruct (Nat.ltb_spec j n); [reflexivity|lia]. }
      intros b L1 L2. destruct (X b L1 L2) as [X1 X2]. split; [split; [rewrite zipw_length; lia|exact X1]|]. unfold frames. apply (nth_ext _ _ [] []); [now rewrite !map_length, !seq_length|]. rewrite map_length, seq_length. intros j Hj. rewrite (nth_map_seq (frame zero _)) by exact Hj. rewrite X2 by exact Hj. 
      rewrite (nth_indep _ [] ((fun k => map (fun ch => nth k ch zero) v) 0)) by (now rewrite map_length, seq_length). rewrite map_nth with (f := fun k => map (fun ch => nth k ch zero) v). now rewrite seq_nth. }
    clearbody inb1. destruct S1 as [S1 S2]. pose proof (ul_process _ _ laws u n inb1 outb (proj2 Hn)) as C. rewrite Hin, Ho in C. specialize (C S1 Hb). rewrite S2 in C.
    pose proof (unit_arity zero ops laws (map (fun k => map (fun ch => nth k ch zero) (w_vec w)) (seq i n)) u) as Ar.
    destruct (u_process ops u n inb1 outb) as [u1 b1]. destruct C as [C1 C2]. rewrite <- C1 in Ar. cbn [fst] in Ar. destruct Ar as [Ar1 Ar2].
    rewrite (zipw_grown outs (firstn n) n vec b1 Hv (proj1 C2)) by (intros ch Hc; apply firstn_map_nth; destruct C2 as [_ C2]; rewrite Forall_forall in C2; rewrite (C2 _ Hc); lia).
    destruct (IH (i + n) u1 inb1 b1 (grown outs vec (frames zero b1 n))) as (inb' & outb' & I1 & I2); [lia|lia|congruence|congruence|exact S1|exact C2|apply grown_length|]. exists inb', outb'. cbv zeta in *. split; [|exact I2]. rewrite I1.
    replace (len - i) with (n + (len - (i + n))) by lia. rewrite seq_app, map_app, ticks_app, <- C1. destruct (ticks (u_tick ops) u1 _) as [u2 os]. cbn [fst snd]. now rewrite grown_app.
  Qed.
  Lemma blank_frames k n : n <= MAXB -> frames zero (blank nm k) n = repeat (repeat zero k) n.
  Proof.
    intros Hn. apply (nth_ext _ _ [] []); [unfold frames; now rewrite map_length, seq_length, repeat_length|]. unfold frames at 1. rewrite map_length, seq_length. intros j Hj. unfold frames. rewrite (nth_map_seq (frame zero _)) by exact Hj. unfold frame, blank.
    rewrite (nth_indep (repeat (repeat zero k) n) [] (repeat zero k)) by (now rewrite repeat_length). rewrite nth_repeat. induction k as [|k IH]; [reflexivity|]. cbn [repeat map]. rewrite nth_repeat. now rewrite IH.
  Qed.
  Lemma tail_loop_ok len ins outs : forall fuel i u outb vec, len - i <= fuel -> i <= len -> u_ins ops u = ins -> u_outs ops u = outs -> shaped outs outb -> length vec = outs ->
    tail_loop ops fuel i len u (blank nm ins) outb vec = let r := ticks (u_tick ops) u (repeat (repeat zero ins) (len - i)) in (fst r, grown outs vec (snd r)).
  Proof.
    induction fuel as [|fuel IH]; intros i u outb vec Hf Hi Hin Ho Hb Hv; cbn [tail_loop]; destruct (Nat.ltb_spec i len) as [G|G]; try lia.
    1, 3: replace (len - i) with 0 by lia; cbn; now rewrite grown_nil.
    set (n := Nat.min (len - i) MAXB). assert (Hn : 0 < n <= MAXB) by (subst n; unfold MAXB; lia). assert (Hn2 : i + n <= len) by (subst n; lia).
    pose proof (ul_process _ _ laws u n (blank nm ins) outb (proj2 Hn)) as C. rewrite Hin, Ho in C. specialize (C (blank_shaped _ _) Hb). rewrite blank_frames in C by lia. pose proof (unit_arity zero ops laws (repeat (repeat zero ins) n) u) as Ar.
    destruct (u_process ops u n (blank nm ins) outb) as [u1 b1]. destruct C as [C1 C2]. rewrite <- C1 in Ar. cbn [fst] in Ar. destruct Ar as [Ar1 Ar2].
    rewrite (zipw_grown outs (firstn n) n vec b1 Hv (proj1 C2)) by (intros ch Hc; apply firstn_map_nth; destruct C2 as [_ C2]; rewrite Forall_forall in C2; rewrite (C2 _ Hc); lia).
    rewrite (IH (i + n) u1 b1) ; [|lia|lia|congruence|congruence|exact C2|apply grown_length]. 
    replace (len - i) with (n + (len - (i + n))) by lia. rewrite repeat_app, ticks_app, <- C1. cbv zeta. destruct (ticks (u_tick ops) u1 (repeat (repeat zero ins) (len - (i + n)))) as [u2 os]. cbn [fst snd]. now rewrite grown_app.
  Qed.
  Lemma filter_frames (w : wave F F) total : wave_ok w -> wave_frames zero w total = map (fun k => map (fun ch => nth k ch zero) (w_vec w)) (seq 0 (Nat.min total (w_len w))) ++ repeat (repeat zero (channels w)) (total - Nat.min total (w_len w)).
  Proof.
    intros Hw. unfold wave_frames. replace (seq 0 total) with (seq 0 (Nat.min total (w_len w) + (total - Nat.min total (w_len w)))) by (f_equal; lia). rewrite seq_app, map_app. f_equal. cbn [Nat.add].
    assert (G : forall m k, (m = 0 \/ w_len w <= k) -> map (fun k => map (fun ch => nth k ch zero) (w_vec w)) (seq k m) = repeat (repeat zero (channels w)) m).
    { induction m as [|m IH]; intros k Hk; [reflexivity|]. destruct Hk as [Hk|Hk]; [lia|]. cbn [seq map repeat]. rewrite IH by lia. f_equal. unfold channels. unfold wave_ok in Hw. revert Hw Hk. generalize (w_vec w) (w_len w). clear. intros v len Hw Hk. induction v as [|x v IHv]; [reflexivity|]. inversion Hw; subst. cbn [map length repeat]. rewrite IHv by assumption. f_equal. apply nth_overflow. lia. }
    apply G. lia.
  Qed.
  Lemma filter_ok (w : wave F F) dur u : wave_ok w -> u_ins ops u = channels w -> 0 < u_outs ops u -> nleb nm zero dur = true ->
    let n := round_us nm (nmul nm dur (w_rate w)) in let r := ticks (u_tick ops) (set_sr u (w_rate w)) (wave_frames zero w n) in
    w_filter nm ops set_sr w dur u = Some (fst r, mkWave (transpose zero (u_outs ops u) (snd r)) (w_rate w) n).
  Proof.
    intros H0 H1 H2 H3. cbv zeta. unfold w_filter. rewrite H1, H3, Nat.eqb_refl. destruct (Nat.ltb_spec 0 (u_outs ops u)); [|lia]. cbn [andb]. set (n := round_us nm _). set (l := Nat.min n (w_len w)).
    destruct (filter_loop_ok w l (u_outs ops u) l 0 (set_sr u (w_rate w)) (blank nm (channels w)) (blank nm (u_outs ops u)) (repeat [] (u_outs ops u))) as (ib & ob & L1 & L2); [lia|lia|now rewrite rate_ins|now rewrite rate_outs|apply blank_shaped|apply blank_shaped|apply repeat_length|].
    cbv zeta in L1. rewrite L1. rewrite Nat.sub_0_r. rewrite (filter_frames w n H0). fold l. rewrite ticks_app. set (fs := map _ (seq 0 l)) in *. pose proof (unit_arity zero ops laws fs (set_sr u (w_rate w))) as Ar. destruct (ticks (u_tick ops) (set_sr u (w_rate w)) fs) as [u1 os1]. cbn [fst snd] in *. rewrite rate_ins, rate_outs in Ar.
    rewrite (tail_loop_ok n (channels w) (u_outs ops u)); [|lia|subst l; lia|destruct Ar; congruence|destruct Ar; congruence|exact L2|apply grown_length]. cbv zeta. destruct (ticks (u_tick ops) u1 _) as [u2 os2]. cbn [fst snd]. now rewrite grown_app, grown_transpose.
  Qed.
  Lemma transpose_drop l d outs (fs : list (list F)) : length fs = d + l -> map (fun ch => map (fun i => nth (i + l) ch zero) (seq 0 d)) (transpose zero outs fs) = transpose zero outs (firstn d (skipn l fs)).
  Proof.
    intros H. unfold transpose. rewrite map_map. apply map_ext. intros c. apply (nth_ext _ _ zero zero); [unfold channel_of; rewrite !map_length, seq_length, firstn_length, skipn_length; lia|]. rewrite map_length, seq_length. intros j Hj. rewrite (nth_map_seq (fun i => nth (i + l) (channel_of zero c fs) zero)) by exact Hj.
    unfold channel_of. rewrite (nth_indep _ zero (nth c [] zero)) by (rewrite map_length; lia). rewrite (nth_indep (map _ (firstn d _)) zero (nth c [] zero)) by (rewrite map_length, firstn_length, skipn_length; lia). rewrite !map_nth with (f := fun f => nth c f zero). rewrite nth_firstn_lt by exact Hj. rewrite nth_skipn_add. f_equal. f_equal. lia.
  Qed.
  Lemma drop_ok l d outs (fs : list (list F)) r : length fs = d + l ->
    drop nm (mkWave (transpose zero outs fs) r (d + l)) d l d = Some (mkWave (transpose zero outs (firstn d (skipn l fs))) r d).
  Proof.
    intros H. unfold drop. cbn [w_vec w_rate]. rewrite Nat.leb_refl. assert (E : forallb (fun ch => Nat.eqb d 0 || Nat.leb (d + l) (length ch)) (transpose zero outs fs) = true).
    { apply forallb_forall. intros ch Hc. unfold transpose in Hc. apply in_map_iff in Hc. destruct Hc as (c & <- & _). unfold channel_of. rewrite map_length, H, Nat.leb_refl. apply orb_true_r. }
    rewrite E. cbn [andb]. do 2 f_equal. rewrite <- transpose_drop by exact H. apply map_ext. intros ch. rewrite Nat.sub_diag. apply app_nil_r.
  Qed.
End Render.
