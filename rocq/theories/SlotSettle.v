(* Rendering a slot long enough leaves one unit. *)
From Coq Require Import Reals Lra Permutation.
From Verif Require Export SlotProofs.
Close Scope R_scope. Open Scope nat_scope.

Section Settle.
  Context {F P U : Type}.
  Variables (nf : num F) (cast : R -> F) (at_d : fade -> R -> R) (at_f : fade -> F -> F).
  Variable ops : unit_ops F P U.
  Variable set_rate : U -> R -> U.
  Variables ins outs : nat.
  Notation slot := (@slot F R U).
  Notation event := (slot_event F R U).
  Notation step := (slot_step nf Rnum_ops cast at_d at_f ops set_rate ins outs).
  Notation run := (slot_run nf Rnum_ops cast at_d at_f ops set_rate ins outs).
  Notation handle := (@handle_messages F R U Rnum_ops).
  Ltac fields := cbn [sl_back sl_updates sl_returns sl_freed sl_refused sl_dropped sb_rate sb_current sb_next sb_latest sb_phase sb_buffer with_back in_edit ed_unit set_unit option_map ed_time ed_fade].

  Definition timed (e : option (nedit R U)) : Prop := match e with Some e => (0 < ed_time e)%R | None => True end.
  Record good (s : slot) : Prop := {
    g_rate : (0 < sb_rate (sl_back s))%R; g_next : timed (sb_next (sl_back s)); g_latest : timed (sb_latest (sl_back s));
    g_updates : Forall (fun e => (0 < ed_time e)%R) (sl_updates s); g_phase : sb_next (sl_back s) <> None -> (sb_phase (sl_back s) <= 1)%R;
    g_ordered : sb_next (sl_back s) = None -> sb_latest (sl_back s) = None }.

  Lemma back_given s u : sl_back (@give_back F R U s u) = sl_back s /\ sl_updates (@give_back F R U s u) = sl_updates s.
  Proof. unfold give_back. destruct (try_send CHANNEL (sl_returns s) u). split; reflexivity. Qed.
  Lemma good_take s e : good s -> (0 < ed_time e)%R -> good (take_update Rnum_ops s e).
  Proof.
    intros G T. destruct s as [[sr cur nx la ph bf] q ret fr rf dr]. destruct G as [G1 G2 G3 G4 G5 G6]. cbn [sl_back sb_rate sb_next sb_latest sl_updates sb_phase] in *.
    unfold take_update. fields. destruct nx as [n|].
    - set (s0 := match la with Some l => _ | None => _ end). assert (E : sl_updates s0 = q). { unfold s0. destruct la; [apply back_given|reflexivity]. }
      split; fields; auto; try discriminate. now rewrite E.
    - split; fields; auto; try discriminate. intros _. change (n0 Rnum_ops) with 0%R. lra.
  Qed.
  Lemma good_loop r : forall s, good s -> Forall (fun e => (0 < ed_time e)%R) r -> good (fold_left (take_update Rnum_ops) r s).
  Proof. induction r as [|e r IH]; intros s G H; cbn [fold_left]; auto. inversion H; subst. apply IH; auto. now apply good_take. Qed.
  Lemma good_handle s : good s -> good (handle s).
  Proof. intros G. unfold handle_messages. apply good_loop; [|apply (g_updates _ G)]. destruct G as [G1 G2 G3 G4 G5 G6]. split; fields; auto. Qed.
  Lemma handle_empty s : sl_updates (handle s) = [].
  Proof.
    unfold handle_messages. set (s0 := mkSlot _ _ _ _ _ _). assert (E : sl_updates s0 = []) by reflexivity. revert E. generalize s0. generalize (sl_updates s). clear.
    induction l as [|e l IH]; intros s E; cbn [fold_left]; auto. apply IH. unfold take_update. destruct (sb_next (sl_back s)); [|exact E]. destruct (sb_latest (sl_back s)); [|exact E]. fields. now rewrite (proj2 (back_given _ _)).
  Qed.
  Lemma handle_id s : sl_updates s = [] -> handle s = s.
  Proof. intros E. unfold handle_messages. rewrite E. cbn [fold_left]. destruct s. cbn in E. now subst. Qed.

  (* how many renderings an edit takes at most *)
  Definition steps (x : R) : nat := Z.to_nat (up x).
  Definition steps_of (rate phase : R) (e : option (nedit R U)) : nat := match e with Some e => steps ((1 - phase) * ed_time e * rate) | None => 0 end.
  Definition left (s : slot) : nat := steps_of (sb_rate (sl_back s)) (sb_phase (sl_back s)) (sb_next (sl_back s)) + steps_of (sb_rate (sl_back s)) 0 (sb_latest (sl_back s)).
  Lemma steps_pos x : (0 <= x)%R -> 1 <= steps x.
  Proof. intros H. destruct (archimed x) as [A _]. unfold steps. assert (0 < up x)%Z by (apply lt_IZR; lra). lia. Qed.
  Lemma steps_less x y : (0 <= y)%R -> (y <= x - 1)%R -> steps y + 1 <= steps x.
  Proof.
    intros H L. destruct (archimed x) as [A B], (archimed y) as [C E]. unfold steps. assert (0 < up y)%Z by (apply lt_IZR; lra).
    assert (up y < up x)%Z by (apply lt_IZR; lra). lia.
  Qed.
  Lemma phase_shrinks p t r m : (0 < t)%R -> (0 < r)%R -> ((1 - (p + m / (t * r))) * t * r = (1 - p) * t * r - m)%R.
  Proof. intros T R0. field. lra. Qed.
  Lemma phase_over p t r m : (0 < t)%R -> (0 < r)%R -> (p + m / (t * r) <= 1)%R -> (m <= (1 - p) * t * r)%R.
  Proof. intros T R0 H. pose proof (phase_shrinks p t r m T R0) as E. assert (0 <= (1 - (p + m / (t * r))) * t * r)%R; [|lra]. apply Rmult_le_pos; [|lra]. apply Rmult_le_pos; lra. Qed.

  Lemma good_phase s : good s -> good (slot_next_phase Rnum_ops s) /\ (sb_next (sl_back s) <> None -> left (slot_next_phase Rnum_ops s) + 1 <= left s) /\ sl_updates (slot_next_phase Rnum_ops s) = sl_updates s.
  Proof.
    intros G. destruct s as [[sr cur nx la ph bf] q ret fr rf dr]. destruct G as [G1 G2 G3 G4 G5 G6]. cbn [sl_back sb_rate sb_next sb_latest sl_updates sb_phase] in *.
    unfold slot_next_phase. fields. destruct nx as [n|]; [|split; [now split|split; [intros X; now destruct X|reflexivity]]].
    cbn [timed] in G2. split; [|split; [|cbn [with_back sl_updates]; apply back_given]].
    - split; fields; auto; [exact I|now rewrite (proj2 (back_given _ _))|]. intros _. change (n0 Rnum_ops) with 0%R. lra.
    - intros _. unfold left. fields. change (n0 Rnum_ops) with 0%R. unfold steps_of at 1 4. cbn [steps_of]. pose proof (steps_pos ((1 - ph) * ed_time n * sr)) as SP.
      assert (0 <= (1 - ph) * ed_time n * sr)%R. { specialize (G5 ltac:(discriminate)). apply Rmult_le_pos; [|lra]. apply Rmult_le_pos; lra. }
      specialize (SP H). unfold steps_of. destruct la; lia.
  Qed.
  (* the state after the current and the next unit have rendered m samples *)
  Lemma good_advance s u e w bf m : good s -> sb_next (sl_back s) = Some e -> (1 <= m)%R ->
    (sb_phase (sl_back s) + m / (ed_time e * sb_rate (sl_back s)) <= 1)%R ->
    let s' := with_back s (mkSB (sb_rate (sl_back s)) u (Some (set_unit e w)) (sb_latest (sl_back s)) (sb_phase (sl_back s) + m / (ed_time e * sb_rate (sl_back s)))%R bf) in
    good s' /\ left s' + 1 <= left s /\ sl_updates s' = sl_updates s.
  Proof.
    intros G N M H s'. destruct s as [[sr cur nx la ph bf0] q ret fr rf dr]. cbn [sl_back sb_rate sb_next sb_latest sl_updates sb_phase] in *. subst nx. pose proof G as [G1 G2 G3 G4 G5 G6]. cbn [sl_back sb_rate sb_next sb_latest sl_updates sb_phase timed] in *.
    unfold s'. split; [|split; [|reflexivity]].
    - split; fields; auto; try discriminate.
    - unfold left. fields. unfold steps_of at 1 3. cbn [ed_time set_unit]. rewrite phase_shrinks by auto. pose proof (phase_over _ _ _ _ G2 G1 H). pose proof (steps_less ((1 - ph) * ed_time e * sr) ((1 - ph) * ed_time e * sr - m) ltac:(lra) ltac:(lra)). lia.
  Qed.
  (* good except for the phase, at the end of a crossfade *)
  Lemma finish s u e w bf p : good s -> sb_next (sl_back s) = Some e ->
    let s' := slot_next_phase Rnum_ops (with_back s (mkSB (sb_rate (sl_back s)) u (Some (set_unit e w)) (sb_latest (sl_back s)) p bf)) in
    good s' /\ left s' + 1 <= left s /\ sl_updates s' = sl_updates s.
  Proof.
    intros G N s'. assert (H0 : s' = slot_next_phase Rnum_ops (with_back s (mkSB (sb_rate (sl_back s)) u (Some (set_unit e w)) (sb_latest (sl_back s)) (sb_phase (sl_back s)) bf))). { unfold s', slot_next_phase, give_back. fields. now destruct (try_send CHANNEL (sl_returns s) u). }
    set (s1 := with_back s (mkSB (sb_rate (sl_back s)) u (Some (set_unit e w)) (sb_latest (sl_back s)) (sb_phase (sl_back s)) bf)) in *.
    assert (G1 : good s1). { pose proof G as [A1 A2 A3 A4 A5 A6]. rewrite N in *. split; unfold s1; fields; auto; try discriminate. intros _. apply A5. discriminate. }
    destruct (good_phase s1 G1) as (B1 & B2 & B3). rewrite H0. split; auto. split; [|exact B3]. specialize (B2 ltac:(discriminate)). assert (E : left s1 = left s). { unfold left, s1. fields. rewrite N. reflexivity. } lia.
  Qed.
  Lemma render_good s e s' : step s e = Some s' -> renders e -> good s -> sl_updates s = [] ->
    good s' /\ sl_updates s' = [] /\ (left s' + 1 <= left s \/ (left s = 0 /\ left s' = 0)).
  Proof.
    intros E Rn G Up. destruct e as [e|i|size inb out| |r]; try contradiction; cbn [slot_step] in E; injection E as <-.
    - unfold slot_tick. rewrite (handle_id s Up). destruct (u_tick ops (sb_current (sl_back s)) i) as [u o]. destruct (sb_next (sl_back s)) as [e|] eqn:N.
      + destruct (u_tick ops (ed_unit e) i) as [w t]. change (nadd Rnum_ops) with Rplus. change (ndiv Rnum_ops) with Rdiv. change (nmul Rnum_ops) with Rmult. change (n1 Rnum_ops) with 1%R.
        set (ph := (sb_phase (sl_back s) + 1 / (ed_time e * sb_rate (sl_back s)))%R).
        change (nleb Rnum_ops 1%R ph) with (if Rle_dec 1 ph then true else false). destruct (Rle_dec 1 ph) as [Q|Q]; cbn [fst].
        * destruct (finish s u e w (sb_buffer (sl_back s)) ph G N) as (A & B & C). rewrite C. auto.
        * destruct (good_advance s u e w (sb_buffer (sl_back s)) 1%R G N) as (A & B & C); [lra|unfold ph in Q; lra|]. fold ph in A, B, C. rewrite C. auto.
      + cbn [fst]. pose proof G as [A1 A2 A3 A4 A5 A6]. specialize (A6 N). split; [|split; [exact Up|]].
        * split; fields; auto; congruence.
        * right. unfold left. fields. rewrite N, A6. split; reflexivity.
    - unfold slot_process. rewrite (handle_id s Up). destruct (u_process ops (sb_current (sl_back s)) size inb out) as [u o]. destruct (sb_next (sl_back s)) as [e|] eqn:N.
      + destruct (u_process ops (ed_unit e) size inb (sb_buffer (sl_back s))) as [w t]. change (nadd Rnum_ops) with Rplus. change (nsub Rnum_ops) with Rminus. change (ndiv Rnum_ops) with Rdiv. change (nmul Rnum_ops) with Rmult. change (n1 Rnum_ops) with 1%R.
        set (pl := to_usize Rnum_ops _). cbn zeta. destruct (Nat.leb_spec pl size) as [Q|Q]; cbn [fst].
        * match goal with |- context [mkSB _ _ _ _ ?p _] => destruct (finish s u e w t p G N) as (A & B & C) end. rewrite C. auto.
        * rewrite Nat.min_l by lia. change (nofZ Rnum_ops) with IZR. cbn [renders] in Rn. pose proof G as [A1 A2 A3 A4 A5 A6]. rewrite N in A2, A5. specialize (A5 ltac:(discriminate)). cbn [timed] in A2.
          assert (S1 : (1 <= IZR (Z.of_nat size))%R) by (apply (IZR_le 1); lia).
          assert (PL : (IZR (Z.of_nat size) <= (1 - sb_phase (sl_back s)) * ed_time e * sb_rate (sl_back s))%R).
          { unfold pl, to_usize in Q. change (nfloor Rnum_ops) with Int_part in Q. set (x := ((1 - sb_phase (sl_back s)) * ed_time e * sb_rate (sl_back s))%R) in *. destruct (base_Int_part x) as [I1 I2].
            assert (Z.of_nat size <= Int_part x)%Z by lia. apply IZR_le in H. lra. }
          destruct (good_advance s u e w t (IZR (Z.of_nat size)) G N S1) as (A & B & C); [|rewrite C; auto].
          apply Rmult_le_reg_r with (r := (ed_time e * sb_rate (sl_back s))%R); [now apply Rmult_lt_0_compat|]. unfold Rdiv. rewrite Rmult_plus_distr_r, Rmult_assoc, Rinv_l by (apply Rgt_not_eq, Rmult_lt_0_compat; lra). lra.
      + cbn [fst]. pose proof G as [A1 A2 A3 A4 A5 A6]. specialize (A6 N). split; [|split; [exact Up|]].
        * split; fields; auto; congruence.
        * right. unfold left. fields. rewrite N, A6. split; reflexivity.
  Qed.
  Lemma left_zero s : good s -> sl_updates s = [] -> left s = 0 -> waiting s = [].
  Proof.
    intros G Up L. pose proof G as [A1 A2 A3 A4 A5 A6]. unfold waiting. rewrite Up. unfold left in L. destruct (sb_next (sl_back s)) as [e|]; [|now rewrite A6].
    exfalso. specialize (A5 ltac:(discriminate)). cbn [timed] in A2. cbn [steps_of] in L. pose proof (steps_pos ((1 - sb_phase (sl_back s)) * ed_time e * sb_rate (sl_back s))) as SP.
    assert (0 <= (1 - sb_phase (sl_back s)) * ed_time e * sb_rate (sl_back s))%R by (apply Rmult_le_pos; [apply Rmult_le_pos|]; lra). specialize (SP H). lia.
  Qed.
  Lemma renders_settle rs : forall s s', run rs s = Some s' -> Forall renders rs -> good s -> sl_updates s = [] -> left s <= length rs -> waiting s' = [].
  Proof.
    induction rs as [|e rs IH]; intros s s' R H G Up L; cbn [slot_run] in R.
    - injection R as <-. apply left_zero; auto. cbn in L. lia.
    - destruct (step s e) as [s1|] eqn:E; [|discriminate]. inversion H; subst. destruct (render_good _ _ _ E H2 G Up) as (G1 & U1 & L1). apply (IH s1 s'); auto. cbn [length] in L. lia.
  Qed.
  Lemma render_handles s e : renders e -> step s e = step (handle s) e.
  Proof. intros H. destruct e; try contradiction; cbn [slot_step]; unfold slot_tick, slot_process; rewrite (handle_id (handle s)) by apply handle_empty; reflexivity. Qed.
  Lemma settles s : good s -> exists K, forall rs s', run rs s = Some s' -> Forall renders rs -> K <= length rs -> waiting s' = [].
  Proof.
    intros G. exists (S (left (handle s))). intros rs s' R H L. destruct rs as [|e rs]; [cbn in L; lia|]. inversion H; subst.
    apply (renders_settle (e :: rs) (handle s) s'); auto.
    - cbn [slot_run] in *. now rewrite <- render_handles.
    - now apply good_handle.
    - apply handle_empty.
    - lia.
  Qed.
  (* every history *)
  Notation timely := (timely (fun x => (0 < x)%R)).
  Lemma step_good s e s' : step s e = Some s' -> timely e -> good s -> good s'.
  Proof.
    intros E T G. destruct e as [e|i|size inb out| |r].
    - cbn [slot_step] in E. apply set_cases in E as (B & _ & _ & _ & C). destruct G as [A1 A2 A3 A4 A5 A6]. split; rewrite ?B; auto. destruct C as [(_ & -> & _)|(_ & -> & _)]; auto. apply Forall_app. split; auto.
    - rewrite render_handles in E by exact I. now apply (render_good (handle s) (SlotSpec.Tick i) s' E I (good_handle s G) (handle_empty s)).
    - rewrite render_handles in E by exact T. now apply (render_good (handle s) (Process size inb out) s' E T (good_handle s G) (handle_empty s)).
    - cbn [slot_step] in E. injection E as <-. unfold slot_reset. destruct G as [A1 A2 A3 A4 A5 A6].
      destruct (sb_latest (sl_back s)), (sb_next (sl_back s)); split; fields; rewrite ?(proj2 (back_given _ _)); auto; try congruence; cbn; auto; congruence.
    - cbn [slot_step] in E. injection E as <-. unfold slot_set_rate. destruct G as [A1 A2 A3 A4 A5 A6]. split; fields; auto.
      + destruct (sb_next (sl_back s)); auto. + destruct (sb_latest (sl_back s)); auto.
      + intros X. apply A5. destruct (sb_next (sl_back s)); [discriminate|]. now destruct X.
      + intros X. rewrite A6; [reflexivity|]. destruct (sb_next (sl_back s)); [discriminate|reflexivity].
  Qed.
  Lemma run_good es : forall s s', run es s = Some s' -> Forall timely es -> good s -> good s'.
  Proof.
    induction es as [|e es IH]; intros s s' R H G; cbn [slot_run] in R; [now injection R as <-|]. destruct (step s e) as [s1|] eqn:E; [|discriminate]. inversion H; subst. apply (IH s1); auto. now apply (step_good s e).
  Qed.
  Lemma good_new r u : (0 < r)%R -> good (slot_new nf Rnum_ops ops set_rate r u).
  Proof. intros H. split; cbn; auto; congruence. Qed.
  Lemma run_app a b : forall s, run (a ++ b) s = match run a s with Some s' => run b s' | None => None end.
  Proof. induction a as [|e a IH]; intros s; cbn [app slot_run]; auto. destruct (step s e); auto. Qed.

  (* the last unit that was set plays in the end, and all the others have come back *)
  Variable tag : U -> nat.
  Hypothesis Htag : names ops set_rate tag.
  Lemma ordered_new r u : ordered (slot_new nf Rnum_ops ops set_rate r u). Proof. intros _. reflexivity. Qed.
  Lemma renders_sets rs : Forall (renders (D := R) (U := U) (F := F)) rs -> sets rs = [].
  Proof. induction 1 as [|e rs H _ IH]; [reflexivity|]. unfold sets. cbn [map concat]. fold (sets rs). rewrite IH. destruct e; cbn in *; auto; contradiction. Qed.
  Lemma sets_app (a b : list event) : sets (a ++ b) = sets a ++ sets b.
  Proof. unfold sets. now rewrite map_app, concat_app. Qed.
  Lemma eventually u0 r0 es s : (0 < r0)%R -> Forall timely es -> run es (slot_new nf Rnum_ops ops set_rate r0 u0) = Some s -> sl_refused s = [] ->
    exists K, forall rs s', Forall renders rs -> K <= length rs -> run rs s = Some s' -> plays tag s' (tag (last (sets es) u0)).
  Proof.
    intros R0 T R X. destruct (settles s (run_good es _ _ R T (good_new r0 u0 R0))) as (K & HK). exists K. intros rs s' Rs L R'. split; [|exact (HK rs s' R' Rs L)].
    pose proof (run_perm nf Rnum_ops cast at_d at_f ops set_rate ins outs tag Htag es _ _ R (ordered_new r0 u0)) as [O _].
    pose proof (refused_run nf Rnum_ops cast at_d at_f ops set_rate ins outs tag Htag rs _ _ R' O) as (q & Q).
    assert (XR : sl_refused s' = sl_refused s).
    { assert (NS : forall rs s s', Forall renders rs -> run rs s = Some s' -> ordered s -> sl_refused s' = sl_refused s).
      { clear - Htag. induction rs as [|e rs IH]; intros s s' H R O; cbn [slot_run] in R; [injection R as <-; reflexivity|]. destruct (step s e) as [s1|] eqn:E; [|discriminate]. inversion H; subst.
        assert (M : moves tag s s1). { apply (step_moves nf Rnum_ops cast at_d at_f ops set_rate ins outs tag Htag s e s1 E O). intros n ->. contradiction. }
        rewrite (IH _ _ H3 R (m_ordered _ _ _ M)). apply (m_refused _ _ _ M). }
      exact (NS rs s s' Rs R' O). }
    assert (RA : run (es ++ rs) (slot_new nf Rnum_ops ops set_rate r0 u0) = Some s') by (rewrite run_app, R; exact R').
    pose proof (run_last nf Rnum_ops cast at_d at_f ops set_rate ins outs tag Htag (es ++ rs) _ _ RA (ordered_new r0 u0)) as RL.
    rewrite XR, X in RL. specialize (RL eq_refl). rewrite (HK rs s' R' Rs L) in RL. cbn [map last] in RL. rewrite RL.
    rewrite sets_app, (renders_sets rs Rs), app_nil_r. cbn [waiting slot_new sl_back sb_next sb_latest in_edit sl_updates map app last sb_current].
    destruct Htag as (_ & _ & _ & T4). rewrite T4. clear. induction (sets es) as [|x l IH] using rev_ind; [reflexivity|]. rewrite map_app, !last_app. reflexivity.
  Qed.
End Settle.
