(* Units of a slot: where they are, and which one plays in the end. *)
From Coq Require Import Permutation.
From Verif Require Export SlotSpec BufProofs SnoopProofs.

Lemma cnt_cons x l y : count_occ Nat.eq_dec (x :: l) y = count_occ Nat.eq_dec [x] y + count_occ Nat.eq_dec l y.
Proof. cbn [count_occ]. destruct (Nat.eq_dec x y); lia. Qed.
Lemma last_cons {X} (x : X) l d : last (x :: l) d = last l x.
Proof. revert x d. induction l as [|y l IH]; intros x d; [reflexivity|]. change (last (x :: y :: l) d) with (last (y :: l) d). now rewrite !IH. Qed.
Lemma last_app {X} (l m : list X) d : last (l ++ m) d = last m (last l d).
Proof. revert d. induction l as [|x l IH]; intros d; [reflexivity|]. cbn [app]. rewrite !last_cons. apply IH. Qed.
(* the same elements, in any order *)
Ltac perm := apply (Permutation_count_occ Nat.eq_dec); let z := fresh in intros z; cbn [map app]; repeat (rewrite ?map_app, ?count_occ_app, ?app_nil_r; cbn [map]);
  repeat match goal with |- context [count_occ Nat.eq_dec (?x :: ?y :: ?l) z] => rewrite (cnt_cons x (y :: l) z) | |- context [count_occ Nat.eq_dec (?x :: ?a ++ ?b) z] => rewrite (cnt_cons x (a ++ b) z) | |- context [count_occ Nat.eq_dec (?x :: map ?f ?l) z] => rewrite (cnt_cons x (map f l) z) | _ => rewrite ?count_occ_app end; cbn [count_occ]; try lia.

Section Proofs.
  Context {F D P U : Type}.
  Variables (nf : num F) (nd : num D) (cast : D -> F) (at_d : fade -> D -> D) (at_f : fade -> F -> F).
  Variable ops : unit_ops F P U.
  Variable set_rate : U -> D -> U.
  Variables ins outs : nat.
  Variable tag : U -> nat.
  Hypothesis Htag : names ops set_rate tag.
  Notation slot := (@slot F D U).
  Notation step := (slot_step nf nd cast at_d at_f ops set_rate ins outs).
  Notation run := (slot_run nf nd cast at_d at_f ops set_rate ins outs).
  Notation event := (slot_event F D U).

  (* units that may still be given back, and those that were *)
  Definition room (s : slot) : nat := length (waiting s) + length (sl_returns s).
  (* nothing is queued behind nothing *)
  Definition ordered (s : slot) : Prop := sb_next (sl_back s) = None -> sb_latest (sl_back s) = None.
  (* what a call of the backend does with the units *)
  Record moves (s s' : slot) : Prop := {
    m_perm : Permutation (map tag (units s')) (map tag (units s));
    m_last : last (map tag (waiting s')) (tag (sb_current (sl_back s'))) = last (map tag (waiting s)) (tag (sb_current (sl_back s)));
    m_refused : sl_refused s' = sl_refused s;
    m_freed : sl_freed s' = sl_freed s;
    m_room : room s <= CHANNEL -> room s' <= room s /\ sl_dropped s' = sl_dropped s;
    m_ordered : ordered s';
    m_updates : length (sl_updates s') <= length (sl_updates s) }.
  Lemma moves_refl s : ordered s -> moves s s. Proof. split; auto. Qed.
  Lemma moves_trans s1 s2 s3 : moves s1 s2 -> moves s2 s3 -> moves s1 s3.
  Proof.
    intros A B. destruct A as [A1 A2 A3 A4 A5 A6 A7], B as [B1 B2 B3 B4 B5 B6 B7]. split; auto.
    - now rewrite B1. - congruence. - congruence. - congruence.
    - intros R. destruct (A5 R) as [X1 X2]. destruct B5 as [Y1 Y2]; [lia|]. split; [lia|congruence]. - lia.
  Qed.

  Ltac fields := cbn [sl_back sl_updates sl_returns sl_freed sl_refused sl_dropped sb_rate sb_current sb_next sb_latest sb_phase sb_buffer with_back in_edit ed_unit set_unit option_map].
  Ltac sizes := repeat (rewrite ?app_length, ?map_length; cbn [length app map]).
  Ltac lasts := repeat (rewrite ?map_app, ?last_app, ?last_cons; cbn [map app]); reflexivity.

  Ltac nums := unfold units, room, waiting, ordered; fields; auto; try discriminate; try perm; try solve [cbn [app]; lasts]; try solve [cbn; lia].

  Ltac bound := let R := fresh in intros R; first [split; [revert R; sizes; lia|reflexivity]|exfalso; revert R; sizes; lia].

  Lemma take_moves e r s : sl_updates s = r -> ordered s ->
    moves (mkSlot (sl_back s) (e :: r) (sl_returns s) (sl_freed s) (sl_refused s) (sl_dropped s)) (take_update nd s e).
  Proof.
    destruct s as [[sr cur nx la ph bf] q ret fr rf dr]. unfold ordered. fields. intros -> O. unfold take_update. fields. destruct nx as [n|]; [destruct la as [l|]|].
    - unfold give_back. fields. unfold try_send. destruct (Nat.ltb_spec (length ret) CHANNEL) as [L|L]; fields; split; nums; bound.
    - split; nums; bound.
    - rewrite (O eq_refl). split; nums; bound.
  Qed.
  Lemma handle_loop r : forall s, sl_updates s = [] -> ordered s ->
    moves (mkSlot (sl_back s) r (sl_returns s) (sl_freed s) (sl_refused s) (sl_dropped s)) (fold_left (take_update nd) r s) /\ sl_updates (fold_left (take_update nd) r s) = [].
  Proof.
    induction r as [|e r IH]; intros s E O; cbn [fold_left].
    - split; auto. destruct s as [b q ret fr rf dr]. fields. cbn [sl_updates] in E. subst q. now apply moves_refl.
    - set (s1 := mkSlot (sl_back s) r (sl_returns s) (sl_freed s) (sl_refused s) (sl_dropped s)). pose proof (take_moves e r s1 eq_refl O) as M.
      assert (X : sl_updates (take_update nd s e) = []). { unfold take_update. destruct (sb_next (sl_back s)); [|exact E]. destruct (sb_latest (sl_back s)); [|exact E]. unfold give_back. destruct (try_send CHANNEL (sl_returns s) (ed_unit n0)). exact E. }
      assert (Y : take_update nd s1 e = mkSlot (sl_back (take_update nd s e)) r (sl_returns (take_update nd s e)) (sl_freed (take_update nd s e)) (sl_refused (take_update nd s e)) (sl_dropped (take_update nd s e))).
      { unfold take_update, s1. fields. destruct (sb_next (sl_back s)); [|reflexivity]. destruct (sb_latest (sl_back s)); [|reflexivity]. unfold give_back. fields. destruct (try_send CHANNEL (sl_returns s) (ed_unit n0)). reflexivity. }
      rewrite Y in M. destruct (IH (take_update nd s e) X) as [I1 I2]. { pose proof (m_ordered _ _ M) as O'. exact O'. } split; auto. exact (moves_trans _ _ _ M I1).
  Qed.
  Lemma handle_moves s : ordered s -> moves s (handle_messages nd s) /\ sl_updates (handle_messages nd s) = [].
  Proof.
    intros O. unfold handle_messages. destruct (handle_loop (sl_updates s) (mkSlot (sl_back s) [] (sl_returns s) (sl_freed s) (sl_refused s) (sl_dropped s)) eq_refl O) as [A B]. split; auto. now destruct s.
  Qed.
  Lemma phase_moves s : ordered s -> moves s (slot_next_phase nd s).
  Proof.
    destruct s as [[sr cur nx la ph bf] q ret fr rf dr]. intros O. unfold slot_next_phase. fields. destruct nx as [n|]; [|now apply moves_refl].
    unfold give_back. fields. unfold try_send. destruct (Nat.ltb_spec (length ret) CHANNEL) as [L|L]; fields; split; nums; try (destruct la as [l|]; nums; bound).
  Qed.
  (* the state of the units changes *)
  Lemma state_moves s sr u nx la ph bf : ordered s -> tag u = tag (sb_current (sl_back s)) -> map tag (in_edit nx) = map tag (in_edit (sb_next (sl_back s))) ->
    map tag (in_edit la) = map tag (in_edit (sb_latest (sl_back s))) -> moves s (with_back s (mkSB sr u nx la ph bf)).
  Proof.
    intros O A B C. assert (LL : forall a b : option (nedit D U), map tag (in_edit a) = map tag (in_edit b) -> length (in_edit a) = length (in_edit b) /\ (a = None <-> b = None)).
    { intros [a|] [b|]; cbn; intros X; try discriminate; split; auto; split; auto; discriminate. }
    destruct (LL _ _ B) as [B1 B2], (LL _ _ C) as [C1 C2]. destruct s as [[sr0 cur0 nx0 la0 ph0 bf0] q ret fr rf dr]. unfold with_back in *. fields. cbn [sl_back sb_current sb_next sb_latest] in *.
    split; unfold units, room, waiting, ordered; fields; auto.
    - cbn [map]. rewrite !map_app, A, B, C. reflexivity.
    - rewrite !map_app, A, B, C. reflexivity.
    - intros R. split; auto. rewrite !app_length, B1, C1. lia.
    - intros X. apply C2, O, B2, X.
  Qed.
  Lemma tick_moves s i : ordered s -> moves s (fst (slot_tick nf nd cast at_d ops s i)).
  Proof.
    intros O. destruct (handle_moves s O) as [M _]. unfold slot_tick. set (h := handle_messages nd s) in *. pose proof (m_ordered _ _ M) as OH. destruct Htag as (T1 & _ & _ & _). pose proof (T1 (sb_current (sl_back h)) i) as TC.
    destruct (u_tick ops (sb_current (sl_back h)) i) as [u o]. cbn [fst] in TC. destruct (sb_next (sl_back h)) as [e|] eqn:N.
    - pose proof (T1 (ed_unit e) i) as TE. destruct (u_tick ops (ed_unit e) i) as [w t]. cbn [fst] in TE.
      assert (M2 : forall ph bf, moves s (with_back h (mkSB (sb_rate (sl_back h)) u (Some (set_unit e w)) (sb_latest (sl_back h)) ph bf))).
      { intros ph bf. apply (moves_trans _ h); auto. apply state_moves; auto. rewrite N. fields. cbn. now rewrite TE. }
      destruct (nleb nd _ _); cbn [fst]; auto. eapply moves_trans; [apply M2|]. apply phase_moves. exact (m_ordered _ _ (M2 _ _)).
    - cbn [fst]. apply (moves_trans _ h); auto. apply state_moves; auto. now rewrite N.
  Qed.
  Lemma process_moves s size inb out : ordered s -> moves s (fst (slot_process nf nd cast at_f ops s size inb out)).
  Proof.
    intros O. destruct (handle_moves s O) as [M _]. unfold slot_process. set (h := handle_messages nd s) in *. pose proof (m_ordered _ _ M) as OH. destruct Htag as (_ & T1 & _ & _). pose proof (T1 (sb_current (sl_back h)) size inb out) as TC.
    destruct (u_process ops (sb_current (sl_back h)) size inb out) as [u o]. cbn [fst] in TC. destruct (sb_next (sl_back h)) as [e|] eqn:N.
    - pose proof (T1 (ed_unit e) size inb (sb_buffer (sl_back h))) as TE. destruct (u_process ops (ed_unit e) size inb (sb_buffer (sl_back h))) as [w t]. cbn [fst] in TE.
      assert (M2 : forall ph bf, moves s (with_back h (mkSB (sb_rate (sl_back h)) u (Some (set_unit e w)) (sb_latest (sl_back h)) ph bf))).
      { intros ph bf. apply (moves_trans _ h); auto. apply state_moves; auto. rewrite N. fields. cbn. now rewrite TE. }
      destruct (Nat.leb _ _); cbn [fst]; auto. eapply moves_trans; [apply M2|]. apply phase_moves. exact (m_ordered _ _ (M2 _ _)).
    - cbn [fst]. apply (moves_trans _ h); auto. apply state_moves; auto. now rewrite N.
  Qed.
  Lemma reset_moves s : ordered s -> moves s (slot_reset ops s).
  Proof.
    destruct Htag as (_ & _ & T1 & _). destruct s as [[sr cur nx la ph bf] q ret fr rf dr]. unfold ordered, slot_reset. fields. intros O.
    destruct la as [l|], nx as [n|]; try (specialize (O eq_refl); discriminate).
    - unfold give_back at 2. fields. unfold try_send at 1. destruct (Nat.ltb_spec (length ret) CHANNEL) as [L|L]; fields; unfold give_back; fields; unfold try_send;
        (match goal with |- context [Nat.ltb ?a ?b] => destruct (Nat.ltb_spec a b) as [L2|L2] end); fields; split; unfold units; fields; cbn [map]; rewrite ?T1; nums.
      all: try (revert L2; sizes; intros L2; bound).
    - unfold give_back. fields. unfold try_send. destruct (Nat.ltb_spec (length ret) CHANNEL) as [L|L]; fields; split; unfold units; fields; cbn [map]; rewrite ?T1; nums; bound.
    - apply state_moves; auto.
  Qed.
  Lemma rate_moves s r : ordered s -> moves s (slot_set_rate set_rate s r).
  Proof.
    destruct Htag as (_ & _ & _ & T1). intros O. unfold slot_set_rate. apply state_moves; auto.
    - destruct (sb_next (sl_back s)); cbn; auto. now rewrite T1.
    - destruct (sb_latest (sl_back s)); cbn; auto. now rewrite T1.
  Qed.
  (* a call of the frontend *)
  Lemma set_cases (s : slot) (e : nedit D U) s' : slot_set ops ins outs s e = Some s' ->
    sl_back s' = sl_back s /\ sl_returns s' = [] /\ sl_freed s' = sl_freed s ++ sl_returns s /\ sl_dropped s' = sl_dropped s /\
    (length (sl_updates s) < CHANNEL /\ sl_updates s' = sl_updates s ++ [e] /\ sl_refused s' = sl_refused s \/
     CHANNEL <= length (sl_updates s) /\ sl_updates s' = sl_updates s /\ sl_refused s' = sl_refused s ++ [ed_unit e]).
  Proof.
    unfold slot_set, try_send. destruct (Nat.eqb ins (u_ins ops (ed_unit e)) && Nat.eqb outs (u_outs ops (ed_unit e))); [|discriminate].
    destruct (Nat.ltb_spec (length (sl_updates s)) CHANNEL) as [L|L]; intros E; injection E as <-; fields; repeat split; auto.
  Qed.
  Lemma step_moves s e s' : step s e = Some s' -> ordered s -> (forall n, e <> Set_ n) -> moves s s'.
  Proof.
    intros E O N. destruct e as [e|i|size inb out| |r]; cbn [slot_step] in E; [now destruct (N e)| | | |]; injection E as <-.
    - now apply tick_moves. - now apply process_moves. - now apply reset_moves. - now apply rate_moves.
  Qed.
  Lemma set_step (s : slot) (e : nedit D U) s' : step s (Set_ e) = Some s' -> ordered s ->
    ordered s' /\ Permutation (map tag (units s')) (tag (ed_unit e) :: map tag (units s)) /\
    (sl_refused s' = sl_refused s -> last (map tag (waiting s')) (tag (sb_current (sl_back s'))) = tag (ed_unit e)).
  Proof.
    intros E O. cbn [slot_step] in E. apply set_cases in E as (B & R & Fr & Dr & C). destruct s as [b q ret fr rf dr], s' as [b' q' ret' fr' rf' dr']. unfold ordered in *. fields. cbn [sl_back sl_returns sl_freed sl_dropped sl_updates sl_refused] in *. subst b' ret' fr' dr'.
    destruct C as [(L & -> & ->)|(L & -> & ->)]; split; auto; split; unfold units, waiting; fields; try perm.
    - intros _. now lasts.
    - intros X. exfalso. apply (f_equal (@length _)) in X. rewrite app_length in X. cbn in X. lia.
  Qed.

  (* every unit is somewhere *)
  Lemma run_perm es : forall s s', run es s = Some s' -> ordered s -> ordered s' /\ Permutation (map tag (units s')) (map tag (sets es) ++ map tag (units s)).
  Proof.
    induction es as [|e es IH]; intros s s' R O; cbn [slot_run] in R; [injection R as <-; split; auto; reflexivity|].
    destruct (step s e) as [s1|] eqn:E; [|discriminate]. unfold sets. cbn [map concat]. fold (sets es). destruct e as [e|i|size inb out| |r].
    - destruct (set_step _ _ _ E O) as (O1 & P1 & _). destruct (IH _ _ R O1) as [O2 P2]. split; auto. rewrite P2, P1. cbn [app map]. symmetry. apply Permutation_middle.
    - pose proof (step_moves _ _ _ E O ltac:(congruence)) as M. destruct (IH _ _ R (m_ordered _ _ M)) as [O2 P2]. split; auto. rewrite P2, (m_perm _ _ M). reflexivity.
    - pose proof (step_moves _ _ _ E O ltac:(congruence)) as M. destruct (IH _ _ R (m_ordered _ _ M)) as [O2 P2]. split; auto. rewrite P2, (m_perm _ _ M). reflexivity.
    - pose proof (step_moves _ _ _ E O ltac:(congruence)) as M. destruct (IH _ _ R (m_ordered _ _ M)) as [O2 P2]. split; auto. rewrite P2, (m_perm _ _ M). reflexivity.
    - pose proof (step_moves _ _ _ E O ltac:(congruence)) as M. destruct (IH _ _ R (m_ordered _ _ M)) as [O2 P2]. split; auto. rewrite P2, (m_perm _ _ M). reflexivity.
  Qed.
  (* refused units stay on the list *)
  Lemma refused_step s e s' : step s e = Some s' -> ordered s -> exists r, sl_refused s' = sl_refused s ++ r.
  Proof.
    intros E O. destruct e as [e|i|size inb out| |r]; try (exists []; rewrite app_nil_r; apply (m_refused _ _ (step_moves _ _ _ E O ltac:(congruence)))).
    cbn [slot_step] in E. apply set_cases in E as (_ & _ & _ & _ & [(_ & _ & X)|(_ & _ & X)]); [exists []|eexists; exact X]. now rewrite app_nil_r.
  Qed.
  Lemma refused_run es : forall s s', run es s = Some s' -> ordered s -> exists r, sl_refused s' = sl_refused s ++ r.
  Proof.
    induction es as [|e es IH]; intros s s' R O; cbn [slot_run] in R; [injection R as <-; exists []; now rewrite app_nil_r|].
    destruct (step s e) as [s1|] eqn:E; [|discriminate]. destruct (refused_step _ _ _ E O) as (r1 & R1).
    assert (O1 : ordered s1). { destruct (run_perm [e] s s1) as [X _]; auto. cbn [slot_run]. now rewrite E. }
    destruct (IH _ _ R O1) as (r2 & R2). exists (r1 ++ r2). now rewrite R2, R1, app_assoc.
  Qed.
  (* the last unit set is the last in the slot *)
  Lemma run_last es : forall s s', run es s = Some s' -> ordered s -> sl_refused s' = sl_refused s ->
    last (map tag (waiting s')) (tag (sb_current (sl_back s'))) = last (map tag (sets es)) (last (map tag (waiting s)) (tag (sb_current (sl_back s)))).
  Proof.
    induction es as [|e es IH]; intros s s' R O X; cbn [slot_run] in R; [injection R as <-; reflexivity|].
    destruct (step s e) as [s1|] eqn:E; [|discriminate].
    assert (O1 : ordered s1). { destruct (run_perm [e] s s1) as [Y _]; auto. cbn [slot_run]. now rewrite E. }
    assert (X1 : sl_refused s1 = sl_refused s /\ sl_refused s' = sl_refused s1).
    { destruct (refused_step _ _ _ E O) as (r1 & R1). destruct (refused_run _ _ _ R O1) as (r2 & R2). rewrite R2, R1, <- app_assoc in X. assert (Z : r1 ++ r2 = []) by (apply (app_inv_head (sl_refused s)); now rewrite app_nil_r).
      apply app_eq_nil in Z as [-> ->]. rewrite R2, R1, !app_nil_r. auto. }
    destruct X1 as [X1 X2]. rewrite (IH _ _ R O1 X2). unfold sets. cbn [map concat]. fold (sets es). destruct e as [e|i|size inb out| |r]; cbn [app].
    - destruct (set_step _ _ _ E O) as (_ & _ & L). rewrite (L X1). cbn [map]. now rewrite last_cons.
    - now rewrite (m_last _ _ (step_moves _ _ _ E O ltac:(congruence))).
    - now rewrite (m_last _ _ (step_moves _ _ _ E O ltac:(congruence))).
    - now rewrite (m_last _ _ (step_moves _ _ _ E O ltac:(congruence))).
    - now rewrite (m_last _ _ (step_moves _ _ _ E O ltac:(congruence))).
  Qed.
  (* with room, nothing is refused or dropped *)
  Lemma run_room es : forall s s', run es s = Some s' -> ordered s -> room s <= CHANNEL -> roomy nf nd cast at_d at_f ops set_rate ins outs es s ->
    sl_refused s' = sl_refused s /\ sl_dropped s' = sl_dropped s /\ room s' <= CHANNEL.
  Proof.
    induction es as [|e es IH]; intros s s' R O C W; cbn [slot_run] in R; [injection R as <-; auto|].
    destruct (step s e) as [s1|] eqn:E; [|discriminate].
    assert (O1 : ordered s1). { destruct (run_perm [e] s s1) as [Y _]; auto. cbn [slot_run]. now rewrite E. }
    assert (W1 : roomy nf nd cast at_d at_f ops set_rate ins outs es s1). { intros n t Ht. apply (W (S n) t). cbn [firstn slot_run]. now rewrite E. }
    assert (G : sl_refused s1 = sl_refused s /\ sl_dropped s1 = sl_dropped s /\ room s1 <= CHANNEL).
    { destruct e as [e|i|size inb out| |r]; try (pose proof (step_moves _ _ _ E O ltac:(congruence)) as M; split; [apply (m_refused _ _ M)|]; destruct (m_room _ _ M C); split; [auto|lia]).
      cbn [slot_step] in E. pose proof (W 0 s eq_refl) as WS. pose proof (W1 0 s1 eq_refl) as W2. apply set_cases in E as (B & Rt & _ & Dr & [(_ & U1 & X)|(L & _ & _)]); [|lia].
      split; auto. split; auto. unfold room, waiting. rewrite Rt, B, !app_length, map_length. cbn [length].
      assert (H1 : forall o : option (nedit D U), length (in_edit o) <= 1) by (intros [?|]; cbn; lia). pose proof (H1 (sb_next (sl_back s))). pose proof (H1 (sb_latest (sl_back s))). lia. }
    destruct G as (G1 & G2 & G3). destruct (IH _ _ R O1 G3 W1) as (I1 & I2 & I3). rewrite I1, I2. auto.
  Qed.
  (* units of the right arity never make a call panic *)
  Lemma run_total es : arities ops ins outs es -> forall s, exists s', run es s = Some s'.
  Proof.
    induction es as [|e es IH]; intros A s; cbn [slot_run]; [eauto|]. unfold arities, sets in A. cbn [map concat] in A. apply Forall_app in A as [A1 A2].
    destruct e as [e|i|size inb out| |r]; cbn [slot_step]; try (apply IH; exact A2). apply Forall_inv in A1 as [X1 X2]. unfold slot_set. rewrite X1, X2, !Nat.eqb_refl. cbn [andb]. destruct (try_send CHANNEL (sl_updates s) e). apply IH. exact A2.
  Qed.
End Proofs.
