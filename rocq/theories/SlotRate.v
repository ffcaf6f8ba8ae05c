(* Sample rates of the units of a slot. *)
From Verif Require Export SlotProofs.

Section Rates.
  Context {F D P U : Type}.
  Variables (nf : num F) (nd : num D) (cast : D -> F) (at_d : fade -> D -> D) (at_f : fade -> F -> F).
  Variable ops : unit_ops F P U.
  Variable set_rate : U -> D -> U.
  Variables ins outs : nat.
  Notation slot := (@slot F D U).
  Notation step := (slot_step nf nd cast at_d at_f ops set_rate ins outs).
  Notation run := (slot_run nf nd cast at_d at_f ops set_rate ins outs).
  Variable rate_of : U -> D.
  Hypothesis Hr : rates ops set_rate rate_of.
  (* the updates that wait have the slot's rate too *)
  Definition inv (s : slot) : Prop := at_rate rate_of s /\ Forall (fun e => rate_of (ed_unit e) = sb_rate (sl_back s)) (sl_updates s).
  Ltac fields := cbn [sl_back sl_updates sl_returns sl_freed sl_refused sl_dropped sb_rate sb_current sb_next sb_latest sb_phase sb_buffer with_back in_edit ed_unit set_unit option_map app] in *.
  Ltac each := unfold inv, at_rate in *; fields; repeat match goal with H : _ /\ _ |- _ => destruct H end;
    repeat match goal with H : Forall _ (_ :: _) |- _ => apply Forall_cons_iff in H as [? ?] | H : Forall _ (_ ++ _) |- _ => apply Forall_app in H as [? ?] end;
    repeat (apply conj || apply Forall_cons || apply Forall_nil || (apply Forall_app)); fields; try assumption; try congruence.
  Lemma give_same (s : slot) u : sl_back (give_back s u) = sl_back s /\ sl_updates (give_back s u) = sl_updates s.
  Proof. unfold give_back. destruct (try_send CHANNEL (sl_returns s) u). split; reflexivity. Qed.
  Lemma inv_give s u : inv s -> inv (give_back s u).
  Proof. unfold inv, at_rate. now rewrite (proj1 (give_same s u)), (proj2 (give_same s u)). Qed.
  Lemma inv_take s (e : nedit D U) : inv s -> rate_of (ed_unit e) = sb_rate (sl_back s) -> inv (take_update nd s e) /\ sb_rate (sl_back (take_update nd s e)) = sb_rate (sl_back s).
  Proof.
    intros V E. destruct s as [[sr cur nx la ph bf] q ret fr rf dr]. fields. unfold take_update. fields. destruct nx as [n|]; [|split; [each|reflexivity]].
    split; [|reflexivity]. destruct la as [l|]; [|each]. set (s0 := mkSlot _ _ _ _ _ _) in *. unfold inv, at_rate. fields. rewrite (proj2 (give_same s0 (ed_unit l))). subst s0. each.
  Qed.
  Lemma inv_loop r : forall s, inv s -> Forall (fun e : nedit D U => rate_of (ed_unit e) = sb_rate (sl_back s)) r -> inv (fold_left (take_update nd) r s).
  Proof.
    induction r as [|e r IH]; intros s V H; cbn [fold_left]; auto. apply Forall_cons_iff in H as [H1 H2]. destruct (inv_take s e V H1) as [A B]. apply IH; auto. now rewrite B.
  Qed.
  Lemma inv_handle s : inv s -> inv (handle_messages nd s).
  Proof. intros V. unfold handle_messages. apply inv_loop; [|apply V]. destruct V as [A B]. split; [exact A|constructor]. Qed.
  Lemma inv_phase s : inv s -> inv (slot_next_phase nd s).
  Proof.
    intros V. unfold slot_next_phase. destruct (sb_next (sl_back s)) as [e|] eqn:N; auto. unfold inv, at_rate in *. fields. rewrite (proj2 (give_same s _)), N in *. destruct (sb_latest (sl_back s)); each.
  Qed.
  Lemma inv_back s u nx la ph bf : inv s -> rate_of u = rate_of (sb_current (sl_back s)) -> map rate_of (in_edit nx) = map rate_of (in_edit (sb_next (sl_back s))) -> map rate_of (in_edit la) = map rate_of (in_edit (sb_latest (sl_back s))) ->
    inv (with_back s (mkSB (sb_rate (sl_back s)) u nx la ph bf)).
  Proof.
    intros V A B C. unfold inv, at_rate in *. fields. destruct V as [V1 V2]. split; auto. apply Forall_cons_iff in V1 as [V0 V1]. apply Forall_app in V1 as [V1 V3].
    assert (T : forall a b : list U, map rate_of a = map rate_of b -> Forall (fun v => rate_of v = sb_rate (sl_back s)) b -> Forall (fun v => rate_of v = sb_rate (sl_back s)) a).
    { clear. induction a as [|x a IH]; intros [|y b] E H; try discriminate; constructor; injection E as E1 E2; apply Forall_cons_iff in H as [H1 H2]; [congruence|eauto]. }
    constructor; [congruence|]. apply Forall_app. split; eapply T; eauto.
  Qed.
  Lemma inv_step s e s' : step s e = Some s' -> inv s -> match e with Set_ e => rate_of (ed_unit e) = sb_rate (sl_back s) | Rate _ => sl_updates s = [] | _ => True end -> inv s'.
  Proof.
    destruct Hr as (R1 & R2 & R3 & R4). intros E V C. destruct e as [e|i|size inb out| |r].
    - cbn [slot_step] in E. apply set_cases in E as (B & _ & _ & _ & X). unfold inv, at_rate in *. rewrite B. destruct V as [V1 V2]. split; auto. destruct X as [(_ & -> & _)|(_ & -> & _)]; auto. apply Forall_app. split; auto.
    - cbn [slot_step] in E. injection E as <-. unfold slot_tick. pose proof (inv_handle s V) as VH. set (h := handle_messages nd s) in *. pose proof (R1 (sb_current (sl_back h)) i) as RC. destruct (u_tick ops (sb_current (sl_back h)) i) as [u o]. fields.
      destruct (sb_next (sl_back h)) as [e|] eqn:N; [|apply inv_back; auto; now rewrite N]. pose proof (R1 (ed_unit e) i) as RE. destruct (u_tick ops (ed_unit e) i) as [w t]. cbn [fst] in *. set (ph := nadd nd _ _).
      assert (VV : inv (with_back h (mkSB (sb_rate (sl_back h)) u (Some (set_unit e w)) (sb_latest (sl_back h)) ph (sb_buffer (sl_back h))))) by (apply inv_back; auto; rewrite N; cbn; congruence).
      destruct (nleb nd (n1 nd) ph); auto. now apply inv_phase.
    - cbn [slot_step] in E. injection E as <-. unfold slot_process. pose proof (inv_handle s V) as VH. set (h := handle_messages nd s) in *. pose proof (R2 (sb_current (sl_back h)) size inb out) as RC. destruct (u_process ops (sb_current (sl_back h)) size inb out) as [u o]. fields.
      destruct (sb_next (sl_back h)) as [e|] eqn:N; [|apply inv_back; auto; now rewrite N]. pose proof (R2 (ed_unit e) size inb (sb_buffer (sl_back h))) as RE. destruct (u_process ops (ed_unit e) size inb (sb_buffer (sl_back h))) as [w t]. cbn [fst] in *. cbn zeta. set (ph := nadd nd _ _). set (pl := to_usize nd _).
      assert (VV : inv (with_back h (mkSB (sb_rate (sl_back h)) u (Some (set_unit e w)) (sb_latest (sl_back h)) ph t))) by (apply inv_back; auto; rewrite N; cbn; congruence).
      destruct (Nat.leb pl size); auto. now apply inv_phase.
    - cbn [slot_step] in E. injection E as <-. unfold slot_reset. unfold inv, at_rate in *.
      destruct (sb_latest (sl_back s)) as [l|] eqn:L, (sb_next (sl_back s)) as [e|] eqn:N; cbn [with_back sl_back sl_updates sb_rate sb_current sb_next sb_latest in_edit app] in *; rewrite ?(proj2 (give_same _ _)), ?R3; each; rewrite ?R3; each.
    - cbn [slot_step] in E. injection E as <-. unfold slot_set_rate, inv, at_rate. fields. rewrite C. split; [|constructor]. constructor; [apply R4|]. apply Forall_app. split; [destruct (sb_next (sl_back s))|destruct (sb_latest (sl_back s))]; repeat constructor; apply R4.
  Qed.
  Lemma careful_rates es : forall s s', run es s = Some s' -> careful nf nd cast at_d at_f ops set_rate ins outs rate_of es s -> inv s -> inv s'.
  Proof.
    induction es as [|e es IH]; intros s s' R C V; cbn [slot_run careful] in *; [now injection R as <-|]. destruct (step s e) as [s1|] eqn:E; [|discriminate]. destruct C as [C1 C2]. apply (IH s1); auto. now apply (inv_step s e).
  Qed.
  Lemma inv_new r u : inv (slot_new nf nd ops set_rate r u).
  Proof. destruct Hr as (_ & _ & _ & R4). split; repeat constructor. apply R4. Qed.
End Rates.
