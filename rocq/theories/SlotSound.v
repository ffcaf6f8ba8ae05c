(* A slot sounds like the unit of a network node, and where its units end up. *)
From Coq Require Import Reals Lra Permutation.
From Verif Require Export SlotSettle.
Close Scope R_scope. Open Scope nat_scope.

Section Sound.
  Context {F P U : Type}.
  Variables (n : num F) (at_ : fade -> F -> F).
  Variable ops : unit_ops F P U.
  Notation slot := (@slot F F U).
  Lemma core_take (s : slot) (e : nedit F U) : core (take_update n s e) = enqueue n (core s) e /\ sb_rate (sl_back (take_update n s e)) = sb_rate (sl_back s).
  Proof. destruct s as [[sr cur nx la ph bf] q ret fr rf dr]. unfold take_update, enqueue, core. cbn. destruct nx; [|split; reflexivity]. destruct la; split; reflexivity. Qed.
  Lemma core_loop r : forall s : slot, core (fold_left (take_update n) r s) = fold_left (enqueue n) r (core s) /\ sb_rate (sl_back (fold_left (take_update n) r s)) = sb_rate (sl_back s).
  Proof. induction r as [|e r IH]; intros s; cbn [fold_left]; auto. destruct (IH (take_update n s e)) as [A B]. destruct (core_take s e) as [C E]. rewrite A, B, C, E. auto. Qed.
  Lemma core_handle (s : slot) : core (handle_messages n s) = fold_left (enqueue n) (sl_updates s) (core s) /\ sb_rate (sl_back (handle_messages n s)) = sb_rate (sl_back s).
  Proof. exact (core_loop (sl_updates s) (mkSlot (sl_back s) [] (sl_returns s) (sl_freed s) (sl_refused s) (sl_dropped s))). Qed.
  Lemma core_phase (s : slot) : core (slot_next_phase n s) = next_phase n (core s).
  Proof. unfold slot_next_phase, next_phase, core. cbn [x_next]. destruct (sb_next (sl_back s)) eqn:E; [reflexivity|now rewrite E]. Qed.
  Lemma core_tick (s : slot) i : core (fst (slot_tick n n (fun x => x) at_ ops s i)) = fst (x_tick n at_ ops (sb_rate (sl_back s)) (fold_left (enqueue n) (sl_updates s) (core s)) i) /\
    snd (slot_tick n n (fun x => x) at_ ops s i) = snd (x_tick n at_ ops (sb_rate (sl_back s)) (fold_left (enqueue n) (sl_updates s) (core s)) i).
  Proof.
    destruct (core_handle s) as [<- <-]. unfold slot_tick, x_tick. set (h := handle_messages n s). cbn [core x_unit x_next]. destruct (u_tick ops (sb_current (sl_back h)) i) as [u o].
    destruct (sb_next (sl_back h)) as [e|]; [|split; reflexivity]. destruct (u_tick ops (ed_unit e) i) as [w t]. cbn [x_phase core]. cbn zeta. set (ph := nadd n _ _). destruct (nleb n (n1 n) ph); cbn [fst snd]; [|split; reflexivity].
    rewrite core_phase. split; reflexivity.
  Qed.
  Lemma core_process (s : slot) size inb out : core (fst (slot_process n n (fun x => x) at_ ops s size inb out)) = fst (x_process n at_ ops (sb_rate (sl_back s)) (fold_left (enqueue n) (sl_updates s) (core s)) size inb out) /\
    snd (slot_process n n (fun x => x) at_ ops s size inb out) = snd (x_process n at_ ops (sb_rate (sl_back s)) (fold_left (enqueue n) (sl_updates s) (core s)) size inb out).
  Proof.
    destruct (core_handle s) as [<- <-]. unfold slot_process, x_process. set (h := handle_messages n s). cbn [core x_unit x_next]. destruct (u_process ops (sb_current (sl_back h)) size inb out) as [u o].
    destruct (sb_next (sl_back h)) as [e|]; [|split; reflexivity]. cbn [x_tmp core]. destruct (u_process ops (ed_unit e) size inb (sb_buffer (sl_back h))) as [w t]. cbn [x_phase core]. cbn zeta. set (pl := to_usize n _). destruct (Nat.leb pl size); cbn [fst snd]; [|split; reflexivity].
    rewrite core_phase. split; reflexivity.
  Qed.
End Sound.

Section Ends.
  Context {F P U : Type}.
  Variables (nf : num F) (cast : R -> F) (at_d : fade -> R -> R) (at_f : fade -> F -> F).
  Variable ops : unit_ops F P U.
  Variable set_rate : U -> R -> U.
  Variables ins outs : nat.
  Notation slot := (@slot F R U).
  Notation run := (slot_run nf Rnum_ops cast at_d at_f ops set_rate ins outs).
  Notation step := (slot_step nf Rnum_ops cast at_d at_f ops set_rate ins outs).
  Variable tag : U -> nat.
  Hypothesis Htag : names ops set_rate tag.
  Lemma renders_keep rs : forall s s', Forall renders rs -> run rs s = Some s' -> ordered s -> room s <= CHANNEL -> sl_refused s' = sl_refused s /\ sl_dropped s' = sl_dropped s.
  Proof.
    induction rs as [|e rs IH]; intros s s' H R O L; cbn [slot_run] in R; [injection R as <-; auto|]. destruct (step s e) as [s1|] eqn:E; [|discriminate]. inversion H; subst.
    assert (M : moves tag s s1). { apply (step_moves nf Rnum_ops cast at_d at_f ops set_rate ins outs tag Htag s e s1 E O). intros n ->. contradiction. }
    destruct (m_room _ _ _ M L) as [L1 D1]. destruct (IH _ _ H3 R (m_ordered _ _ _ M) ltac:(lia)) as [A B]. rewrite A, B, D1. split; auto. apply (m_refused _ _ _ M).
  Qed.
  Lemma removelast_perm (l : list nat) (d : nat) : forall a, Permutation (removelast (a :: l) ++ [last l a]) (a :: l).
  Proof.
    intros a. pose proof (app_removelast_last (l := a :: l) d ltac:(discriminate)) as E. rewrite E at 2.
    rewrite last_cons. reflexivity.
  Qed.
  Lemma in_the_end u0 r0 es s : (0 < r0)%R -> Forall (timely (fun x => (0 < x)%R)) es -> run es (slot_new nf Rnum_ops ops set_rate r0 u0) = Some s ->
    roomy nf Rnum_ops cast at_d at_f ops set_rate ins outs es (slot_new nf Rnum_ops ops set_rate r0 u0) ->
    exists K, forall rs s', Forall renders rs -> K <= length rs -> run rs s = Some s' ->
      plays tag s' (tag (last (sets es) u0)) /\ sl_refused s' = [] /\ sl_dropped s' = [] /\
      Permutation (map tag (sl_returns s' ++ sl_freed s')) (map tag (removelast (u0 :: sets es))).
  Proof.
    intros R0 T R W. set (s0 := slot_new nf Rnum_ops ops set_rate r0 u0) in *.
    assert (O0 : ordered s0) by (intros _; reflexivity).
    assert (C0 : room s0 <= CHANNEL). { specialize (W 0 s0 eq_refl). unfold room. cbn. lia. }
    destruct (run_room nf Rnum_ops cast at_d at_f ops set_rate ins outs tag Htag es s0 s R O0 C0 W) as (Rf & Dr & Rm).
    destruct (eventually nf cast at_d at_f ops set_rate ins outs tag Htag u0 r0 es s R0 T R Rf) as (K & HK).
    exists K. intros rs s' Rs L R'. specialize (HK rs s' Rs L R'). split; [exact HK|].
    destruct (run_perm nf Rnum_ops cast at_d at_f ops set_rate ins outs tag Htag es _ _ R O0) as [O P1].
    destruct (renders_keep rs s s' Rs R' O Rm) as [A B]. change (sl_refused s0) with (@nil U) in Rf. change (sl_dropped s0) with (@nil U) in Dr. rewrite Rf in A. rewrite Dr in B. split; [exact A|]. split; [exact B|].
    destruct (run_perm nf Rnum_ops cast at_d at_f ops set_rate ins outs tag Htag rs _ _ R' O) as [_ P2]. rewrite (renders_sets rs Rs) in P2. cbn [map app] in P2. rewrite P1 in P2.
    assert (S0 : map tag (units s0) = [tag u0]). { destruct Htag as (_ & _ & _ & T4). cbn. now rewrite T4. } rewrite S0 in P2.
    destruct HK as [HC HW]. unfold units in P2. rewrite HW, A, B, !app_nil_r in P2. cbn [map app] in P2. rewrite HC in P2.
    assert (M : forall (l : list U) a, map tag (removelast (a :: l)) = removelast (map tag (a :: l)) /\ tag (last l a) = last (map tag l) (tag a)).
    { clear. induction l as [|b l IH]; intros a; [split; reflexivity|]. destruct (IH b) as [I1 I2]. split; [change (removelast (a :: b :: l)) with (a :: removelast (b :: l)); cbn [map]; rewrite I1; reflexivity|].
      now rewrite last_cons, I2, <- last_cons with (d := tag a). }
    destruct (M (sets es) u0) as [M1 M2]. rewrite M1. rewrite M2 in P2. cbn [map].
    pose proof (removelast_perm (map tag (sets es)) 0 (tag u0)) as Q. apply (Permutation_cons_inv (a := last (map tag (sets es)) (tag u0))).
    etransitivity; [exact P2|]. etransitivity; [apply Permutation_app_comm|]. cbn [app]. etransitivity; [symmetry; exact Q|]. apply Permutation_app_comm.
  Qed.
  (* a refused unit never plays *)
  Lemma refused_never es s rs s' u : run es s = Some s' -> ordered s -> In u (sl_refused s') -> count_occ Nat.eq_dec (map tag (units s')) (tag u) = 1 -> sets rs = [] ->
    forall s'', run rs s' = Some s'' -> tag (sb_current (sl_back s'')) <> tag u /\ ~ In (tag u) (map tag (waiting s'')).
  Proof.
    intros R O I C N s'' R'. destruct (run_perm nf Rnum_ops cast at_d at_f ops set_rate ins outs tag Htag es _ _ R O) as [O' _].
    destruct (run_perm nf Rnum_ops cast at_d at_f ops set_rate ins outs tag Htag rs _ _ R' O') as [_ P2]. rewrite N in P2. cbn [map app] in P2.
    destruct (refused_run nf Rnum_ops cast at_d at_f ops set_rate ins outs tag Htag rs _ _ R' O') as (q & Q).
    assert (C2 : count_occ Nat.eq_dec (map tag (units s'')) (tag u) = 1). { rewrite <- C. apply Permutation_count_occ. exact P2. }
    assert (I2 : In (tag u) (map tag (sl_refused s''))). { rewrite Q. apply in_map. apply in_or_app. now left. }
    apply (count_occ_In Nat.eq_dec) in I2. unfold units in C2. cbn [map] in C2. rewrite !map_app in C2. cbn [count_occ] in C2. destruct (Nat.eq_dec (tag (sb_current (sl_back s''))) (tag u)); rewrite !count_occ_app in C2.
    - lia. - split; auto. intros X. apply (count_occ_In Nat.eq_dec) in X. lia.
  Qed.
End Ends.
