(* Concrete leaf units for SignalProperties.v: delay lines, the limiter, and the routing of the resynthesizer. *)
From Coq Require Import Reals QArith Lra Lia.
From Verif Require Import SignalSpec DynModel UnitProofs.
From Verif Require Export LatencyProofs.
Local Open Scope nat_scope.

(* Line l: Delay, whose buffer holds l, oldest first; route: /repo/src/delay.rs:126-138.
   Ahead l: a delay line that reports its delay as latency, as Limiter does.
   Lim l: Limiter of one channel; route: /repo/src/dynamics.rs:220-227.
   Win n w: the signature and the route of Resynth with n inputs and outputs and window length w: /repo/src/resynth.rs:376-378; its audio is left out. *)
Inductive su (F : Type) := Line (l : list F) | Ahead (l : list F) | Lim (l : @limiter F) | Win (n w : nat).
Arguments Line {F}. Arguments Ahead {F}. Arguments Lim {F}. Arguments Win {F}.
Definition push {F} (l : list F) (x : F) : list F := tl (l ++ [x]).
Definition front {F} (l : list F) (x : F) : F := hd x l.
Section Su.
  Context {F : Type}.
  Variable nm : num F.
  Definition su_tick (u : su F) (i : list F) : su F * list F :=
    let x := hd (n0 nm) i in
    match u with
    | Line l => (Line (push l x), [front l x])
    | Ahead l => (Ahead (push l x), [front l x])
    | Lim l => match li_tick nm l [x] with Some (l', o) => (Lim l', [hd (n0 nm) o]) | None => (u, [n0 nm]) end
    | Win n w => (u, repeat (n0 nm) n)
    end.
  Definition su_ports (u : su F) : nat := match u with Win n _ => n | _ => 1 end.
  Definition su_ops : unit_ops F unit (su F) :=
    mkUnit F unit (su F) su_ports su_ports su_tick (fun u size i o => default_process (n0 nm) su_tick size u i o) (fun u _ => u) (fun u => u) (fun _ => 0%N) (fun u _ => u).
  Definition su_route (turn : nat -> F -> F * F -> F * F) (u : su F) (freq : F) (s : list (signal F)) : option (list (signal F)) :=
    match u with
    | Win n w => routing_route nm (Arbitrary (ofnat nm w)) s n
    | _ =>
        match s with
        | [] => None
        | a :: _ => Some [match u with
                          | Line l => sig_filter nm a (n0 nm) (turn (length l) freq)
                          | Ahead l => sig_delay nm a (ofnat nm (length l))
                          | Lim l => sig_delay nm a (ofnat nm (rb_length (li_reducer l)))
                          | Win _ _ => a
                          end]
        end
    end.
End Su.
Definition su_copes {F} (u : su F) : bool := match u with Win _ _ => false | _ => true end.

Notation Rturn := (fun (n : nat) (f : R) (c : R * R) => c).
Lemma su_laws : unit_laws 0%R (su_ops Rnum_ops).
Proof.
  assert (Hi : forall u i, su_ports (fst (su_tick Rnum_ops u i)) = su_ports u).
  { intros u i. unfold su_tick. destruct u; cbn; auto. destruct (li_tick Rnum_ops l _) as [[? ?]|]; reflexivity. }
  assert (Hl : forall u i, length (snd (su_tick Rnum_ops u i)) = su_ports u).
  { intros u i. unfold su_tick. destruct u; cbn; auto. destruct (li_tick Rnum_ops l _) as [[? ?]|]; reflexivity. apply repeat_length. }
  assert (Hp : forall (u v : su R) i, su_ports v = su_ports u -> length i = su_ports u ->
    su_ports (fst (su_tick Rnum_ops v i)) = su_ports u /\ length (snd (su_tick Rnum_ops v i)) = su_ports u) by (intros u v i Hv _; rewrite Hi, Hl; auto).
  split; auto; [intros u i _; apply Hl|]. intros u. exact (default_process_contract 0%R (su_tick Rnum_ops) (su_ports u) (su_ports u) (fun v => su_ports v = su_ports u) u (Hp u) eq_refl).
Qed.

(* what a delay line plays *)
Lemma line_state (mk : list R -> su R) (Hm : forall l i, su_tick Rnum_ops (mk l) i = (mk (push l (hd 0%R i)), [front l (hd 0%R i)])) l (X : nat -> list R) t :
  (forall t, length (X t) = 1%nat) ->
  exists l', state R_arith (su_ops Rnum_ops) (Leaf (mk l)) X t = Leaf (mk l') /\ length l' = length l /\
    forall j, j < length l -> nth j l' 0%R = if Nat.ltb (t + j) (length l) then nth (t + j) l 0%R else nth 0 (X (t + j - length l)%nat) 0%R.
Proof.
  intros HX. induction t as [|t (l' & E & L & Hn)].
  - exists l. split; [reflexivity|split; auto]. intros j Hj. cbn [Nat.add]. destruct (Nat.ltb_spec j (length l)); auto; lia.
  - exists (push l' (hd 0%R (X t))). split; [|split].
    + cbn [state]. rewrite E. cbn [tick]. change (u_tick (su_ops Rnum_ops)) with (su_tick Rnum_ops). rewrite Hm. reflexivity.
    + unfold push. destruct l' as [|a l']; cbn [app tl]; [auto|]. rewrite app_length. cbn in *. lia.
    + intros j Hj. unfold push. destruct l' as [|a l']; [cbn in L; lia|]. cbn [app tl]. cbn in L.
      destruct (Nat.eq_dec (S j) (length l)) as [Ej|Ej].
      * rewrite app_nth2 by lia. replace (j - length l')%nat with 0%nat by lia. cbn [nth].
        destruct (Nat.ltb_spec (S t + j) (length l)); [lia|]. replace (S t + j - length l)%nat with t by lia. destruct (X t); reflexivity.
      * rewrite app_nth1 by lia. specialize (Hn (S j) ltac:(lia)). cbn [nth] in Hn. rewrite Hn. replace (t + S j)%nat with (S t + j)%nat by lia. reflexivity.
Qed.
Lemma line_output (mk : list R -> su R) (Hm : forall l i, su_tick Rnum_ops (mk l) i = (mk (push l (hd 0%R i)), [front l (hd 0%R i)])) l (X : nat -> list R) t :
  (forall t, length (X t) = 1%nat) ->
  output R_arith (su_ops Rnum_ops) (Leaf (mk l)) X t = [if Nat.ltb t (length l) then nth t l 0%R else nth 0 (X (t - length l)%nat) 0%R].
Proof.
  intros HX. destruct (line_state mk Hm l X t HX) as (l' & E & L & Hn). unfold output. rewrite E. cbn [tick].
  change (u_tick (su_ops Rnum_ops)) with (su_tick Rnum_ops). rewrite Hm. cbn [snd]. f_equal. unfold front. destruct l' as [|a l'].
  - destruct l; [|discriminate]. cbn. rewrite Nat.sub_0_r. destruct (X t); reflexivity.
  - cbn [hd]. specialize (Hn 0%nat ltac:(cbn in L; lia)). rewrite Nat.add_0_r in Hn. exact Hn.
Qed.
Definition Line_out := line_output Line (fun _ _ => eq_refl).
Definition Ahead_out := line_output Ahead (fun _ _ => eq_refl).
Lemma line_sound l T freq : leaf_sound (su_ops Rnum_ops) (su_route Rnum_ops Rturn) su_copes (same_before T) freq (Line l).
Proof.
  intros S S' X (H1 & H2 & H3) _ E. destruct S as [|a S]; [cbn in H1; lia|]. cbn [su_route] in E. assert (S' = [sig_filter Rnum_ops a (n0 Rnum_ops) (Rturn (length l) freq)]) as -> by congruence.
  split; auto. split; [cbn; lia|split]. { intros w t. rewrite Line_out by apply H2. reflexivity. }
  intros i Hi. cbn in Hi. assert (i = 0%nat) as -> by lia. specialize (H3 0%nat ltac:(cbn; lia)). cbn [nth] in *. clear - H2 H3.
  assert (G : forall t, (forall s, s <= t -> nth 0 (X true s) 0%R = nth 0 (X false s) 0%R) ->
    nth 0 (output R_arith (su_ops Rnum_ops) (Leaf (Line l)) (X true) t) 0%R = nth 0 (output R_arith (su_ops Rnum_ops) (Leaf (Line l)) (X false) t) 0%R).
  { intros t H. rewrite !Line_out by apply H2. cbn [nth]. destruct (Nat.ltb t (length l)); auto. apply H. lia. }
  destruct a; cbn in H3 |- *; try tauto; auto.
  intros t Ht. apply G. intros s Hs. apply H3. apply le_INR in Hs. lra.
Qed.
Lemma ahead_sound l T freq : leaf_sound (su_ops Rnum_ops) (su_route Rnum_ops Rturn) su_copes (same_before T) freq (Ahead l).
Proof.
  intros S S' X (H1 & H2 & H3) _ E. destruct S as [|a S]; [cbn in H1; lia|]. cbn [su_route] in E. assert (S' = [sig_delay Rnum_ops a (ofnat Rnum_ops (length l))]) as -> by congruence.
  split; auto. split; [cbn; lia|split]. { intros w t. rewrite Ahead_out by apply H2. reflexivity. }
  intros i Hi. cbn in Hi. assert (i = 0%nat) as -> by lia. specialize (H3 0%nat ltac:(cbn; lia)). cbn [nth] in *. clear - H2 H3.
  assert (G : forall t, (length l <= t -> nth 0 (X true (t - length l)) 0%R = nth 0 (X false (t - length l)) 0%R) ->
    nth 0 (output R_arith (su_ops Rnum_ops) (Leaf (Ahead l)) (X true) t) 0%R = nth 0 (output R_arith (su_ops Rnum_ops) (Leaf (Ahead l)) (X false) t) 0%R).
  { intros t H. rewrite !Ahead_out by apply H2. cbn [nth]. destruct (Nat.ltb_spec t (length l)); auto. }
  destruct a; cbn in H3 |- *; try tauto; auto.
  intros t Ht. apply G. intros Hs. apply H3. rewrite minus_INR by auto. unfold ofnat in Ht. cbn in Ht. rewrite INR_IZR_INZ in *. rewrite INR_IZR_INZ. lra.
Qed.
Lemma line_regular l : leaf_regular (su_ops Rnum_ops) (su_route Rnum_ops Rturn) su_copes (Line l).
Proof.
  split.
  - intros freq [|a S] S' H _ E; [discriminate|]. cbn [su_route] in E. assert (S' = [sig_filter Rnum_ops a (n0 Rnum_ops) (Rturn (length l) freq)]) as -> by congruence. split; auto.
    cbn [u_ins su_ops su_ports firstn]. intros Hf. apply Forall_cons_iff in Hf as [Ha _]. constructor; auto. destruct a; cbn in *; auto.
  - intros freq d [|a S] H _; [cbn in H; lia|]. cbn. f_equal. f_equal. destruct a; cbn; auto; f_equal; ring.
Qed.
Lemma ahead_regular l : leaf_regular (su_ops Rnum_ops) (su_route Rnum_ops Rturn) su_copes (Ahead l).
Proof.
  split.
  - intros freq [|a S] S' H _ E; [discriminate|]. cbn [su_route] in E. assert (S' = [sig_delay Rnum_ops a (ofnat Rnum_ops (length l))]) as -> by congruence. split; auto.
    cbn [u_ins su_ops su_ports firstn]. intros Hf. apply Forall_cons_iff in Hf as [Ha _]. constructor; auto. destruct a; cbn in *; auto.
  - intros freq d [|a S] H _; [cbn in H; lia|]. cbn. f_equal. f_equal. destruct a; cbn; auto; f_equal; ring.
Qed.
Lemma lim_regular l : leaf_regular (su_ops Rnum_ops) (su_route Rnum_ops Rturn) su_copes (Lim l).
Proof.
  split.
  - intros freq [|a S] S' H _ E; [discriminate|]. cbn [su_route] in E. assert (S' = [sig_delay Rnum_ops a (ofnat Rnum_ops (rb_length (li_reducer l)))]) as -> by congruence. split; auto.
    cbn [u_ins su_ops su_ports firstn]. intros Hf. apply Forall_cons_iff in Hf as [Ha _]. constructor; auto. destruct a; cbn in *; auto.
  - intros freq d [|a S] H _; [cbn in H; lia|]. cbn. f_equal. f_equal. destruct a; cbn; auto; f_equal; ring.
Qed.
Lemma line_constant l freq : leaf_sound (su_ops Rnum_ops) (su_route Rnum_ops Rturn) su_copes constant_if_value freq (Line l).
Proof.
  intros S S' X (H1 & H2 & H3) _ E. destruct S as [|a S]; [cbn in H1; lia|]. cbn [su_route] in E. assert (S' = [sig_filter Rnum_ops a (n0 Rnum_ops) (Rturn (length l) freq)]) as -> by congruence.
  split; auto. split; [cbn; lia|split]. { intros w t. rewrite Line_out by apply H2. reflexivity. }
  intros i Hi. cbn in Hi. assert (i = 0%nat) as -> by lia. destruct a; cbn; auto.
Qed.

(* a delay of three samples beside a lookahead of two, after a lookahead of one *)
Definition demo_x : expr R (su R) := XPipe (XLeaf (Ahead [0%R])) (XBus (XLeaf (Line [0; 0; 0]%R)) (XLeaf (Ahead [0; 0]%R))).

Lemma no_multi_tight {F U} (x : expr F U) : no_multi x -> tight true x = true.
Proof.
  induction x using expr_ind'; cbn [no_multi tight]; auto; try (destruct p; reflexivity); try (intros [H1 H2]; auto).
  - rewrite IHx1 by auto. auto.
  - destruct xs as [|a r]; auto. apply Forall_cons_iff in H as [Ha _]. intros [H1 _]. auto.
  - destruct xs as [|a [|b r]]; auto; try tauto. apply Forall_cons_iff in H as [Ha _]. intros [H1 _]. cbn. auto.
  - induction H as [|a r Ha Hr IH]; auto. intros [H1 H2]. rewrite (Ha H1). auto.
Qed.
Lemma no_multi_safe {F U} (c : U -> bool) (x : expr F U) : no_multi x -> safe c true x = true.
Proof.
  induction x using expr_ind'; cbn [no_multi safe]; auto; try (destruct p; reflexivity); try (intros [H1 H2]; rewrite ?IHx1, ?IHx2 by auto; reflexivity).
  - intros [H1 H2]. rewrite IHx1, (no_multi_tight _ H1), IHx2 by auto. reflexivity.
  - induction H as [|a r Ha Hr IH]; auto. intros [H1 H2]. cbn [forallb]. rewrite (Ha H1), IH by auto. reflexivity.
  - destruct xs as [|a [|b r]]; auto; try tauto. apply Forall_cons_iff in H as [Ha _]. intros [H1 _]. cbn. rewrite Ha by auto. reflexivity.
  - destruct xs as [|a [|b r]]; auto; try tauto. apply Forall_cons_iff in H as [Ha _]. intros [H1 _]. cbn. rewrite Ha by auto. reflexivity.
  - induction H as [|a r Ha Hr IH]; auto. intros [H1 H2]. cbn [forallb]. rewrite (Ha H1), IH by auto. reflexivity.
  - induction H as [|a r Ha Hr IH]; auto. intros [H1 H2]. rewrite (Ha H1), (no_multi_tight _ H1), IH by auto. reflexivity.
Qed.
