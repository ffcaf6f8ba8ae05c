(* What pebbles plays. *)
From Coq Require Import Reals Lra Lia Psatz.
From Verif Require Import PebbleProofs SoundProofs DrumProofs SysProofs SysProperties OscProofs.
From Verif Require Export VoicesSpec.
Import ListNotations.
Local Open Scope R_scope.
Local Notation nR := Rnum_ops.
Local Notation nodeD := (NodeModel.node R (du R unit unit R)).

Lemma length_pull c d i j : length (pull nR c d i j) = length d.
Proof. unfold pull. cbv zeta. destruct (nltb _ _ _); [reflexivity|]. destruct (nltb _ _ _); now rewrite !length_upd. Qed.
Lemma length_gravity c d : length (gravity nR c d) = length d.
Proof.
  assert (I : forall i l e, length (fold_left (fun d j => pull nR c d i j) l e) = length e) by (intros i l; induction l as [|j l IH]; intros e; [reflexivity|]; cbn [fold_left]; now rewrite IH, length_pull).
  unfold gravity. generalize (seq 0 (length d)) as l. intros l. revert d. induction l as [|i l IH]; intros d; [reflexivity|]. cbn [fold_left]. now rewrite IH, I.
Qed.

Section Voices.
  Variables (speed sr co : R) (h : nat -> N) (seed : N) (m : nat).
  Hypothesis HS : 0 < sr.
  Hypothesis HM : period sr (1 / 100) m.
  Hypothesis HH : forall i, (h i < 2 ^ 64)%N.
  Let c := INR m / sr * speed * (1 / 1000).
  Let cc (k : nat) : R := match k with O => 0 | _ => c end.
  (* the array d before each update *)
  Fixpoint dst (k : nat) : list R := match k with O => map (first_pitch nR exp ln seed) (seq 0 100) | S k => gravity nR (cc k) (upd (dst k) 0 110) end.
  Lemma length_dst k : length (dst k) = 100%nat.
  Proof. induction k as [|k IH]; cbn [dst]; [now rewrite map_length, seq_length|]. now rewrite length_gravity, length_upd. Qed.
  Lemma run_cons d x xs : pebbles_run nR d (x :: xs) = upd d 0 110 :: pebbles_run nR (gravity nR x (upd d 0 110)) xs.
  Proof. reflexivity. Qed.
  Lemma dst_S k : dst (S k) = gravity nR (cc k) (upd (dst k) 0 110).
  Proof. reflexivity. Qed.
  Lemma nth_next {A} k (a : A) l d : nth (S k) (a :: l) d = nth k l d.
  Proof. reflexivity. Qed.
  Lemma run_later k : forall j, nth k (pebbles_run nR (dst (S j)) (repeat c (S k))) [] = upd (dst (S j + k)) 0 110.
  Proof.
    induction k as [|k IH]; intros j; cbn [repeat]; rewrite run_cons.
    - rewrite Nat.add_0_r. reflexivity.
    - rewrite nth_next. change c with (cc (S j)) at 1. rewrite <- dst_S. change (c :: repeat c k) with (repeat c (S k)). rewrite IH. replace (S (S j) + k)%nat with (S j + S k)%nat by lia. reflexivity.
  Qed.
  Lemma dst_1 : dst 1 = gravity nR 0 (upd (map (first_pitch nR exp ln seed) (seq 0 100)) 0 110).
  Proof. rewrite dst_S. reflexivity. Qed.
  Lemma written_dst k : written speed sr seed m k = upd (dst k) 0 110.
  Proof.
    unfold written, pebbles. fold c. rewrite run_cons. destruct k as [|k]; [reflexivity|]. rewrite nth_next, <- dst_1, (run_later k 0). reflexivity.
  Qed.
  Local Opaque dst.
  Notation pit := (pitch speed sr seed m).
  Notation fo i n := (follower co (pit i) n).
  Notation fr i := (followed co (pit i)).
  Definition osc_n (i n : nat) : osc R := mkOsc (frac (EnvModel.rnd1 nR (h i) + sum_to (fun k => fr i k / sr) n)) (1 / sr) (h i) None.
  Definition vs (p : nat -> R) (n : nat) : list (VoicesModel.voice R) := map (fun i => VoicesModel.mkVoice (p i) (fo i n) (osc_n i n)) (seq 0 100).
  Definition inv (n : nat) (st : list R) (x : list (VoicesModel.voice R)) : Prop := exists p, x = vs p n /\
    ((n = 0%nat /\ p = first_pitch nR exp ln seed) \/ (n <> 0%nat /\ (n mod m)%nat = 0%nat /\ st = dst (n / m)) \/ ((n mod m)%nat <> 0%nat /\ p = (fun i => pit i n) /\ st = dst (n / m + 1))).
  Lemma m_pos : (1 <= m)%nat. Proof. apply HM. Qed.
  Lemma write_vs p n w : length w = 100%nat -> write_pitches (vs p n) w = vs (fun i => nth i w 0) n.
  Proof.
    intros L. unfold write_pitches, vs. assert (E : forall l s, length l = s -> forall a, map (fun q => VoicesModel.mkVoice (snd q) (vc_follow (fst q)) (vc_sine (fst q))) (combine (map (fun i => VoicesModel.mkVoice (p i) (fo i n) (osc_n i n)) (seq a s)) l) = map (fun i => VoicesModel.mkVoice (nth (i - a) l 0) (fo i n) (osc_n i n)) (seq a s)).
    { induction l as [|y l IH]; intros s <- a; [reflexivity|]. cbn [length seq map combine fst snd vc_follow vc_sine]. rewrite Nat.sub_diag. cbn [nth]. f_equal. rewrite (IH (length l) eq_refl (S a)). apply map_ext_in. intros i Hi. apply in_seq in Hi. replace (i - a)%nat with (S (i - S a)) by lia. reflexivity. }
    rewrite (E w 100%nat L 0%nat). apply map_ext. intros i. now rewrite Nat.sub_0_r.
  Qed.
  Lemma update_n n st x : inv n st x -> (n mod m)%nat = 0%nat -> exists x', pebbles_fn nR speed st (INR n / sr) (if Nat.eqb n 0 then 0 else INR m / sr) x = (dst (n / m + 1), x') /\ x' = vs (fun i => pit i n) n.
  Proof.
    intros (p & -> & D) Z. pose proof m_pos as M1. unfold pebbles_fn, pebbles_update.
    assert (E : (if feq nR (INR n / sr) (n0 nR) then map vc_pitch (vs p n) else st) = dst (n / m)).
    { destruct D as [[-> ->]|[(N0 & _ & ->)|(B & _)]]; [| |lia].
      - replace (feq nR (INR 0 / sr) (n0 nR)) with true; [|symmetry; unfold feq; replace (INR 0 / sr) with 0 by (cbn [INR]; unfold Rdiv; ring); change (n0 nR) with 0; cbn [nleb Rnum_ops]; destruct (Rle_dec 0 0); [reflexivity|lra]].
        rewrite Nat.div_0_l by lia. cbn [dst]. unfold vs. rewrite map_map. reflexivity.
      - assert (P : 0 < INR n / sr) by (apply Rdiv_lt_0_compat; [apply lt_0_INR; lia|lra]). replace (feq nR (INR n / sr) (n0 nR)) with false; [reflexivity|]. symmetry. unfold feq. change (n0 nR) with 0. cbn [nleb Rnum_ops]. destruct (Rle_dec (INR n / sr) 0); [lra|reflexivity]. }
    rewrite E. change (nofZ nR 110) with 110. eexists. split.
    - apply f_equal2; [|reflexivity]. replace (n / m + 1)%nat with (S (n / m)) by lia. cbn [dst]. f_equal. cbn [nmul ndiv nofZ Rnum_ops]. unfold cc, c. destruct (Nat.eqb_spec n 0) as [->|N0]; [rewrite Nat.div_0_l by lia; ring|]. destruct (n / m)%nat eqn:Q; [|ring]. exfalso. apply Nat.mod_divides in Z; [|lia]. destruct Z as [k ->]. rewrite Nat.mul_comm, Nat.div_mul in Q by lia. subst k. lia.
    - rewrite write_vs; [|rewrite length_upd; apply length_dst]. f_equal. apply FunctionalExtensionality.functional_extensionality. intros i. unfold pitch. now rewrite written_dst.
  Qed.
  Lemma voice_n i n : voice_tick nR sin (2 * PI) (VoicesModel.mkVoice (pit i n) (fo i n) (osc_n i n)) = (VoicesModel.mkVoice (pit i n) (fo i (S n)) (osc_n i (S n)), sine_of sr (h i) (fr i) n).
  Proof.
    unfold voice_tick. cbn [vc_pitch vc_follow vc_sine]. change (fo_tick nR (fo i n) (pit i n)) with (fo i (S n)). change (fo_v3 (fo i (S n))) with (fr i n).
    pose proof (sine_step sr (h i) (fr i) n [fr i n] eq_refl) as E. unfold sine_at in E. fold (osc_n i n) in E. fold (osc_n i (S n)) in E. cbn [NodeModel.tick soundR su_ops u_tick su_tick nth] in E.
    match type of E with (let (_, _) := (let (_, _) := ?t in _) in _) = _ => destruct t as [s y] eqn:T end. injection E as -> ->.  reflexivity.
  Qed.
  Lemma fold_sum (g : nat -> R) k : forall a, fold_left (fun a i => a + g i) (seq 0 k) a = a + sum_to g k.
  Proof. induction k as [|k IH]; intros a; [cbn; lra|]. rewrite seq_S, fold_left_app, IH. cbn [fold_left sum_to Nat.add]. lra. Qed.
  Lemma tick_n n i : voices_tick nR sin (2 * PI) (vs (fun i => pit i n) n) i = (vs (fun i => pit i n) (S n), [pebbles_mixed speed sr co h seed m n]).
  Proof.
    unfold voices_tick, vs. apply f_equal2; [rewrite map_map; apply map_ext; intros j; now rewrite voice_n|]. f_equal. unfold pebbles_mixed.
    assert (E : forall l a, fold_left (fun a v => nadd nR a (snd (voice_tick nR sin (2 * PI) v))) (map (fun i => VoicesModel.mkVoice (pit i n) (fo i n) (osc_n i n)) l) a = fold_left (fun a i => a + sine_of sr (h i) (fr i) n) l a).
    { induction l as [|j l IH]; intros a; [reflexivity|]. cbn [map fold_left]. rewrite IH, voice_n. reflexivity. }
    rewrite E, fold_sum. change (n0 nR) with 0. lra.
  Qed.
  Lemma inv_next n : inv (n + 1) (dst (n / m + 1)) (vs (fun i => pit i n) (S n)).
  Proof.
    pose proof m_pos as M1. exists (fun i => pit i n). rewrite Nat.add_1_r. split; [reflexivity|]. pose proof (Nat.div_mod n m ltac:(lia)) as D. pose proof (Nat.mod_upper_bound n m ltac:(lia)) as U. right.
    destruct (Nat.eq_dec (n mod m + 1) m) as [E|E].
    - left. split; [lia|]. assert (Q : S n = (m * (n / m + 1) + 0)%nat) by lia. split; [rewrite Q, Nat.add_0_r, Nat.mul_comm; apply Nat.mod_mul; lia|]. f_equal. rewrite Q, Nat.add_0_r, Nat.mul_comm, Nat.div_mul by lia. lia.
    - right. assert (Q1 : (S n / m = n / m)%nat) by (symmetry; apply (Nat.div_unique (S n) m (n / m) (n mod m + 1)); lia). assert (Q2 : (S n mod m = n mod m + 1)%nat) by (symmetry; apply (Nat.mod_unique (S n) m (n / m) (n mod m + 1)); lia).
      rewrite Q2, Q1. split; [lia|]. split; [|reflexivity]. apply FunctionalExtensionality.functional_extensionality. intros i. unfold pitch. now rewrite Q1.
  Qed.
  Lemma every_n N : forall n st x, inv n st x -> every (voices_ops nR sin (2 * PI)) (pebbles_fn nR speed) sr m n st x (repeat [] N) = map (fun k => [pebbles_mixed speed sr co h seed m k]) (seq n N).
  Proof.
    induction N as [|N IH]; intros n st x I; [reflexivity|]. cbn [repeat every]. destruct (Nat.eqb_spec (n mod m) 0) as [Z|Z].
    - destruct (update_n n st x I Z) as (x' & E & ->). rewrite E. cbn [u_tick voices_ops]. rewrite tick_n. cbn [seq map]. f_equal. rewrite IH by apply inv_next. now rewrite Nat.add_1_r.
    - destruct I as (p & -> & [[-> _]|[(_ & B & _)|(_ & -> & ->)]]); [rewrite Nat.mod_0_l in Z by (pose proof m_pos; lia); lia|lia|]. cbn [u_tick voices_ops]. rewrite tick_n. cbn [seq map]. f_equal. rewrite IH by apply inv_next. now rewrite Nat.add_1_r.
  Qed.
  Lemma inv_0 st : inv 0 st (map (voice_new nR exp ln sr co h seed) (seq 0 100)).
  Proof.
    exists (first_pitch nR exp ln seed). split; [|left; split; reflexivity]. unfold vs. apply map_ext. intros i. unfold voice_new. f_equal.
    unfold osc_n, osc_set_hash, osc_new, osc_set_duration, osc_reset. cbn [os_phase os_sd os_hash os_init sum_to]. rewrite Rplus_0_r, (frac_unit _ (rnd1_unit (h i) (HH i))). reflexivity.
  Qed.
  (* the pinking filter and the factor *)
  Fixpoint pinks (p : pink R) (os : list (list R)) : list R := match os with [] => [] | o :: os => let (p, y) := pink_step nR p (nth 0 o 0) in (y * (1 / 10)) :: pinks p os end.
  Lemma play_run N : forall s p os, fst (sys_run (voices_ops nR sin (2 * PI)) (pebbles_fn nR speed) (fun x _ => x) s (map YTick (repeat [] N))) = map YFrame os -> pebbles_play nR sin (2 * PI) speed s p N = pinks p os.
  Proof.
    induction N as [|N IH]; intros s p os E; [destruct os; [reflexivity|discriminate E]|]. cbn [repeat map sys_run] in E. cbn [pebbles_play]. destruct (sys_tick _ _ _ s []) as [s' o] eqn:T.
    destruct (sys_run _ _ _ s' (map YTick (repeat [] N))) as [os' s2] eqn:R. cbn [fst] in E. destruct os as [|o2 os]; [discriminate E|]. cbn [map] in E. injection E as -> E. cbn [pinks]. change (n0 nR) with 0. destruct (pink_step nR p (nth 0 o2 0)) as [p' y]. f_equal. apply IH. rewrite R. exact E.
  Qed.
  Lemma pinks_at x N : forall n, pinks (pink_st x n) (map (fun k => [x k]) (seq n N)) = map (fun k => pinked x k * (1 / 10)) (seq n N).
  Proof. induction N as [|N IH]; intros n; [reflexivity|]. cbn [seq map pinks nth]. rewrite pink_at. f_equal. apply IH. Qed.
  Lemma pink_start x : mkPink (n0 nR) (n0 nR) (n0 nR) (n0 nR) (n0 nR) (n0 nR) (n0 nR) = pink_st x 0.
  Proof. pose proof (pinkpass_0 x) as Z. unfold pinkpass_new, pink_leaf in Z. apply (f_equal (fun n : nodeD => match n with Leaf (DPink p) => p | _ => pink_st x 0 end)) in Z. exact Z. Qed.
  Lemma pebbles_plays N n : (n < N)%nat -> nth n (pebbles_soundR speed sr co h seed N) 0 = pebbles_of speed sr co h seed m n.
  Proof.
    intros H. unfold pebbles_sound, pebbles_system. set (mixed := pebbles_mixed speed sr co h seed m).
    rewrite (play_run N _ _ (map (fun k => [mixed k]) (seq 0 N))).
    - rewrite pink_start with (x := mixed).
      rewrite pinks_at. set (g := fun k => pinked mixed k * (1 / 10)). rewrite (nth_indep _ 0 (g 0%nat)) by (rewrite map_length, seq_length; exact H). rewrite map_nth. rewrite seq_nth by exact H. reflexivity.
    - change (ndiv nR (nofZ nR 1) (nofZ nR 100)) with (1 / 100). rewrite (C70_ticks (voices_ops nR sin (2 * PI)) (pebbles_fn nR speed) (fun x _ => x) sr (1 / 100) m HS HM). f_equal. apply every_n, inv_0.
  Qed.
  Lemma mixed_100 n : Rabs (pebbles_mixed speed sr co h seed m n) <= 100.
  Proof.
    unfold pebbles_mixed. assert (E : forall k, Rabs (sum_to (fun i => sine_of sr (h i) (fr i) n) k) <= INR k).
    { induction k as [|k IH]; [cbn [sum_to INR]; rewrite Rabs_R0; lra|]. cbn [sum_to]. rewrite S_INR. eapply Rle_trans; [apply Rabs_triang|]. assert (Rabs (sine_of sr (h k) (fr k) n) <= 1) by (unfold sine_of; apply Rabs_le; apply SIN_bound). lra. }
    eapply Rle_trans; [apply E|]. rewrite INR_IZR_INZ. cbn. lra.
  Qed.
  Lemma pebbles_level n : Rabs (pebbles_of speed sr co h seed m n) <= 80.1.
  Proof. unfold pebbles_of. pose proof (pinked_bound (pebbles_mixed speed sr co h seed m) 100 n mixed_100) as B. rewrite Rabs_mult, (Rabs_pos_eq (1 / 10)) by lra. lra. Qed.
End Voices.
