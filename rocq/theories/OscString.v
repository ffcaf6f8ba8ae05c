(* The plucked string satisfies its recurrence. *)
From Coq Require Import Reals Lra Lia Psatz.
From Verif Require Export OscMore.
Local Open Scope R_scope.

Section String.
  Variable draw : N -> nat -> R.
  Notation tick := (pluck_tick Rnum_ops Rnum_ops idR idR draw).
  Notation run := (pluck_run Rnum_ops Rnum_ops idR idR draw).
  Lemma pluck_run_app a b s : run s (a ++ b) = match run s a with Some (s1, o1) => match run s1 b with Some (s2, o2) => Some (s2, o1 ++ o2) | None => None end | None => None end.
  Proof.
    revert s. induction a as [|x a IH]; intros s; cbn [app pluck_run]. { now destruct (run s b) as [[s2 o2]|]. }
    destruct (tick s x) as [[s1 y]|]; auto. rewrite IH. destruct (run s1 a) as [[s2 o2]|]; auto. now destruct (run s2 b) as [[s3 o3]|].
  Qed.
  Variables (gain eta : R) (w : R * R * R) (exc : list R).
  Notation len := (length exc).
  Notation vv := (excited gain exc).
  (* the state after inputs l and outputs o *)
  Definition state_ok (l o : list R) (s : @pluck R R) : Prop := let t := length l in let d := damped w (vv l o) in
    pl_ready s = true /\ pl_gain s = gain /\ pl_eta s = eta /\ f_w (pl_fir s) = [fst (fst w); snd (fst w); snd w] /\ length (pl_line s) = len /\ pl_pos s = Nat.modulo t len /\
    (exists a, f_v (pl_fir s) = [a; late (vv l o) 2 t; late (vv l o) 1 t]) /\ pl_x1 s = late d 1 t /\ pl_y1 s = late (fun i => nth i o 0) 1 t /\
    (forall i, (t <= i < t + len)%nat -> nth (Nat.modulo i len) (pl_line s) 0 = returned exc o i).
  Lemma returned_snoc o y i : (0 < len)%nat -> (i < length o + len)%nat -> returned exc (o ++ [y]) i = returned exc o i.
  Proof. intros HN H. unfold returned. destruct (Nat.ltb_spec i len); auto. apply app_nth1. lia. Qed.
  Lemma vv_snoc l o x y i : (0 < len)%nat -> (i < length l)%nat -> length o = length l -> vv (l ++ [x]) (o ++ [y]) i = vv l o i.
  Proof. intros HN H E. unfold excited. rewrite returned_snoc by lia. now rewrite app_nth1. Qed.
  Lemma vv_now l o x y : (0 < len)%nat -> length o = length l -> vv (l ++ [x]) (o ++ [y]) (length l) = returned exc o (length l) * gain + x.
  Proof. intros HN E. unfold excited. rewrite returned_snoc by lia. rewrite app_nth2 by lia. now rewrite Nat.sub_diag. Qed.
  Lemma late_ext f g k t : (forall i, (i < t)%nat -> f i = g i) -> (0 < k)%nat -> late f k t = late g k t.
  Proof. intros H Hk. unfold late. destruct (Nat.leb_spec k t); auto. apply H. lia. Qed.
  Lemma damped_ext f g t : (forall i, (i <= t)%nat -> f i = g i) -> damped w f t = damped w g t.
  Proof. intros H. unfold damped. destruct w as [[a b] c]. rewrite (H t) by lia. rewrite (late_ext f g 1), (late_ext f g 2) by (try lia; intros; apply H; lia). reflexivity. Qed.
  Lemma string_step l o s x : (0 < len)%nat -> length o = length l -> state_ok l o s -> exists s' y, tick s x = Some (s', y) /\
    let d := damped w (vv (l ++ [x]) (o ++ [y])) in y = eta * (d (length l) - late (fun i => nth i o 0) 1 (length l)) + late d 1 (length l) /\ state_ok (l ++ [x]) (o ++ [y]) s'.
  Proof.
    intros HN E (H1 & H2 & H3 & H4 & H5 & H6 & (a & H7) & H8 & H9 & H10). set (t := length l) in *.
    assert (L : nth_error (pl_line s) (pl_pos s) = Some (returned exc o t)).
    { rewrite H6. rewrite (nth_error_nth' (pl_line s)) with (d := 0) by (rewrite H5; apply Nat.mod_upper_bound; lia). f_equal. apply H10. lia. }
    unfold pluck_tick. rewrite H1, L, H2. unfold fir_tick. rewrite H4, H7. cbn [length seq map Nat.ltb Nat.leb Nat.add nth].
    set (v := nadd Rnum_ops (nmul Rnum_ops (returned exc o t) gain) x). set (V := [late (vv l o) 2 t; late (vv l o) 1 t; v]). set (dn := dot Rnum_ops _ V). set (y := all_step Rnum_ops (pl_eta s) (pl_x1 s) (pl_y1 s) dn).
    eexists. exists y. split; [reflexivity|].
    assert (F : forall i, (i < t)%nat -> vv (l ++ [x]) (o ++ [y]) i = vv l o i) by (intros; now apply vv_snoc).
    assert (Fn : vv (l ++ [x]) (o ++ [y]) t = v) by (unfold t; now apply vv_now).
    assert (D : damped w (vv (l ++ [x]) (o ++ [y])) t = dn).
    { unfold damped, dn, dot, V. destruct w as [[a0 b0] c0]. rewrite Fn, (late_ext _ (vv l o) 1), (late_ext _ (vv l o) 2) by (auto; lia). cbn. ring. }
    assert (D1 : late (damped w (vv (l ++ [x]) (o ++ [y]))) 1 t = late (damped w (vv l o)) 1 t).
    { apply late_ext; [|lia]. intros i Hi. apply damped_ext. intros j Hj. apply F. lia. }
    cbn zeta. rewrite D, D1, <- H8, <- H9, <- H3. split; [reflexivity|].
    assert (T : length (l ++ [x]) = S t) by (rewrite app_length; cbn; unfold t; lia). unfold state_ok. rewrite T. cbn zeta.
    cbn [pl_ready pl_gain pl_eta pl_fir f_w f_v pl_line pl_pos pl_x1 pl_y1]. rewrite length_upd, H5. refine (conj eq_refl (conj eq_refl (conj H3 (conj eq_refl (conj eq_refl _))))).
    assert (LS : forall f, late f 1 (S t) = f t) by (intros f; unfold late; cbn [Nat.leb]; now rewrite Nat.sub_succ, Nat.sub_0_r).
    assert (LS2 : forall f, late f 2 (S t) = late f 1 t) by (intros f; unfold late; cbn [Nat.leb]; destruct t; reflexivity).
    split; [|split; [|split; [|split]]].
    - rewrite H6. pose proof (Nat.mod_upper_bound t len ltac:(lia)). pose proof (Nat.div_mod_eq t len). destruct (Nat.eqb_spec (Nat.modulo t len + 1)%nat len) as [G|G].
      + apply (Nat.mod_unique (S t) len (S (Nat.div t len)) 0); nia.
      + apply (Nat.mod_unique (S t) len (Nat.div t len) (Nat.modulo t len + 1)%nat); nia.
    - eexists. unfold V. rewrite LS, LS2, Fn. f_equal. f_equal. symmetry. apply late_ext; [auto|lia].
    - rewrite LS. symmetry. exact D.
    - rewrite LS. unfold t. rewrite app_nth2 by lia. now rewrite E, Nat.sub_diag.
    - intros i Hi. rewrite H6. rewrite nth_upd. rewrite H5. pose proof (Nat.mod_upper_bound t len ltac:(lia)) as MB. destruct (Nat.eq_dec i (t + len)%nat) as [->|NE].
      + replace (Nat.modulo (t + len)%nat len) with (Nat.modulo t len) by (pose proof (Nat.mod_add t 1 len ltac:(lia)) as M; rewrite Nat.mul_1_l in M; now rewrite M). rewrite Nat.eqb_refl. replace (Nat.modulo t len <? len)%nat with true by (symmetry; apply Nat.ltb_lt; lia).
        cbn [andb]. unfold returned. replace (t + len <? len)%nat with false by (symmetry; apply Nat.ltb_ge; lia). rewrite Nat.add_sub. rewrite app_nth2 by lia. now rewrite E, Nat.sub_diag.
      + rewrite returned_snoc by (fold t in E; lia). rewrite <- H10 by lia. destruct (Nat.eqb_spec (Nat.modulo t len) (Nat.modulo i len)) as [G|G]; [|reflexivity].
        exfalso. pose proof (Nat.div_mod_eq t len). pose proof (Nat.div_mod_eq i len). clear - H H0 G Hi NE HN. set (q := Nat.div t len) in *. set (q2 := Nat.div i len) in *. rewrite G in H. generalize dependent (Nat.modulo i len). intros r H0 H. destruct (le_lt_dec q2 q); nia.
  Qed.
  Lemma string_run s : (0 < len)%nat -> state_ok [] [] s -> forall l, exists s' o, run s l = Some (s', o) /\ is_string gain w eta exc l o /\ state_ok l o s'.
  Proof.
    intros HN H0 l. induction l as [|x l IH] using rev_ind. { exists s, []. split; [reflexivity|]. split; [|exact H0]. split; [reflexivity|]. cbn. lia. }
    destruct IH as (s1 & o & E & [L S] & K). destruct (string_step l o s1 x HN L K) as (s2 & y & E2 & Y & K2). exists s2, (o ++ [y]). rewrite pluck_run_app, E. cbn [pluck_run]. rewrite E2.
    split; [reflexivity|]. split; [|exact K2]. split; [rewrite !app_length, L; reflexivity|]. intros t Ht. cbn zeta. rewrite app_length in Ht. cbn in Ht.
    assert (P : late (fun i => nth i (o ++ [y]) 0) 1 t = late (fun i => nth i o 0) 1 t) by (apply late_ext; [|lia]; intros i Hi; apply app_nth1; lia). rewrite P.
    destruct (Nat.eq_dec t (length l)) as [->|NE].
    - rewrite app_nth2 by lia. rewrite L, Nat.sub_diag. exact Y.
    - rewrite app_nth1 by lia. rewrite S by lia. cbn zeta. assert (F : forall i, (i <= t)%nat -> damped w (vv (l ++ [x]) (o ++ [y])) i = damped w (vv l o) i).
      { intros i Hi. apply damped_ext. intros j Hj. apply vv_snoc; lia. }
      rewrite F by lia. rewrite (late_ext (damped w (vv (l ++ [x]) (o ++ [y]))) (damped w (vv l o))) by (try lia; intros; apply F; lia). reflexivity.
  Qed.
End String.
Lemma fold_sum l : forall a, fold_left (fun m x => nadd Rnum_ops m (idR x)) l a = a + total (length l) (fun i => nth i l 0).
Proof.
  induction l as [|x l IH] using rev_ind; intros a. { cbn. ring. }
  rewrite fold_left_app, IH, app_length. cbn [fold_left length]. replace (length l + 1)%nat with (S (length l)) by lia. cbn [total nadd Rnum_ops]. rewrite app_nth2, Nat.sub_diag by lia. cbn [nth].
  rewrite (total_ext (length l) (fun i => nth i (l ++ [x]) 0) (fun i => nth i l 0)). { ring. } intros i Hi. now apply app_nth1.
Qed.
Lemma total_minus n f c : total n (fun i => f i - c) = total n f - INR n * c.
Proof. induction n as [|n IH]; [cbn; ring|]. rewrite S_INR. cbn [total]. rewrite IH. ring. Qed.
Lemma excitation_mean draw h n : total n (fun i => nth i (excitation Rnum_ops Rnum_ops idR idR draw h n) 0) = 0.
Proof.
  destruct n as [|n]; [reflexivity|]. unfold excitation. cbv zeta. rewrite fold_sum. rewrite map_length, seq_length. set (l := map (draw h) (seq 0 (S n))). set (T := total (S n) (fun i => nth i l 0)).
  cbn [ndiv nofZ n0 Rnum_ops nsub]. set (m := (0 + T) / IZR (Z.of_nat (S n))).
  rewrite (total_ext (S n) _ (fun i => nth i l 0 - m)).
  - rewrite total_minus. fold T. unfold m. rewrite <- INR_IZR_INZ. field. apply not_0_INR. lia.
  - intros i Hi. rewrite (nth_indep _ 0 ((fun x => x - m) 0)) by (rewrite map_length; unfold l; now rewrite map_length, seq_length). apply (map_nth (fun x => x - m)).
Qed.
Lemma pluck_string draw s a b c l : pl_ready s = false -> pl_fir s = mkFir [a; b; c] [0; 0; 0] -> 0 < pl_freq s -> 11 / 5 <= pl_sr s / pl_freq s ->
  exists s' o exc eta, pluck_runR draw s l = Some (s', o) /\ is_string (pl_gain s) (a, b, c) eta exc l o /\ -1 < eta < 1 /\ INR (length exc) + 1 + (1 - eta) / (1 + eta) = pl_sr s / pl_freq s /\ total (length exc) (fun i => nth i exc 0) = 0.
Proof.
  intros H1 H2 Hf Hd. destruct (loop_split s Hf Hd) as (D1 & D2 & D3). set (s0 := initialize_line Rnum_ops Rnum_ops idR idR draw s). pose proof (init_line_length draw s) as L. fold s0 in L.
  assert (K : state_ok (pl_gain s) (pl_eta s0) (a, b, c) (pl_line s0) [] [] s0).
  { unfold state_ok. cbn [length]. rewrite Nat.mod_0_l by lia. replace (pl_fir s0) with (pl_fir s) by reflexivity. rewrite H2. cbn [f_w f_v fst snd].
    refine (conj eq_refl (conj eq_refl (conj eq_refl (conj eq_refl (conj eq_refl (conj eq_refl _)))))). split; [exists 0; reflexivity|]. split; [reflexivity|]. split; [reflexivity|].
    intros i Hi. rewrite Nat.mod_small by lia. unfold returned. replace (i <? length (pl_line s0))%nat with true by (symmetry; apply Nat.ltb_lt; lia). reflexivity. }
  pose proof (allpass_stable _ D3) as ES. replace (all_eta Rnum_ops (allpass_delay Rnum_ops idR s)) with (pl_eta s0) in ES by reflexivity.
  destruct (string_run draw (pl_gain s) (pl_eta s0) (a, b, c) (pl_line s0) s0 ltac:(lia) K l) as (s' & o & E & S & _).
  assert (X : exists s'', pluck_runR draw s l = Some (s'', o)).
  { destruct l as [|x l]; [exists s; cbn in *; congruence|]. exists s'. rewrite <- E. cbn [pluck_run]. rewrite tick_init by auto. reflexivity. }
  destruct X as [s'' E']. exists s'', o, (pl_line s0), (pl_eta s0). split; [exact E'|]. split; [exact S|]. split; [exact ES|]. split.
  - rewrite L, <- D2. f_equal. change (pl_eta s0) with ((1 - allpass_delay Rnum_ops idR s) / (1 + allpass_delay Rnum_ops idR s)). field. lra.
  - rewrite L. apply excitation_mean.
Qed.
Lemma pluck_new_string draw sr f g d l : 0 < f -> 11 / 5 <= sr / f -> exists s o exc eta, pluck_runR draw (pluck_newR sr f g d) l = Some (s, o) /\
  is_string (Rpower g (1 / f)) (d / 4, 1 - d / 2, d / 4) eta exc l o /\ -1 < eta < 1 /\ INR (length exc) + 1 + (1 - eta) / (1 + eta) = sr / f /\ total (length exc) (fun i => nth i exc 0) = 0.
Proof.
  intros Hf H. apply (pluck_string draw (pluck_newR sr f g d) (d / 4) (1 - d / 2) (d / 4) l); auto. unfold pluck_new, fir3, fir_new. cbn [pl_fir length repeat nadd nsub ndiv n1 n0 nofZ Rnum_ops]. f_equal. f_equal; [field|f_equal; [field|f_equal; field]].
Qed.
Lemma pluck_reset_string draw sr f g d l0 s o l : 0 < f -> 11 / 5 <= sr / f -> pluck_runR draw (pluck_newR sr f g d) l0 = Some (s, o) ->
  option_map snd (pluck_runR draw (pluck_resetR s) l) = option_map snd (pluck_runR draw (pluck_newR sr f g d) l).
Proof.
  intros Hf H E. assert (D : (1 <= loop_delay Rnum_ops idR (pluck_newR sr f g d))%Z) by (apply (loop_split (pluck_newR sr f g d)); auto).
  destruct (start_plays draw (pluck_newR sr f g d) l0 eq_refl D) as (s' & o' & E' & _ & A & B & C & F & G). rewrite E in E'. injection E' as -> ->. rewrite <- new_is_reset. now apply reset_same.
Qed.
Lemma pluck_high draw sr f g d x l : 0 < f -> sr / f < 11 / 5 -> pluck_runR draw (pluck_newR sr f g d) (x :: l) = None.
Proof. intros Hf H. cbn [pluck_run]. rewrite start_panics; auto. now apply delay_short. Qed.
