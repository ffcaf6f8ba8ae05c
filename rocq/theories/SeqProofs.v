(* The sequencer follows the score, over the reals. *)
From Coq Require Import Reals Lra Lia Permutation.
From Verif Require Import SeqModel SeqSpec SeqGroups NetWf BufProofs.
Local Open Scope R_scope.

Notation RN := Rnum_ops.
Lemma ltb_iff a b : nltb RN a b = true <-> a < b.
Proof. cbn. destruct (Rlt_dec a b); intuition (try discriminate; auto). Qed.
Lemma leb_iff a b : nleb RN a b = true <-> a <= b.
Proof. cbn. destruct (Rle_dec a b); intuition (try discriminate; auto). Qed.
Lemma ltb_cases a b : (nltb RN a b = true /\ a < b) \/ (nltb RN a b = false /\ b <= a).
Proof. cbn. destruct (Rlt_dec a b); [left|right]; split; auto; lra. Qed.
Lemma leb_cases a b : (nleb RN a b = true /\ a <= b) \/ (nleb RN a b = false /\ b < a).
Proof. cbn. destruct (Rle_dec a b); [left|right]; split; auto; lra. Qed.
Lemma half_R : half RN = 1 / 2. Proof. reflexivity. Qed.
Lemma ofnat_R k : nofZ RN (Z.of_nat k) = INR k. Proof. cbn. symmetry. apply INR_IZR_INZ. Qed.
Lemma inr_lt_iff k m : INR k < INR m <-> (k < m)%nat.
Proof. split; [apply INR_lt|apply lt_INR]. Qed.
Lemma inr_half k m : INR k < INR m + 1 / 2 <-> (k <= m)%nat.
Proof.
  split; intros H; [|apply le_INR in H; lra]. apply Nat.lt_succ_r. apply INR_lt. rewrite S_INR. lra.
Qed.

(* rounding to the nearest index *)
Lemma round_le x k : (round_usize RN x <= k)%nat <-> x < INR k + 1 / 2.
Proof.
  unfold round_usize. cbn [nfloor nsub nofZ nleb RN]. destruct (base_Int_part x) as [H1 H2]. rewrite half_R. rewrite INR_IZR_INZ.
  set (f := Int_part x) in *. destruct (Rle_dec (1 / 2) (x - IZR f)) as [L|L].
  - assert (E : (Z.to_nat (f + 1) <= k)%nat <-> (f + 1 <= Z.of_nat k)%Z) by lia. rewrite E. split; intros Hk.
    + apply IZR_le in Hk. rewrite plus_IZR in Hk. lra.
    + assert (IZR f < IZR (Z.of_nat k)) by lra. apply lt_IZR in H. lia.
  - assert (E : (Z.to_nat f <= k)%nat <-> (f <= Z.of_nat k)%Z) by lia. rewrite E. split; intros Hk.
    + apply IZR_le in Hk. lra.
    + assert (IZR f < IZR (Z.of_nat k + 1)) by (rewrite plus_IZR; lra). apply lt_IZR in H. lia.
Qed.
Lemma ramp_R p d k : ramp RN p d k = p + INR k * d.
Proof. revert p. induction k as [|k IH]; intros p; [cbn; lra|]. cbn [ramp nadd RN]. rewrite IH, S_INR. lra. Qed.

Section Proofs.
  Context {P U : Type}.
  Variables (at_ : fade -> R -> R) (ops : unit_ops R P U) (usr : U -> R -> U) (pop : list (event R U) -> option (event R U * list (event R U))).
  Notation event := (event R U). Notation seqr := (seqr R U). Notation call := (call R U). Notation score := (score U).
  Notation ids := (@ids R U).
  Hypothesis at_one : forall f, at_ f 1 = 1.
  Hypothesis laws : seq_unit_laws ops usr.
  Hypothesis Hpop : heap_laws RN pop.
  Notation sound := (sound at_ ops).
  Notation sc_sample := (sc_sample at_ ops). Notation sc_play := (sc_play at_ ops). Notation sc_step := (sc_step at_ ops usr). Notation sc_run := (sc_run at_ ops usr).

  (* ---- one event over some samples ---- *)
  Section Voice.
    Variables (outs : nat) (sd : R).
    Fixpoint vplay (n : nat) (T : R) (e : event) : event * list (list R) :=
      match n with O => (e, []) | S n' => let (e1, o) := sound outs sd T e in let (e2, os) := vplay n' (T + sd) e1 in (e2, o :: os) end.
    Definition vat (n : nat) (T : R) (e : event) (k c : nat) : R := nth c (nth k (snd (vplay n T e)) []) 0.

    Lemma covers_unit (e : event) u T : covers sd (ev_set_unit e u) T <-> covers sd e T. Proof. reflexivity. Qed.
    Lemma sound_id T e : ev_id (fst (sound outs sd T e)) = ev_id e.
    Proof. unfold SeqSpec.sound. destruct (covers_dec sd e T); [|reflexivity]. destruct (u_tick ops (ev_unit e) []). reflexivity. Qed.
    Lemma vplay_quiet n : forall T e, (forall k, (k < n)%nat -> ~ covers sd e (T + INR k * sd)) -> vplay n T e = (e, repeat (repeat 0 outs) n).
    Proof.
      induction n as [|n IH]; intros T e H; [reflexivity|]. cbn [vplay]. unfold SeqSpec.sound. destruct (covers_dec sd e T) as [C|C].
      - exfalso. apply (H 0%nat); [lia|]. cbn [INR]. now rewrite Rmult_0_l, Rplus_0_r.
      - rewrite IH; [reflexivity|]. intros k Hk. intros X. apply (H (S k)); [lia|]. rewrite S_INR. now replace (T + (INR k + 1) * sd) with (T + sd + INR k * sd) by ring.
    Qed.
    Lemma vplay_app n m : forall T e, vplay (n + m) T e = let (e1, o1) := vplay n T e in let (e2, o2) := vplay m (T + INR n * sd) e1 in (e2, o1 ++ o2).
    Proof.
      induction n as [|n IH]; intros T e; cbn [vplay Nat.add].
      - cbn [INR]. rewrite Rmult_0_l, Rplus_0_r. now destruct (vplay m T e).
      - destruct (sound outs sd T e) as [e1 o]. rewrite IH. rewrite S_INR. replace (T + (INR n + 1) * sd) with (T + sd + INR n * sd) by ring.
        destruct (vplay n (T + sd) e1) as [e2 o1]. destruct (vplay m (T + sd + INR n * sd) e2). reflexivity.
    Qed.
    Definition weighted (e : event) (T : R) (f : list R) : list R := map (fun v => v * weight_in at_ e T * weight_out at_ e T) f.
    Lemma vplay_run m : forall T e, (forall k, (k < m)%nat -> covers sd e (T + INR k * sd)) ->
      fst (vplay m T e) = ev_set_unit e (fst (ticks (u_tick ops) (ev_unit e) (repeat [] m))) /\ length (snd (vplay m T e)) = m /\
      forall k, (k < m)%nat -> nth k (snd (vplay m T e)) [] = weighted e (T + INR k * sd) (nth k (snd (ticks (u_tick ops) (ev_unit e) (repeat [] m))) []).
    Proof.
      induction m as [|m IH]; intros T e H.
      - cbn. split; [destruct e; reflexivity|]. split; [reflexivity|lia].
      - cbn [vplay repeat ticks]. unfold SeqSpec.sound at 1 2 3. destruct (covers_dec sd e T) as [C|C].
        2:{ exfalso. apply C. specialize (H 0%nat ltac:(lia)). cbn [INR] in H. now rewrite Rmult_0_l, Rplus_0_r in H. }
        destruct (u_tick ops (ev_unit e) []) as [u o]. destruct (IH (T + sd) (ev_set_unit e u)) as (I1 & I2 & I3).
        { intros k Hk. apply covers_unit. specialize (H (S k) ltac:(lia)). rewrite S_INR in H. now replace (T + sd + INR k * sd) with (T + (INR k + 1) * sd) by ring. }
        cbn [ev_unit ev_set_unit] in I1, I2, I3. destruct (vplay m (T + sd) (ev_set_unit e u)) as [e2 os]. destruct (ticks (u_tick ops) u (repeat [] m)) as [u2 fs]. cbn [fst snd] in *.
        split; [rewrite I1; reflexivity|]. split; [cbn; lia|]. intros [|k] Hk; cbn [nth].
        + cbn [INR]. now rewrite Rmult_0_l, Rplus_0_r.
        + rewrite I3 by lia. rewrite S_INR. replace (T + (INR k + 1) * sd) with (T + sd + INR k * sd) by ring. reflexivity.
    Qed.
    (* an event that covers the samples from si to ei *)
    Lemma vplay_span n si ei T e : (si <= ei <= n)%nat -> (forall k, (k < n)%nat -> (covers sd e (T + INR k * sd) <-> (si <= k < ei)%nat)) ->
      fst (vplay n T e) = ev_set_unit e (fst (ticks (u_tick ops) (ev_unit e) (repeat [] (ei - si)))) /\
      forall k, (k < n)%nat -> nth k (snd (vplay n T e)) [] =
        if (Nat.leb si k && Nat.ltb k ei)%bool then weighted e (T + INR k * sd) (nth (k - si) (snd (ticks (u_tick ops) (ev_unit e) (repeat [] (ei - si)))) []) else repeat 0 outs.
    Proof.
      intros Hn Hc. replace n with (si + ((ei - si) + (n - ei)))%nat by lia. rewrite vplay_app.
      rewrite vplay_quiet. 2:{ intros k Hk X. apply Hc in X; lia. }
      rewrite vplay_app. destruct (vplay_run (ei - si) (T + INR si * sd) e) as (R1 & R2 & R3).
      { intros k Hk. replace (T + INR si * sd + INR k * sd) with (T + INR (si + k) * sd) by (rewrite plus_INR; ring). apply Hc; lia. }
      destruct (vplay (ei - si) (T + INR si * sd) e) as [e1 o1]. cbn [fst snd] in *. subst e1.
      rewrite vplay_quiet. 2:{ intros k Hk X. apply covers_unit in X. replace (T + INR si * sd + INR (ei - si) * sd + INR k * sd) with (T + INR (ei + k) * sd) in X by (rewrite minus_INR, plus_INR by lia; ring). apply Hc in X; lia. }
      cbn [fst snd]. split; [reflexivity|]. intros k Hk. destruct (Nat.leb_spec si k) as [L|L]; cbn [andb].
      - rewrite app_nth2; rewrite repeat_length; [|lia]. destruct (Nat.ltb_spec k ei) as [L2|L2].
        + rewrite app_nth1 by lia. rewrite R3 by lia. f_equal. rewrite minus_INR by lia. ring.
        + rewrite app_nth2 by lia. rewrite R2. rewrite (nth_indep _ [] (repeat 0 outs)) by (rewrite repeat_length; lia). apply nth_repeat.
      - rewrite app_nth1 by (rewrite repeat_length; lia). rewrite (nth_indep _ [] (repeat 0 outs)) by (rewrite repeat_length; lia). apply nth_repeat.
    Qed.
    Lemma vplay_id n : forall T e, ev_id (fst (vplay n T e)) = ev_id e.
    Proof. induction n as [|n IH]; intros T e; [reflexivity|]. cbn [vplay]. pose proof (sound_id T e). destruct (sound outs sd T e) as [e1 o]. specialize (IH (T + sd) e1). destruct (vplay n (T + sd) e1). cbn in *. congruence. Qed.
    (* what playing never changes *)
    Definition same_plan (e e' : event) : Prop := ev_start e' = ev_start e /\ ev_end e' = ev_end e /\ ev_ease e' = ev_ease e /\ ev_in e' = ev_in e /\ ev_out e' = ev_out e /\ ev_id e' = ev_id e.
    Lemma vplay_plan n : forall T e, same_plan e (fst (vplay n T e)).
    Proof.
      induction n as [|n IH]; intros T e; [repeat split|]. cbn [vplay]. unfold SeqSpec.sound. destruct (covers_dec sd e T).
      - destruct (u_tick ops (ev_unit e) []) as [u o]. specialize (IH (T + sd) (ev_set_unit e u)). destruct (vplay n (T + sd) (ev_set_unit e u)). exact IH.
      - specialize (IH (T + sd) e). destruct (vplay n (T + sd) e). exact IH.
    Qed.
    Definition fits (e : event) : Prop := u_ins ops (ev_unit e) = 0%nat /\ u_outs ops (ev_unit e) = outs.
    Lemma sound_fits T e : fits e -> fits (fst (sound outs sd T e)) /\ length (snd (sound outs sd T e)) = outs.
    Proof.
      intros [H1 H2]. destruct laws as (L & _). unfold SeqSpec.sound. destruct (covers_dec sd e T); [|split; [split; auto|apply repeat_length]].
      pose proof (ul_ins _ _ L (ev_unit e) []). pose proof (ul_outs _ _ L (ev_unit e) []). pose proof (ul_len _ _ L (ev_unit e) [] (eq_sym H1)).
      destruct (u_tick ops (ev_unit e) []) as [u o]. cbn in *. split; [split; cbn; congruence|]. rewrite map_length. congruence.
    Qed.
    Lemma vplay_fits n : forall T e, fits e -> fits (fst (vplay n T e)).
    Proof. induction n as [|n IH]; intros T e H; [exact H|]. cbn [vplay]. destruct (sound_fits T e H) as [H1 _]. destruct (sound outs sd T e) as [e1 o]. specialize (IH (T + sd) e1 H1). destruct (vplay n (T + sd) e1). exact IH. Qed.
  End Voice.

  Lemma map_fst_map {A B C} (f : A -> B * C) l : map fst (map f l) = map (fun x => fst (f x)) l. Proof. apply map_map. Qed.
  (* the score is the sum of its events *)
  Lemma sc_play_voices n : forall (p : score), let sd := 1 / sc_sr p in
    sc_play n p = (mkScore (map (fun e => fst (vplay (sc_outs p) sd n (sc_time p) e)) (sc_events p)) (sc_time p + INR n * sd) (sc_sr p) (sc_outs p) (sc_replay p),
                   map (fun k => map (fun c => sum (map (fun e => vat (sc_outs p) sd n (sc_time p) e k c) (sc_events p))) (seq 0 (sc_outs p))) (seq 0 n)).
  Proof.
    induction n as [|n IH]; intros p sd.
    - cbn. rewrite map_id. rewrite Rmult_0_l, Rplus_0_r. destruct p; reflexivity.
    - cbn [SeqSpec.sc_play]. destruct (sc_sample p) as [p1 o] eqn:E. unfold SeqSpec.sc_sample in E. injection E as Ep Eo. subst p1. rewrite IH. cbn [sc_outs sc_sr sc_time sc_events sc_replay]. fold sd.
      f_equal.
      + f_equal; [|rewrite S_INR; ring]. rewrite !map_map. apply map_ext. intros e. cbn [vplay]. destruct (sound (sc_outs p) sd (sc_time p) e) as [e1 o1]. cbn [fst]. now destruct (vplay (sc_outs p) sd n (sc_time p + sd) e1).
      + cbn [seq map]. f_equal.
        * rewrite <- Eo. apply map_ext. intros c. f_equal. rewrite map_map. apply map_ext. intros e. unfold vat. cbn [vplay]. fold sd. destruct (sound (sc_outs p) sd (sc_time p) e) as [e1 o1]. cbn [snd]. now destruct (vplay (sc_outs p) sd n (sc_time p + sd) e1).
        * rewrite <- (seq_shift n 0), (map_map S). apply map_ext. intros k. apply map_ext. intros c. f_equal. rewrite !map_map. apply map_ext. intros e. unfold vat. cbn [vplay]. destruct (sound (sc_outs p) sd (sc_time p) e) as [e1 o1]. cbn [fst]. now destruct (vplay (sc_outs p) sd n (sc_time p + sd) e1).
  Qed.
  Lemma sum_perm l l' : Permutation l l' -> sum l = sum l'.
  Proof. induction 1; cbn [sum fold_right]; unfold sum in *; cbn [fold_right]; lra. Qed.
  Lemma sum_app l l' : sum (l ++ l') = sum l + sum l'.
  Proof. unfold sum. induction l as [|a l IH]; cbn [app fold_right]; [lra|]. rewrite IH. lra. Qed.
  Lemma sum_zero {A} (f : A -> R) l : (forall x, In x l -> f x = 0) -> sum (map f l) = 0.
  Proof. unfold sum. induction l as [|a l IH]; intros H; cbn [map fold_right]; [reflexivity|]. rewrite (H a) by now left. rewrite IH; [lra|]. intros; apply H; now right. Qed.

  (* ---- values in buffers ---- *)
  Definition bat (b : list (list R)) (k c : nat) : R := nth k (nth c b []) 0.
  Lemma shaped_nth n (b : list (list R)) c : shaped n b -> (c < n)%nat -> length (nth c b []) = MAXB.
  Proof. intros [H1 H2] Hc. rewrite Forall_forall in H2. apply H2. apply nth_In. lia. Qed.
  Lemma frame_at (b : list (list R)) k c : (c < length b)%nat -> nth c (frame 0 b k) 0 = bat b k c.
  Proof. intros H. unfold frame, bat. rewrite (nth_indep _ 0 ((fun ch => nth k ch 0) [])) by (rewrite map_length; lia). apply (map_nth (fun ch => nth k ch 0)). Qed.
  Lemma scale_range_ok n b from to w : shaped n b -> (from <= to <= MAXB)%nat ->
    exists b', scale_range RN from to w b = Some b' /\ shaped n b' /\
      forall k c, (k < MAXB)%nat -> (c < n)%nat -> bat b' k c = if (Nat.leb from k && Nat.ltb k to)%bool then bat b k c * w (k - from)%nat else bat b k c.
  Proof.
    intros Hs Ht. unfold scale_range. replace (_ && _)%bool with true.
    2:{ symmetry. apply andb_true_intro. split; [apply Nat.leb_le; lia|]. apply forallb_forall. intros ch Hc. destruct Hs as [_ Hf]. rewrite Forall_forall in Hf. apply Nat.leb_le. rewrite (Hf ch Hc). lia. }
    eexists. split; [reflexivity|]. split.
    - destruct Hs as [H1 H2]. split; [now rewrite map_length|]. apply Forall_map. eapply Forall_impl; [|exact H2]. intros ch Hc. cbn. now rewrite map_length, seq_length.
    - intros k c Hk Hc. unfold bat. set (g := fun ch : list R => _). change (@nil R) with (g []) at 1. rewrite map_nth. unfold g. rewrite nth_map_seq by (rewrite (shaped_nth n b c); auto). reflexivity.
  Qed.
  Lemma nth_zipw (g : list R -> list R -> list R) b out c : (c < length b)%nat -> (c < length out)%nat -> nth c (zipw g b out) [] = g (nth c b []) (nth c out []).
  Proof.
    intros H1 H2. assert (E : nth_error (zipw g b out) c = Some (nth c (zipw g b out) [])) by (apply Base.nth_error_nth'; rewrite zipw_length; lia).
    rewrite nth_error_zipw in E. rewrite (Base.nth_error_nth' b c []) in E by lia. rewrite (Base.nth_error_nth' out c []) in E by lia. now injection E.
  Qed.
  Lemma mix_range_ok n from to b out : shaped n b -> shaped n out ->
    shaped n (mix_range RN from to b out) /\
    forall k c, (k < MAXB)%nat -> (c < n)%nat -> bat (mix_range RN from to b out) k c = if (Nat.leb from k && Nat.ltb k to)%bool then bat out k c + bat b (k - from) c else bat out k c.
  Proof.
    intros Hb Ho. unfold mix_range. set (g := fun src ch : list R => _). split.
    - destruct Hb as [H1 H2]. pose proof Ho as [H3 H4]. split; [rewrite zipw_length; lia|]. apply Forall_forall. intros ch Hc. apply (In_nth _ _ []) in Hc. destruct Hc as (c & Hc & <-). rewrite zipw_length in Hc.
      rewrite nth_zipw by lia. unfold g. rewrite map_length, seq_length. apply (shaped_nth n); auto. lia.
    - intros k c Hk Hc. destruct Hb as [H1 _]. pose proof Ho as [H3 _]. unfold bat. rewrite nth_zipw by lia. unfold g. rewrite nth_map_seq by (rewrite (shaped_nth n out c); auto). reflexivity.
  Qed.

  (* ---- one event in one block ---- *)
  Section Event.
    Variables (s : seqr) (n : nat) (e : event).
    Let t := q_time s. Let sd := q_sd s.
    Hypothesis Hsr : 0 < q_sr s.
    Hypothesis Hsd : q_sd s = 1 / q_sr s.
    Let et := t + sd * INR n.
    Let si := start_index RN s e. Let ei := end_index RN s et n e.
    Lemma sd_pos : 0 < sd. Proof. unfold sd. rewrite Hsd. apply Rdiv_lt_0_compat; lra. Qed.
    Lemma scaled a b : a * q_sr s < b <-> a < b * sd.
    Proof.
      unfold sd. rewrite Hsd. split; intros H.
      - replace a with (a * q_sr s * (1 / q_sr s)) by (field; lra). apply Rmult_lt_compat_r; [apply Rdiv_lt_0_compat; lra|exact H].
      - replace b with (b * (1 / q_sr s) * q_sr s) by (field; lra). apply Rmult_lt_compat_r; [lra|exact H].
    Qed.
    Lemma divided a b : a / sd < b <-> a < b * sd.
    Proof. replace (a / sd) with (a * q_sr s); [apply scaled|]. unfold sd. rewrite Hsd. field. lra. Qed.
    Lemma start_index_le k : (si <= k)%nat <-> ev_start e < t + INR k * sd + sd / 2.
    Proof.
      unfold si, start_index. fold t. pose proof sd_pos. pose proof (pos_INR k). assert (0 <= INR k * sd) by (apply Rmult_le_pos; lra).
      destruct (leb_cases (ev_start e) t) as [[-> H3]|[-> H3]]; [split; intros; [lra|lia]|].
      cbn [nmul nsub RN]. rewrite round_le, scaled. split; intros; lra.
    Qed.
    Lemma end_index_le k : (ei <= k)%nat <-> match ev_end e with Some x => if Rle_dec et x then (n <= k)%nat else x < t + INR k * sd + sd / 2 | None => (n <= k)%nat end.
    Proof.
      unfold ei, end_index. fold t. destruct (ev_end e) as [x|]; [|tauto]. cbn [nleb RN]. destruct (Rle_dec et x) as [L|L]; [tauto|].
      cbn [nmul nsub RN]. rewrite round_le, scaled. split; intros; lra.
    Qed.
    Lemma end_index_max : (ei <= n)%nat.
    Proof.
      apply end_index_le. destruct (ev_end e) as [x|]; [|lia]. destruct (Rle_dec et x); [lia|]. unfold et in *. pose proof sd_pos. lra.
    Qed.
    Lemma covers_iff k : (match ev_end e with Some x => ~ on_grid sd (t + sd / 2) x | None => True end) -> (k < n)%nat ->
      (covers sd e (t + INR k * sd) <-> (si <= k < ei)%nat).
    Proof.
      intros Ht Hk. unfold covers. rewrite start_index_le. assert (Hn : INR (k + 1) <= INR n) by (apply le_INR; lia). rewrite plus_INR in Hn. cbn [INR] in Hn. pose proof sd_pos.
      assert (Hm : INR k * sd + sd <= sd * INR n) by nra.
      assert (E : (k < ei)%nat <-> match ev_end e with Some x => t + INR k * sd + sd / 2 <= x | None => True end).
      { rewrite Nat.lt_nge. rewrite end_index_le. destruct (ev_end e) as [x|]; [|split; intros; [exact I|lia]]. destruct (Rle_dec et x) as [L|L]; [|split; intros; lra].
        split; [|lia]. intros _. unfold et in L. lra. }
      rewrite E. destruct (ev_end e) as [x|]; [|tauto]. split; intros [H1 H2]; (split; [exact H1|]); [lra|].
      destruct (Rle_lt_or_eq_dec _ _ H2) as [H3|H3]; [exact H3|]. exfalso. apply Ht. exists (Z.of_nat k). rewrite <- INR_IZR_INZ. lra.
    Qed.

    (* the fades of a block *)
    Lemma fade_in_ok outs b : shaped outs b -> (n <= MAXB)%nat ->
      (ev_in e <= 0 \/ ev_start e + ev_in e <= t \/ t + INR n * sd <= ev_start e + ev_in e \/ ev_start e < t + sd / 2 /\ on_grid sd t (ev_start e + ev_in e)) ->
      exists b', fade_in_block RN at_ sd t et si ei (ev_ease e) (ev_in e) (ev_start e) b = Some b' /\ shaped outs b' /\
        forall k c, (k < ei - si)%nat -> (c < outs)%nat -> bat b' k c = bat b k c * weight_in at_ e (t + INR (si + k) * sd).
    Proof.
      intros Hb Hn Hf. pose proof end_index_max as Hei. pose proof sd_pos as Hp. unfold fade_in_block. cbn [nadd RN].
      assert (Hlate : forall k, (k < ei - si)%nat -> t + INR (si + k) * sd + sd <= et).
      { intros k Hk. assert (INR (si + k + 1) <= INR n) by (apply le_INR; lia). rewrite plus_INR in H. cbn [INR] in H. unfold et. nra. }
      assert (Hearly : forall k, t <= t + INR (si + k) * sd) by (intros k; pose proof (pos_INR (si + k)); nra).
      destruct (ltb_cases 0 (ev_in e)) as [[E1 H1]|[E1 H1]]; change (n0 RN) with 0; rewrite E1; cbn [andb].
      2:{ exists b. split; [reflexivity|]. split; [exact Hb|]. intros k c _ _. unfold weight_in. destruct (Rlt_dec 0 (ev_in e)); lra. }
      destruct (ltb_cases t (ev_start e + ev_in e)) as [[E2 H2]|[E2 H2]]; rewrite E2; cbn [andb].
      2:{ exists b. split; [reflexivity|]. split; [exact Hb|]. intros k c Hk _. unfold weight_in. specialize (Hearly k). destruct (Rlt_dec 0 (ev_in e)); [|lra]. destruct (Rlt_dec (t + INR (si + k) * sd) (ev_start e + ev_in e)); lra. }
      destruct (leb_cases et (ev_start e + ev_in e)) as [[E3 H3]|[E3 H3]]; rewrite E3.
      - destruct (scale_range_ok outs b 0 ei (fun k => at_ (ev_ease e) (ramp RN (delerp RN (ev_start e) (ev_start e + ev_in e) (nadd RN t (nmul RN (nofZ RN (Z.of_nat si)) sd))) (ndiv RN sd (ev_in e)) k)) Hb ltac:(lia)) as (b' & Eb & Sb & Vb).
        exists b'. split; [exact Eb|]. split; [exact Sb|]. intros k c Hk Hc. rewrite Vb by lia. cbn [Nat.leb andb]. rewrite (proj2 (Nat.ltb_lt k ei)) by lia. rewrite Nat.sub_0_r. f_equal.
        unfold weight_in. specialize (Hlate k Hk). destruct (Rlt_dec 0 (ev_in e)); [|lra]. destruct (Rlt_dec (t + INR (si + k) * sd) (ev_start e + ev_in e)); [|lra].
        f_equal. rewrite ramp_R. unfold delerp. rewrite ofnat_R. cbn [nsub ndiv nadd nmul RN]. rewrite plus_INR. field. lra.
      - assert (Hg : ev_start e < t + sd / 2 /\ on_grid sd t (ev_start e + ev_in e)). { unfold et in *. destruct Hf as [?|[?|[?|?]]]; [lra|lra|lra|auto]. }
        destruct Hg as [Hs [j Hj]]. assert (Si : si = 0%nat). { apply Nat.le_0_r. apply start_index_le. cbn [INR]. lra. }
        set (fei := round_usize RN (ndiv RN (nsub RN (ev_start e + ev_in e) t) sd)).
        assert (Hfei : forall k, (fei <= k)%nat <-> IZR j < INR k + 1 / 2). { intros k. unfold fei. rewrite round_le. cbn [ndiv nsub RN]. rewrite Hj. replace ((t + IZR j * sd - t) / sd) with (IZR j) by (field; lra). reflexivity. }
        assert (Hjn : IZR j < INR n) by (unfold et in H3; nra).
        destruct (scale_range_ok outs b 0 fei (fun k => at_ (ev_ease e) (ramp RN (delerp RN (ev_start e) (ev_start e + ev_in e) (nadd RN t (nmul RN (nofZ RN (Z.of_nat si)) sd))) (ndiv RN sd (ev_in e)) k)) Hb) as (b' & Eb & Sb & Vb).
        { split; [lia|]. apply Hfei. apply le_INR in Hn. lra. }
        exists b'. split; [exact Eb|]. split; [exact Sb|]. intros k c Hk Hc. rewrite Vb by lia. cbn [Nat.leb andb]. rewrite Nat.sub_0_r. rewrite Si in *. cbn [Nat.add]. unfold weight_in.
        destruct (Rlt_dec 0 (ev_in e)); [|lra].
        destruct (Nat.ltb_spec k fei) as [L|L].
        + assert (~ (fei <= k)%nat) by lia. rewrite Hfei in H. assert (Hk2 : INR k < IZR j) by lra.
          destruct (Rlt_dec (t + INR k * sd) (ev_start e + ev_in e)) as [_|X]; [|exfalso; apply X; rewrite Hj; nra].
          f_equal. f_equal. rewrite ramp_R. unfold delerp. rewrite ofnat_R. cbn [nsub ndiv nadd nmul RN INR]. field. lra.
        + apply Hfei in L. rewrite INR_IZR_INZ in L. assert (IZR j < IZR (Z.of_nat k + 1)) by (rewrite plus_IZR; lra). apply lt_IZR in H. assert (Hjk : (j <= Z.of_nat k)%Z) by lia. apply IZR_le in Hjk. rewrite <- INR_IZR_INZ in Hjk.
          destruct (Rlt_dec (t + INR k * sd) (ev_start e + ev_in e)) as [X|_]; [|lra]. exfalso. rewrite Hj in X. nra.
    Qed.
    Lemma fade_out_ok outs b : shaped outs b -> (n <= MAXB)%nat ->
      (ev_out e <= 0 \/ match ev_end e with Some x => t + INR n * sd <= x - ev_out e \/ ev_start e < t + sd / 2 /\ (x - ev_out e <= t \/ on_grid sd t (x - ev_out e)) | None => True end) ->
      exists b', fade_out_block RN at_ sd t et ei (ev_ease e) (ev_out e) (ev_end e) b = Some b' /\ shaped outs b' /\
        forall k c, (k < ei - si)%nat -> (c < outs)%nat -> bat b' k c = bat b k c * weight_out at_ e (t + INR (si + k) * sd).
    Proof.
      intros Hb Hn Hf. pose proof end_index_max as Hei. pose proof sd_pos as Hp. pose proof end_index_le as Hle. unfold fade_out_block, weight_out. cbn [nadd RN].
      assert (Hlate : forall k, (k < ei - si)%nat -> t + INR (si + k) * sd + sd <= et).
      { intros k Hk. assert (INR (si + k + 1) <= INR n) by (apply le_INR; lia). rewrite plus_INR in H. cbn [INR] in H. unfold et. nra. }
      assert (Hearly : forall k, t <= t + INR k * sd) by (intros k; pose proof (pos_INR k); nra).
      destruct (ev_end e) as [x|]. 2:{ exists b. split; [reflexivity|]. split; [exact Hb|]. intros. lra. }
      destruct (ltb_cases 0 (ev_out e)) as [[E1 H1]|[E1 H1]]; change (n0 RN) with 0; rewrite E1; cbn [andb].
      2:{ exists b. split; [reflexivity|]. split; [exact Hb|]. intros k c _ _. destruct (Rlt_dec 0 (ev_out e)); lra. }
      cbn [nsub RN]. destruct (ltb_cases (x - ev_out e) et) as [[E2 H2]|[E2 H2]]; rewrite E2; cbn [andb].
      2:{ exists b. split; [reflexivity|]. split; [exact Hb|]. intros k c Hk _. specialize (Hlate k Hk). destruct (Rlt_dec 0 (ev_out e)); [|lra]. destruct (Rlt_dec (x - ev_out e) (t + INR (si + k) * sd)); lra. }
      assert (Hg : ev_start e < t + sd / 2 /\ (x - ev_out e <= t \/ on_grid sd t (x - ev_out e))). { unfold et in *. destruct Hf as [?|[?|?]]; [lra|lra|auto]. }
      destruct Hg as [Hs Hg]. assert (Si : si = 0%nat). { apply Nat.le_0_r. apply start_index_le. cbn [INR]. lra. } rewrite Si in *.
      assert (Hend : forall k, t + INR k * sd <= x - ev_out e -> (k <= n)%nat -> (k <= ei)%nat).
      { intros k Hk Hkn. destruct (Nat.le_gt_cases k ei) as [|L]; auto. exfalso. assert (Hx : (ei <= k - 1)%nat) by lia. apply Hle in Hx. destruct (Rle_dec et x); [lia|].
        assert (INR (k - 1) + 1 <= INR k). { rewrite <- S_INR. apply le_INR. lia. } nra. }
      destruct (leb_cases (x - ev_out e) t) as [[E3 H3]|[E3 H3]]; rewrite E3.
      - destruct (scale_range_ok outs b 0 ei (fun k => at_ (ev_ease e) (nsub RN (n1 RN) (ramp RN (delerp RN (x - ev_out e) x (nadd RN t (nmul RN (nofZ RN (Z.of_nat 0)) sd))) (ndiv RN sd (ev_out e)) k))) Hb ltac:(lia)) as (b' & Eb & Sb & Vb).
        exists b'. split; [exact Eb|]. split; [exact Sb|]. intros k c Hk Hc. rewrite Vb by lia. cbn [Nat.leb andb Nat.add]. rewrite (proj2 (Nat.ltb_lt k ei)) by lia. rewrite Nat.sub_0_r. f_equal.
        destruct (Rlt_dec 0 (ev_out e)); [|lra]. rewrite ramp_R. unfold delerp. rewrite ofnat_R. change (n1 RN) with 1. cbn [nsub ndiv nadd nmul RN INR].
        replace (1 - ((t + 0 * sd - (x - ev_out e)) / (x - (x - ev_out e)) + INR k * (sd / ev_out e))) with ((x - (t + INR k * sd)) / ev_out e) by (field; lra).
        destruct (Rlt_dec (x - ev_out e) (t + INR k * sd)) as [_|X]; [reflexivity|]. specialize (Hearly k). replace (x - (t + INR k * sd)) with (ev_out e) by lra. unfold Rdiv. rewrite Rinv_r by lra. apply at_one.
      - destruct Hg as [?|[j Hj]]; [lra|]. set (fi := round_usize RN (ndiv RN (x - ev_out e - t) sd)).
        assert (Hfi : forall k, (fi <= k)%nat <-> IZR j < INR k + 1 / 2). { intros k. unfold fi. rewrite round_le. cbn [ndiv RN]. rewrite Hj. replace ((t + IZR j * sd - t) / sd) with (IZR j) by (field; lra). reflexivity. }
        assert (Hj0 : 0 < IZR j) by nra. assert (Hjn : IZR j < INR n) by (unfold et in H2; nra).
        assert (Hjz : INR fi = IZR j). { assert (0 < j)%Z by (apply lt_IZR; exact Hj0). assert (Ez : IZR j = INR (Z.to_nat j)) by (rewrite INR_IZR_INZ, Z2Nat.id by lia; reflexivity). rewrite Ez. f_equal. apply Nat.le_antisymm.
          - apply Hfi. rewrite Ez. lra.
          - pose proof (proj1 (Hfi fi) (Nat.le_refl _)) as X. rewrite Ez in X. now apply inr_half. }
        destruct (scale_range_ok outs b fi ei (fun k => at_ (ev_ease e) (nsub RN (n1 RN) (ramp RN (delerp RN (x - ev_out e) x (nadd RN t (nmul RN (nofZ RN (Z.of_nat fi)) sd))) (ndiv RN sd (ev_out e)) k))) Hb) as (b' & Eb & Sb & Vb).
        { split; [|lia]. apply Hend; [rewrite Hjz; lra|]. apply Nat.lt_le_incl, INR_lt. lra. }
        exists b'. split; [exact Eb|]. split; [exact Sb|]. intros k c Hk Hc. rewrite Vb by lia. cbn [Nat.add]. rewrite (proj2 (Nat.ltb_lt k ei)) by lia. destruct (Rlt_dec 0 (ev_out e)); [|lra].
        destruct (Nat.leb_spec fi k) as [L|L]; cbn [andb].
        + f_equal. rewrite ramp_R. unfold delerp. rewrite ofnat_R. change (n1 RN) with 1. cbn [nsub ndiv nadd nmul RN]. rewrite minus_INR by exact L.
          replace (1 - ((t + INR fi * sd - (x - ev_out e)) / (x - (x - ev_out e)) + (INR k - INR fi) * (sd / ev_out e))) with ((x - (t + INR k * sd)) / ev_out e) by (field; lra).
          apply le_INR in L. rewrite Hjz in L. destruct (Rlt_dec (x - ev_out e) (t + INR k * sd)) as [_|X]; [reflexivity|].
          assert (IZR j * sd <= INR k * sd) by (apply Rmult_le_compat_r; lra). replace (x - (t + INR k * sd)) with (ev_out e) by lra. unfold Rdiv. rewrite Rinv_r by lra. apply at_one.
        + apply lt_INR in L. rewrite Hjz in L. destruct (Rlt_dec (x - ev_out e) (t + INR k * sd)) as [X|_]; [|lra]. exfalso. rewrite Hj in X. assert (INR k * sd < IZR j * sd) by (apply Rmult_lt_compat_r; lra). lra.
    Qed.
  End Event.

  Lemma nth_repeat0 c k : nth c (repeat 0 k) 0 = 0.
  Proof. destruct (Nat.lt_ge_cases c k); [apply nth_repeat|]. apply nth_overflow. rewrite repeat_length. lia. Qed.
  Lemma nth_weighted e T f c : nth c (weighted e T f) 0 = nth c f 0 * weight_in at_ e T * weight_out at_ e T.
  Proof. unfold weighted. replace 0 with ((fun v => v * weight_in at_ e T * weight_out at_ e T) 0) at 1 by ring. apply (map_nth (fun v => v * weight_in at_ e T * weight_out at_ e T)). Qed.
  Lemma frames_nil m : frames 0 [] m = repeat [] m.
  Proof. unfold frames, frame. cbn [map]. generalize 0%nat. induction m as [|m IH]; intros i; cbn; [reflexivity|]. now rewrite IH. Qed.

  (* the state of the clock *)
  Definition clocked (s : seqr) : Prop := 0 < q_sr s /\ q_sd s = 1 / q_sr s.
  Lemma play_block_ok (s : seqr) n e out b : clocked s -> (1 <= n <= MAXB)%nat -> fits (q_outs s) e -> ~ over (q_sd s) (q_time s) e ->
    ev_start e < q_time s + INR n * q_sd s - q_sd s / 2 -> fair (q_sd s) (q_time s) n e -> shaped (q_outs s) out -> shaped (q_outs s) b ->
    exists out' b', play_block RN at_ ops s n e (out, b) = Some (fst (vplay (q_outs s) (q_sd s) n (q_time s) e), (out', b')) /\ shaped (q_outs s) out' /\ shaped (q_outs s) b' /\
      forall k c, (k < n)%nat -> (c < q_outs s)%nat -> bat out' k c = bat out k c + vat (q_outs s) (q_sd s) n (q_time s) e k c.
  Proof.
    intros [Hsr Hsd] Hn [Fi Fo] Ho Hs Hf Sout Sb. destruct Hf as [?|[?|(Ht & Hfi & Hfo)]]; [contradiction|lra|].
    unfold play_block. rewrite ofnat_R. cbn [nadd nmul RN]. set (t := q_time s) in *. set (sd := q_sd s) in *. set (outs := q_outs s) in *.
    pose proof (covers_iff s n e Hsr Hsd) as Hc. pose proof (end_index_max s n e Hsr Hsd) as Hmax. fold t sd in Hc, Hmax.
    set (si := start_index RN s e) in *. set (ei := end_index RN s (t + sd * INR n) n e) in *.
    destruct (Nat.ltb_spec si ei) as [L|L].
    - rewrite (proj2 (Nat.leb_le ei MAXB)) by lia.
      destruct (vplay_span outs sd n si ei t e ltac:(lia) (fun k Hk => Hc k Ht Hk)) as [V1 V2].
      destruct laws as (UL & _). pose proof (ul_process _ _ UL (ev_unit e) (ei - si)%nat [] b ltac:(lia)) as C. rewrite Fi, Fo in C. specialize (C (conj eq_refl (Forall_nil _)) Sb).
      destruct (u_process ops (ev_unit e) (ei - si)%nat [] b) as [u b1]. destruct C as [C1 C2]. rewrite frames_nil in C1. rewrite <- C1 in V1, V2. cbn [fst snd] in V1, V2.
      destruct (fade_in_ok s n e Hsr Hsd outs b1 C2 ltac:(lia) Hfi) as (b2 & E2 & S2 & G2). fold t sd si in E2, G2. fold ei in E2, G2. rewrite E2.
      destruct (fade_out_ok s n e Hsr Hsd outs b2 S2 ltac:(lia) Hfo) as (b3 & E3 & S3 & G3). fold t sd si in E3, G3. fold ei in E3, G3. rewrite E3.
      destruct (mix_range_ok outs si ei b3 out S3 Sout) as [M1 M2]. exists (mix_range RN si ei b3 out), b3. rewrite V1. split; [reflexivity|]. split; [exact M1|]. split; [exact S3|].
      intros k c Hk Hcc. rewrite M2 by lia. unfold vat. rewrite V2 by exact Hk. destruct (Nat.leb_spec si k) as [L1|L1]; cbn [andb]; [|rewrite nth_repeat0; lra].
      destruct (Nat.ltb_spec k ei) as [L2|L2]; [|rewrite nth_repeat0; lra]. f_equal. rewrite nth_weighted. rewrite G3, G2 by lia. replace (si + (k - si))%nat with k by lia.
      f_equal. f_equal. rewrite nth_frames by lia. symmetry. apply frame_at. destruct C2. lia.
    - exists out, b. rewrite vplay_quiet. 2:{ intros k Hk X. apply (Hc k Ht Hk) in X. lia. } split; [reflexivity|]. split; [exact Sout|]. split; [exact Sb|].
      intros k c Hk Hcc. unfold vat. rewrite vplay_quiet. 2:{ intros k' Hk' X. apply (Hc k' Ht Hk') in X. lia. } cbn [snd]. rewrite (nth_indep _ [] (repeat 0 outs)) by (rewrite repeat_length; lia). rewrite nth_repeat, nth_repeat0. lra.
  Qed.
  Lemma play_block_id (s : seqr) n e x e' x' : play_block RN at_ ops s n e x = Some (e', x') -> ev_id e' = ev_id e.
  Proof.
    unfold play_block. destruct x as [out b]. destruct (Nat.ltb _ _); [|intros H; injection H as <- _; reflexivity]. destruct (Nat.leb _ _); [|discriminate].
    destruct (u_process ops (ev_unit e) _ [] b) as [u b1]. destruct (fade_in_block _ _ _ _ _ _ _ _ _ _ _) as [b2|]; [|discriminate]. destruct (fade_out_block _ _ _ _ _ _ _ _ _ _) as [b3|]; [|discriminate]. intros H. injection H as <- _. reflexivity.
  Qed.

  Lemma tick_in_ok (e : event) T v : tick_in RN at_ e T v = v * weight_in at_ e T.
  Proof.
    unfold tick_in, weight_in, delerp. change (n0 RN) with 0. change (n1 RN) with 1. cbn [nltb nmul ndiv nsub nadd RN]. destruct (Rlt_dec 0 (ev_in e)) as [H|H]; [|lra].
    replace (ev_start e + ev_in e - ev_start e) with (ev_in e) by ring. destruct (Rlt_dec ((T - ev_start e) / ev_in e) 1) as [A|A], (Rlt_dec T (ev_start e + ev_in e)) as [B|B]; try lra; exfalso.
    - apply (Rmult_lt_compat_r (ev_in e)) in A; [|lra]. unfold Rdiv in A. rewrite Rmult_assoc, Rinv_l in A by lra. lra.
    - apply A. apply (Rmult_lt_reg_r (ev_in e)); [lra|]. unfold Rdiv. rewrite Rmult_assoc, Rinv_l by lra. lra.
  Qed.
  Lemma tick_out_ok (e : event) T v : tick_out RN at_ e T v = v * weight_out at_ e T.
  Proof.
    unfold tick_out, weight_out, delerp. change (n0 RN) with 0. change (n1 RN) with 1. destruct (ev_end e) as [x|]; [|lra]. cbn [nltb nmul ndiv nsub nadd RN]. destruct (Rlt_dec 0 (ev_out e)) as [H|H]; [|lra].
    replace (x - (x - ev_out e)) with (ev_out e) by ring. destruct (Rlt_dec 0 ((T - (x - ev_out e)) / ev_out e)) as [A|A], (Rlt_dec (x - ev_out e) T) as [B|B]; try lra.
    - f_equal. f_equal. field. lra.
    - exfalso. apply (Rmult_lt_compat_r (ev_out e)) in A; [|lra]. unfold Rdiv in A. rewrite Rmult_assoc, Rinv_l in A by lra. lra.
    - exfalso. apply A. apply Rdiv_lt_0_compat; lra.
  Qed.
  Lemma play_tick_ok (s : seqr) e out : fits (q_outs s) e -> ~ over (q_sd s) (q_time s) e -> ev_start e < q_time s + q_sd s / 2 -> length out = q_outs s ->
    exists out', play_tick RN at_ ops (q_time s) e out = Some (fst (vplay (q_outs s) (q_sd s) 1 (q_time s) e), out') /\ length out' = q_outs s /\
      forall c, (c < q_outs s)%nat -> nth c out' 0 = nth c out 0 + vat (q_outs s) (q_sd s) 1 (q_time s) e 0 c.
  Proof.
    intros Fe Ho Hs Hl. pose proof (sound_fits (q_outs s) (q_sd s) (q_time s) e Fe) as [_ Hlen]. unfold play_tick, vat. cbn [vplay]. unfold SeqSpec.sound in *.
    destruct (covers_dec (q_sd s) e (q_time s)) as [C|C].
    2:{ exfalso. apply C. split; [exact Hs|]. unfold over in Ho. destruct (ev_end e); [lra|exact I]. }
    destruct (u_tick ops (ev_unit e) []) as [u o]. cbn [fst snd] in *. rewrite map_length in Hlen. eexists. split; [reflexivity|]. split; [rewrite zipw_length; lia|]. intros c Hc.
    set (g := fun a b : R => _). cbn [nth]. fold (weighted e (q_time s) o). rewrite nth_weighted.
    assert (E : nth_error (zipw g out o) c = Some (nth c (zipw g out o) 0)) by (apply Base.nth_error_nth'; rewrite zipw_length; lia).
    rewrite nth_error_zipw in E. rewrite (Base.nth_error_nth' out c 0), (Base.nth_error_nth' o c 0) in E by lia. injection E as <-. unfold g. cbn [nadd RN]. rewrite tick_out_ok, tick_in_ok. reflexivity.
  Qed.

  (* ---- the sequencer and the score ---- *)
  Definition past_by (t : R) (e : event) : Prop := match ev_end e with Some x => x <= t | None => False end.
  Record follows (p : score) (s : seqr) : Prop := {
    fo_time : q_time s = sc_time p; fo_sr : q_sr s = sc_sr p; fo_outs : q_outs s = sc_outs p; fo_replay : q_replay s = sc_replay p;
    fo_clock : clocked s; fo_buf : shaped (q_outs s) (q_buf s);
    fo_events : exists gone, Permutation (sc_events p) (map (edited (q_edits s)) (q_ready s) ++ q_active s ++ q_past s ++ gone) /\
      Forall (past_by (q_time s)) (q_past s ++ gone) /\ (q_replay s = true -> gone = []);
    fo_ids : NoDup (ids (sc_events p));
    fo_fits : Forall (fits (q_outs s)) (sc_events p);
    fo_map : exact_map (q_map s) (q_active s);
    fo_edits : forall id, elookup (q_edits s) id <> None -> In id (ids (q_ready s));
    fo_thr : match q_thr s with
             | None => q_active s = []
             | Some x => x = q_time s - q_sd s / 2 /\ Forall (fun e => ev_start e < x) (q_active s) /\ Forall (fun e => x <= ev_start e) (q_ready s)
             end }.

  Lemma nodup_app_l {A} (l l' : list A) : NoDup (l ++ l') -> NoDup l.
  Proof. induction l as [|a l IH]; intros H; [constructor|]. cbn in H. inversion H; subst. constructor; [rewrite in_app_iff in *; tauto|auto]. Qed.
  Lemma nodup_app_r {A} (l l' : list A) : NoDup (l ++ l') -> NoDup l'.
  Proof. induction l as [|a l IH]; intros H; [exact H|]. cbn in H. inversion H; auto. Qed.

  Section Play.
    Context {X : Type}.
    Variables (p : score) (s : seqr) (n : nat) (play : event -> X -> option (event * X)) (val : X -> nat -> nat -> R) (good : X -> Prop) (ok : event -> Prop).
    Hypothesis Hfo : follows p s.
    Hypothesis Hn : (1 <= n)%nat.
    Let t := q_time s. Let sd := q_sd s. Let outs := q_outs s.
    Let g (e : event) : event := fst (vplay outs sd n t e).
    Hypothesis play_id : forall e x e' x', play e x = Some (e', x') -> ev_id e' = ev_id e.
    Hypothesis play_good : forall e x, fits outs e -> ~ over sd t e -> ev_start e < t + INR n * sd - sd / 2 -> ok e -> good x ->
      exists x', play e x = Some (g e, x') /\ good x' /\ forall k c, (k < n)%nat -> (c < outs)%nat -> val x' k c = val x k c + vat outs sd n t e k c.
    Hypothesis all_ok : Forall ok (sc_events p).

    Lemma plays_good ks : forall x, Forall (fun e => fits outs e /\ ~ over sd t e /\ ev_start e < t + INR n * sd - sd / 2 /\ ok e) ks -> good x ->
      exists x', plays play ks x = Some (map g ks, x') /\ good x' /\ forall k c, (k < n)%nat -> (c < outs)%nat -> val x' k c = val x k c + sum (map (fun e => vat outs sd n t e k c) ks).
    Proof.
      induction ks as [|e ks IH]; intros x H Hx; cbn [plays map].
      - exists x. split; [reflexivity|]. split; [exact Hx|]. intros. cbn. lra.
      - inversion H as [|? ? (A1 & A2 & A3 & A4) H2]; subst. destruct (play_good e x A1 A2 A3 A4 Hx) as (x1 & E1 & G1 & V1). rewrite E1. destruct (IH x1 H2 G1) as (x2 & E2 & G2 & V2). rewrite E2.
        exists x2. split; [reflexivity|]. split; [exact G2|]. intros k c Hk Hc. rewrite V2, V1 by auto. unfold sum. cbn [fold_right]. lra.
    Qed.

    Lemma play_ok et x0 : et = t + INR n * sd -> good x0 -> (forall k c, (k < n)%nat -> (c < outs)%nat -> val x0 k c = 0) ->
      let s1 := ready_to_active RN pop s et in
      exists active m past x', scan (fun e => ends_by RN e (nadd RN t (nmul RN (half RN) sd))) play (length (q_active s1)) 0 (q_active s1) (q_map s1) (clear_past s) x0 = Some (active, m, past, x') /\
        good x' /\ (forall k c, (k < n)%nat -> (c < outs)%nat -> val x' k c = nth c (nth k (snd (sc_play n p)) []) 0) /\
        forall buf, shaped outs buf -> follows (fst (sc_play n p)) (mkSeq active m (q_thr s1) (q_ready s1) past (q_edits s1) outs et (q_sr s) sd buf (q_replay s)).
    Proof.
      intros Het Hx0 Hv0 s1. destruct (fo_events _ _ Hfo) as (gone & Hperm & Hpast & Hgone). destruct (fo_clock _ _ Hfo) as [Hsr Hsd]. pose proof (fo_ids _ _ Hfo) as Hids. pose proof (fo_fits _ _ Hfo) as Hfits. pose proof (fo_map _ _ Hfo) as Hmap. pose proof (fo_edits _ _ Hfo) as Hed. pose proof (fo_thr _ _ Hfo) as Hthr.
      assert (Hsdp : 0 < sd) by (unfold sd; rewrite Hsd; apply Rdiv_lt_0_compat; lra).
      assert (Hn1 : 1 <= INR n) by (apply (le_INR 1); exact Hn). assert (Hnsd : sd <= INR n * sd) by nra.
      (* the ids of the groups *)
      assert (Hids2 : NoDup (ids (map (edited (q_edits s)) (q_ready s) ++ q_active s ++ q_past s ++ gone))) by (eapply Permutation_NoDup; [apply Permutation_map; exact Hperm|exact Hids]).
      assert (Hra : NoDup (ids (q_ready s ++ q_active s))).
      { unfold SeqSpec.ids in *. rewrite app_assoc, map_app in Hids2. apply nodup_app_l in Hids2. rewrite map_app in *. fold (ids (map (edited (q_edits s)) (q_ready s))) in Hids2. rewrite ids_edited in Hids2. exact Hids2. }
      set (thr := et - sd / 2).
      destruct (activate_ok RN pop Hpop (nsub RN et (nmul RN (q_sd s) (half RN))) (length (q_ready s)) (q_ready s) (q_active s) (q_map s) (q_edits s) (le_n _) Hra Hmap) as (ps & ready' & m' & ed' & Ea & Hps & Hm' & He' & Hk' & Hlt & Hrest).
      assert (Ethr : nsub RN et (nmul RN (q_sd s) (half RN)) = thr) by (rewrite half_R; cbn [nsub nmul RN]; unfold thr, sd; field). rewrite Ethr in Ea, Hlt, Hrest.
      assert (Hk3 : forall id, elookup ed' id <> None -> In id (ids ready')).
      { intros id Hid. destruct (Hk' id Hid) as [A B]. apply Hed in A. unfold SeqSpec.ids in *. rewrite (Permutation_map ev_id Hps) in A. rewrite map_app, in_app_iff in A. tauto. }
      subst s1. unfold ready_to_active. rewrite Ethr, Ea. cbn [q_active q_map q_thr q_ready q_edits].
      set (nw := map (edited (q_edits s)) ps) in *.
      assert (Hall : Permutation (sc_events p) (map (edited ed') ready' ++ (q_active s ++ nw) ++ q_past s ++ gone)).
      { rewrite Hperm. rewrite Hps. rewrite map_app. fold nw. replace (map (edited ed') ready') with (map (edited (q_edits s)) ready') by (apply map_ext_in; intros; symmetry; auto).
        rewrite <- !app_assoc. rewrite Permutation_app_swap_app. apply Permutation_app_head. apply Permutation_app_swap_app. }
      assert (Nact : NoDup (ids (q_active s ++ nw))).
      { assert (H := Permutation_NoDup (Permutation_map ev_id Hall) Hids). rewrite map_app in H. apply nodup_app_r in H. rewrite map_app in H. now apply nodup_app_l in H. }
      destruct (scan_ok (fun e => ends_by RN e (nadd RN t (nmul RN (half RN) sd))) play play_id (q_active s ++ nw) [] m' (clear_past s) x0 Nact Hm') as (ks & ds & Hkd & Hks & Hds & Hscan). cbn [app length] in Hscan.
      assert (Hfit2 : Forall (fits outs) (map (edited ed') ready' ++ (q_active s ++ nw) ++ q_past s ++ gone)) by (eapply Permutation_Forall; [exact Hall|exact Hfits]).
      assert (Hok2 : Forall ok (map (edited ed') ready' ++ (q_active s ++ nw) ++ q_past s ++ gone)) by (eapply Permutation_Forall; [exact Hall|exact all_ok]).
      assert (Hact_start : Forall (fun e => ev_start e < thr) (q_active s ++ nw)).
      { apply Forall_app. split.
        - destruct (q_thr s) as [y|]; [|rewrite Hthr; constructor]. destruct Hthr as (-> & Hs & _). eapply Forall_impl; [|exact Hs]. cbn. intros e He. unfold thr, t, sd in *. lra.
        - unfold nw. apply Forall_map. eapply Forall_impl; [|exact Hlt]. cbn beta. intros e He. rewrite edited_start. now apply ltb_iff. }
      assert (Hready_start : Forall (fun e => thr <= ev_start e) ready').
      { destruct Hrest as [->|(e0 & _ & H1 & H2)]; [constructor|]. apply Forall_forall. intros e He. assert (L : thr <= ev_start e0). { destruct (ltb_cases (ev_start e0) thr) as [[Q _]|[_ Q]]; [congruence|exact Q]. }
        destruct (H2 e He) as [->|Q]; [exact L|]. apply leb_iff in Q. lra. }
      assert (Hover : forall e : event, ends_by RN e (nadd RN t (nmul RN (half RN) sd)) = true <-> over sd t e).
      { intros e. unfold ends_by, over. destruct (ev_end e) as [x|]; [|split; [discriminate|tauto]]. rewrite leb_iff, half_R. cbn [nadd nmul RN]. split; intros; lra. }
      destruct (plays_good ks x0) as (x' & Ep & Hgx & Hvx); [|exact Hx0|].
      { apply Forall_forall. intros e He. assert (Hin : In e (q_active s ++ nw)) by (rewrite Hkd; apply in_or_app; now left).
        rewrite Forall_forall in Hfit2, Hok2, Hact_start, Hks. specialize (Hact_start e Hin). unfold thr in Hact_start. rewrite Het in Hact_start.
        split; [apply Hfit2; rewrite !in_app_iff in *; tauto|]. split; [|split; [lra|apply Hok2; rewrite !in_app_iff in *; tauto]].
        rewrite <- Hover. rewrite (Hks e He). discriminate. }
      rewrite Ep in Hscan. destruct Hscan as (m2 & Es & Hm2). cbn [app] in Es, Hm2.
      exists (map g ks), m2, (ds ++ clear_past s), x'. split; [exact Es|]. split; [exact Hgx|].
      (* events that stay silent *)
      assert (Hquiet : forall e, In e (map (edited ed') ready' ++ ds ++ q_past s ++ gone) -> vplay outs sd n t e = (e, repeat (repeat 0 outs) n)).
      { intros e He. apply vplay_quiet. intros k Hk [C1 C2]. assert (Hk2 : INR k * sd + sd <= INR n * sd). { assert (INR (S k) <= INR n) by (apply le_INR; lia). rewrite S_INR in H. nra. } pose proof (pos_INR k). assert (0 <= INR k * sd) by (apply Rmult_le_pos; lra).
        rewrite !in_app_iff in He. destruct He as [He|[He|He]].
        - apply in_map_iff in He. destruct He as (e1 & <- & He). rewrite edited_start in C1. rewrite Forall_forall in Hready_start. specialize (Hready_start e1 He). unfold thr in Hready_start. lra.
        - rewrite Forall_forall in Hds. specialize (Hds e He). rewrite Hover in Hds. unfold over in Hds. destruct (ev_end e); [lra|contradiction].
        - assert (Hin : In e (q_past s ++ gone)) by (rewrite in_app_iff; exact He). rewrite Forall_forall in Hpast. specialize (Hpast e Hin). unfold past_by in Hpast. fold t in Hpast. destruct (ev_end e); [lra|contradiction]. }
      set (quiet := map (edited ed') ready' ++ ds ++ q_past s ++ gone) in *.
      assert (Hall2 : Permutation (sc_events p) (ks ++ quiet)).
      { rewrite Hall. unfold quiet. rewrite Hkd. rewrite <- !app_assoc. apply Permutation_app_swap_app. }
      rewrite sc_play_voices. rewrite <- (fo_sr _ _ Hfo), <- (fo_outs _ _ Hfo), <- (fo_time _ _ Hfo), <- (fo_replay _ _ Hfo). rewrite <- Hsd. fold sd t outs. split.
      - intros k c Hk Hc. rewrite Hvx, Hv0 by auto. cbn [snd]. rewrite nth_map_seq by exact Hk. rewrite nth_map_seq by exact Hc. rewrite (sum_perm _ _ (Permutation_map (fun e => vat outs sd n t e k c) Hall2)). rewrite map_app, sum_app.
        rewrite (sum_zero (fun e => vat outs sd n t e k c) quiet). { lra. } intros e He. unfold vat. rewrite (Hquiet e He). cbn [snd]. rewrite (nth_indep _ [] (repeat 0 outs)) by (rewrite repeat_length; lia). rewrite nth_repeat. apply nth_repeat0.
      - intros buf Hbuf. cbn [fst]. fold g.
        assert (Gq : map g quiet = quiet) by (rewrite <- (map_id quiet) at 2; apply map_ext_in; intros e He; unfold g; rewrite (Hquiet e He); reflexivity).
        split; cbn [q_time q_sr q_outs q_replay q_sd q_buf q_edits q_ready q_active q_past q_map q_thr sc_time sc_sr sc_outs sc_replay sc_events]; auto.
        + split; cbn [q_sr q_sd]; auto.
        + exists (if q_replay s then gone else q_past s ++ gone). split; [|split].
          * rewrite (Permutation_map g Hall2). rewrite map_app, Gq. unfold quiet. rewrite (Permutation_app_comm (map g ks)). rewrite <- !app_assoc. apply Permutation_app_head. unfold clear_past.
            destruct (q_replay s); cbn [app]; rewrite (Permutation_app_comm (map g ks)); rewrite <- ?app_assoc; reflexivity.
          * assert (Forall (past_by et) (q_past s ++ gone)) as Hpe. { eapply Forall_impl; [|exact Hpast]. intros e. unfold past_by. fold t. destruct (ev_end e); [|tauto]. intros. lra. }
            assert (Forall (past_by et) ds) as Hde. { eapply Forall_impl; [|exact Hds]. intros e He. apply Hover in He. unfold over in He. unfold past_by. destruct (ev_end e); [|tauto]. lra. }
            rewrite <- app_assoc. apply Forall_app. split; [exact Hde|]. unfold clear_past. destruct (q_replay s); exact Hpe.
          * destruct (q_replay s); [auto|discriminate].
        + replace (ids (map g (sc_events p))) with (ids (sc_events p)); [exact Hids|]. unfold SeqSpec.ids. rewrite map_map. apply map_ext. intros e. unfold g. now rewrite vplay_id.
        + apply Forall_map. eapply Forall_impl; [|exact Hfits]. intros e He. now apply vplay_fits.
        + unfold thr. split; [reflexivity|]. split.
          * apply Forall_map. apply Forall_forall. intros e He. unfold g. destruct (vplay_plan outs sd n t e) as (-> & _). rewrite Forall_forall in Hact_start. apply Hact_start. rewrite Hkd. apply in_or_app. now left.
          * exact Hready_start.
    Qed.
  End Play.

  Lemma frames_same n outs (l l' : list (list R)) : length l = n -> length l' = n -> Forall (fun f => length f = outs) l -> Forall (fun f => length f = outs) l' ->
    (forall k c, (k < n)%nat -> (c < outs)%nat -> nth c (nth k l []) 0 = nth c (nth k l' []) 0) -> l = l'.
  Proof.
    intros H1 H2 F1 F2 H. apply (nth_ext _ _ [] []); [lia|]. intros k Hk. rewrite Forall_forall in F1, F2.
    assert (L1 : length (nth k l []) = outs) by (apply F1, nth_In; lia). assert (L2 : length (nth k l' []) = outs) by (apply F2, nth_In; lia).
    apply (nth_ext _ _ 0 0); [lia|]. intros c Hc. apply H; lia.
  Qed.
  Lemma sc_play_shape n (p : score) : length (snd (sc_play n p)) = n /\ Forall (fun f => length f = sc_outs p) (snd (sc_play n p)).
  Proof.
    rewrite sc_play_voices. cbn [snd]. split; [now rewrite map_length, seq_length|]. apply Forall_map. apply Forall_forall. intros k _. now rewrite map_length, seq_length.
  Qed.

  Lemma tick_follows (p : score) s : follows p s -> exists s' o, seq_tick RN at_ ops pop s = Some (s', o) /\ [o] = snd (sc_play 1 p) /\ follows (fst (sc_play 1 p)) s'.
  Proof.
    intros Hf. unfold seq_tick.
    assert (Het : nadd RN (q_time s) (q_sd s) = q_time s + INR 1 * q_sd s) by (cbn; lra).
    destruct (play_ok p s 1 (play_tick RN at_ ops (q_time s)) (fun x k c => nth c x 0) (fun x => length x = q_outs s) (fun _ => True) Hf (le_n 1)) with (et := nadd RN (q_time s) (q_sd s)) (x0 := repeat (n0 RN) (q_outs s)) as (active & m & past & x' & Es & Hg & Hv & Hfo).
    - intros e x e' x'. unfold play_tick. destruct (u_tick ops (ev_unit e) []) as [u o]. intros H. injection H as <- _. reflexivity.
    - intros e x Fe Ho Hs _ Hx. cbn [INR] in Hs. destruct (play_tick_ok s e x Fe Ho ltac:(lra) Hx) as (x' & E & L & V). exists x'. split; [exact E|]. split; [exact L|]. intros k c Hk Hc. replace k with 0%nat by lia. now apply V.
    - apply Forall_forall. auto.
    - exact Het.
    - apply repeat_length.
    - intros. apply nth_repeat0.
    - cbv zeta in *. rewrite Es. eexists. eexists. split; [reflexivity|]. split.
      + destruct (sc_play_shape 1 p) as [L1 L2]. apply (frames_same 1 (q_outs s)); [reflexivity|exact L1|constructor; [exact Hg|constructor]|rewrite (fo_outs _ _ Hf); exact L2|].
        intros k c Hk Hc. rewrite <- Hv by auto. replace k with 0%nat by lia. reflexivity.
      + apply Hfo. exact (fo_buf _ _ Hf).
  Qed.
  Lemma block_follows (p : score) s n out : follows p s -> (1 <= n <= MAXB)%nat -> shaped (sc_outs p) out -> Forall (fair (1 / sc_sr p) (sc_time p) n) (sc_events p) ->
    exists s' o, seq_process RN at_ ops pop s n out = Some (s', o) /\ frames 0 o n = snd (sc_play n p) /\ follows (fst (sc_play n p)) s'.
  Proof.
    intros Hf Hn Ho Hfair. unfold seq_process. rewrite ofnat_R. cbn [nadd nmul RN]. rewrite <- (fo_outs _ _ Hf) in Ho. pose proof (fo_clock _ _ Hf) as Hcl.
    set (out0 := map (write_simd (n0 RN) n (fun _ => n0 RN)) out).
    assert (So : shaped (q_outs s) out0). { destruct Ho as [H1 H2]. split; [unfold out0; now rewrite map_length|]. apply Forall_map. apply Forall_forall. intros ch _. apply write_simd_length. }
    destruct (play_ok p s n (play_block RN at_ ops s n) (fun x k c => bat (fst x) k c) (fun x => shaped (q_outs s) (fst x) /\ shaped (q_outs s) (snd x)) (fair (q_sd s) (q_time s) n) Hf (proj1 Hn)) with (et := q_time s + q_sd s * INR n) (x0 := (out0, q_buf s)) as (active & m & past & x' & Es & Hg & Hv & Hfo).
    - apply play_block_id.
    - intros e [o b] Fe Hov Hs Hok [S1 S2]. destruct (play_block_ok s n e o b Hcl Hn Fe Hov Hs Hok S1 S2) as (o' & b' & E & T1 & T2 & V). exists (o', b'). split; [exact E|]. split; [split; [exact T1|exact T2]|]. exact V.
    - destruct Hcl as [_ ->]. rewrite (fo_sr _ _ Hf), (fo_time _ _ Hf). exact Hfair.
    - lra.
    - split; [exact So|exact (fo_buf _ _ Hf)].
    - intros k c Hk Hc. cbn [fst]. unfold bat, out0. destruct Ho as [H1 H2]. rewrite (nth_indep _ [] (write_simd (n0 RN) n (fun _ => n0 RN) [])) by (rewrite map_length; lia). rewrite map_nth. apply (nth_write_simd (n0 RN)); lia.
    - cbv zeta in *. rewrite half_R in *. cbn [nadd nmul RN] in Es. rewrite Es. eexists. eexists. split; [reflexivity|]. destruct Hg as [G1 G2]. split.
      + destruct (sc_play_shape n p) as [L1 L2]. apply (frames_same n (q_outs s)).
        * apply frames_length.
        * exact L1.
        * pose proof (frames_each 0 (fst x') n) as FE. destruct G1 as [G1 _]. now rewrite G1 in FE.
        * rewrite (fo_outs _ _ Hf). exact L2.
        * intros k c Hk Hc. rewrite <- Hv by auto. rewrite nth_frames by exact Hk. apply frame_at. destruct G1; lia.
      + apply Hfo. exact G2.
  Qed.

  Lemma groups_ids (p : score) s gone : NoDup (ids (sc_events p)) -> Permutation (sc_events p) (map (edited (q_edits s)) (q_ready s) ++ q_active s ++ q_past s ++ gone) ->
    NoDup (ids (q_ready s) ++ ids (q_active s) ++ ids (q_past s) ++ ids gone).
  Proof.
    intros H Hp. eapply Permutation_NoDup in H; [|apply Permutation_map; exact Hp]. rewrite !map_app in H. fold (ids (map (edited (q_edits s)) (q_ready s))) in H. rewrite ids_edited in H. exact H.
  Qed.
  Lemma nodup_disjoint {A} (l l' : list A) x : NoDup (l ++ l') -> In x l -> ~ In x l'.
  Proof. induction l as [|a l IH]; intros H Hx; [contradiction|]. cbn in H. inversion H; subst. destruct Hx as [<-|Hx]; [intros X; apply H2; apply in_or_app; now right|auto]. Qed.

  Lemma place_follows (p : score) s e : follows p s -> fits (q_outs s) e -> ~ In (ev_id e) (ids (sc_events p)) -> follows (with_events p (e :: sc_events p)) (place RN s e).
  Proof.
    intros Hf Fe Hn. destruct (fo_events _ _ Hf) as (gone & Hperm & Hpast & Hgone). pose proof (fo_thr _ _ Hf) as Hthr.
    assert (Hin : forall x, In x (ids (q_ready s) ++ ids (q_active s) ++ ids (q_past s) ++ ids gone) -> In x (ids (sc_events p))).
    { intros x Hx. eapply Permutation_in; [symmetry; apply Permutation_map; exact Hperm|]. rewrite !map_app. fold (ids (map (edited (q_edits s)) (q_ready s))). rewrite ids_edited. exact Hx. }
    assert (Hna : ~ In (ev_id e) (ids (q_active s))) by (intros X; apply Hn, Hin; rewrite !in_app_iff; tauto).
    assert (Hnr : ~ In (ev_id e) (ids (q_ready s))) by (intros X; apply Hn, Hin; rewrite !in_app_iff; tauto).
    assert (Hids : NoDup (ids (e :: sc_events p))) by (constructor; [exact Hn|exact (fo_ids _ _ Hf)]).
    assert (Hfits : Forall (fits (q_outs s)) (e :: sc_events p)) by (constructor; [exact Fe|exact (fo_fits _ _ Hf)]).
    unfold place. destruct (below RN (ev_start e) (q_thr s)) eqn:B.
    - destruct (q_thr s) as [x|] eqn:Et; [|discriminate]. cbn [below] in B. apply ltb_iff in B. destruct Hthr as (Hx & Ha & Hr).
      split; cbn [q_time q_sr q_outs q_replay q_sd q_buf q_edits q_ready q_active q_past q_map q_thr with_events sc_time sc_sr sc_outs sc_replay sc_events]; try (destruct Hf; assumption); auto.
      + exists gone. split; [|split; auto]. rewrite Hperm. rewrite <- (app_assoc (q_active s)). cbn [app]. rewrite (app_assoc _ (q_active s) (q_past s ++ gone)), (app_assoc _ (q_active s) (e :: q_past s ++ gone)). apply Permutation_middle.
      + apply exact_push; auto. exact (fo_map _ _ Hf).
      + split; [exact Hx|]. split; [|exact Hr]. apply Forall_app. split; [exact Ha|]. repeat constructor. exact B.
    - split; cbn [q_time q_sr q_outs q_replay q_sd q_buf q_edits q_ready q_active q_past q_map q_thr with_events sc_time sc_sr sc_outs sc_replay sc_events]; try (destruct Hf; assumption); auto.
      + exists gone. split; [|split; auto]. cbn [map app]. replace (edited (q_edits s) e) with e; [now constructor|]. unfold edited. destruct (elookup (q_edits s) (ev_id e)) eqn:El; [|reflexivity]. exfalso. apply Hnr. apply (fo_edits _ _ Hf). congruence.
      + intros id Hid. right. now apply (fo_edits _ _ Hf).
      + destruct (q_thr s) as [x|]; [|exact Hthr]. destruct Hthr as (Hx & Ha & Hr). split; [exact Hx|]. split; [exact Ha|]. constructor; [|exact Hr]. cbn [below] in B. destruct (ltb_cases (ev_start e) x) as [[Q _]|[_ Q]]; [congruence|exact Q].
  Qed.

  Lemma change_other id t o (l : list event) : ~ In id (ids l) -> map (change_end id t o) l = l.
  Proof.
    intros H. rewrite <- (map_id l) at 2. apply map_ext_in. intros e He. unfold change_end. destruct (N.eqb_spec (ev_id e) id) as [E|E]; [|reflexivity]. exfalso. apply H. rewrite <- E. now apply in_map.
  Qed.
  Lemma change_upd id t o : forall (l : list event) i e, NoDup (ids l) -> nth_error l i = Some e -> ev_id e = id -> map (change_end id t o) l = upd l i (ev_set_end e t o).
  Proof.
    induction l as [|a l IH]; intros i e N H E; [destruct i; discriminate|]. cbn in N. inversion N; subst. destruct i as [|i]; cbn [nth_error] in H.
    - injection H as <-. cbn [map upd]. f_equal; [unfold change_end; now rewrite N.eqb_refl|]. now apply change_other.
    - cbn [map upd]. f_equal; [|now apply IH]. unfold change_end. destruct (N.eqb_spec (ev_id a) (ev_id e)) as [Q|Q]; [|reflexivity]. exfalso. apply H2. rewrite Q. apply in_map. eapply nth_error_In. exact H.
  Qed.
  Lemma change_id id t o (e : event) : ev_id (change_end id t o e) = ev_id e.
  Proof. unfold change_end. now destruct (N.eqb (ev_id e) id). Qed.
  Lemma edited_insert (m : emap) id t o (e : event) : edited (einsert m id (t, o)) e = change_end id t o (edited m e).
  Proof.
    unfold change_end. rewrite edited_id. unfold edited. rewrite elookup_einsert. destruct (N.eqb_spec (ev_id e) id) as [E|E]; destruct (N.eqb_spec id (ev_id e)) as [E2|E2]; try congruence.
    destruct (elookup m (ev_id e)) as [[a b]|]; reflexivity.
  Qed.

  Lemma edit_follows (p : score) s id t o : follows p s -> editable p id t -> exists s', seq_edit RN s id t o = Some s' /\ follows (with_events p (map (change_end id t o) (sc_events p))) s'.
  Proof.
    intros Hf (e & Hin & Hid & Hov & Hst). destruct (fo_events _ _ Hf) as (gone & Hperm & Hpast & Hgone). pose proof (fo_thr _ _ Hf) as Hthr. destruct (fo_clock _ _ Hf) as [Hsr Hsd].
    assert (Hsdp : 0 < q_sd s) by (rewrite Hsd; apply Rdiv_lt_0_compat; lra). rewrite <- (fo_sr _ _ Hf), <- (fo_time _ _ Hf), <- Hsd in *.
    pose proof (groups_ids p s gone (fo_ids _ _ Hf) Hperm) as Hnd.
    assert (Hg : In e (map (edited (q_edits s)) (q_ready s)) \/ In e (q_active s)).
    { rewrite Hperm in Hin. rewrite !in_app_iff in Hin. destruct Hin as [?|[?|Hin]]; auto. exfalso. apply Hov. rewrite Forall_forall in Hpast. assert (X : In e (q_past s ++ gone)) by (rewrite in_app_iff; exact Hin). specialize (Hpast e X). unfold past_by in Hpast. unfold over. destruct (ev_end e); [lra|exact Hpast]. }
    assert (Hpg : ~ In id (ids (q_past s ++ gone))).
    { unfold SeqSpec.ids in *. rewrite map_app. rewrite app_assoc in Hnd. apply (nodup_disjoint _ _ _ Hnd). rewrite in_app_iff. rewrite <- Hid. destruct Hg as [Hg|Hg]; [left|right; now apply in_map]. apply in_map_iff in Hg. destruct Hg as (r & <- & Hr). rewrite edited_id. now apply in_map. }
    assert (Hids : NoDup (ids (map (change_end id t o) (sc_events p)))). { replace (ids (map (change_end id t o) (sc_events p))) with (ids (sc_events p)); [exact (fo_ids _ _ Hf)|]. unfold SeqSpec.ids. rewrite map_map. apply map_ext. intros. now rewrite change_id. }
    assert (Hfits : Forall (fits (q_outs s)) (map (change_end id t o) (sc_events p))). { apply Forall_map. eapply Forall_impl; [|exact (fo_fits _ _ Hf)]. intros a Ha. unfold change_end. destruct (N.eqb (ev_id a) id); exact Ha. }
    unfold seq_edit. destruct (lookup (q_map s) id) as [i|] eqn:El.
    - apply (fo_map _ _ Hf) in El. unfold SeqSpec.ids in El. rewrite nth_error_map in El. destruct (nth_error (q_active s) i) as [a|] eqn:Ea; [|discriminate]. cbn in El. injection El as Eid. eexists. split; [reflexivity|].
      assert (Nr : ~ In id (ids (q_ready s))). { intros X. apply (nodup_disjoint _ _ _ Hnd X). rewrite in_app_iff. left. rewrite <- Eid. apply in_map. eapply nth_error_In. exact Ea. }
      assert (Nact : NoDup (ids (q_active s))) by (apply nodup_app_r in Hnd; now apply nodup_app_l in Hnd).
      assert (Eu : upd (q_active s) i (ev_set_end a t o) = map (change_end id t o) (q_active s)) by (symmetry; now apply change_upd).
      split; cbn [q_time q_sr q_outs q_replay q_sd q_buf q_edits q_ready q_active q_past q_map q_thr with_events sc_time sc_sr sc_outs sc_replay sc_events]; try (destruct Hf; assumption); auto.
      + exists gone. split; [|split; auto]. rewrite (Permutation_map (change_end id t o) Hperm). rewrite !map_app. rewrite (change_other id t o (map (edited _) _)) by (now rewrite ids_edited). rewrite <- Eu. rewrite <- (map_app _ (q_past s)). rewrite (change_other id t o (q_past s ++ gone)) by exact Hpg. reflexivity.
      + apply (exact_ids _ (q_active s)); [|exact (fo_map _ _ Hf)]. rewrite Eu. unfold SeqSpec.ids. rewrite map_map. apply map_ext. intros. now rewrite change_id.
      + destruct (q_thr s) as [x|]; [|rewrite Hthr in Ea; destruct i; discriminate]. destruct Hthr as (Hx & Ha & Hr). split; [exact Hx|]. split; [|exact Hr]. rewrite Eu. apply Forall_map. eapply Forall_impl; [|exact Ha]. intros b Hb. unfold change_end. destruct (N.eqb (ev_id b) id); exact Hb.
    - assert (Nact : ~ In id (ids (q_active s))). { intros X. apply In_nth_error in X. destruct X as (i & X). apply (fo_map _ _ Hf) in X. congruence. }
      assert (Hr : In e (map (edited (q_edits s)) (q_ready s))). { destruct Hg as [?|Hg]; auto. exfalso. apply Nact. rewrite <- Hid. now apply in_map. }
      assert (Hidr : In id (ids (q_ready s))). { rewrite <- Hid. rewrite <- (ids_edited (q_edits s)). now apply in_map. }
      assert (Hb : end_below RN t (q_thr s) = false).
      { unfold end_below. destruct t as [y|]; [|reflexivity]. destruct (q_thr s) as [x|]; [|reflexivity]. destruct Hthr as (Hx & Ha & Hrs). apply in_map_iff in Hr. destruct Hr as (r & <- & Hr). rewrite edited_start in Hst. rewrite Forall_forall in Hrs. specialize (Hrs r Hr).
        destruct (ltb_cases y x) as [[_ Q]|[Q _]]; [|exact Q]. lra. }
      rewrite Hb. eexists. split; [reflexivity|].
      split; cbn [q_time q_sr q_outs q_replay q_sd q_buf q_edits q_ready q_active q_past q_map q_thr with_events sc_time sc_sr sc_outs sc_replay sc_events]; try (destruct Hf; assumption); auto.
      + exists gone. split; [|split; auto]. rewrite (Permutation_map (change_end id t o) Hperm). rewrite !map_app. rewrite (change_other id t o (q_active s)) by exact Nact. rewrite <- (map_app _ (q_past s)). rewrite (change_other id t o (q_past s ++ gone)) by exact Hpg.
        rewrite map_map. apply Permutation_app_tail. erewrite map_ext; [reflexivity|]. intros a. symmetry. apply edited_insert.
      + intros k Hk. rewrite elookup_einsert in Hk. destruct (N.eqb_spec id k) as [E|E]; [now subst k|]. now apply (fo_edits _ _ Hf).
  Qed.

  Lemma retune_ids f (l : list event) : ids (map (retune f) l) = ids l.
  Proof. unfold SeqSpec.ids. rewrite map_map. reflexivity. Qed.
  Lemma edited_retune (m : emap) f (e : event) : edited m (retune f e) = retune f (edited m e).
  Proof. unfold edited. cbn [ev_id retune ev_set_unit]. destruct (elookup m (ev_id e)) as [[a b]|]; reflexivity. Qed.
  Lemma edited_none (m : emap) (l : list event) : (forall e, In e l -> elookup m (ev_id e) = None) -> map (edited m) l = l.
  Proof. intros H. rewrite <- (map_id l) at 2. apply map_ext_in. intros e He. unfold edited. now rewrite (H e He). Qed.

  (* everything goes back to the heap *)
  Lemma all_ready_ok (p : score) s f gone : follows p s -> Permutation (sc_events p) (map (edited (q_edits s)) (q_ready s) ++ q_active s ++ q_past s ++ gone) ->
    Permutation (map (retune f) (sc_events p)) (map (edited (q_edits s)) (all_to_ready pop f s) ++ map (retune f) gone) /\ (forall id, elookup (q_edits s) id <> None -> In id (ids (all_to_ready pop f s))).
  Proof.
    intros Hf Hperm. pose proof (groups_ids p s gone (fo_ids _ _ Hf) Hperm) as Hnd. pose proof (pop_all_perm RN pop Hpop (length (q_ready s)) (q_ready s) eq_refl) as Hpa.
    unfold all_to_ready. fold (retune (U := U) f). change (fun e : event => ev_set_unit e (f (ev_unit e))) with (retune (U := U) f). split.
    - rewrite (Permutation_map (retune f) Hperm). rewrite map_map. erewrite (map_ext (fun x => edited (q_edits s) (retune f x))) by (intros; apply edited_retune). rewrite <- (map_map (edited (q_edits s)) (retune f)). rewrite <- map_app. apply Permutation_map.
      rewrite !map_app. assert (Ha : map (edited (q_edits s)) (q_active s) = q_active s).
      { apply edited_none. intros e He. destruct (elookup (q_edits s) (ev_id e)) eqn:E; [|reflexivity]. exfalso. assert (X : In (ev_id e) (ids (q_ready s))) by (apply (fo_edits _ _ Hf); congruence). apply (nodup_disjoint _ _ _ Hnd X). rewrite in_app_iff. left. now apply in_map. }
      assert (Hq : map (edited (q_edits s)) (q_past s) = q_past s).
      { apply edited_none. intros e He. destruct (elookup (q_edits s) (ev_id e)) eqn:E; [|reflexivity]. exfalso. assert (X : In (ev_id e) (ids (q_ready s))) by (apply (fo_edits _ _ Hf); congruence). apply (nodup_disjoint _ _ _ Hnd X). rewrite !in_app_iff. right; left. now apply in_map. }
      rewrite Ha, Hq. rewrite <- !app_assoc. rewrite Permutation_app_swap_app. apply Permutation_app_head. apply Permutation_app_tail. apply Permutation_map. symmetry. exact Hpa.
    - intros id Hid. rewrite retune_ids. unfold SeqSpec.ids. rewrite !map_app, !in_app_iff. right; left. eapply Permutation_in; [symmetry; apply Permutation_map; exact Hpa|]. now apply (fo_edits _ _ Hf).
  Qed.
  Lemma reset_follows (p : score) s o : follows p s -> follows (fst (sc_step p CReset)) (seq_reset RN ops pop s) /\ (@nil (list R) = o -> o = snd (sc_step p CReset)).
  Proof.
    intros Hf. split; [|intros <-; reflexivity]. destruct (fo_events _ _ Hf) as (gone & Hperm & Hpast & Hgone). destruct laws as (_ & _ & _ & Li & Lo).
    unfold seq_reset. cbn [SeqSpec.sc_step fst]. rewrite <- (fo_replay _ _ Hf). destruct (q_replay s) eqn:Er.
    - rewrite (Hgone eq_refl) in *. destruct (all_ready_ok p s (u_reset ops) [] Hf Hperm) as [A1 A2].
      split; cbn [q_time q_sr q_outs q_replay q_sd q_buf q_edits q_ready q_active q_past q_map q_thr sc_time sc_sr sc_outs sc_replay sc_events]; try (destruct Hf; assumption); auto.
      + exists []. split; [exact A1|]. split; [constructor|auto].
      + rewrite retune_ids. exact (fo_ids _ _ Hf).
      + apply Forall_map. eapply Forall_impl; [|exact (fo_fits _ _ Hf)]. intros e [F1 F2]. split; cbn; congruence.
      + apply exact_nil.
    - split; cbn [q_time q_sr q_outs q_replay q_sd q_buf q_edits q_ready q_active q_past q_map q_thr sc_time sc_sr sc_outs sc_replay sc_events]; try (destruct Hf; assumption); auto.
      + exists []. split; [constructor|]. split; [constructor|auto].
      + constructor.
      + apply exact_nil.
      + cbn. intros id H. congruence.
  Qed.
  Lemma rate_follows (p : score) s r : follows p s -> 0 < r -> follows (fst (sc_step p (CRate r))) (seq_set_sample_rate RN usr pop s r).
  Proof.
    intros Hf Hr. destruct (fo_events _ _ Hf) as (gone & Hperm & Hpast & Hgone). destruct laws as (_ & Li & Lo & _).
    unfold seq_set_sample_rate, neqb. cbn [SeqSpec.sc_step fst nleb RN]. rewrite <- (fo_sr _ _ Hf).
    destruct (Req_EM_T (q_sr s) r) as [E|E].
    - destruct (Rle_dec (q_sr s) r); [|lra]. destruct (Rle_dec r (q_sr s)); [|lra]. exact Hf.
    - replace (_ && _)%bool with false by (destruct (Rle_dec (q_sr s) r), (Rle_dec r (q_sr s)); cbn; auto; lra).
      destruct (all_ready_ok p s (fun u => usr u r) gone Hf Hperm) as [A1 A2].
      split; cbn [q_time q_sr q_outs q_replay q_sd q_buf q_edits q_ready q_active q_past q_map q_thr sc_time sc_sr sc_outs sc_replay sc_events]; try (destruct Hf; assumption); auto.
      + split; [exact Hr|reflexivity].
      + exists (map (retune (fun u => usr u r)) gone). split; [exact A1|]. split; [|intros Q; rewrite (Hgone Q); reflexivity]. cbn [app]. apply Forall_map. apply Forall_app in Hpast. destruct Hpast as [_ Hpast]. eapply Forall_impl; [|exact Hpast]. intros e He. exact He.
      + rewrite retune_ids. exact (fo_ids _ _ Hf).
      + apply Forall_map. eapply Forall_impl; [|exact (fo_fits _ _ Hf)]. intros e [F1 F2]. split; cbn; congruence.
      + apply exact_nil.
  Qed.

  Lemma pushable_ok (p : score) s e : follows p s -> pushable_R ops p e -> pushable RN ops s e = true.
  Proof.
    intros Hf (H1 & H2 & H3). unfold pushable. rewrite H1, H2, <- (fo_outs _ _ Hf). rewrite !Nat.eqb_refl. cbn [andb]. destruct (ev_end e) as [t|]; [|reflexivity]. cbn [nsub RN]. destruct H3 as [A B]. apply leb_iff in A, B. now rewrite A, B.
  Qed.
  (* one call *)
  Lemma step_follows (p : score) s c : follows p s -> allowed ops p c ->
    exists s', step RN at_ ops usr pop s c = Some (s', snd (sc_step p c)) /\ follows (fst (sc_step p c)) s'.
  Proof.
    intros Hf Ha. destruct laws as (_ & Li & Lo & _). destruct c as [e|e|id t o|id t o| |n out| |r]; cbn [step allowed] in *.
    - destruct Ha as [Ha Hn]. unfold seq_push. rewrite (pushable_ok p s e Hf Ha). destruct Ha as (H1 & H2 & _). eexists. split; [reflexivity|]. cbn [SeqSpec.sc_step fst]. unfold push_event. rewrite <- (fo_sr _ _ Hf).
      apply place_follows; [exact Hf| |exact Hn]. split; cbn; [rewrite Li; exact H1|rewrite Lo, (fo_outs _ _ Hf); exact H2].
    - destruct Ha as [Ha Hn]. unfold seq_push_relative. rewrite (pushable_ok p s e Hf Ha). destruct Ha as (H1 & H2 & _). eexists. split; [reflexivity|]. cbn [SeqSpec.sc_step fst]. unfold push_relative_event, shift_end, later. rewrite <- (fo_sr _ _ Hf), <- (fo_time _ _ Hf).
      apply place_follows; [exact Hf| |exact Hn]. split; cbn; [rewrite Li; exact H1|rewrite Lo, (fo_outs _ _ Hf); exact H2].
    - destruct (edit_follows p s id t o Hf Ha) as (s' & E & F). exists s'. rewrite E. split; [reflexivity|exact F].
    - destruct (edit_follows p s id (later (sc_time p) t) o Hf Ha) as (s' & E & F). exists s'. unfold seq_edit_relative. replace (option_map _ t) with (later (sc_time p) t). { rewrite E. split; [reflexivity|exact F]. }
      unfold later. destruct t as [y|]; [|reflexivity]. cbn. rewrite (fo_time _ _ Hf). f_equal. ring.
    - destruct (tick_follows p s Hf) as (s' & o & E & Eo & F). exists s'. rewrite E. change (sc_step p CTick) with (sc_play 1 p). rewrite <- Eo. split; [reflexivity|exact F].
    - destruct Ha as (Hn & Ho & Hfair). destruct (block_follows p s n out Hf Hn Ho Hfair) as (s' & o & E & Eo & F). exists s'. rewrite E. change (sc_step p (CBlock n out)) with (sc_play n p). rewrite <- Eo. split; [reflexivity|exact F].
    - eexists. split; [reflexivity|]. apply (reset_follows p s [] Hf).
    - eexists. split; [|apply rate_follows; [exact Hf|exact Ha]]. reflexivity.
  Qed.
  (* any calls *)
  Lemma run_follows cs : forall (p : score) s, follows p s -> all_allowed at_ ops usr p cs -> exists s', run RN at_ ops usr pop s cs = Some (s', snd (sc_run p cs)) /\ follows (fst (sc_run p cs)) s'.
  Proof.
    induction cs as [|c cs IH]; intros p s Hf Ha; cbn [run SeqSpec.sc_run].
    - exists s. split; [reflexivity|exact Hf].
    - destruct Ha as [Ha Hr]. destruct (step_follows p s c Hf Ha) as (s1 & E1 & F1). rewrite E1. destruct (IH _ s1 F1 Hr) as (s2 & E2 & F2). rewrite E2. destruct (sc_step p c) as [p1 o1]. cbn [fst snd] in *. destruct (sc_run p1 cs) as [p2 o2]. cbn [fst snd] in *.
      exists s2. split; [reflexivity|exact F2].
  Qed.
  Lemma new_follows sr replay outs : 0 < sr -> follows (mkScore [] 0 sr outs replay) (seq_new RN sr replay outs).
  Proof.
    intros Hsr. unfold seq_new. split; cbn [q_time q_sr q_outs q_replay q_sd q_buf q_edits q_ready q_active q_past q_map q_thr sc_time sc_sr sc_outs sc_replay sc_events]; auto.
    - split; [exact Hsr|reflexivity].
    - apply shaped_zero.
    - exists []. split; [constructor|]. split; [constructor|auto].
    - constructor.
    - apply exact_nil.
    - cbn. intros id H. congruence.
  Qed.
End Proofs.
