(* Proofs about waves with real samples and times: levels, fades and latency. *)
From Coq Require Import Reals Lra Lia.
From Verif Require Export WaveRender DelayReals FadeExamples.
Open Scope R_scope.
Notation Rn := Rnum_ops.
Notation Rwave := (wave R R).
(* all the samples of a wave *)
Definition samples (w : Rwave) : list R := concat (w_vec w).

Lemma amp_fold l : forall p, fold_left (fun p x => nmax Rn p (nabs Rn x)) l p = fold_right Rmax p (map Rabs (rev l)).
Proof. induction l as [|x l IH] using rev_ind; intros p; [reflexivity|]. rewrite fold_left_app, IH, rev_app_distr. cbn. apply Rmax_comm. Qed.
Lemma amp_concat v : forall p, fold_left (fun p ch => fold_left (fun p x => nmax Rn p (nabs Rn x)) ch p) v p = fold_left (fun p x => nmax Rn p (nabs Rn x)) (concat v) p.
Proof. induction v as [|x v IH]; intros p; cbn [concat fold_left]; [reflexivity|]. rewrite fold_left_app. apply IH. Qed.
Lemma amplitude_ok w : 0 <= amplitude Rn w /\ (forall x, In x (samples w) -> Rabs x <= amplitude Rn w) /\ (amplitude Rn w = 0 \/ exists x, In x (samples w) /\ Rabs x = amplitude Rn w).
Proof.
  unfold amplitude, samples. rewrite amp_concat, amp_fold. generalize (concat (w_vec w)). intros l.
  assert (G : forall m, 0 <= fold_right Rmax 0 (map Rabs m) /\ (forall x, In x m -> Rabs x <= fold_right Rmax 0 (map Rabs m)) /\ (fold_right Rmax 0 (map Rabs m) = 0 \/ exists x, In x m /\ Rabs x = fold_right Rmax 0 (map Rabs m))).
  { induction m as [|x m (I1 & I2 & I3)]; cbn [map fold_right]; [split; [lra|split; [intros ? []|auto]]|]. set (f := fold_right Rmax 0 (map Rabs m)) in *. split; [eapply Rle_trans; [exact I1|apply Rmax_r]|]. split.
    - intros y [->|Hy]; [apply Rmax_l|]. eapply Rle_trans; [now apply I2|apply Rmax_r].
    - unfold Rmax. destruct (Rle_dec (Rabs x) f) as [H|H]; [|right; exists x; cbn; auto]. destruct I3 as [I3|(y & Hy & E)]; [auto|]. right. exists y. cbn; auto. }
  destruct (G (rev l)) as (G1 & G2 & G3). change (n0 Rn) with 0. split; [exact G1|]. split; [intros x Hx; apply G2; now apply -> in_rev|]. destruct G3 as [G3|(x & Hx & E)]; [auto|]. right. exists x. split; [now apply in_rev|exact E].
Qed.
Lemma feq_iff a b : feq Rn a b = true <-> a = b.
Proof. unfold feq. cbn. destruct (Rle_dec a b); destruct (Rle_dec b a); cbn; split; intros H; try discriminate; try lra; auto. Qed.
Lemma samples_amplify w a : samples (amplify Rn w a) = map (fun x => x * a) (samples w).
Proof. unfold samples, amplify. cbn [w_vec]. rewrite concat_map. reflexivity. Qed.
Lemma amplitude_unique w m : 0 <= m -> (forall x, In x (samples w) -> Rabs x <= m) -> (m = 0 \/ exists x, In x (samples w) /\ Rabs x = m) -> amplitude Rn w = m.
Proof.
  intros H0 H1 H2. destruct (amplitude_ok w) as (A0 & A1 & A2). apply Rle_antisym.
  - destruct A2 as [A2|(x & Hx & E)]; [lra|]. rewrite <- E. now apply H1.
  - destruct H2 as [H2|(x & Hx & E)]; [lra|]. rewrite <- E. now apply A1.
Qed.
Lemma normalize_ok w : amplitude Rn w <> 0 -> amplitude Rn (normalize Rn w) = 1 /\ w_vec (normalize Rn w) = map (map (fun x => x / amplitude Rn w)) (w_vec w) /\ w_len (normalize Rn w) = w_len w /\ w_rate (normalize Rn w) = w_rate w.
Proof.
  intros Hn. destruct (amplitude_ok w) as (A0 & A1 & A2). set (a := amplitude Rn w) in *. unfold normalize. fold a. destruct (feq Rn a (n0 Rn)) eqn:E0; [apply feq_iff in E0; cbn in E0; contradiction|]. cbn [orb]. destruct (feq Rn a (n1 Rn)) eqn:E1.
  - apply feq_iff in E1. change (n1 Rn) with 1 in E1. split; [exact E1|]. split; [|auto]. rewrite E1. rewrite <- (map_id (w_vec w)) at 1. apply map_ext. intros ch. rewrite <- (map_id ch) at 1. apply map_ext. intros x. field.
  - split; [|split; [|auto]].
    + apply amplitude_unique; [lra| |].
      * intros x Hx. rewrite samples_amplify in Hx. apply in_map_iff in Hx. destruct Hx as (y & <- & Hy). cbn. rewrite Rabs_mult. unfold n1; cbn. replace (Rabs (1 / a)) with (1 / a) by (symmetry; apply Rabs_right; apply Rle_ge; apply Rlt_le, Rdiv_lt_0_compat; lra). replace 1 with (a * (1 / a)) at 2 by (field; lra). apply Rmult_le_compat_r; [apply Rlt_le, Rdiv_lt_0_compat; lra|]. now apply A1.
      * right. destruct A2 as [A2|(x & Hx & E)]; [contradiction|]. exists (x * (1 / a)). split; [rewrite samples_amplify; apply in_map_iff; exists x; auto|]. rewrite Rabs_mult, E. replace (Rabs (1 / a)) with (1 / a) by (symmetry; apply Rabs_right; apply Rle_ge; apply Rlt_le, Rdiv_lt_0_compat; lra). field. lra.
    + cbn [w_vec amplify]. apply map_ext. intros ch. apply map_ext. intros x. unfold n1. cbn. field. lra.
Qed.
Lemma normalize_silent w : amplitude Rn w = 0 -> normalize Rn w = w.
Proof. intros E. unfold normalize. rewrite E. destruct (feq Rn 0 (n0 Rn)) eqn:F; [reflexivity|]. assert (X : feq Rn 0 (n0 Rn) = true) by now apply feq_iff. congruence. Qed.

(* fades *)
Lemma round_neg x : x < 0 -> round_us Rn x = 0%nat.
Proof.
  intros H. unfold round_us. cbn [nfloor nleb n1 nofZ ndiv nsub Rnum_ops]. pose proof (Int_part_lt 0 x H) as L. destruct (Rle_dec _ _); lia.
Qed.
Lemma round_le x n : x <= INR n -> (round_us Rn x <= n)%nat.
Proof.
  intros H. destruct (Rlt_le_dec x 0) as [G|G]; [rewrite round_neg by exact G; lia|]. destruct (round_us_near x G) as [A _]. apply INR_le. destruct (le_lt_dec (round_us Rn x) n) as [L|L]; [now apply le_INR|]. apply lt_INR in L as L'. assert (X : INR n + 1 <= INR (round_us Rn x)) by (rewrite <- S_INR; apply le_INR; lia). lra.
Qed.
Lemma round_int n : round_us Rn (INR n) = n.
Proof.
  destruct (round_us_near (INR n) (pos_INR n)) as [A B]. apply Nat.le_antisymm; [apply round_le; lra|]. destruct (le_lt_dec n (round_us Rn (INR n))) as [L|L]; [exact L|]. assert (X : INR (round_us Rn (INR n)) + 1 <= INR n) by (rewrite <- S_INR; apply le_INR; lia). lra.
Qed.
Lemma fade_n_le (w : Rwave) time : 0 < w_rate w -> (fade_n Rn w time <= w_len w)%nat.
Proof.
  intros H. unfold fade_n. apply round_le. cbn. unfold duration. cbn. rewrite <- INR_IZR_INZ. replace (INR (w_len w)) with (INR (w_len w) / w_rate w * w_rate w) at 2 by (field; lra). apply Rmult_le_compat_r; [lra|apply Rmin_r].
Qed.
(* channels scaled by a weight depending on the place *)
Definition weighted (f : nat -> R) (v : list (list R)) : list (list R) := map (fun ch => map (fun i => nth i ch 0 * f i) (seq 0 (length ch))) v.
Lemma weighted_nth f ch i : (i < length ch)%nat -> nth i (map (fun i => nth i ch 0 * f i) (seq 0 (length ch))) 0 = nth i ch 0 * f i.
Proof. intros H. now rewrite (nth_map_seq (fun i => nth i ch 0 * f i)). Qed.
Lemma scale_weighted (w : Rwave) i a f g : rect w -> (i < w_len w)%nat -> g i = f i * a -> (forall j, j <> i -> g j = f j) ->
  scale_at Rn (mkWave (weighted f (w_vec w)) (w_rate w) (w_len w)) i a = Some (mkWave (weighted g (w_vec w)) (w_rate w) (w_len w)).
Proof.
  intros [R1 _] Hi Hg Hj. unfold scale_at. cbn [w_vec w_rate w_len].
  assert (E : forallb (fun ch => Nat.ltb i (length ch)) (weighted f (w_vec w)) = true).
  { apply forallb_forall. intros ch Hc. unfold weighted in Hc. apply in_map_iff in Hc. destruct Hc as (c & <- & Hc). rewrite map_length, seq_length. rewrite Forall_forall in R1. rewrite (R1 _ Hc). now apply Nat.ltb_lt. }
  rewrite E. do 2 f_equal. unfold weighted. rewrite map_map. apply map_ext_in. intros ch Hc. rewrite Forall_forall in R1. specialize (R1 _ Hc).
  apply (nth_ext _ _ 0 0); [now rewrite length_upd, !map_length, !seq_length|]. rewrite length_upd, map_length, seq_length. intros j Hl. rewrite nth_upd, map_length, seq_length. change (n0 Rn) with 0. rewrite !weighted_nth by lia.
  destruct (Nat.eqb_spec i j) as [->|Hne].
  - destruct (Nat.ltb_spec j (length ch)); [|lia]. cbn. rewrite Hg. ring.
  - cbn [andb]. rewrite Hj by auto. reflexivity.
Qed.
Lemma weighted_one v : weighted (fun _ => 1) v = v.
Proof. unfold weighted. rewrite <- (map_id v) at 2. apply map_ext. intros ch. apply (nth_ext _ _ 0 0); [now rewrite map_length, seq_length|]. rewrite map_length, seq_length. intros j Hj. rewrite weighted_nth by exact Hj. ring. Qed.
(* the weights of the fades over n samples of a wave of len samples *)
Definition in_weight (n i : nat) : R := if Nat.ltb i n then smooth5 Rn ((INR i + 1) / (INR n + 1)) else 1.
Definition out_weight (len n i : nat) : R := if Nat.ltb i (len - n) then 1 else smooth5 Rn ((INR len - INR i) / (INR n + 1)).
Lemma ofn_INR n : ofn Rn n = INR n.
Proof. unfold ofn. cbn. now rewrite INR_IZR_INZ. Qed.
Lemma fade_in_loop_ok (w : Rwave) n h : rect w -> (n <= w_len w)%nat -> forall k i, (i + k = n)%nat ->
  fade_in_loop Rn k i n (mkWave (weighted (fun j => if Nat.ltb j i then h j * in_weight n j else h j) (w_vec w)) (w_rate w) (w_len w)) = Some (mkWave (weighted (fun j => if Nat.ltb j n then h j * in_weight n j else h j) (w_vec w)) (w_rate w) (w_len w)).
Proof.
  intros Hr Hn. induction k as [|k IH]; intros i Hk; cbn [fade_in_loop].
  - replace i with n by lia. reflexivity.
  - rewrite (scale_weighted w i _ _ (fun j => if Nat.ltb j (S i) then h j * in_weight n j else h j)); [apply IH; lia|exact Hr|lia| |].
    + cbv beta. destruct (Nat.ltb_spec i (S i)); [|lia]. destruct (Nat.ltb_spec i i); [lia|]. unfold in_weight. destruct (Nat.ltb_spec i n); [|lia]. rewrite !ofn_INR, plus_INR. reflexivity.
    + intros j Hj. cbv beta. destruct (Nat.ltb_spec j (S i)); destruct (Nat.ltb_spec j i); try lia; reflexivity.
Qed.
Lemma weighted_ext f g v len : Forall (fun ch => length ch = len) v -> (forall j, (j < len)%nat -> f j = g j) -> weighted f v = weighted g v.
Proof. intros Hv H. unfold weighted. apply map_ext_in. intros ch Hc. rewrite Forall_forall in Hv. apply map_ext_in. intros i Hi. apply in_seq in Hi. rewrite H; [reflexivity|]. rewrite (Hv _ Hc) in Hi. lia. Qed.
Lemma fade_in_ok (w : Rwave) time : rect w -> 0 < w_rate w -> fade_in Rn w time = Some (mkWave (weighted (in_weight (fade_n Rn w time)) (w_vec w)) (w_rate w) (w_len w)).
Proof.
  intros Hr Hs. pose proof (fade_n_le w time Hs) as L. unfold fade_in. set (n := fade_n Rn w time) in *. pose proof (fade_in_loop_ok w n (fun _ => 1) Hr L n 0 eq_refl) as E.
  rewrite (weighted_ext _ (fun _ => 1) _ (w_len w) (proj1 Hr)) in E by reflexivity. rewrite weighted_one in E. replace (mkWave (w_vec w) (w_rate w) (w_len w)) with w in E by now destruct w. rewrite E. do 2 f_equal. apply (weighted_ext _ _ _ (w_len w) (proj1 Hr)). intros j _. unfold in_weight. destruct (Nat.ltb j n); ring.
Qed.
Lemma fade_out_loop_ok (w : Rwave) n : rect w -> (n <= w_len w)%nat -> forall k i, (i + k = n)%nat ->
  fade_out_loop Rn k i n (mkWave (weighted (fun j => if Nat.ltb j (w_len w - n + i) then out_weight (w_len w) n j else 1) (w_vec w)) (w_rate w) (w_len w)) = Some (mkWave (weighted (out_weight (w_len w) n) (w_vec w)) (w_rate w) (w_len w)).
Proof.
  intros Hr Hn. induction k as [|k IH]; intros i Hk; cbn [fade_out_loop].
  - do 2 f_equal. apply (weighted_ext _ _ _ (w_len w) (proj1 Hr)). intros j Hj. destruct (Nat.ltb_spec j (w_len w - n + i)); [reflexivity|lia].
  - cbn [w_len]. destruct (Nat.ltb_spec (w_len w) n); [lia|]. rewrite (scale_weighted w (w_len w - n + i) _ _ (fun j => if Nat.ltb j (w_len w - n + S i) then out_weight (w_len w) n j else 1)); [apply IH; lia|exact Hr|lia| |].
    + cbv beta. destruct (Nat.ltb_spec (w_len w - n + i) (w_len w - n + S i)); [|lia]. destruct (Nat.ltb_spec (w_len w - n + i) (w_len w - n + i)); [lia|]. unfold out_weight. destruct (Nat.ltb_spec (w_len w - n + i) (w_len w - n)); [lia|]. rewrite !ofn_INR, Rmult_1_l. cbn [ndiv nsub nadd Rnum_ops]. change (n1 Rn) with 1. do 2 f_equal. rewrite plus_INR, minus_INR by lia. ring.
    + intros j Hj. cbv beta. destruct (Nat.ltb_spec j (w_len w - n + S i)); destruct (Nat.ltb_spec j (w_len w - n + i)); try lia; reflexivity.
Qed.
Lemma fade_out_ok (w : Rwave) time : rect w -> 0 < w_rate w -> fade_out Rn w time = Some (mkWave (weighted (out_weight (w_len w) (fade_n Rn w time)) (w_vec w)) (w_rate w) (w_len w)).
Proof.
  intros Hr Hs. pose proof (fade_n_le w time Hs) as L. unfold fade_out. set (n := fade_n Rn w time) in *. pose proof (fade_out_loop_ok w n Hr L n 0 eq_refl) as E.
  rewrite (weighted_ext _ (fun _ => 1) _ (w_len w) (proj1 Hr)) in E by (intros j Hj; unfold out_weight; rewrite Nat.add_0_r; destruct (Nat.ltb j (w_len w - n)); reflexivity). rewrite weighted_one in E. replace (mkWave (w_vec w) (w_rate w) (w_len w)) with w in E by now destruct w. exact E.
Qed.
Lemma weighted_rect f (w : Rwave) (r : R) : rect w -> rect (mkWave (weighted f (w_vec w)) r (w_len w)).
Proof. intros [R1 R2]. split; cbn [w_vec w_len]; [unfold weighted; rewrite Forall_map; eapply Forall_impl; [|exact R1]; cbn; intros a Ha; now rewrite map_length, seq_length|]. intros E. apply map_eq_nil in E. auto. Qed.
Lemma weighted_twice f g v : weighted g (weighted f v) = weighted (fun i => f i * g i) v.
Proof.
  unfold weighted. rewrite map_map. apply map_ext. intros ch. rewrite map_length, seq_length. apply map_ext_in. intros i Hi. apply in_seq in Hi. rewrite weighted_nth by lia. ring.
Qed.
Lemma fade_both_ok (w : Rwave) time : rect w -> 0 < w_rate w -> let n := fade_n Rn w time in
  fade_both Rn w time = Some (mkWave (weighted (fun i => in_weight n i * out_weight (w_len w) n i) (w_vec w)) (w_rate w) (w_len w)).
Proof.
  intros Hr Hs. cbv zeta. unfold fade_both. rewrite (fade_in_ok w time Hr Hs). rewrite fade_out_ok by (cbn [w_rate]; auto using weighted_rect). cbn [w_vec w_rate w_len]. rewrite weighted_twice. reflexivity.
Qed.
(* the weights lie between 0 and 1, rise and fall *)
Lemma ratio_01 a n : 0 <= a -> a <= INR n + 1 -> 0 <= a / (INR n + 1) <= 1.
Proof. intros H0 H1. pose proof (pos_INR n). assert (P : 0 < / (INR n + 1)) by (apply Rinv_0_lt_compat; lra). unfold Rdiv. split; [apply Rmult_le_pos; lra|]. apply Rle_trans with ((INR n + 1) * / (INR n + 1)); [apply Rmult_le_compat_r; lra|]. right. field. lra. Qed.
Lemma in_weight_01 n i : 0 < in_weight n i <= 1.
Proof.
  unfold in_weight. destruct (Nat.ltb_spec i n) as [H|H]; [|lra]. apply lt_INR in H. pose proof (pos_INR i). set (x := (INR i + 1) / (INR n + 1)). assert (Hx : 0 < x <= 1). { split; [apply Rdiv_lt_0_compat; lra|]. apply ratio_01; lra. }
  split; [|apply (smooth5_01 x); lra]. clearbody x. unfold smooth5. cbn. repeat apply Rmult_lt_0_compat; try lra. assert (0 <= (x - 5 / 4) * (x - 5 / 4)) by nra. nra.
Qed.
Lemma out_in len n i : (n <= len)%nat -> (i < len)%nat -> out_weight len n i = in_weight n (len - 1 - i).
Proof.
  intros Hn Hi. unfold out_weight, in_weight. destruct (Nat.ltb_spec i (len - n)); destruct (Nat.ltb_spec (len - 1 - i) n); try lia; [reflexivity|]. do 2 f_equal. rewrite !minus_INR by lia. change (INR 1) with 1. ring.
Qed.
Lemma in_weight_mono n i j : (i <= j)%nat -> in_weight n i <= in_weight n j.
Proof.
  intros H. unfold in_weight at 2. destruct (Nat.ltb_spec j n) as [Hj|Hj]; [|apply in_weight_01]. unfold in_weight. destruct (Nat.ltb_spec i n) as [Hi|Hi]; [|lia]. pose proof (pos_INR i). pose proof (pos_INR n). apply lt_INR in Hj. apply le_INR in H.
  assert (P : 0 < / (INR n + 1)) by (apply Rinv_0_lt_compat; lra). apply (smooth5_mono ((INR i + 1) / (INR n + 1)) ((INR j + 1) / (INR n + 1))); [apply ratio_01; lra| |apply ratio_01; lra]. unfold Rdiv. apply Rmult_le_compat_r; lra.
Qed.

(* latency *)
Section Latency.
  Context {P U : Type}.
  Variable ops : unit_ops R P U.
  Hypothesis laws : unit_laws 0 ops.
  Variables (set_sr : U -> R -> U) (latency : U -> option R).
  Hypothesis rate_ins : forall u r, u_ins ops (set_sr u r) = u_ins ops u.
  Hypothesis rate_outs : forall u r, u_outs ops (set_sr u r) = u_outs ops u.
  Lemma round_ratio d sr : 0 < sr -> round_us Rn (INR d / sr * sr) = d.
  Proof. intros H. replace (INR d / sr * sr) with (INR d) by (field; lra). apply round_int. Qed.
  Lemma ratio_pos d sr : 0 < sr -> 0 <= INR d / sr.
  Proof. intros H. unfold Rdiv. apply Rmult_le_pos; [apply pos_INR|]. left. now apply Rinv_0_lt_compat. Qed.
  Lemma Rleb_true a b : a <= b -> nleb Rn a b = true.
  Proof. intros H. cbn. destruct (Rle_dec a b); [reflexivity|contradiction]. Qed.
  Lemma render_latency_ok sr dur u : 0 < sr -> 0 <= dur -> u_ins ops u = 0%nat -> (0 < u_outs ops u)%nat ->
    let l := latency_samples Rn latency u in let d := round_us Rn (dur * sr) in let r := ticks (u_tick ops) (set_sr u sr) (repeat [] (d + l)) in
    render_latency Rn ops set_sr latency sr dur u = Some (fst r, mkWave (transpose 0 (u_outs ops u) (firstn d (skipn l (snd r)))) sr d).
  Proof.
    intros Hs Hd Hi Ho. cbv zeta. unfold render_latency. change (n0 Rn) with 0. rewrite (Rleb_true 0 dur Hd), Hi. destruct (Nat.ltb_spec 0 (u_outs ops u)); [|lia]. cbn [Nat.eqb andb]. change (nmul Rn dur sr) with (dur * sr). set (l := latency_samples Rn latency u). set (d := round_us Rn (dur * sr)).
    rewrite !ofn_INR. cbn [ndiv nadd nmul Rnum_ops]. destruct (Nat.ltb_spec 0 l) as [L|L].
    - rewrite (render_ok Rn ops laws set_sr rate_ins rate_outs sr _ u Hi Ho) by (apply Rleb_true; change (n0 Rn) with 0; pose proof (ratio_pos d sr Hs); pose proof (ratio_pos l sr Hs); lra).
      cbn [nmul Rnum_ops]. replace ((INR d / sr + INR l / sr) * sr) with (INR (d + l)) by (rewrite plus_INR; field; lra). rewrite round_int, round_ratio by exact Hs. rewrite (drop_ok Rn); [reflexivity|]. rewrite ticks_length. apply repeat_length.
    - rewrite (render_ok Rn ops laws set_sr rate_ins rate_outs sr _ u Hi Ho) by (apply Rleb_true; apply (ratio_pos d sr Hs)). cbn [nmul Rnum_ops]. rewrite round_ratio by exact Hs. replace l with 0%nat by lia. rewrite Nat.add_0_r. cbn [skipn]. rewrite firstn_all2; [reflexivity|]. rewrite ticks_length, repeat_length. lia.
  Qed.
  Lemma filter_latency_ok (w : Rwave) dur u : rect w -> 0 < w_rate w -> 0 <= dur -> u_ins ops u = channels w -> (0 < u_outs ops u)%nat ->
    let l := latency_samples Rn latency u in let d := round_us Rn (dur * w_rate w) in let r := ticks (u_tick ops) (set_sr u (w_rate w)) (wave_frames 0 w (d + l)) in
    filter_latency Rn ops set_sr latency w dur u = Some (fst r, mkWave (transpose 0 (u_outs ops u) (firstn d (skipn l (snd r)))) (w_rate w) d).
  Proof.
    intros [Hw _] Hs Hd Hi Ho. cbv zeta. unfold filter_latency. change (n0 Rn) with 0. rewrite (Rleb_true 0 dur Hd), Hi, Nat.eqb_refl. destruct (Nat.ltb_spec 0 (u_outs ops u)); [|lia]. cbn [andb]. change (nmul Rn dur (w_rate w)) with (dur * w_rate w). set (l := latency_samples Rn latency u). set (d := round_us Rn (dur * w_rate w)).
    assert (Lf : forall n, length (wave_frames 0 w n) = n) by (intros n; unfold wave_frames; now rewrite map_length, seq_length).
    rewrite !ofn_INR. cbn [ndiv nadd nmul Rnum_ops]. destruct (Nat.ltb_spec 0 l) as [L|L].
    - rewrite (filter_ok Rn ops laws set_sr rate_ins rate_outs w _ u Hw Hi Ho) by (apply Rleb_true; change (n0 Rn) with 0; pose proof (ratio_pos d (w_rate w) Hs); pose proof (ratio_pos l (w_rate w) Hs); lra).
      cbn [nmul Rnum_ops]. replace ((INR d / w_rate w + INR l / w_rate w) * w_rate w) with (INR (d + l)) by (rewrite plus_INR; field; lra). rewrite round_int, round_ratio by exact Hs. rewrite (drop_ok Rn); [reflexivity|]. rewrite ticks_length. apply Lf.
    - rewrite (filter_ok Rn ops laws set_sr rate_ins rate_outs w _ u Hw Hi Ho) by (apply Rleb_true; apply (ratio_pos d (w_rate w) Hs)). cbn [nmul Rnum_ops]. rewrite round_ratio by exact Hs. replace l with 0%nat by lia. rewrite Nat.add_0_r. cbn [skipn]. rewrite firstn_all2; [reflexivity|]. rewrite ticks_length, Lf. lia.
  Qed.
End Latency.
