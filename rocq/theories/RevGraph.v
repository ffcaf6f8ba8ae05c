(* Proofs about the reverbs that are built from delay lines. *)
From Coq Require Import Reals Lra.
From Verif Require Export RevProofs.
From Verif Require Import Base BufProofs HadamardProofs DelaySpec DelayProofs DelayReals.
From Verif Require Import RevSpec.
Local Open Scope R_scope.
Notation rops := (rl_ops Rnum_ops).
Notation "'outr'" := (NodeSpec.outputs R_arith (rl_ops Rnum_ops)).

Lemma rl_outs_tick (u : rleaf R) i : rl_outs (fst (rl_tick Rnum_ops u i)) = rl_outs u /\ length (snd (rl_tick Rnum_ops u i)) = rl_outs u.
Proof.
  destruct u as [d|f|p]; cbn [rl_tick]; [|unfold fir_tick; cbn; auto|cbn; auto]. unfold delay_step, delay_tick. cbn. auto.
Qed.
Lemma rl_laws : unit_laws 0 rops.
Proof.
  split; intros u; [reflexivity| | |].
  - intros i. apply rl_outs_tick.
  - intros i _. apply rl_outs_tick.
  - apply (default_process_contract 0 (rl_tick Rnum_ops) (rl_outs u) 1 (fun v => rl_outs v = rl_outs u)); [|reflexivity].
    intros v i E _. destruct (rl_outs_tick v i) as [H1 H2]. split; congruence.
Qed.
Lemma ones (l : list (list R)) : stream 1 l -> exists xs, l = map (fun x => [x]) xs.
Proof.
  induction l as [|i l IH]; intros H; [now exists []|]. apply Forall_cons_iff in H as [H1 H2]. destruct (IH H2) as [xs ->]. destruct i as [|x [|]]; try discriminate. now exists (x :: xs).
Qed.
Lemma weighted_firstn r k l : weighted r (firstn k l) <= weighted r l.
Proof. rewrite <- (firstn_skipn k l) at 2. rewrite weighted_app. pose proof (weighted_nonneg r (skipn k l)). assert (0 <= r ^ (2 * length (firstn k l))) by (rewrite pow_mult; apply pow_le; cbn; pose proof (sq_nonneg r); lra). nra. Qed.
Lemma weighted_delayed r n xs : weighted r (map (fun x => [x]) (delayed 0 n xs)) <= r ^ (2 * n) * weighted r (map (fun x => [x]) xs).
Proof.
  unfold delayed. rewrite <- firstn_map. eapply Rle_trans; [apply weighted_firstn|]. rewrite map_app, weighted_app, map_length, repeat_length.
  assert (E : map (fun x : R => [x]) (repeat 0 n) = repeat (repeat 0 1%nat) n) by (induction n as [|n IH]; [reflexivity|]; cbn [repeat map]; rewrite IH; reflexivity). rewrite E, weighted_zeros. lra.
Qed.
Lemma leaf_delay d l : outr (Leaf (LDelay d)) l = snd (ticks (delay_step Rnum_ops) d l).
Proof.
  revert d. induction l as [|i l IH]; intros d; [reflexivity|]. rewrite outputs_cons. cbn [tick ticks]. cbn [u_tick rl_ops rl_tick]. destruct (delay_step Rnum_ops d i) as [d' o]. cbn [fst snd]. rewrite IH. destruct (ticks _ d' l). reflexivity.
Qed.
Lemma delay_gain r t sr : let n := delay_length Rnum_ops t sr in gline rops r (r ^ (2 * n)) (Leaf (LDelay (mkDelay t sr (line_new 0 (n + 1))))).
Proof.
  intros n. refine (conj I (conj eq_refl (conj eq_refl _))). intros l L. destruct (ones l L) as [xs ->]. rewrite leaf_delay. pose proof (fresh_exact Rnum_ops t sr xs) as E. change (n0 Rnum_ops) with 0 in E. fold n in E. rewrite E. apply weighted_delayed.
Qed.
Lemma leaf_fir w v0 v1 v2 x l : length w = 3%nat -> outr (Leaf (LFir (mkFir w [v0; v1; v2]))) ([x] :: l) =
  [nth 0 w 0 * v1 + nth 1 w 0 * v2 + nth 2 w 0 * x] :: outr (Leaf (LFir (mkFir w [v1; v2; x]))) l.
Proof. intros L. destruct w as [|w0 [|w1 [|w2 [|]]]]; try discriminate. rewrite outputs_cons. cbn. do 2 f_equal. ring. Qed.
Lemma fir_storage r w0 w1 w2 : 1 <= r -> let A := Rabs w0 + Rabs w1 + Rabs w2 in let w := [w0; w1; w2] in let q := r * r in forall xs v0 v1 v2,
  weighted r (outr (Leaf (LFir (mkFir w [v0; v1; v2]))) (map (fun x => [x]) xs)) <= A * A * (q * q) * weighted r (map (fun x => [x]) xs) + A * (Rabs w0 * (v1 * v1) + (Rabs w1 + q * Rabs w0) * (v2 * v2)).
Proof.
  intros Hr A w q. assert (Q : 1 <= q) by (unfold q; nra). pose proof (Rabs_pos w0) as P0. pose proof (Rabs_pos w1) as P1. pose proof (Rabs_pos w2) as P2. assert (PA : 0 <= A) by (unfold A; lra).
  induction xs as [|x xs IH]; intros v0 v1 v2.
  - cbn. pose proof (sq_nonneg v1). pose proof (sq_nonneg v2). assert (0 <= A * (Rabs w0 * (v1 * v1) + (Rabs w1 + q * Rabs w0) * (v2 * v2))); [|lra]. apply Rmult_le_pos; [lra|]. apply Rplus_le_le_0_compat; apply Rmult_le_pos; nra.
  - cbn [map]. rewrite leaf_fir by reflexivity. unfold w at 1 2 3. cbn [nth weighted energy]. specialize (IH v1 v2 x). fold q.
    set (W := weighted r (map _ xs)) in *. set (O := weighted r (outr _ _)) in *. clearbody W O.
    assert (C : (w0 * v1 + w1 * v2 + w2 * x) * (w0 * v1 + w1 * v2 + w2 * x) <= A * (Rabs w0 * (v1 * v1) + Rabs w1 * (v2 * v2) + Rabs w2 * (x * x))).
    { assert (S : forall a u, exists b, a * u = b * (Rabs a * u) /\ b * b = 1).
      { intros a u. destruct (Rle_dec 0 a); [exists 1; rewrite Rabs_right by lra|exists (-1); rewrite Rabs_left by lra]; lra. }
      destruct (S w0 v1) as (b0 & E0 & S0). destruct (S w1 v2) as (b1 & E1 & S1). destruct (S w2 x) as (b2 & E2 & S2). rewrite E0, E1, E2. unfold A.
      set (a0 := Rabs w0) in *. set (a1 := Rabs w1) in *. set (a2 := Rabs w2) in *. clearbody a0 a1 a2. clear -P0 P1 P2 S0 S1 S2.
      assert (T : forall a b u v c d, 0 <= a -> 0 <= b -> c * c = 1 -> d * d = 1 -> 2 * ((c * (a * u)) * (d * (b * v))) <= a * b * (u * u + v * v)).
      { intros a b u v c d Ha Hb Hc Hd. assert (0 <= a * b) by nra. replace (u * u + v * v) with (c * c * (u * u) + d * d * (v * v)) by (rewrite Hc, Hd; ring). pose proof (sq_nonneg (c * u - d * v)). nra. }
      pose proof (T a0 a1 v1 v2 b0 b1 P0 P1 S0 S1) as T1. pose proof (T a0 a2 v1 x b0 b2 P0 P2 S0 S2) as T2. pose proof (T a1 a2 v2 x b1 b2 P1 P2 S1 S2) as T3.
      assert (Q0 : b0 * (a0 * v1) * (b0 * (a0 * v1)) = a0 * a0 * (v1 * v1)) by (replace (b0 * (a0 * v1) * (b0 * (a0 * v1))) with (b0 * b0 * (a0 * a0 * (v1 * v1))) by ring; rewrite S0; ring).
      assert (Q1 : b1 * (a1 * v2) * (b1 * (a1 * v2)) = a1 * a1 * (v2 * v2)) by (replace (b1 * (a1 * v2) * (b1 * (a1 * v2))) with (b1 * b1 * (a1 * a1 * (v2 * v2))) by ring; rewrite S1; ring).
      assert (Q2 : b2 * (a2 * x) * (b2 * (a2 * x)) = a2 * a2 * (x * x)) by (replace (b2 * (a2 * x) * (b2 * (a2 * x))) with (b2 * b2 * (a2 * a2 * (x * x))) by ring; rewrite S2; ring).
      nra. }
    assert (M : q * O <= q * (A * A * (q * q) * W + A * (Rabs w0 * (v2 * v2) + (Rabs w1 + q * Rabs w0) * (x * x)))) by (apply Rmult_le_compat_l; lra).
    assert (B : A * (Rabs w2 * (x * x)) + q * (A * ((Rabs w1 + q * Rabs w0) * (x * x))) <= A * A * (q * q) * (x * x)).
    { replace (A * (Rabs w2 * (x * x)) + q * (A * ((Rabs w1 + q * Rabs w0) * (x * x)))) with (A * (Rabs w2 + q * Rabs w1 + q * q * Rabs w0) * (x * x)) by ring.
      apply Rmult_le_compat_r; [apply sq_nonneg|]. rewrite (Rmult_assoc A A). apply Rmult_le_compat_l; [lra|]. unfold A. assert (1 <= q * q) by nra. assert (q <= q * q) by nra. nra. }
    lra.
Qed.
Lemma fir_gain r w0 w1 w2 : 1 <= r -> let A := Rabs w0 + Rabs w1 + Rabs w2 in gline rops r (A * A * (r * r * (r * r))) (Leaf (LFir (fir_new Rnum_ops [w0; w1; w2]))).
Proof.
  intros Hr A. refine (conj I (conj eq_refl (conj eq_refl _))). intros l L. destruct (ones l L) as [xs ->]. pose proof (fir_storage r w0 w1 w2 Hr xs 0 0 0) as H. cbv zeta in H.
  change (fir_new Rnum_ops [w0; w1; w2]) with (mkFir [w0; w1; w2] [0; 0; 0]). fold A in H. lra.
Qed.
Lemma fneq_false a b : fneq Rnum_ops a b = false -> a = b.
Proof. unfold fneq. cbn. destruct (Rle_dec a b), (Rle_dec b a); cbn; try discriminate. intros _. lra. Qed.

Lemma delay_at_eq sr t d : delay_at Rnum_ops sr t = Some d -> 0 <= t /\ d = mkDelay t sr (line_new 0 (delay_length Rnum_ops t sr + 1)).
Proof.
  unfold delay_at, delay_new. cbn [nleb Rnum_ops]. change (n0 Rnum_ops) with 0. destruct (Rle_dec 0 t) as [Ht|]; [|discriminate]. intros E. injection E as <-. split; [exact Ht|].
  unfold delay_set_sample_rate. cbn [d_sr d_time]. destruct (fneq Rnum_ops 44100 sr) eqn:E; [reflexivity|]. apply fneq_false in E. now rewrite E.
Qed.
Lemma delay_at_some sr t : 0 <= t -> exists d, delay_at Rnum_ops sr t = Some d.
Proof. intros Ht. unfold delay_at, delay_new. cbn [nleb Rnum_ops]. change (n0 Rnum_ops) with 0. destruct (Rle_dec 0 t) as [|N]; [eauto|lra]. Qed.
Lemma delay_fir_line r sr t w0 w1 w2 D x : 1 <= r -> delay_fir Rnum_ops sr t [w0; w1; w2] = Some x -> (delay_length Rnum_ops t sr <= D)%nat ->
  let g := (Rabs w0 + Rabs w1 + Rabs w2) * r ^ (D + 2) in gline rops r (g * g) x.
Proof.
  intros Hr E HD g. unfold delay_fir in E. destruct (delay_at Rnum_ops sr t) as [d|] eqn:Ed; [|discriminate]. injection E as <-. apply delay_at_eq in Ed as [_ ->].
  pose proof (delay_gain r t sr) as (W1 & I1 & O1 & G1). pose proof (fir_gain r w0 w1 w2 Hr) as (W2 & I2 & O2 & G2). cbv zeta in G1, G2. set (A := Rabs w0 + Rabs w1 + Rabs w2) in *.
  refine (conj (conj W1 (conj W2 eq_refl)) (conj eq_refl (conj eq_refl _))).
  assert (A2 : 0 <= A * A * (r * r * (r * r))) by (pose proof (sq_nonneg A); pose proof (sq_nonneg (r * r)); nra).
  apply (gain_le rops r (A * A * (r * r * (r * r)) * r ^ (2 * delay_length Rnum_ops t sr))); [|apply (gain_pipe rops rl_laws); auto].
  unfold g. replace (A * r ^ (D + 2) * (A * r ^ (D + 2))) with (A * A * (r * r * (r * r)) * r ^ (2 * D)).
  - apply Rmult_le_compat_l; [exact A2|]. apply Rle_pow; [exact Hr|lia].
  - rewrite pow_add. replace (2 * D)%nat with (D + D)%nat by lia. rewrite pow_add. cbn [pow]. ring.
Qed.
Lemma sequence_spec {A B} (f : A -> option B) l ys : sequence (map f l) = Some ys -> Forall2 (fun a b => f a = Some b) l ys.
Proof.
  revert ys. induction l as [|a l IH]; cbn; intros ys E; [injection E as <-; constructor|]. destruct (f a) as [b|] eqn:Ea; [|discriminate]. destruct (sequence (map f l)) as [m|]; [|discriminate].
  injection E as <-. constructor; auto.
Qed.
Lemma sequence_some {A B} (f : A -> option B) l : Forall (fun a => exists b, f a = Some b) l -> exists ys, sequence (map f l) = Some ys.
Proof. induction 1 as [|a l [b Eb] _ [ys E]]; cbn; [eauto|]. rewrite Eb, E. eauto. Qed.

(* ---- the nodes without state ---- *)
Section Stateless.
  Context {P U : Type}.
  Variable ops : unit_ops R P U.
  Lemma gain_pure r g (x : node R U) : (forall i, fst (tick R_arith ops x i) = x) -> (forall i, length i = ins ops x -> energy (snd (tick R_arith ops x i)) <= g * energy i) -> energy_gain ops r g x.
  Proof. intros T H. apply (gain_stateless ops r g x (fun i => snd (tick R_arith ops x i))); [|exact H]. intros i. rewrite <- (T i) at 2. apply surjective_pairing. Qed.
  Lemma split_energy m n i : length i = m -> energy (map (fun k => nth (k mod m) i 0) (seq 0 (m * n))) = INR n * energy i.
  Proof.
    intros L. destruct m as [|m]; [destruct i; [cbn; ring|discriminate]|]. set (q := S m) in *. assert (Q : q <> 0%nat) by (unfold q; lia). clearbody q. induction n as [|n IH]; [rewrite Nat.mul_0_r; cbn; ring|].
    replace (q * S n)%nat with (q * n + q)%nat by lia. rewrite seq_app, map_app, energy_app, IH, S_INR. cbn [Nat.add].
    replace (map (fun k => nth (k mod q) i 0) (seq (q * n) q)) with i; [ring|]. apply (nth_ext _ _ 0 0); [now rewrite map_length, seq_length|]. intros k Hk.
    rewrite (nth_indep (map _ _) 0 (nth (0 mod q) i 0)) by (rewrite map_length, seq_length; lia). rewrite (map_nth (fun k => nth (k mod q) i 0)). rewrite seq_nth by lia.
    rewrite Nat.add_comm, Nat.mul_comm, Nat.mod_add by exact Q. rewrite Nat.mod_small by lia. reflexivity.
  Qed.
  Lemma gain_split r m n : energy_gain ops r (INR n) (MultiSplit m n).
  Proof. apply gain_pure; [reflexivity|]. intros i L. cbn [tick snd]. change (a_zero R_arith) with 0. rewrite split_energy by exact L. lra. Qed.
  (* the square of a sum *)
  Definition sumR (l : list R) : R := fold_right Rplus 0 l.
  Lemma sum_square l : sumR l * sumR l <= INR (length l) * energy l.
  Proof.
    induction l as [|a l IH]; [cbn; lra|]. cbn [length]. rewrite S_INR. unfold sumR in *. cbn [fold_right energy]. set (s := fold_right Rplus 0 l) in *. pose proof (energy_pos l) as E. pose proof (pos_INR (length l)) as N.
    destruct (length l) eqn:Ll; [destruct l; [cbn in *; nra|discriminate]|]. rewrite S_INR in *. pose proof (pos_INR n) as N'. set (k := INR n + 1) in *. assert (K : 1 <= k) by (unfold k; lra). clearbody k s.
    (* 2 a s <= k a^2 + s^2 / k *)
    assert (Q : 2 * (a * s) <= k * (a * a) + 1 / k * (s * s)).
    { assert (Eq : k * (a * a) + 1 / k * (s * s) - 2 * (a * s) = 1 / k * ((k * a - s) * (k * a - s))) by (field; lra). pose proof (sq_nonneg (k * a - s)). assert (0 < 1 / k) by (apply Rdiv_lt_0_compat; lra). nra. }
    assert (S1 : 1 / k * (s * s) <= energy l). { apply Rmult_le_reg_l with k; [lra|]. replace (k * (1 / k * (s * s))) with (s * s) by (field; lra). exact IH. }
    nra.
  Qed.
  Lemma fold_sum l : forall a, fold_left Rplus l a = a + sumR l.
  Proof. induction l as [|b l IH]; intros a; cbn; [unfold sumR; cbn; ring|]. rewrite IH. unfold sumR. cbn. ring. Qed.
  Lemma join_energy n l : length l = n -> (1 <= n)%nat -> join_tick R_arith n l * join_tick R_arith n l <= / INR n * energy l.
  Proof.
    intros L H. destruct l as [|a l]; [cbn in L; lia|]. unfold join_tick. cbn [a_divn a_add R_arith]. rewrite fold_sum. change (a + sumR l) with (sumR (a :: l)). pose proof (sum_square (a :: l)) as S. rewrite L in S.
    assert (N : 0 < INR n) by (apply lt_0_INR; lia). set (s := sumR (a :: l)) in *. replace (s / INR n * (s / INR n)) with (/ INR n * (/ INR n * (s * s))) by (field; lra). apply Rmult_le_compat_l; [left; now apply Rinv_0_lt_compat|].
    apply Rmult_le_reg_l with (INR n); [exact N|]. rewrite <- Rmult_assoc, Rinv_r, Rmult_1_l by lra. exact S.
  Qed.
  Lemma gain_join8 r : energy_gain ops r (/ 8) (MultiJoin 2 8).
  Proof.
    apply gain_pure; [reflexivity|]. intros i L. cbn [tick snd seq map energy]. change (a_zero R_arith) with 0.
    pose proof (join_energy 8 (strided R_arith 2 8 0 i) eq_refl ltac:(lia)) as J0. pose proof (join_energy 8 (strided R_arith 2 8 1 i) eq_refl ltac:(lia)) as J1.
    replace (INR 8) with 8 in * by (cbn; ring). set (j0 := join_tick _ _ _) in J0 |- *. set (j1 := join_tick _ _ _) in J1 |- *. clearbody j0 j1.
    assert (E : energy (strided R_arith 2 8 0 i) + energy (strided R_arith 2 8 1 i) = energy i); [|lra].
    cbn in L. do 16 (destruct i as [|? i]; [discriminate|]). destruct i; [|discriminate]. unfold strided. cbn. ring.
  Qed.
End Stateless.

Definition pans (ps : list (panner R)) : node R (rleaf R) := Reduce Rplus (map (fun p => Leaf (LPan p)) ps).
Definition pan_out (p : panner R) (i : list R) : list R := [p_left p * nth 0 i 0; p_right p * nth 0 i 0].
Lemma pans_all ps : forall is, length is = length ps -> tick_all (tick R_arith rops) (map (fun p => Leaf (LPan p)) ps) is = (map (fun p => Leaf (LPan p)) ps, zipw pan_out ps is).
Proof. induction ps as [|p ps IH]; intros [|i is] L; try discriminate; [reflexivity|]. injection L as L. cbn [map tick_all]. rewrite IH by exact L. reflexivity. Qed.
Lemma pans_tick ps i : ps <> [] -> tick R_arith rops (pans ps) i = (pans ps, reduce_out R_arith Rplus 2 (zipw pan_out ps (slices (length ps) 1 i))).
Proof.
  intros N. unfold pans. rewrite tick_Reduce. cbv zeta. rewrite map_length. assert (H : hd_ins rops (map (fun p => Leaf (LPan p)) ps) = 1%nat /\ hd_outs rops (map (fun p => Leaf (LPan p)) ps) = 2%nat) by (destruct ps; [congruence|split; reflexivity]).
  destruct H as [-> ->]. rewrite pans_all by apply slices_length. reflexivity.
Qed.
Lemma slices1 (i : list R) : slices (length i) 1 i = map (fun v => [v]) i.
Proof. induction i as [|v i IH]; cbn; auto. now rewrite IH. Qed.
Lemma pan_fold l : Forall (fun o => length o = 2%nat) l -> forall a b, fold_left (zipw Rplus) l [a; b] = [a + sumR (map (fun o => nth 0 o 0) l); b + sumR (map (fun o => nth 1 o 0) l)].
Proof.
  induction 1 as [|o l L _ IH]; intros a b; cbn [fold_left map]; [unfold sumR; cbn; do 2 f_equal; ring|]. destruct o as [|x [|y [|]]]; try discriminate. cbn [zipw]. rewrite IH. unfold sumR. cbn. f_equal; [ring|]. f_equal. ring.
Qed.
Lemma pan_sum ps : forall i, Forall (fun p => p_left p * p_left p + p_right p * p_right p <= 1) ps -> length i = length ps ->
  let os := zipw pan_out ps (map (fun v => [v]) i) in let s0 := sumR (map (fun o => nth 0 o 0) os) in let s1 := sumR (map (fun o => nth 1 o 0) os) in
  s0 * s0 + s1 * s1 <= INR (length i) * energy i.
Proof.
  induction ps as [|p ps IH]; intros [|v i] H L; try discriminate; [unfold sumR; cbn; lra|]. injection L as L. apply Forall_cons_iff in H as [H1 H2]. specialize (IH i H2 L). cbv zeta in *. cbn [map zipw pan_out nth energy length]. rewrite S_INR. unfold sumR in *. cbn [fold_right map].
  unfold pan_out at 1 3. cbn [nth]. set (s0 := fold_right Rplus 0 _) in *. set (s1 := fold_right Rplus 0 (map (fun o => nth 1 o 0) _)) in *. pose proof (energy_pos i) as E. pose proof (pos_INR (length i)) as N.
  set (a := p_left p) in *. set (b := p_right p) in *.
  assert (V : a * v * (a * v) + b * v * (b * v) <= v * v) by (pose proof (sq_nonneg v); nra).
  destruct (length i) eqn:Li.
  - assert (s0 = 0 /\ s1 = 0) as [Z0 Z1]. { cbn [INR] in IH. rewrite Rmult_0_l in IH. pose proof (sq_nonneg s0). pose proof (sq_nonneg s1). split; nra. } rewrite Z0, Z1. cbn [INR]. lra.
  - rewrite S_INR in *. pose proof (pos_INR n) as N'. set (k := INR n + 1) in *. assert (K : 1 <= k) by (unfold k; lra). clearbody k s0 s1 a b. 
    assert (Q : forall x s, 2 * (x * s) <= k * (x * x) + 1 / k * (s * s)).
    { intros x s. assert (Eq : k * (x * x) + 1 / k * (s * s) - 2 * (x * s) = 1 / k * ((k * x - s) * (k * x - s))) by (field; lra). pose proof (sq_nonneg (k * x - s)). assert (0 < 1 / k) by (apply Rdiv_lt_0_compat; lra). nra. }
    pose proof (Q (a * v) s0) as Q0. pose proof (Q (b * v) s1) as Q1.
    assert (S1 : 1 / k * (s0 * s0) + 1 / k * (s1 * s1) <= energy i). { apply Rmult_le_reg_l with k; [lra|]. replace (k * (1 / k * (s0 * s0) + 1 / k * (s1 * s1))) with (s0 * s0 + s1 * s1) by (field; lra). exact IH. }
    assert (KV : k * (a * v * (a * v)) + k * (b * v * (b * v)) <= k * (v * v)) by nra. lra.
Qed.
Lemma pans_energy ps i : ps <> [] -> Forall (fun p => p_left p * p_left p + p_right p * p_right p <= 1) ps -> length i = length ps ->
  exists a b, snd (tick R_arith rops (pans ps) i) = [a; b] /\ a * a + b * b <= INR (length ps) * energy i.
Proof.
  intros N H L. rewrite pans_tick by exact N. cbn [snd]. rewrite <- L, slices1. pose proof (pan_sum ps i H L) as S. cbv zeta in S.
  set (os := zipw pan_out ps (map (fun v => [v]) i)) in *. assert (F : Forall (fun o => length o = 2%nat) os).
  { unfold os. clear. revert i. induction ps as [|p ps IH]; intros [|v i]; cbn [map zipw]; constructor; auto. }
  assert (No : os <> []). { unfold os. destruct ps; [congruence|]. destruct i; discriminate. }
  destruct os as [|o os]; [congruence|]. apply Forall_cons_iff in F as [F1 F2]. destruct o as [|x [|y [|]]]; try discriminate. cbn [reduce_out]. rewrite pan_fold by exact F2.
  unfold sumR in *. cbn [map fold_right nth] in S. eauto.
Qed.
