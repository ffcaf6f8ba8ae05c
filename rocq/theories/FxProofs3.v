(* Proofs about the phaser, and about reset. *)
From Coq Require Import Reals Lra Lia Psatz.
From Verif Require Export FxProofs2.
From Verif Require Import DelayReals EnvProofs MathReals ShapeProofs ShapeSpec RevSpec.
Import ListNotations.
Local Open Scope R_scope.

(* ---- a stage, and the chain ---- *)
Lemma stage_tick e x1 y1 x d : let q := allpass_of (d + 1 / 10) in let y := q * (x - y1) + x1 in
  tickR (phase_stage nR (XAll e x1 y1)) [x; d] = (phase_stage nR (XAll q x y), [y; d + 1 / 10]).
Proof.
  intros q y. unfold phase_stage, op_add.
  cbn [NodeModel.tick NodeModel.ins NodeModel.outs length firstn skipn zipw nadd ndiv nofZ Rnum_ops n0 n1 seq map Nat.ltb Nat.leb u_ins u_outs u_tick fxR fx_ops fx_tick nth].
  rewrite Rplus_0_r. unfold y, q. reflexivity.
Qed.
Definition stage_delay (m : R) (i : nat) : R := m + (INR i + 1) / 10.
Definition stages (E p : nat -> R) (i n : nat) : list (NodeModel.node R (fx R)) := map (phase_stage nR) (map (fun j => XAll (E j) (p j) (p (S j))) (seq i n)).
Lemma chain_tick m p p' n : forall i E, (forall j, (i <= j < i + n)%nat -> p' (S j) = allpass_of (stage_delay m j) * (p' j - p (S j)) + p j) ->
  tick_chain tickR (stages E p i n) [p' i; m + INR i / 10] = (stages (fun j => allpass_of (stage_delay m j)) p' i n, [p' (i + n)%nat; m + INR (i + n) / 10]).
Proof.
  unfold stages. induction n as [|n IH]; intros i E H.
  - cbn [seq map tick_chain]. now rewrite Nat.add_0_r.
  - cbn [seq map tick_chain]. rewrite stage_tick.
    replace (m + INR i / 10 + 1 / 10) with (stage_delay m i) by (unfold stage_delay; lra).
    rewrite <- (H i) by lia.
    replace [p' (S i); stage_delay m i] with [p' (S i); m + INR (S i) / 10] by (do 2 f_equal; unfold stage_delay; rewrite S_INR; lra).
    rewrite (IH (S i) E) by (intros; apply H; lia). rewrite Nat.add_succ_r. reflexivity.
Qed.
Lemma bus_feedback X X' v x o F : tickR X [x + v] = (X', o) -> tickR (Bus Pass (Feedback X [v] F)) [x] = (Bus Pass (Feedback X' (F o) F), vadd R_arith [x] o).
Proof. intros H1. cbn [NodeModel.tick]. change (vadd R_arith [x] [v]) with [x + v]. rewrite H1. reflexivity. Qed.
Definition pstages (E p : nat -> R) : list (fx R) := map (fun j => XAll (E j) (p j) (p (S j))) (seq 0 10).
Lemma phaser_tick a G E p p' e v x e' m : etick G e = (e', [m]) -> p' 0%nat = x + v ->
  (forall j, (j < 10)%nat -> p' (S j) = allpass_of (stage_delay m j) * (p' j - p (S j)) + p j) ->
  tickR (phaser_node nR a (XLfo 1 G e) (pstages E p) [v]) [x] =
    (phaser_node nR a (XLfo 1 G e') (pstages (fun j => allpass_of (stage_delay m j)) p') [a * p' 10%nat], [x + a * p' 10%nat]).
Proof.
  intros H1 H2 H3. unfold phaser_node.
  pose proof (chain_tick m p p' 10 0 E (fun j J => H3 j ltac:(lia))) as C. cbn [INR] in C. unfold Rdiv in C. rewrite Rmult_0_l, Rplus_0_r in C. rewrite H2 in C. cbn [Nat.add] in C.
  eapply eq_trans.
  - refine (bus_feedback _ (Pipe (Pipe (Stack Pass (Leaf (XLfo 1 G e'))) (Chain (stages (fun j => allpass_of (stage_delay m j)) p' 0 10))) (Stack (op_mul nR [a]) (Sink 1))) v x [p' 10%nat * a] (fun x => x) _).
    change (map (phase_stage nR) (pstages E p)) with (stages E p 0 10).
    remember (stages E p 0 10) as st. remember (stages (fun j => allpass_of (stage_delay m j)) p' 0 10) as st'. clear Heqst Heqst'.
    cbn [NodeModel.tick NodeModel.ins firstn skipn u_tick fxR fx_ops fx_tick app]. change (control G) with (pure G). rewrite H1. cbn [app]. change (mkUnit R (param R) (fx R)) with (mkUnit R (param R) (fx R)).
    fold fxR in *.
    match goal with |- context [tick_chain ?T st ?i] => change (tick_chain T st i) with (tick_chain tickR st [x + v; m]) end. rewrite C. reflexivity.
  - change (vadd R_arith [x] [p' 10%nat * a]) with [x + p' 10%nat * a]. rewrite (Rmult_comm (p' 10%nat) a). reflexivity.
Qed.

Section Phaser.
  Variables (a sr : R) (f : R -> R) (h : N).
  Hypothesis Hs : usual sr. Hypothesis Hh : (h < 2 ^ 64)%N.
  Definition sweep (t : R) : list R := [lerp nR 2 20 (clamp01 nR (f t))].
  Notation e0 := (start sr h 1 (1 / 500) sweep).
  Definition swept (k : nat) : R := nth 0 (envelope_of sr h 1 (1 / 500) sweep k) 0.
  Variable x : nat -> R.
  (* the levels between stages *)
  Fixpoint level (m : R) (p : nat -> R) (u : R) (i : nat) : R :=
    match i with O => u | S i => allpass_of (stage_delay m i) * (level m p u i - p (S i)) + p i end.
  Fixpoint levels (k : nat) : nat -> R :=
    match k with O => level (swept 0) (fun _ => 0) (x 0%nat) | S k => level (swept (S k)) (levels k) (x (S k) + a * levels k 10%nat) end.
  Definition prior (k : nat) : nat -> R := match k with O => fun _ => 0 | S k => levels k end.
  Lemma levels_eq k : levels k = level (swept k) (prior k) (x k + a * prior k 10%nat).
  Proof. destruct k; cbn [levels prior]; [|reflexivity]. rewrite Rmult_0_r, Rplus_0_r. reflexivity. Qed.
End Phaser.
Section PhaserRun.
  Variables (a sr : R) (f : R -> R) (h : N).
  Hypothesis Hs : usual sr. Hypothesis Hh : (h < 2 ^ 64)%N.
  Notation e0 := (start sr h 1 (1 / 500) (sweep f)).
  Lemma one_sweep k : envelope_of sr h 1 (1 / 500) (sweep f) k = [swept sr f h k].
  Proof.
    pose proof (length_of sr h 1 (1 / 500) (sweep f) k ltac:(destruct Hs; lra) (usual_interval sr (1 / 500) Hs ltac:(lra)) Hh (fun _ => eq_refl)) as Ln. unfold swept.
    destruct (envelope_of sr h 1 (1 / 500) (sweep f) k) as [|? [|]]; cbn in Ln; try discriminate. reflexivity.
  Qed.
  Lemma clamp_in y : 0 <= clamp01 nR y <= 1.
  Proof. unfold clamp01. cbn [nmin nmax Rnum_ops n0 n1 nofZ]. unfold Rmin, Rmax. destruct (Rle_dec y 0); [destruct (Rle_dec 0 1)|destruct (Rle_dec y 1)]; lra. Qed.
  Lemma sweep_val t : nth 0 (sweep f t) 0 = 2 + 18 * clamp01 nR (f t).
  Proof. unfold sweep, lerp. cbn [nth nadd nmul nsub n1 nofZ Rnum_ops]. ring. Qed.
  Lemma swept_range lo hi k : (forall t, 0 <= t -> lo <= 2 + 18 * clamp01 nR (f t) <= hi) -> lo <= swept sr f h k <= hi.
  Proof.
    intros H. apply (range_of sr h 1 (1 / 500) (sweep f) 0 lo hi k ltac:(destruct Hs; lra) (usual_interval sr (1 / 500) Hs ltac:(lra)) Hh (fun _ => eq_refl) ltac:(lia)). intros t T. rewrite sweep_val. now apply H.
  Qed.
  Notation lev l := (levels a sr f h (sample_of l)).
  Notation pri l := (prior a sr f h (sample_of l)).
  Notation x0 := (phaser nR sr h a f).
  Lemma phaser_step E e' l k : etick (sweep f) (env_state (pure (sweep f)) e0 k) = (e', [swept sr f h k]) ->
    tickR (phaser_node nR a (XLfo 1 (sweep f) (env_state (pure (sweep f)) e0 k)) (pstages E (pri l k)) [a * pri l k 10%nat]) [sample_of l k] =
    (phaser_node nR a (XLfo 1 (sweep f) e') (pstages (fun j => allpass_of (stage_delay (swept sr f h k) j)) (lev l k)) [a * lev l k 10%nat], [sample_of l k + a * lev l k 10%nat]).
  Proof. intros H. apply (phaser_tick a (sweep f) E (pri l k) (lev l k) _ _ _ _ _ H); rewrite levels_eq; reflexivity. Qed.
  Lemma phaser_start : x0 = phaser_node nR a (XLfo 1 (sweep f) e0) (pstages (fun _ => all_eta nR 1) (fun _ => 0)) [0].
  Proof. reflexivity. Qed.
  Lemma etick_sweep k : etick (sweep f) (env_state (pure (sweep f)) e0 k) = (env_state (pure (sweep f)) e0 (S k), [swept sr f h k]).
  Proof. rewrite <- one_sweep. apply etick_at. Qed.
  Lemma phaser_state l k : stream 1 l -> (k <= length l)%nat -> exists E,
    fst (ticksR x0 (firstn k l)) = phaser_node nR a (XLfo 1 (sweep f) (env_state (pure (sweep f)) e0 k)) (pstages E (pri l k)) [a * pri l k 10%nat].
  Proof.
    intros Hst. induction k as [|k IH]; intros Hk.
    - exists (fun _ => all_eta nR 1). cbn [firstn BufModel.ticks fst prior env_state]. rewrite Rmult_0_r. exact phaser_start.
    - destruct IH as (E & B); [lia|]. rewrite tks_S by lia. rewrite B, frame1 by (auto; lia). rewrite (phaser_step E _ l k (etick_sweep k)). eexists. reflexivity.
  Qed.
  Lemma phaser_out l k : stream 1 l -> (k < length l)%nat -> nth k (fx_outputs x0 l) [] = [sample_of l k + a * lev l k 10%nat].
  Proof.
    intros Hst Hk. unfold NodeSpec.outputs. rewrite tks_nth by exact Hk. destruct (phaser_state l k Hst ltac:(lia)) as (E & B). rewrite B, frame1 by auto. rewrite (phaser_step E _ l k (etick_sweep k)). reflexivity.
  Qed.
End PhaserRun.
Lemma before_levels a sr f h x i k : before (fun k => levels a sr f h x k i) k = prior a sr f h x k i. Proof. destruct k; reflexivity. Qed.
Lemma phaser_equation sr h a f : usual sr -> (h < 2 ^ 64)%N ->
  exists m : nat -> R, (forall k, 2 <= m k <= 20) /\
  forall l, stream 1 l -> exists s : nat -> nat -> R, forall k, (k < length l)%nat ->
    s 0%nat k = sample_of l k + a * before (s 10%nat) k /\
    (forall i, (i < 10)%nat -> allpassed (fun k => m k + (INR i + 1) / 10) (s i) (s (S i)) k) /\
    nth k (fx_outputs (phaser nR sr h a f) l) [] = [sample_of l k + a * s 10%nat k].
Proof.
  intros Hs Hh. exists (swept sr f h). split. { intros k. apply (swept_range sr f h Hs Hh). intros t _. pose proof (clamp_in (f t)). lra. }
  intros l Hl. exists (fun i k => levels a sr f h (sample_of l) k i). intros k Hk. split; [|split].
  - rewrite before_levels, levels_eq. reflexivity.
  - intros i Hi. unfold allpassed. rewrite !before_levels. rewrite levels_eq. reflexivity.
  - exact (phaser_out a sr f h Hs Hh l k Hl Hk).
Qed.
(* without feedback the phaser does nothing *)
Lemma phaser_zero sr h f l : usual sr -> (h < 2 ^ 64)%N -> stream 1 l -> fx_outputs (phaser nR sr h 0 f) l = l.
Proof.
  intros Hs Hh Hl. apply (nth_ext _ _ [] []). { unfold NodeSpec.outputs. apply tks_len. }
  intros k Hk. unfold NodeSpec.outputs in Hk. rewrite tks_len in Hk. rewrite (phaser_out 0 sr f h Hs Hh l k Hl Hk), (frame1 l k Hl Hk). f_equal. ring.
Qed.

(* ---- energy ---- *)
Section Energy.
  Variables (m : R) (M : 0 <= m).
  Notation e i := (allpass_of (stage_delay m i)).
  Lemma e_range i : -1 < e i < 1.
  Proof.
    unfold allpass_of, stage_delay. pose proof (pos_INR i). set (d := m + (INR i + 1) / 10). assert (0 < d) by (unfold d; lra).
    split; [apply (Rmult_lt_reg_r (1 + d)); [lra|]; replace ((1 - d) / (1 + d) * (1 + d)) with (1 - d) by (field; lra); lra|].
    apply (Rmult_lt_reg_r (1 + d)); [lra|]. replace ((1 - d) / (1 + d) * (1 + d)) with (1 - d) by (field; lra). lra.
  Qed.
  (* the energy that n stages hold *)
  Fixpoint stored (p : nat -> R) (n : nat) : R := match n with O => 0 | S n => stored p n + (p n - e n * p (S n)) * (p n - e n * p (S n)) / (1 - e n * e n) end.
  Lemma stored_pos p n : 0 <= stored p n.
  Proof.
    induction n as [|n IH]; cbn [stored]; [lra|]. pose proof (e_range n) as Q. assert (0 < 1 - e n * e n) by nra. 
    apply Rplus_le_le_0_compat; [exact IH|]. apply Rmult_le_pos; [apply Rle_0_sqr|]. left. now apply Rinv_0_lt_compat.
  Qed.
  Lemma stored_zero n : stored (fun _ => 0) n = 0.
  Proof. induction n as [|n IH]; cbn [stored]; [reflexivity|]. rewrite IH. unfold Rdiv. rewrite Rmult_0_r, Rminus_0_r, !Rmult_0_l. lra. Qed.
  Lemma level_energy p u n : level m p u n * level m p u n + stored (level m p u) n = u * u + stored p n.
  Proof.
    induction n as [|n IH]; cbn [stored]; [reflexivity|]. pose proof (e_range n) as Q. assert (D : 1 - e n * e n <> 0) by nra.
    rewrite <- (Rplus_assoc (u * u)), <- IH. change (level m p u (S n)) with (e n * (level m p u n - p (S n)) + p n). generalize (level m p u n) (stored (level m p u) n) (e n) (p n) (p (S n)) D. intros y s c q r D'. field. exact D'.
  Qed.
End Energy.
Section PhaserEnergy.
  Variables (a sr : R) (f : R -> R) (h : N) (m g : R).
  Hypothesis Hm : 0 <= m.
  Hypothesis steady : forall k, swept sr f h k = m.
  Hypothesis Hg : 0 < g < 1. Hypothesis Ha : Rabs a <= g.
  Variable x : nat -> R.
  Notation lev := (levels a sr f h x).
  Notation pri := (prior a sr f h x).
  Notation y k := (lev k 10%nat).
  Lemma a_sq : a * a <= g * g.
  Proof. unfold Rabs in Ha. destruct (Rcase_abs a); nra. Qed.
  (* (p + q)^2 <= p^2 / (1 - g) + q^2 / g *)
  Lemma split_sq p q : (p + q) * (p + q) <= p * p / (1 - g) + q * q / g.
  Proof.
    assert (D : p * p / (1 - g) + q * q / g - (p + q) * (p + q) = (g * p - (1 - g) * q) * (g * p - (1 - g) * q) / (g * (1 - g))) by (field; lra).
    assert (0 <= (g * p - (1 - g) * q) * (g * p - (1 - g) * q) / (g * (1 - g))); [|lra].
    apply Rmult_le_pos; [apply Rle_0_sqr|]. left. apply Rinv_0_lt_compat. apply Rmult_lt_0_compat; lra.
  Qed.
  Lemma a_over q : (a * q) * (a * q) / g <= g * (q * q).
  Proof.
    apply (Rmult_le_reg_r g); [lra|]. replace (a * q * (a * q) / g * g) with (a * a * (q * q)) by (field; lra). replace (g * (q * q) * g) with (g * g * (q * q)) by ring.
    apply Rmult_le_compat_r; [apply Rle_0_sqr|exact a_sq].
  Qed.
  Lemma wet_energy n : (1 - g) * sum_to (fun k => y k * y k) n + ((a * pri n 10%nat) * (a * pri n 10%nat) / g + stored m (pri n) 10) <= sum_to (fun k => x k * x k) n / (1 - g).
  Proof.
    induction n as [|n IH].
    - cbn [sum_to prior]. rewrite stored_zero. unfold Rdiv. rewrite !Rmult_0_r, !Rmult_0_l. lra.
    - cbn [sum_to]. change (pri (S n)) with (lev n).
      pose proof (level_energy m Hm (pri n) (x n + a * pri n 10%nat) 10) as Q. assert (LE : lev n = level m (pri n) (x n + a * pri n 10%nat)) by (rewrite levels_eq, steady; reflexivity). rewrite <- LE in Q.
      pose proof (split_sq (x n) (a * pri n 10%nat)) as S1. pose proof (a_over (y n)) as S2.
      assert (X : (sum_to (fun k => x k * x k) n + x n * x n) / (1 - g) = sum_to (fun k => x k * x k) n / (1 - g) + x n * x n / (1 - g)) by (field; lra).
      rewrite X. lra.
  Qed.
  Lemma out_energy n : sum_to (fun k => (x k + a * y k) * (x k + a * y k)) n <= sum_to (fun k => x k * x k) n / ((1 - g) * (1 - g)).
  Proof.
    assert (A : sum_to (fun k => (x k + a * y k) * (x k + a * y k)) n <= sum_to (fun k => x k * x k) n / (1 - g) + g * sum_to (fun k => y k * y k) n).
    { induction n as [|n IH]; cbn [sum_to]; [unfold Rdiv; rewrite Rmult_0_l; lra|]. pose proof (split_sq (x n) (a * y n)) as S1. pose proof (a_over (y n)) as S2.
      assert (X : (sum_to (fun k => x k * x k) n + x n * x n) / (1 - g) = sum_to (fun k => x k * x k) n / (1 - g) + x n * x n / (1 - g)) by (field; lra). rewrite X. lra. }
    pose proof (wet_energy n) as W. pose proof (stored_pos m Hm (pri n) 10) as P1.
    assert (P2 : 0 <= (a * pri n 10%nat) * (a * pri n 10%nat) / g) by (apply Rmult_le_pos; [apply Rle_0_sqr|left; apply Rinv_0_lt_compat; lra]).
    assert (W' : sum_to (fun k => y k * y k) n <= sum_to (fun k => x k * x k) n / ((1 - g) * (1 - g))).
    { apply (Rmult_le_reg_l (1 - g)); [lra|]. replace ((1 - g) * (sum_to (fun k => x k * x k) n / ((1 - g) * (1 - g)))) with (sum_to (fun k => x k * x k) n / (1 - g)) by (field; lra). lra. }
    assert (E : sum_to (fun k => x k * x k) n / ((1 - g) * (1 - g)) = sum_to (fun k => x k * x k) n / (1 - g) + g * (sum_to (fun k => x k * x k) n / ((1 - g) * (1 - g)))) by (field; lra).
    rewrite E. apply (Rmult_le_compat_l g) in W'; [|lra]. lra.
  Qed.
End PhaserEnergy.
Lemma weighted_sum l : stream 1 l -> total l = sum_to (fun k => sample_of l k * sample_of l k) (length l).
Proof.
  intros H. rewrite <- (firstn_all l) at 1. assert (G : forall n, (n <= length l)%nat -> total (firstn n l) = sum_to (fun k => sample_of l k * sample_of l k) n); [|now apply G].
  induction n as [|n IH]; intros Hn; [reflexivity|]. cbn [sum_to]. rewrite <- IH by lia.
  assert (F : firstn (S n) l = firstn n l ++ [nth n l []]). { clear IH H. revert l Hn. induction n as [|n IH]; intros [|i l] Hn; cbn in Hn; try lia; [reflexivity|]. rewrite firstn_cons. cbn [nth]. rewrite (IH l) by lia. reflexivity. }
  rewrite F, (frame1 l n H Hn). unfold total.
  assert (W : forall a b, weighted 1 (a ++ b) = weighted 1 a + weighted 1 b). { induction a as [|i a IHa]; intros b; cbn; [lra|]. rewrite IHa. ring. }
  rewrite W. f_equal. unfold weighted, energy. cbn. ring.
Qed.
Lemma phaser_energy sr h a c g l : usual sr -> (h < 2 ^ 64)%N -> Rabs a <= g < 1 -> 0 < g -> stream 1 l ->
  total (fx_outputs (phaser nR sr h a (fun _ => c)) l) <= total l / ((1 - g) * (1 - g)).
Proof.
  intros Hs Hh [Ha Hg] G Hl. set (f := fun _ : R => c).
  assert (St : forall k, swept sr f h k = 2 + 18 * clamp01 nR c). { intros k. pose proof (swept_range sr f h Hs Hh (2 + 18 * clamp01 nR c) (2 + 18 * clamp01 nR c) k (fun t _ => conj (Rle_refl _) (Rle_refl _))). lra. }
  assert (Hm : 0 <= 2 + 18 * clamp01 nR c) by (pose proof (clamp_in c); lra).
  pose proof (out_energy a sr f h _ g Hm St (conj G Hg) Ha (sample_of l) (length l)) as Q.
  rewrite (weighted_sum l Hl).
  assert (So : stream 1 (fx_outputs (phaser nR sr h a f) l)).
  { unfold stream. rewrite Forall_forall. intros o Ho. destruct (In_nth _ _ [] Ho) as (k & Hk & <-). unfold NodeSpec.outputs in Hk. rewrite tks_len in Hk. rewrite (phaser_out a sr f h Hs Hh l k Hl Hk). reflexivity. }
  rewrite (weighted_sum _ So). assert (Len : length (fx_outputs (phaser nR sr h a f) l) = length l) by (unfold NodeSpec.outputs; apply tks_len). rewrite Len.
  assert (Eq : forall n, (n <= length l)%nat -> sum_to (fun k => sample_of (fx_outputs (phaser nR sr h a f) l) k * sample_of (fx_outputs (phaser nR sr h a f) l) k) n =
    sum_to (fun k => (sample_of l k + a * levels a sr f h (sample_of l) k 10%nat) * (sample_of l k + a * levels a sr f h (sample_of l) k 10%nat)) n).
  { induction n as [|n IH]; intros Hn; [reflexivity|]. cbn [sum_to]. rewrite IH by lia.
    assert (Z_ : sample_of (fx_outputs (phaser nR sr h a f) l) n = sample_of l n + a * levels a sr f h (sample_of l) n 10%nat) by (unfold sample_of at 1; rewrite (phaser_out a sr f h Hs Hh l n Hl Hn); reflexivity).
    rewrite Z_. reflexivity. }
  rewrite Eq by lia. exact Q.
Qed.

(* ---- reset ---- *)
Notation resetR := (NodeModel.reset R_arith fxR).
Lemma map_zero (b : list R) : map (fun _ => 0) b = repeat 0 (length b). Proof. induction b as [|x b IH]; cbn; [reflexivity|]. now rewrite IH. Qed.
Lemma first_same a b l : stream 1 l -> (forall x, tickR a [x] = tickR b [x]) -> fx_outputs a l = fx_outputs b l.
Proof.
  intros Hl H. unfold NodeSpec.outputs. destruct l as [|i l]; [reflexivity|]. inversion Hl as [|? ? Hi _]; subst. destruct i as [|x [|]]; cbn in Hi; try discriminate. cbn [BufModel.ticks]. now rewrite H.
Qed.
Lemma keeps (I : NodeModel.node R (fx R) -> Prop) x l : I x -> (forall y v, I y -> I (fst (tickR y [v]))) -> stream 1 l -> I (fst (ticksR x l)).
Proof.
  intros H0 HS Hl. revert x H0. induction Hl as [|i l Hi _ IH]; intros x H0; [exact H0|]. destruct i as [|v [|]]; cbn in Hi; try discriminate.
  cbn [BufModel.ticks]. pose proof (HS x v H0) as H1. destruct (tickR x [v]) as [x' o]. specialize (IH x' H1). destruct (ticksR x' l). exact IH.
Qed.
Lemma like_refl e : like e e. Proof. repeat split. Qed.
Lemma like_trans a b c : like a b -> like b c -> like a c. Proof. unfold like. intuition congruence. Qed.
Lemma like_reset E e : like (env_reset nR idR (pure E) e) e. Proof. repeat split. Qed.
Definition chorus_like E lo hi sr e n (y : NodeModel.node R (fx R)) := exists e' s, like e' e /\ length (l_buf s) = n /\ y = chorus_node nR (XLfo 4 E e') (XTap 4 lo hi sr s).
Lemma chorus_like_tick E lo hi sr e n y v : chorus_like E lo hi sr e n y -> chorus_like E lo hi sr e n (fst (tickR y [v])).
Proof.
  intros (e' & s & A & B & ->). destruct (etick E e') as [e2 o] eqn:E1. destruct (tap_tick nR lo hi sr s (v :: o)) as [s2 w] eqn:E2.
  assert (W : exists w0, w = [w0]). { unfold tap_tick, taps_tick in E2. injection E2 as _ <-. eexists. reflexivity. } destruct W as [w0 ->].
  rewrite (chorus_tick lo hi sr E e' s v e2 o s2 w0 E1 E2). exists e2, s2. repeat split.
  - pose proof (etick_like E e') as K. rewrite E1 in K. exact (proj1 (like_trans _ _ _ K A)).
  - pose proof (etick_like E e') as K. rewrite E1 in K. exact (proj1 (proj2 (like_trans _ _ _ K A))).
  - pose proof (etick_like E e') as K. rewrite E1 in K. exact (proj2 (proj2 (like_trans _ _ _ K A))).
  - pose proof (tap_len sr lo hi s (v :: o)) as K. rewrite E2 in K. cbn in K. congruence.
Qed.
Lemma chorus_resets sr noise hash64g h seed sep var mf x : chorus nR sr noise hash64g h seed sep var mf = Some x ->
  forall l l', stream 1 l -> stream 1 l' -> fx_outputs (resetR (fst (ticksR x l))) l' = fx_outputs x l'.
Proof.
  intros Hx l l' Hl Hl'. unfold chorus, tap_new in Hx. set (hi := nadd nR _ _) in Hx. destruct (nleb nR (n0 nR) sep && nleb nR sep hi); [|discriminate]. injection Hx as <-.
  set (E := chorus_delays _ _ _ _ _ _). change (lfo nR sr h 4 (ndiv nR (n1 nR) (nofZ nR 100)) E) with (XLfo 4 E (start sr h 4 (1 / 100) E)).
  set (L := tap_length nR sr hi). set (e0 := env0 sr h 4 (1 / 100)).
  assert (I : chorus_like E sep hi sr e0 L (fst (ticksR (chorus_node nR (XLfo 4 E (start sr h 4 (1 / 100) E)) (XTap 4 sep hi sr (line_new (n0 nR) L))) l))).
  { apply keeps; [|intros y v; apply chorus_like_tick|exact Hl]. exists (start sr h 4 (1 / 100) E), (line_new (n0 nR) L). split; [apply like_reset|]. split; [apply repeat_length|reflexivity]. }
  match type of I with chorus_like _ _ _ _ _ _ (fst (ticksR ?X l)) => change (fx_outputs (resetR (fst (ticksR X l))) l' = fx_outputs X l') end.
  destruct I as (e' & s & A & B & ->). apply first_same; [exact Hl'|]. intros v.
  change (resetR (chorus_node nR (XLfo 4 E e') (XTap 4 sep hi sr s))) with (chorus_node nR (XLfo 4 E (env_reset nR idR (pure E) e')) (XTap 4 sep hi sr (mkLine (map (fun _ => 0) (l_buf s)) 0))).
  rewrite map_zero, B. change (mkLine (repeat 0 L) 0) with (line_new (n0 nR) L). pose proof (reset_tick E e' e0 A) as K. fold e0 in K.
  destruct (etick E (env_reset nR idR (pure E) e0)) as [e2 o] eqn:E1.
  destruct (tap_tick nR sep hi sr (line_new (n0 nR) L) (v :: o)) as [s2 w] eqn:E2.
  assert (W : exists w0, w = [w0]). { unfold tap_tick, taps_tick in E2. injection E2 as _ <-. eexists. reflexivity. } destruct W as [w0 ->].
  rewrite (chorus_tick sep hi sr E _ _ v e2 o s2 w0 K E2). symmetry. exact (chorus_tick sep hi sr E _ _ v e2 o s2 w0 E1 E2).
Qed.
Definition flanger_like a E lo hi sr e n (y : NodeModel.node R (fx R)) := exists e' s v, like e' e /\ length (l_buf s) = n /\ y = flanger_node a (XLfo 1 E e') (XTap 1 lo hi sr s) [v].
Lemma flanger_like_tick a E lo hi sr e n y v : flanger_like a E lo hi sr e n y -> flanger_like a E lo hi sr e n (fst (tickR y [v])).
Proof.
  intros (e' & s & fb & A & B & ->). destruct (etick E e') as [e2 o] eqn:E1. destruct (tap_tick nR lo hi sr s (v + fb :: o)) as [s2 w] eqn:E2.
  assert (W : exists w0, w = [w0]). { unfold tap_tick, taps_tick in E2. injection E2 as _ <-. eexists. reflexivity. } destruct W as [w0 ->].
  rewrite (flanger_tick a lo hi sr E e' s v fb e2 o s2 w0 E1 E2). exists e2, s2, (tanh (w0 * a)). split; [|split; [|reflexivity]].
  - pose proof (etick_like E e') as K. rewrite E1 in K. exact (like_trans _ _ _ K A).
  - pose proof (tap_len sr lo hi s (v + fb :: o)) as K. rewrite E2 in K. cbn in K. congruence.
Qed.
Lemma flanger_resets sr h a lo hi f x : flanger nR sr h a lo hi f = Some x ->
  forall l l', stream 1 l -> stream 1 l' -> fx_outputs (resetR (fst (ticksR x l))) l' = fx_outputs x l'.
Proof.
  intros Hx l l' Hl Hl'. unfold flanger, tap_new in Hx. destruct (nleb nR (n0 nR) lo && nleb nR lo hi); [|discriminate]. injection Hx as <-.
  set (E := fun t : R => [f t]). change (lfo nR sr h 1 (ndiv nR (n1 nR) (nofZ nR 500)) E) with (XLfo 1 E (start sr h 1 (1 / 500) E)).
  set (L := tap_length nR sr hi). set (e0 := env0 sr h 1 (1 / 500)).
  assert (I : flanger_like a E lo hi sr e0 L (fst (ticksR (flanger_node a (XLfo 1 E (start sr h 1 (1 / 500) E)) (XTap 1 lo hi sr (line_new (n0 nR) L)) [0]) l))).
  { apply keeps; [|intros y v; apply flanger_like_tick|exact Hl]. exists (start sr h 1 (1 / 500) E), (line_new (n0 nR) L), 0. split; [apply like_reset|]. split; [apply repeat_length|reflexivity]. }
  change (n0 nR) with 0 in *. match type of I with flanger_like _ _ _ _ _ _ _ (fst (ticksR ?X l)) => change (fx_outputs (resetR (fst (ticksR X l))) l' = fx_outputs X l') end.
  destruct I as (e' & s & fb & A & B & ->). apply first_same; [exact Hl'|]. intros v.
  change (resetR (flanger_node a (XLfo 1 E e') (XTap 1 lo hi sr s) [fb])) with (flanger_node a (XLfo 1 E (env_reset nR idR (pure E) e')) (XTap 1 lo hi sr (mkLine (map (fun _ => 0) (l_buf s)) 0)) [0]).
  rewrite map_zero, B. change (mkLine (repeat 0 L) 0) with (line_new 0 L). pose proof (reset_tick E e' e0 A) as K. fold e0 in K.
  destruct (etick E (env_reset nR idR (pure E) e0)) as [e2 o] eqn:E1.
  destruct (tap_tick nR lo hi sr (line_new 0 L) (v + 0 :: o)) as [s2 w] eqn:E2.
  assert (W : exists w0, w = [w0]). { unfold tap_tick, taps_tick in E2. injection E2 as _ <-. eexists. reflexivity. } destruct W as [w0 ->].
  rewrite (flanger_tick a lo hi sr E _ _ v 0 e2 o s2 w0 K E2). symmetry. exact (flanger_tick a lo hi sr E _ _ v 0 e2 o s2 w0 E1 E2).
Qed.
Lemma phaser_resets sr h a f : usual sr -> (h < 2 ^ 64)%N ->
  forall l l', stream 1 l -> stream 1 l' -> fx_outputs (resetR (fst (ticksR (phaser nR sr h a f) l))) l' = fx_outputs (phaser nR sr h a f) l'.
Proof.
  intros Hs Hh l l' Hl Hl'. rewrite <- (firstn_all l) at 1. destruct (phaser_state a sr f h Hs Hh l (length l) Hl (le_n _)) as (G & ->). apply first_same; [exact Hl'|]. intros v.
  set (k := length l). set (e0 := start sr h 1 (1 / 500) (sweep f)). set (p := prior a sr f h (sample_of l) k).
  change (resetR (phaser_node nR a (XLfo 1 (sweep f) (env_state (pure (sweep f)) e0 k)) (pstages G p) [a * p 10%nat])) with
    (phaser_node nR a (XLfo 1 (sweep f) (env_reset nR idR (pure (sweep f)) (env_state (pure (sweep f)) e0 k))) (pstages G (fun _ => 0)) [0]).
  rewrite phaser_start.
  assert (A : like (env_state (pure (sweep f)) e0 k) (env0 sr h 1 (1 / 500))). { induction k as [|k IH]; [apply like_reset|]. cbn [env_state]. exact (like_trans _ _ _ (etick_like _ _) IH). }
  pose proof (reset_tick (sweep f) _ _ A) as K. fold (start sr h 1 (1 / 500) (sweep f)) in K. fold e0 in K. pose proof (etick_sweep sr f h Hs Hh 0) as K0. cbn [env_state] in K0. fold e0 in K0. cbn [env_state] in K0.
  pose proof (eq_trans K K0) as K1.
  set (q := level (swept sr f h 0) (fun _ => 0) (v + 0)).
  rewrite (phaser_tick a (sweep f) G (fun _ => 0) q _ 0 v _ _ K1 eq_refl (fun j _ => eq_refl)).
  exact (eq_sym (phaser_tick a (sweep f) (fun _ => all_eta nR 1) (fun _ => 0) q _ 0 v _ _ K0 eq_refl (fun j _ => eq_refl))).
Qed.

Lemma phaser_energy' sr h a c g l : usual sr -> (h < 2 ^ 64)%N -> Rabs a <= g < 1 -> 0 < g -> stream 1 l ->
  energy_of (fx_outputs (phaser nR sr h a (fun _ => c)) l) <= energy_of l / ((1 - g) * (1 - g)).
Proof.
  intros Hs Hh Ha G Hl. unfold energy_of. rewrite <- (weighted_sum l Hl). rewrite <- weighted_sum; [now apply phaser_energy|].
  unfold stream. rewrite Forall_forall. intros o Ho. destruct (In_nth _ _ [] Ho) as (k & Hk & <-). unfold NodeSpec.outputs in Hk. rewrite tks_len in Hk. rewrite (phaser_out a sr _ h Hs Hh l k Hl Hk). reflexivity.
Qed.
Lemma flanger_dry sr h lo hi f : usual sr -> (h < 2 ^ 64)%N -> 0 <= lo <= hi -> (forall t, lo <= f t <= hi) ->
  exists x, flanger nR sr h 0 lo hi f = Some x /\ exists d : nat -> R, (forall k, lo <= d k <= hi) /\
  forall l k, stream 1 l -> (k < length l)%nat -> nth k (fx_outputs x l) [] = [sample_of l k + delayed_by sr lo hi (sample_of l) k (d k)].
Proof.
  intros Hs Hh Hl Hf. destruct (flanger_equation sr h 0 lo hi f Hs Hh Hl Hf) as (x & Hx & d & Hd & Q). exists x. split; [exact Hx|]. exists d. split; [exact Hd|].
  intros l k Hst Hk. destruct (Q l Hst) as (u & w & W). destruct (W k Hk) as (_ & W2 & W3). rewrite W3, W2. rewrite (delayed_ext sr lo hi u (sample_of l) k (d k)); [reflexivity|].
  intros j Hj. destruct (W j ltac:(lia)) as (W1 & _). rewrite W1. destruct j as [|j]; cbn [before]; [ring|]. rewrite Rmult_0_l. unfold tanh, sinh. rewrite Ropp_0. unfold Rdiv. rewrite Rminus_diag_eq by reflexivity. ring.
Qed.
Lemma fractal_of_range ha hg draws s x : (forall s, HashProofs.word 64 (ha s)) -> (forall s, draws s <> []) -> -1 <= fractal_of ha hg draws s x <= 1.
Proof.
  intros W D. unfold fractal_of. specialize (D s). destruct (fractal nR (spline_noise nR ha hg) (draws s) (9 / 20) x) as [y|] eqn:E; [|lra].
  exact (MathNoise.fractal_range _ (draws s) (9 / 20) x y (fun s y => MathNoise.spline_noise_range ha hg W s y) ltac:(lra) E).
Qed.
