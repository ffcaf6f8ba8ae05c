(* Proofs about chorus, flanger and phaser: their equations. *)
From Coq Require Import Reals Lra Lia Psatz.
From Verif Require Export FxProofs.
From Verif Require Import DelayReals EnvProofs MathReals MathNoise ShapeProofs ShapeSpec.
Import ListNotations.
Local Open Scope R_scope.
Notation tickR := (NodeModel.tick R_arith fxR).
Notation ticksR := (BufModel.ticks tickR).

Lemma tap_new_ok sr n lo hi : 0 <= lo <= hi -> tap_new nR sr n lo hi = Some (XTap n lo hi sr (line_new 0 (tap_length nR sr hi))).
Proof. intros [A B]. unfold tap_new. cbn [nleb Rnum_ops n0 nofZ]. destruct (Rle_dec 0 lo); [|contradiction]. destruct (Rle_dec lo hi); [reflexivity|contradiction]. Qed.
Lemma lfo_tap_tick n ch lo hi sr E e s x e' y s' w : etick E e = (e', y) -> tap_tick nR lo hi sr s (x :: y) = (s', w) ->
  tickR (Pipe (Stack Pass (Leaf (XLfo ch E e))) (Leaf (XTap n lo hi sr s))) [x] = (Pipe (Stack Pass (Leaf (XLfo ch E e'))) (Leaf (XTap n lo hi sr s')), w).
Proof.
  intros H1 H2. cbn [NodeModel.tick NodeModel.ins firstn skipn u_tick fxR fx_ops fx_tick app]. change (control E) with (pure E). rewrite H1. cbn [app]. rewrite H2. reflexivity.
Qed.

(* ---- chorus ---- *)
Lemma chorus_tick lo hi sr E e s x e' y s' w : etick E e = (e', y) -> tap_tick nR lo hi sr s (x :: y) = (s', [w]) ->
  tickR (chorus_node nR (XLfo 4 E e) (XTap 4 lo hi sr s)) [x] = (chorus_node nR (XLfo 4 E e') (XTap 4 lo hi sr s'), [(x + w) * (1 / 5)]).
Proof.
  intros H1 H2. unfold chorus_node. pose proof (lfo_tap_tick 4 4 lo hi sr E e s x e' y s' [w] H1 H2) as T.
  cbn [NodeModel.tick NodeModel.ins firstn skipn] in T |- *. rewrite T. reflexivity.
Qed.
Section Chorus.
  Variables (sr lo hi : R) (E : R -> list R) (h : N) (interval : R).
  Hypothesis Hs : 0 < sr. Hypothesis Hhi : 0 <= hi.
  Notation L := (tap_length nR sr hi).
  Notation e0 := (start sr h 4 interval E).
  Lemma chorus_state l k : stream 1 l -> (k <= length l)%nat -> exists s, holds 0 L (l_buf s) (l_i s) (hist (sample_of l) k) /\
    fst (ticksR (chorus_node nR (XLfo 4 E e0) (XTap 4 lo hi sr (line_new 0 L))) (firstn k l)) = chorus_node nR (XLfo 4 E (env_state (pure E) e0 k)) (XTap 4 lo hi sr s).
  Proof.
    intros Hl. induction k as [|k IH]; intros Hk.
    - exists (line_new 0 L). split; [|reflexivity]. apply holds_new. apply next_pow2_pos.
    - destruct IH as (s & A & B); [lia|]. rewrite tks_S by lia. rewrite B, frame1 by (auto; lia).
      destruct (tap_step sr lo hi Hs Hhi s (sample_of l) k (envelope_of sr h 4 interval E k) A) as [T1 T2].
      destruct (tap_tick nR lo hi sr s (sample_of l k :: envelope_of sr h 4 interval E k)) as [s' w] eqn:Et. cbn [fst snd] in T1, T2. subst w.
      rewrite (chorus_tick lo hi sr E _ s _ _ _ _ _ (etick_at sr h 4 interval E k) Et). exists s'. split; [exact T1|reflexivity].
  Qed.
  Lemma chorus_out l k : stream 1 l -> (k < length l)%nat ->
    nth k (fx_outputs (chorus_node nR (XLfo 4 E e0) (XTap 4 lo hi sr (line_new 0 L))) l) [] =
    [1 / 5 * (sample_of l k + fold_left (fun a dl => a + delayed_by sr lo hi (sample_of l) k dl) (envelope_of sr h 4 interval E k) 0)].
  Proof.
    intros Hl Hk. unfold NodeSpec.outputs. rewrite tks_nth by exact Hk. destruct (chorus_state l k Hl ltac:(lia)) as (s & A & B). rewrite B, frame1 by auto.
    destruct (tap_step sr lo hi Hs Hhi s (sample_of l) k (envelope_of sr h 4 interval E k) A) as [T1 T2].
    destruct (tap_tick nR lo hi sr s (sample_of l k :: envelope_of sr h 4 interval E k)) as [s' w] eqn:Et. cbn [fst snd] in T1, T2. subst w.
    rewrite (chorus_tick lo hi sr E _ s _ _ _ _ _ (etick_at sr h 4 interval E k) Et). cbn [snd]. f_equal. ring.
  Qed.
End Chorus.
Lemma lerp11_range a v x : 0 <= v -> -1 <= x <= 1 -> a <= lerp11 nR a (a + v) x <= a + v.
Proof. intros V X. unfold lerp11, lerp, half. nums. nra. Qed.
Lemma chorus_delays_range noise seeds sep var mf t j : 0 <= var -> (forall s x, -1 <= noise s x <= 1) -> (j < 4)%nat ->
  sep * (INR j + 1) <= nth j (chorus_delays nR noise seeds sep var mf t) 0 <= sep * (INR j + 1) + var.
Proof.
  intros V N J. unfold chorus_delays. cbn [seq map Nat.eqb]. destruct j as [|[|[|[|j]]]]; [| | | |lia]; cbn [nth INR].
  - rewrite Rplus_0_l, Rmult_1_r. apply lerp11_range; [exact V|apply N].
  - replace (1 + 1) with (nofZ nR (Z.of_nat 2)) by (cbn; lra). apply lerp11_range; [exact V|apply N].
  - replace (1 + 1 + 1) with (nofZ nR (Z.of_nat 3)) by (cbn; lra). apply lerp11_range; [exact V|apply N].
  - replace (1 + 1 + 1 + 1) with (nofZ nR (Z.of_nat 4)) by (cbn; lra). apply lerp11_range; [exact V|apply N].
Qed.
Lemma usual_interval sr c : usual sr -> 1 / 500 <= c <= 1 -> 4 / 3 <= c * sr <= IZR (2 ^ 62).
Proof. intros [A B] [C D]. split; [nra|]. assert (0 <= (1 - c) * sr) by (apply Rmult_le_pos; lra). lra. Qed.
Definition mix_of (sr lo hi : R) (u : nat -> R) (k : nat) (d : list R) : R := fold_left (fun a dl => a + delayed_by sr lo hi u k dl) d 0.
Lemma chorus_equation sr noise hash64g h seed sep var mf : usual sr -> (h < 2 ^ 64)%N -> 0 <= sep -> 0 <= var -> (forall s x, -1 <= noise s x <= 1) ->
  exists x, chorus nR sr noise hash64g h seed sep var mf = Some x /\ exists d1 d2 d3 d4 : nat -> R,
  (forall k, sep <= d1 k <= sep + var /\ 2 * sep <= d2 k <= 2 * sep + var /\ 3 * sep <= d3 k <= 3 * sep + var /\ 4 * sep <= d4 k <= 4 * sep + var) /\
  forall l k, stream 1 l -> (k < length l)%nat -> let v := fun d : nat -> R => delayed_by sr sep (4 * sep + var) (sample_of l) k (d k) in
    nth k (fx_outputs x l) [] = [1 / 5 * (sample_of l k + v d1 + v d2 + v d3 + v d4)].
Proof.
  intros Hsr Hh S V Nz. set (E := chorus_delays nR noise (chorus_seeds hash64g seed) sep var mf).
  assert (P : 0 < sr) by (destruct Hsr; lra).
  pose proof (usual_interval sr (1 / 100) Hsr ltac:(lra)) as I.
  exists (chorus_node nR (XLfo 4 E (start sr h 4 (1 / 100) E)) (XTap 4 sep (4 * sep + var) sr (line_new 0 (tap_length nR sr (4 * sep + var))))).
  split.
  { unfold chorus. replace (nadd nR (nmul nR sep (nofZ nR 4)) var) with (4 * sep + var) by (cbn; ring). rewrite (tap_new_ok sr 4 sep (4 * sep + var)) by lra. reflexivity. }
  set (d := fun j k => nth j (envelope_of sr h 4 (1 / 100) E k) 0). exists (d 0%nat), (d 1%nat), (d 2%nat), (d 3%nat).
  assert (HE : forall t, length (E t) = 4%nat) by reflexivity.
  split.
  - assert (R_ : forall j k, (j < 4)%nat -> sep * (INR j + 1) <= d j k <= sep * (INR j + 1) + var).
    { intros j k J. exact (range_of sr h 4 (1 / 100) E j _ _ k P I Hh HE J (fun t _ => chorus_delays_range noise _ sep var mf t j V Nz J)). }
    intros k. pose proof (R_ 0%nat k ltac:(lia)) as R0. pose proof (R_ 1%nat k ltac:(lia)) as R1. pose proof (R_ 2%nat k ltac:(lia)) as R2. pose proof (R_ 3%nat k ltac:(lia)) as R3. cbn [INR] in *. lra.
  - intros l k Hl Hk v. rewrite (chorus_out sr sep (4 * sep + var) E h (1 / 100) P ltac:(lra) l k Hl Hk).
    pose proof (length_of sr h 4 (1 / 100) E k P I Hh HE) as Ln. unfold v, d. destruct (envelope_of sr h 4 (1 / 100) E k) as [|a [|b [|c [|e [|]]]]]; cbn in Ln; try discriminate.
    cbn [fold_left nth]. f_equal. ring.
Qed.
Lemma Rabs_add a b x y : Rabs a <= x -> Rabs b <= y -> Rabs (a + b) <= x + y.
Proof. intros. pose proof (Rabs_triang a b). lra. Qed.
Lemma chorus_bound sr noise hash64g h seed sep var mf x B : usual sr -> (h < 2 ^ 64)%N -> 0 <= sep -> 0 <= var -> (forall s x, -1 <= noise s x <= 1) ->
  chorus nR sr noise hash64g h seed sep var mf = Some x -> forall l k, stream 1 l -> (forall j, Rabs (sample_of l j) <= B) -> (k < length l)%nat ->
  exists y, nth k (fx_outputs x l) [] = [y] /\ Rabs y <= 6 / 5 * B.
Proof.
  intros Hsr Hh S V Nz Hx l k Hl HB Hk. destruct (chorus_equation sr noise hash64g h seed sep var mf Hsr Hh S V Nz) as (x' & Ex & d1 & d2 & d3 & d4 & _ & Q). rewrite Hx in Ex. injection Ex as <-.
  rewrite (Q l k Hl Hk). eexists. split; [reflexivity|]. rewrite Rabs_mult, (Rabs_right (1 / 5)) by lra.
  assert (D : forall dl, Rabs (delayed_by sr sep (4 * sep + var) (sample_of l) k dl) <= 5 / 4 * B) by (intros dl; apply delayed_bound; intros; apply HB).
  pose proof (Rabs_add _ _ _ _ (Rabs_add _ _ _ _ (Rabs_add _ _ _ _ (Rabs_add _ _ _ _ (HB k) (D (d1 k))) (D (d2 k))) (D (d3 k))) (D (d4 k))). cbv zeta. lra.
Qed.

(* ---- flanger ---- *)
Lemma bus_feedback2 X Y X' Y' v x o o' F : tickR X [x + v] = (X', o) -> tickR Y o = (Y', o') ->
  tickR (Bus Pass (Feedback2 X Y [v] F)) [x] = (Bus Pass (Feedback2 X' Y' (F o') F), vadd R_arith [x] o).
Proof. intros H1 H2. cbn [NodeModel.tick]. change (vadd R_arith [x] [v]) with [x + v]. rewrite H1, H2. reflexivity. Qed.
Lemma flanger_tick a lo hi sr E e s x v e' y s' w : etick E e = (e', y) -> tap_tick nR lo hi sr s (x + v :: y) = (s', [w]) ->
  tickR (flanger_node a (XLfo 1 E e) (XTap 1 lo hi sr s) [v]) [x] = (flanger_node a (XLfo 1 E e') (XTap 1 lo hi sr s') [tanh (w * a)], [x + w]).
Proof.
  intros H1 H2. unfold flanger_node. pose proof (lfo_tap_tick 1 1 lo hi sr E e s (x + v) e' y s' [w] H1 H2) as T.
  exact (bus_feedback2 _ (Leaf (XTanh a)) _ (Leaf (XTanh a)) v x [w] [tanh (w * a)] (fun x => x) T eq_refl).
Qed.
Lemma delayed_ext sr lo hi u v k dl : (forall j, (j <= k)%nat -> u j = v j) -> delayed_by sr lo hi u k dl = delayed_by sr lo hi v k dl.
Proof. intros H. apply cubic_spec_ext. intros j. unfold recent. destruct (Nat.leb_spec j k); [apply H; lia|reflexivity]. Qed.
Section Flanger.
  Variables (a sr lo hi : R) (f : R -> R) (h : N).
  Notation L := (tap_length nR sr hi).
  Notation E := (fun t => [f t]).
  Notation e0 := (start sr h 1 (1 / 500) E).
  Notation d k := (nth 0 (envelope_of sr h 1 (1 / 500) E k) 0).
  Variable x : nat -> R.
  (* the input of the delay, the latest sample first *)
  Fixpoint driven (k : nat) : nat -> R :=
    match k with
    | O => fun _ => x 0%nat
    | S j => fun i => if Nat.leb i j then driven j i else x (S j) + tanh (delayed_by sr lo hi (driven j) j (d j) * a)
    end.
  Definition drive (k : nat) : R := driven k k.
  Lemma driven_keep k j : (j <= k)%nat -> driven k j = drive j.
  Proof.
    induction k as [|k IH]; intros H; [replace j with 0%nat by lia; reflexivity|]. destruct (Nat.eq_dec j (S k)) as [->|]; [reflexivity|].
    cbn [driven]. rewrite (proj2 (Nat.leb_le j k)) by lia. apply IH. lia.
  Qed.
  Definition wet (k : nat) : R := delayed_by sr lo hi drive k (d k).
  Lemma drive_eq k : drive k = x k + before (fun j => tanh (a * wet j)) k.
  Proof.
    destruct k as [|k]; [unfold drive; cbn; ring|]. unfold drive at 1. cbn [driven before]. rewrite (proj2 (Nat.leb_gt (S k) k)) by lia.
    rewrite (delayed_ext sr lo hi (driven k) drive) by (intros; now apply driven_keep). fold (wet k). now rewrite (Rmult_comm a).
  Qed.
End Flanger.
Section FlangerRun.
  Variables (a sr lo hi : R) (f : R -> R) (h : N).
  Hypothesis Hs : usual sr. Hypothesis Hh : (h < 2 ^ 64)%N. Hypothesis Hl : 0 <= lo <= hi.
  Notation L := (tap_length nR sr hi).
  Notation E := (fun t => [f t]).
  Notation e0 := (start sr h 1 (1 / 500) E).
  Notation x0 := (flanger_node a (XLfo 1 E e0) (XTap 1 lo hi sr (line_new 0 L)) [0]).
  Lemma one_delay k : envelope_of sr h 1 (1 / 500) E k = [nth 0 (envelope_of sr h 1 (1 / 500) E k) 0].
  Proof.
    pose proof (length_of sr h 1 (1 / 500) E k ltac:(destruct Hs; lra) (usual_interval sr (1 / 500) Hs ltac:(lra)) Hh (fun _ => eq_refl)) as Ln.
    destruct (envelope_of sr h 1 (1 / 500) E k) as [|? [|]]; cbn in Ln; try discriminate. reflexivity.
  Qed.
  Lemma flanger_state l k : stream 1 l -> (k <= length l)%nat -> exists s, holds 0 L (l_buf s) (l_i s) (hist (drive a sr lo hi f h (sample_of l)) k) /\
    fst (ticksR x0 (firstn k l)) = flanger_node a (XLfo 1 E (env_state (pure E) e0 k)) (XTap 1 lo hi sr s) [before (fun j => tanh (a * wet a sr lo hi f h (sample_of l) j)) k].
  Proof.
    assert (P : 0 < sr) by (destruct Hs; lra).
    intros Hst. induction k as [|k IH]; intros Hk.
    - exists (line_new 0 L). split; [|reflexivity]. apply holds_new. apply next_pow2_pos.
    - destruct IH as (s & A & B); [lia|]. rewrite tks_S by lia. rewrite B, frame1 by (auto; lia).
      destruct (tap_step sr lo hi P ltac:(lra) s (drive a sr lo hi f h (sample_of l)) k (envelope_of sr h 1 (1 / 500) E k) A) as [T1 T2].
      destruct (tap_tick nR lo hi sr s (drive a sr lo hi f h (sample_of l) k :: envelope_of sr h 1 (1 / 500) E k)) as [s' w] eqn:Et. cbn [fst snd] in T1, T2.
      rewrite one_delay in T2. cbn [fold_left] in T2. rewrite Rplus_0_l in T2. subst w. rewrite (drive_eq a sr lo hi f h (sample_of l) k) in Et.
      rewrite (flanger_tick a lo hi sr E _ s _ _ _ _ _ _ (etick_at sr h 1 (1 / 500) E k) Et). exists s'. split; [exact T1|]. cbn [fst before]. do 2 f_equal. rewrite Rmult_comm. reflexivity.
  Qed.
  Lemma flanger_out l k : stream 1 l -> (k < length l)%nat -> nth k (fx_outputs x0 l) [] = [sample_of l k + wet a sr lo hi f h (sample_of l) k].
  Proof.
    assert (P : 0 < sr) by (destruct Hs; lra).
    intros Hst Hk. unfold NodeSpec.outputs. rewrite tks_nth by exact Hk. destruct (flanger_state l k Hst ltac:(lia)) as (s & A & B). rewrite B, frame1 by auto.
    destruct (tap_step sr lo hi P ltac:(lra) s (drive a sr lo hi f h (sample_of l)) k (envelope_of sr h 1 (1 / 500) E k) A) as [T1 T2].
    destruct (tap_tick nR lo hi sr s (drive a sr lo hi f h (sample_of l) k :: envelope_of sr h 1 (1 / 500) E k)) as [s' w] eqn:Et. cbn [fst snd] in T1, T2.
    rewrite one_delay in T2. cbn [fold_left] in T2. rewrite Rplus_0_l in T2. subst w. rewrite (drive_eq a sr lo hi f h (sample_of l) k) in Et.
    rewrite (flanger_tick a lo hi sr E _ s _ _ _ _ _ _ (etick_at sr h 1 (1 / 500) E k) Et). reflexivity.
  Qed.
End FlangerRun.
Lemma flanger_equation sr h a lo hi f : usual sr -> (h < 2 ^ 64)%N -> 0 <= lo <= hi -> (forall t, lo <= f t <= hi) ->
  exists x, flanger nR sr h a lo hi f = Some x /\ exists d : nat -> R, (forall k, lo <= d k <= hi) /\
  forall l, stream 1 l -> exists u w : nat -> R, forall k, (k < length l)%nat ->
    u k = sample_of l k + before (fun j => tanh (a * w j)) k /\ w k = delayed_by sr lo hi u k (d k) /\ nth k (fx_outputs x l) [] = [sample_of l k + w k].
Proof.
  intros Hs Hh Hl Hf. exists (flanger_node a (XLfo 1 (fun t => [f t]) (start sr h 1 (1 / 500) (fun t => [f t]))) (XTap 1 lo hi sr (line_new 0 (tap_length nR sr hi))) [0]). split.
  { unfold flanger. rewrite (tap_new_ok sr 1 lo hi) by lra. reflexivity. }
  exists (fun k => nth 0 (envelope_of sr h 1 (1 / 500) (fun t => [f t]) k) 0). split.
  { intros k. exact (range_of sr h 1 (1 / 500) (fun t => [f t]) 0 lo hi k ltac:(destruct Hs; lra) (usual_interval sr (1 / 500) Hs ltac:(lra)) Hh (fun _ => eq_refl) ltac:(lia) (fun t _ => Hf t)). }
  intros l Hst. exists (drive a sr lo hi f h (sample_of l)), (wet a sr lo hi f h (sample_of l)). intros k Hk. repeat split.
  - apply drive_eq.
  - now apply flanger_out.
Qed.
Lemma tanh_bound x : Rabs (tanh x) <= 1.
Proof. rewrite tanh_exp. pose proof (exp_pos (2 * x)) as P. assert (A : 0 < 2 / (exp (2 * x) + 1)) by (apply Rdiv_lt_0_compat; lra). assert (B : 2 / (exp (2 * x) + 1) < 2). { apply (Rmult_lt_reg_r (exp (2 * x) + 1)); [lra|]. replace (2 / (exp (2 * x) + 1) * (exp (2 * x) + 1)) with 2 by (field; lra). lra. } apply Rabs_le. lra. Qed.
Lemma flanger_bound sr h a lo hi f x B : usual sr -> (h < 2 ^ 64)%N -> 0 <= lo <= hi ->
  flanger nR sr h a lo hi f = Some x -> forall l k, stream 1 l -> (forall j, Rabs (sample_of l j) <= B) -> (k < length l)%nat ->
  exists y, nth k (fx_outputs x l) [] = [y] /\ Rabs y <= 9 / 4 * B + 5 / 4.
Proof.
  intros Hs Hh Hl Hx l k Hst HB Hk. unfold flanger in Hx. rewrite (tap_new_ok sr 1 lo hi) in Hx by lra. injection Hx as <-.
  eexists. split; [exact (flanger_out a sr lo hi f h Hs Hh Hl l k Hst Hk)|].
  assert (D : Rabs (wet a sr lo hi f h (sample_of l) k) <= 5 / 4 * (B + 1)).
  { apply delayed_bound. intros j _. rewrite drive_eq. apply Rabs_add; [apply HB|]. destruct j as [|j]; cbn [before]; [rewrite Rabs_R0; lra|apply tanh_bound]. }
  pose proof (Rabs_add _ _ _ _ (HB k) D). lra.
Qed.
