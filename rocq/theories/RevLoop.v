(* Proofs about the energy in the loop of Reverb. *)
From Coq Require Import Reals Lra.
From Verif Require Export RevSpec.
From Verif Require Import Base BufProofs HadamardProofs DelaySpec DelayProofs DelayReals RevProofs.
From Verif Require Import RevSpec.
Local Open Scope R_scope.
Notation energy := HadamardSpec.energy.

Lemma energy_upd b : forall i x, (i < length b)%nat -> energy (upd b i x) = energy b - nth i b 0 * nth i b 0 + x * x.
Proof. induction b as [|y b IH]; intros [|i] x H; cbn in *; try lia; [ring|]. rewrite IH by lia. ring. Qed.
Lemma upd_out {A} (b : list A) : forall i x, (length b <= i)%nat -> upd b i x = b.
Proof. induction b as [|y b IH]; intros [|i] x H; cbn in *; try lia; auto. rewrite IH by lia. reflexivity. Qed.
Lemma nth_le_energy b i : nth i b 0 * nth i b 0 <= energy b.
Proof. revert i. induction b as [|y b IH]; intros [|i]; cbn; try lra; [pose proof (energy_pos b); lra|]. pose proof (sq_nonneg y). specialize (IH i). lra. Qed.

(* what a delay holds: the sample to be written over has been played *)
Definition d_held (d : @delay R) : R := let l := d_line d in energy (l_buf l) - nth (l_i l) (l_buf l) 0 * nth (l_i l) (l_buf l) 0.
Lemma d_held_pos d : 0 <= d_held d. Proof. unfold d_held. pose proof (nth_le_energy (l_buf (d_line d)) (l_i (d_line d))). lra. Qed.
Lemma d_held_tick d v : let (d', o) := delay_step Rnum_ops d [v] in nth 0 o 0 * nth 0 o 0 + d_held d' <= v * v + d_held d.
Proof.
  destruct d as [t sr [b i]]. unfold delay_step, DelayModel.delay_tick, d_held. cbv beta iota zeta. cbn [d_line l_buf l_i]. change (n0 Rnum_ops) with 0. cbn [nth]. match goal with |- context [if ?c then ?x else ?y] => set (j := if c then x else y) end. 
  enough (energy (upd b i v) <= v * v + (energy b - nth i b 0 * nth i b 0)) by lra. destruct (Nat.lt_ge_cases i (length b)) as [H|H].
  - rewrite energy_upd by exact H. lra.
  - rewrite upd_out, nth_overflow by exact H. pose proof (sq_nonneg v). lra.
Qed.
Lemma d_held_new t sr n : d_held (mkDelay t sr (line_new 0 n)) = 0.
Proof. unfold d_held. cbn [d_line line_new l_buf l_i]. rewrite energy_zeros, nth_repeat. ring. Qed.
Lemma d_held_reset d : d_held (delay_reset Rnum_ops d) = 0. Proof. apply d_held_new. Qed.
Lemma d_held_rate d sr : d_held (delay_set_sample_rate Rnum_ops d sr) <= d_held d.
Proof. unfold delay_set_sample_rate. destruct (fneq _ _ _); [rewrite d_held_new; apply d_held_pos|lra]. Qed.

Section Loop.
  Context {P X : Type}.
  Variable xo : unit_ops R P X.
  Variable x_rate : X -> R -> X.
  Variable held : X -> R.
  Hypothesis Hp : passive xo x_rate held.
  Notation sch := (@schroeder R).
  Notation dops := (@dl_ops R Rnum_ops P).
  Notation chain := (sch_chain (P := P) Rnum_ops).

  Definition s_ok (s : sch) : Prop := -1 <= an_eta s <= 1.
  Definition s_held (s : sch) : R := (1 - an_eta s * an_eta s) * (an_z s * an_z s + d_held (an_x s)).
  Lemma s_held_pos s : s_ok s -> 0 <= s_held s.
  Proof. unfold s_ok, s_held. intros H. pose proof (d_held_pos (an_x s)). pose proof (sq_nonneg (an_z s)). apply Rmult_le_pos; nra. Qed.
  Lemma s_held_tick s v : s_ok s -> let (s', y) := mono Rnum_ops (all_tick Rnum_ops dops) s v in s_ok s' /\ y * y + s_held s' <= v * v + s_held s.
  Proof.
    destruct s as [d eta z]. unfold s_ok, s_held, mono, all_tick. cbn [an_x an_eta an_z nth u_tick dl_ops nsub nmul nadd Rnum_ops]. intros H. set (w := v - eta * z). pose proof (d_held_tick d w) as D. fold Rnum_ops.
    destruct (delay_step Rnum_ops d [w]) as [d' o]. cbn [an_x an_eta an_z nth]. split; [exact H|]. change (n0 Rnum_ops) with 0. set (p := nth 0 o 0) in *.
    assert (E : v * v - (eta * w + z) * (eta * w + z) = (1 - eta * eta) * (w * w - z * z)) by (replace v with (w + eta * z) by (subst w; ring); ring).
    assert (M : (1 - eta * eta) * (p * p + d_held d') <= (1 - eta * eta) * (w * w + d_held d)) by (apply Rmult_le_compat_l; nra). lra.
  Qed.
  Lemma s_held_reset s : s_ok s -> s_ok (all_reset Rnum_ops dops s) /\ s_held (all_reset Rnum_ops dops s) = 0.
  Proof. intros H. split; [exact H|]. unfold s_held, all_reset. cbn [an_x an_eta an_z u_reset dl_ops]. rewrite d_held_reset. change (n0 Rnum_ops) with 0. ring. Qed.
  Lemma s_held_rate s sr : s_ok s -> s_ok (sch_rate Rnum_ops s sr) /\ s_held (sch_rate Rnum_ops s sr) <= s_held s.
  Proof.
    intros H. split; [exact H|]. unfold s_held, sch_rate. cbn [an_x an_eta an_z]. unfold s_ok in H. pose proof (d_held_rate (an_x s) sr). apply Rmult_le_compat_l; [nra|lra].
  Qed.

  Definition l_held (l : list sch) : R := fold_right (fun s a => s_held s + a) 0 l.
  Lemma l_held_pos l : Forall s_ok l -> 0 <= l_held l.
  Proof. induction 1 as [|s l H _ IH]; cbn; [lra|]. pose proof (s_held_pos s H). unfold l_held in IH. lra. Qed.
  Lemma l_held_tick l : Forall s_ok l -> forall v, let (l', y) := chain l v in Forall s_ok l' /\ length l' = length l /\ y * y + l_held l' <= v * v + l_held l.
  Proof.
    induction 1 as [|s l H _ IH]; intros v; cbn [sch_chain]; [split; [constructor|split; [reflexivity|unfold l_held; cbn; lra]]|].
    pose proof (s_held_tick s v H) as T. destruct (mono Rnum_ops (all_tick Rnum_ops dops) s v) as [s' w]. specialize (IH w). destruct (chain l w) as [l' y]. destruct T as [T1 T2], IH as (I1 & I2 & I3). split; [constructor; assumption|]. split; [cbn; congruence|].
    unfold l_held in *. cbn [fold_right]. lra.
  Qed.
  Lemma l_held_reset l : Forall s_ok l -> let m := map (all_reset Rnum_ops dops) l in Forall s_ok m /\ l_held m = 0.
  Proof. induction 1 as [|s l H _ [I1 I2]]; cbn; [split; [constructor|reflexivity]|]. destruct (s_held_reset s H) as [R1 R2]. split; [constructor; assumption|]. unfold l_held in I2. rewrite R2, I2. ring. Qed.
  Lemma l_held_rate l sr : Forall s_ok l -> let m := map (fun s => sch_rate Rnum_ops s sr) l in Forall s_ok m /\ l_held m <= l_held l.
  Proof. induction 1 as [|s l H _ [I1 I2]]; cbn; [split; [constructor|lra]|]. destruct (s_held_rate s sr H) as [R1 R2]. split; [constructor; assumption|]. unfold l_held in I2. lra. Qed.
  Lemma x_mono x v : let (x', y) := mono Rnum_ops (u_tick xo) x v in y * y + held x' <= v * v + held x.
  Proof. destruct Hp as (_ & H & _). specialize (H x v). unfold mono. destruct (u_tick xo x [v]) as [x' o]. exact H. Qed.
  Lemma d_mono d v : let (d', y) := mono Rnum_ops (delay_step Rnum_ops) d v in y * y + d_held d' <= v * v + d_held d.
  Proof. pose proof (d_held_tick d v) as H. unfold mono. destruct (delay_step Rnum_ops d [v]) as [d' o]. exact H. Qed.

  (* ---- blocks ---- *)
  Notation blk := (rblock R X).
  Definition b_ok (b : blk) : Prop := Forall s_ok (rb_all0 b) /\ Forall s_ok (rb_all1 b).
  Definition b_held0 (b : blk) : R := l_held (rb_all0 b) + held (rb_f0 b).
  Definition b_held1 (b : blk) : R := l_held (rb_all1 b) + held (rb_f1 b).
  Definition b_heldd (b : blk) : R := d_held (rb_delay b).
  Lemma b_pos b : b_ok b -> 0 <= b_held0 b /\ 0 <= b_held1 b /\ 0 <= b_heldd b.
  Proof. intros [H0 H1]. destruct Hp as (H & _). pose proof (H (rb_f0 b)). pose proof (H (rb_f1 b)). pose proof (l_held_pos _ H0). pose proof (l_held_pos _ H1). pose proof (d_held_pos (rb_delay b)). unfold b_held0, b_held1, b_heldd. lra. Qed.
  Variable a : R.
  Hypothesis Ha : 0 <= a < 1.
  Lemma convex u i : (a * u + i) * (a * u + i) <= a * (u * u) + i * i / (1 - a).
  Proof.
    assert (E : a * (u * u) + i * i / (1 - a) - (a * u + i) * (a * u + i) = a / (1 - a) * (((1 - a) * u - i) * ((1 - a) * u - i))) by (field; lra).
    assert (0 <= a / (1 - a)) by (apply Rmult_le_pos; [lra|left; apply Rinv_0_lt_compat; lra]). pose proof (sq_nonneg ((1 - a) * u - i)). nra.
  Qed.
  Lemma b_tick b v i0 i1 : b_ok b -> let '(b', (y, o)) := block_tick Rnum_ops xo a i0 i1 b v in b_ok b' /\
    o * o + b_held0 b' + a * b_heldd b' <= b_held0 b + a * b_heldd b + a * (v * v) + i0 * i0 / (1 - a) /\ y * y + b_held1 b' <= b_held1 b + a * (o * o) + i1 * i1 / (1 - a).
  Proof.
    intros [H0 H1]. unfold block_tick. pose proof (d_mono (rb_delay b) v) as D. destruct (mono Rnum_ops (delay_step Rnum_ops) (rb_delay b) v) as [d u]. cbn [nadd nmul Rnum_ops]. fold Rnum_ops.
    pose proof (l_held_tick _ H0 (a * u + i0)) as L0. destruct (chain (rb_all0 b) (a * u + i0)) as [l0 w]. pose proof (x_mono (rb_f0 b) w) as X0. destruct (mono Rnum_ops (u_tick xo) (rb_f0 b) w) as [f0 o].
    pose proof (l_held_tick _ H1 (a * o + i1)) as L1. destruct (chain (rb_all1 b) (a * o + i1)) as [l1 w1]. pose proof (x_mono (rb_f1 b) w1) as X1. destruct (mono Rnum_ops (u_tick xo) (rb_f1 b) w1) as [f1 y].
    destruct L0 as (L0 & _ & L0'), L1 as (L1 & _ & L1'). split; [split; assumption|]. unfold b_held0, b_held1, b_heldd. cbn [rb_all0 rb_all1 rb_f0 rb_f1 rb_delay].
    pose proof (convex u i0) as C0. pose proof (convex o i1) as C1. assert (a * (u * u + d_held d) <= a * (v * v + d_held (rb_delay b))) by (apply Rmult_le_compat_l; lra). split; lra.
  Qed.
  Lemma b_reset b : b_ok b -> let m := block_reset Rnum_ops xo b in b_ok m /\ b_held0 m <= b_held0 b /\ b_held1 m <= b_held1 b /\ b_heldd m <= b_heldd b.
  Proof.
    intros [H0 H1] m. destruct (l_held_reset _ H0) as [R0 E0]. destruct (l_held_reset _ H1) as [R1 E1]. destruct Hp as (_ & _ & H & _). pose proof (H (rb_f0 b)). pose proof (H (rb_f1 b)). split; [split; assumption|].
    unfold m, b_held0, b_held1, b_heldd, block_reset. cbn [rb_all0 rb_all1 rb_f0 rb_f1 rb_delay]. rewrite d_held_reset. cbv zeta in E0, E1. rewrite E0, E1. pose proof (l_held_pos _ H0). pose proof (l_held_pos _ H1). pose proof (d_held_pos (rb_delay b)). lra.
  Qed.
  Lemma b_rate sr b : b_ok b -> let m := block_rate Rnum_ops x_rate sr b in b_ok m /\ b_held0 m <= b_held0 b /\ b_held1 m <= b_held1 b /\ b_heldd m <= b_heldd b.
  Proof.
    intros [H0 H1] m. destruct (l_held_rate _ sr H0) as [R0 E0]. destruct (l_held_rate _ sr H1) as [R1 E1]. destruct Hp as (_ & _ & _ & H). pose proof (H (rb_f0 b) sr). pose proof (H (rb_f1 b) sr). split; [split; assumption|].
    unfold m, b_held0, b_held1, b_heldd, block_rate. cbn [rb_all0 rb_all1 rb_f0 rb_f1 rb_delay]. pose proof (d_held_rate (rb_delay b) sr). cbv zeta in E0, E1. lra.
  Qed.

  (* all blocks but the last: the weight of a block falls with the number of blocks after it *)
  Definition b_pot (b : blk) : R := b_held1 b + a * (b_held0 b + a * b_heldd b).
  Fixpoint pot (bs : list blk) : R := match bs with [] => 0 | b :: r => (a * a) ^ length r * b_pot b + pot r end.
  Fixpoint geo (n : nat) : R := match n with O => 0 | S n => geo n + (a * a) ^ n end.
  Lemma geo_eq n : geo n * (1 - a * a) = 1 - (a * a) ^ n. Proof. induction n as [|n IH]; cbn; [ring|]. rewrite Rmult_plus_distr_r, IH. ring. Qed.
  Lemma b_pot_pos b : b_ok b -> 0 <= b_pot b.
  Proof. intros H. destruct (b_pos b H) as (H0 & H1 & Hd). unfold b_pot. assert (0 <= a * (b_held0 b + a * b_heldd b)) by (apply Rmult_le_pos; nra). lra. Qed.
  Lemma sq_pow n : 0 <= (a * a) ^ n. Proof. apply pow_le. nra. Qed.
  Lemma pot_pos bs : Forall b_ok bs -> 0 <= pot bs.
  Proof. induction 1 as [|b r H _ IH]; cbn; [lra|]. pose proof (b_pot_pos b H). pose proof (sq_pow (length r)). nra. Qed.
  Lemma blocks_tick_eq bs i0 i1 : Forall b_ok bs -> forall v o0 o1, let '(bs', (y, p0, p1)) := blocks_tick Rnum_ops xo a i0 i1 bs v o0 o1 in
    Forall b_ok bs' /\ length bs' = length bs /\ y * y + pot bs' <= pot bs + (a * a) ^ length bs * (v * v) + (a * (i0 * i0) + i1 * i1) / (1 - a) * geo (length bs).
  Proof.
    induction 1 as [|b r H _ IH]; intros v o0 o1; cbn [blocks_tick].
    - split; [constructor|]. split; [reflexivity|]. cbn. lra.
    - pose proof (b_tick b v i0 i1 H) as B. destruct (block_tick Rnum_ops xo a i0 i1 b v) as [b' [y o]]. destruct B as (B1 & B2 & B3). specialize (IH y o y). destruct (blocks_tick Rnum_ops xo a i0 i1 r y o y) as [r' [[z p0] p1]].
      destruct IH as (I1 & I2 & I3). split; [constructor; assumption|]. split; [cbn; congruence|]. cbn [pot length geo]. rewrite I2. set (w := (a * a) ^ length r) in *. assert (W : 0 <= w) by apply sq_pow.
      assert (B4 : y * y + b_pot b' <= b_pot b + a * a * (v * v) + (a * (i0 * i0) + i1 * i1) / (1 - a)).
      { unfold b_pot. assert (M : a * (o * o + b_held0 b' + a * b_heldd b') <= a * (b_held0 b + a * b_heldd b + a * (v * v) + i0 * i0 / (1 - a))) by (apply Rmult_le_compat_l; lra). unfold Rdiv in *. lra. }
      assert (M : w * (y * y + b_pot b') <= w * (b_pot b + a * a * (v * v) + (a * (i0 * i0) + i1 * i1) / (1 - a))) by (apply Rmult_le_compat_l; assumption).
      cbn [pow]. fold w. lra.
  Qed.
  Lemma blocks_tick_app i0 i1 b bs : forall v o0 o1, blocks_tick Rnum_ops xo a i0 i1 (bs ++ [b]) v o0 o1 =
    let '(bs', (y, _, _)) := blocks_tick Rnum_ops xo a i0 i1 bs v o0 o1 in let '(b', (z, o)) := block_tick Rnum_ops xo a i0 i1 b y in (bs' ++ [b'], (z, o, z)).
  Proof.
    induction bs as [|c bs IH]; intros v o0 o1; cbn [blocks_tick app]; [destruct (block_tick _ _ _ _ _ b v) as [b' [z o]]; reflexivity|]. destruct (block_tick _ _ _ _ _ c v) as [c' [y o]]. rewrite IH.
    destruct (blocks_tick _ _ _ _ _ bs y o y) as [bs' [[z p0] p1]]. destruct (block_tick _ _ _ _ _ b z) as [b' [w q]]. reflexivity.
  Qed.

  (* ---- the whole loop ---- *)
  Definition wx (n : nat) : R := (1 + a) / (1 - (a * a) ^ S n).
  Definition wy (n : nat) : R := 1 + a * (a * a) ^ n * wx n.
  Definition loop_pot (bs : list blk) (b : blk) (fb : R) : R :=
    let n := length bs in a * (a * a) ^ n * wx n * (fb * fb) + wx n * (b_held0 b + a * b_heldd b) + wy n * b_held1 b + wx n * a * pot bs.
  Lemma pow_lt1 n : (a * a) ^ S n < 1. Proof. cbn [pow]. assert ((a * a) ^ n <= 1) by (rewrite <- (pow1 n); apply pow_incr; split; nra). pose proof (sq_pow n). nra. Qed.
  Lemma wx_pos n : 0 <= wx n. Proof. unfold wx. pose proof (pow_lt1 n). apply Rmult_le_pos; [lra|left; apply Rinv_0_lt_compat; lra]. Qed.
  Lemma wy_pos n : 0 <= wy n. Proof. unfold wy. pose proof (wx_pos n). pose proof (sq_pow n). assert (0 <= a * (a * a) ^ n) by (apply Rmult_le_pos; lra). assert (0 <= a * (a * a) ^ n * wx n) by (apply Rmult_le_pos; lra). lra. Qed.
  Lemma loop_pot_pos bs b fb : Forall b_ok bs -> b_ok b -> 0 <= loop_pot bs b fb.
  Proof.
    intros H Hb. unfold loop_pot. pose proof (wx_pos (length bs)) as WX. pose proof (wy_pos (length bs)) as WY. pose proof (pot_pos bs H) as PP. destruct (b_pos b Hb) as (H0 & H1 & Hd). pose proof (sq_nonneg fb) as F. pose proof (sq_pow (length bs)) as Q.
    set (x := wx _) in *. set (y := wy _) in *. set (q := (a * a) ^ length bs) in *. set (p := pot bs) in *. set (f := fb * fb) in *. clearbody x y q p f.
    assert (0 <= b_held0 b + a * b_heldd b) by nra. assert (0 <= a * q) by nra. repeat apply Rplus_le_le_0_compat; repeat apply Rmult_le_pos; lra.
  Qed.
  Lemma loop_tick bs b fb i0 i1 o0 o1 : Forall b_ok bs -> b_ok b ->
    exists bs' b' y p, blocks_tick Rnum_ops xo a i0 i1 (bs ++ [b]) fb o0 o1 = (bs' ++ [b'], (y, p, y)) /\ Forall b_ok bs' /\ b_ok b' /\
      p * p + y * y + loop_pot bs' b' y <= loop_pot bs b fb + (i0 * i0 + i1 * i1) / ((1 - a) * (1 - a)).
  Proof.
    intros H Hb. rewrite blocks_tick_app. pose proof (blocks_tick_eq bs i0 i1 H fb o0 o1) as T. destruct (blocks_tick Rnum_ops xo a i0 i1 bs fb o0 o1) as [bs' [[v q0] q1]]. destruct T as (T1 & T2 & T3).
    pose proof (b_tick b v i0 i1 Hb) as B. destruct (block_tick Rnum_ops xo a i0 i1 b v) as [b' [y p]]. destruct B as (B1 & B2 & B3). exists bs', b', y, p. split; [reflexivity|]. split; [exact T1|]. split; [exact B1|].
    unfold loop_pot. rewrite T2. set (n := length bs) in *. pose proof (wx_pos n) as WX. pose proof (wy_pos n) as WY. pose proof (sq_pow n) as Q. pose proof (geo_eq n) as G. pose proof (pow_lt1 n) as L. cbn [pow] in L. assert (A2 : 0 < 1 - a * a) by nra.
    assert (EX : wx n * (1 - a * a * (a * a) ^ n) = 1 + a) by (unfold wx; cbn [pow]; field; lra).
    assert (EY : wy n = 1 + a * (a * a) ^ n * wx n) by reflexivity. set (x := wx n) in *. set (z := wy n) in *. set (w := (a * a) ^ n) in *. set (g := geo n) in *. clearbody x z w g.
    assert (M1 : x * (p * p + b_held0 b' + a * b_heldd b') <= x * (b_held0 b + a * b_heldd b + a * (v * v) + i0 * i0 / (1 - a))) by (apply Rmult_le_compat_l; lra).
    assert (M2 : z * (y * y + b_held1 b') <= z * (b_held1 b + a * (p * p) + i1 * i1 / (1 - a))) by (apply Rmult_le_compat_l; lra).
    assert (M3 : x * a * (v * v + pot bs') <= x * a * (pot bs + w * (fb * fb) + (a * (i0 * i0) + i1 * i1) / (1 - a) * g)) by (apply Rmult_le_compat_l; [apply Rmult_le_pos; lra|exact T3]).
    assert (Xz : x - z * a = 1) by (rewrite EY; lra). 
    (* the coefficients of the inputs *)
    assert (C0 : x * (i0 * i0 / (1 - a)) + x * a * (a * (i0 * i0) / (1 - a) * g) = i0 * i0 / ((1 - a) * (1 - a))).
    { assert (D : g = (1 - w) / (1 - a * a)) by (rewrite <- G; field; lra). rewrite D. assert (Ex : x = (1 + a) / (1 - a * a * w)) by (rewrite <- EX; field; lra). rewrite Ex. field. repeat split; lra. }
    assert (C1 : z * (i1 * i1 / (1 - a)) + x * a * (i1 * i1 / (1 - a) * g) = i1 * i1 / ((1 - a) * (1 - a))).
    { assert (D : g = (1 - w) / (1 - a * a)) by (rewrite <- G; field; lra). rewrite EY, D. assert (Ex : x = (1 + a) / (1 - a * a * w)) by (rewrite <- EX; field; lra). rewrite Ex. field. repeat split; lra. }
    assert (S1 : (i0 * i0 + i1 * i1) / ((1 - a) * (1 - a)) = i0 * i0 / ((1 - a) * (1 - a)) + i1 * i1 / ((1 - a) * (1 - a))) by (unfold Rdiv; ring). rewrite S1, <- C0, <- C1.
    assert (PP : p * p = x * (p * p) - z * (a * (p * p))) by (replace (x * (p * p) - z * (a * (p * p))) with ((x - z * a) * (p * p)) by ring; rewrite Xz; ring).
    assert (YY : y * y + a * w * x * (y * y) = z * (y * y)) by (rewrite EY; ring).
    unfold Rdiv in *. lra.
  Qed.

  Definition K : R := / ((1 - a) * (1 - a)).
  Lemma K_pos : 0 < K. Proof. apply Rinv_0_lt_compat. nra. Qed.
  Definition pre_held (l : list sch) : R := l_held (firstn 2 l) + l_held (skipn 2 l).
  Definition inv (r : reverb R X) (V : R) : Prop := exists bs b, rv_blocks r = bs ++ [b] /\ Forall b_ok bs /\ b_ok b /\ Forall s_ok (rv_pre r) /\ length (rv_pre r) = 4%nat /\ rv_a r = a /\
    V = loop_pot bs b (rv_fb r) + K * pre_held (rv_pre r).
  Lemma ok_parts k (l : list sch) : Forall s_ok l -> Forall s_ok (firstn k l) /\ Forall s_ok (skipn k l).
  Proof. intros H. rewrite <- (firstn_skipn k l) in H. now apply Forall_app in H. Qed.
  Lemma inv_pos r V : inv r V -> 0 <= V.
  Proof.
    intros (bs & b & _ & H1 & H2 & H3 & _ & _ & ->). pose proof (loop_pot_pos bs b (rv_fb r) H1 H2). destruct (ok_parts 2 _ H3) as [Q1 Q2]. pose proof (l_held_pos _ Q1). pose proof (l_held_pos _ Q2). pose proof K_pos. unfold pre_held. nra.
  Qed.
  Lemma frame2 (i : list R) : nth 0 i 0 * nth 0 i 0 + nth 1 i 0 * nth 1 i 0 <= energy i.
  Proof. destruct i as [|x [|y i]]; cbn; try lra. pose proof (energy_pos i). lra. Qed.
  Lemma inv_tick r V i : inv r V -> let (r', o) := reverb_tick Rnum_ops xo r i in exists V', inv r' V' /\ energy o + V' <= V + K / 4 * energy i.
  Proof.
    intros (bs & b & E & H1 & H2 & H3 & L4 & Ea & ->). unfold reverb_tick. rewrite E, Ea. destruct (ok_parts 2 _ H3) as [Q1 Q2]. unfold dec. cbn [nmul ndiv nofZ Rnum_ops]. fold Rnum_ops. change (n0 Rnum_ops) with 0.
    set (x0 := nth 0 i 0 * (1 / 2)). set (x1 := nth 1 i 0 * (1 / 2)).
    pose proof (l_held_tick _ Q1 x0) as T0. destruct (chain (firstn 2 (rv_pre r)) x0) as [p0 i0]. pose proof (l_held_tick _ Q2 x1) as T1. destruct (chain (skipn 2 (rv_pre r)) x1) as [p1 i1].
    destruct T0 as (O0 & L0 & T0), T1 as (O1 & L1 & T1). rewrite firstn_length, L4 in L0. rewrite skipn_length, L4 in L1. cbn in L0, L1.
    destruct (loop_tick bs b (rv_fb r) i0 i1 0 0 H1 H2) as (bs' & b' & y & p & Eb & B1 & B2 & B3). rewrite Eb.
    exists (loop_pot bs' b' y + K * pre_held (p0 ++ p1)). split.
    - exists bs', b'. cbn [rv_blocks rv_pre rv_a rv_fb]. repeat split; auto; try apply B2; [apply Forall_app; auto|rewrite app_length; lia].
    - assert (Ep : pre_held (p0 ++ p1) = l_held p0 + l_held p1).
      { unfold pre_held. rewrite firstn_app, skipn_app, L0. change (2 - 2)%nat with 0%nat. rewrite firstn_all2, skipn_all2 by lia. cbn [firstn skipn app]. now rewrite app_nil_r. }
      rewrite Ep. unfold pre_held.
      pose proof (frame2 i) as F. pose proof K_pos as KP. assert (E0 : x0 * x0 + x1 * x1 <= / 4 * energy i) by (unfold x0, x1; lra).
      assert (M : K * (i0 * i0 + l_held p0 + (i1 * i1 + l_held p1)) <= K * (/ 4 * energy i + (l_held (firstn 2 (rv_pre r)) + l_held (skipn 2 (rv_pre r))))) by (apply Rmult_le_compat_l; lra).
      assert (D : (i0 * i0 + i1 * i1) / ((1 - a) * (1 - a)) = K * (i0 * i0 + i1 * i1)) by (unfold K; field; lra). rewrite D in B3. unfold Rdiv. change (energy [p; y]) with (p * p + (y * y + 0)). lra.
  Qed.
  Lemma pots_le bs cs b c fb f : Forall2 (fun x y => b_ok y /\ b_held0 y <= b_held0 x /\ b_held1 y <= b_held1 x /\ b_heldd y <= b_heldd x) (bs ++ [b]) (cs ++ [c]) -> f * f <= fb * fb ->
    Forall b_ok cs /\ b_ok c /\ loop_pot cs c f <= loop_pot bs b fb.
  Proof.
    intros H Hf. apply Forall2_app_inv_l in H as (l1 & l2 & F1 & F2 & E). inversion F2 as [|x y l l' Fb Fn]; subst. inversion Fn; subst. apply app_inj_tail in E as [<- <-].
    assert (P1 : Forall b_ok cs /\ length cs = length bs /\ pot cs <= pot bs).
    { clear -F1 Ha. induction F1 as [|x y l l' (B & D0 & D1 & Dd) _ (I1 & I2 & I3)]; [cbn; repeat split; [constructor|lra]|]. split; [constructor; assumption|]. split; [cbn; congruence|]. cbn [pot]. rewrite I2. pose proof (sq_pow (length l)) as Q.
      assert (b_pot y <= b_pot x) by (unfold b_pot; assert (a * b_heldd y <= a * b_heldd x) by (apply Rmult_le_compat_l; lra); assert (a * (b_held0 y + a * b_heldd y) <= a * (b_held0 x + a * b_heldd x)) by (apply Rmult_le_compat_l; lra); lra). nra. }
    destruct P1 as (P1 & P2 & P3). destruct Fb as (B & D0 & D1 & Dd). split; [exact P1|]. split; [exact B|]. unfold loop_pot. rewrite P2. set (n := length bs).
    pose proof (wx_pos n) as WX. pose proof (wy_pos n) as WY. pose proof (sq_pow n) as Q. set (x := wx n) in *. set (z := wy n) in *. set (q := (a * a) ^ n) in *. clearbody x z q.
    assert (0 <= a * q * x) by (apply Rmult_le_pos; [apply Rmult_le_pos|]; lra). assert (0 <= x * a) by (apply Rmult_le_pos; lra). assert (a * b_heldd c <= a * b_heldd b) by (apply Rmult_le_compat_l; lra).
    repeat apply Rplus_le_compat; apply Rmult_le_compat_l; lra.
  Qed.
  Lemma inv_reset r V : inv r V -> exists V', inv (reverb_reset Rnum_ops xo r) V' /\ V' <= V.
  Proof.
    intros (bs & b & E & H1 & H2 & H3 & L4 & Ea & ->). destruct (pots_le bs (map (block_reset Rnum_ops xo) bs) b (block_reset Rnum_ops xo b) (rv_fb r) 0) as (P1 & P2 & P3).
    - apply Forall2_app; [|constructor; [exact (b_reset b H2)|constructor]]. clear -H1 Hp. induction H1 as [|x l Hx _ IH]; cbn; constructor; [exact (b_reset x Hx)|exact IH].
    - pose proof (sq_nonneg (rv_fb r)). lra.
    - exists (loop_pot (map (block_reset Rnum_ops xo) bs) (block_reset Rnum_ops xo b) 0 + K * pre_held (rv_pre r)). split; [|lra].
      exists (map (block_reset Rnum_ops xo) bs), (block_reset Rnum_ops xo b). unfold reverb_reset. cbn [rv_blocks rv_pre rv_a rv_fb]. rewrite E, map_app. repeat split; auto; apply P2.
  Qed.
  Lemma inv_rate r V sr : inv r V -> exists V', inv (reverb_rate Rnum_ops x_rate r sr) V' /\ V' <= V.
  Proof.
    intros (bs & b & E & H1 & H2 & H3 & L4 & Ea & ->). destruct (pots_le bs (map (block_rate Rnum_ops x_rate sr) bs) b (block_rate Rnum_ops x_rate sr b) (rv_fb r) (rv_fb r)) as (P1 & P2 & P3).
    - apply Forall2_app; [|constructor; [exact (b_rate sr b H2)|constructor]]. clear -H1 Hp. induction H1 as [|x l Hx _ IH]; cbn; constructor; [exact (b_rate sr x Hx)|exact IH].
    - lra.
    - exists (loop_pot (map (block_rate Rnum_ops x_rate sr) bs) (block_rate Rnum_ops x_rate sr b) (rv_fb r) + K * pre_held (rv_pre r)). split; [|lra].
      exists (map (block_rate Rnum_ops x_rate sr) bs), (block_rate Rnum_ops x_rate sr b). unfold reverb_rate. cbn [rv_blocks rv_pre rv_a rv_fb]. rewrite E, map_app. repeat split; auto; apply P2.
  Qed.
  Lemma run_energy l : forall r V, inv r V -> total (rev_run xo x_rate r l) <= K / 4 * total (rev_inputs l) + V.
  Proof.
    unfold total. induction l as [|[i| |sr] l IH]; intros r V H; cbn [rev_run].
    - pose proof (inv_pos r V H). cbn. lra.
    - pose proof (inv_tick r V i H) as T. destruct (reverb_tick Rnum_ops xo r i) as [r' o]. destruct T as (V' & T1 & T2). specialize (IH r' V' T1). cbn [rev_inputs flat_map app weighted]. fold (rev_inputs l). lra.
    - destruct (inv_reset r V H) as (V' & T1 & T2). specialize (IH _ V' T1). cbn [rev_inputs flat_map app]. fold (rev_inputs l). lra.
    - destruct (inv_rate r V sr H) as (V' & T1 & T2). specialize (IH _ V' T1). cbn [rev_inputs flat_map app]. fold (rev_inputs l). lra.
  Qed.
End Loop.

(* ---- construction ---- *)
Lemma sch_new_eq c n : (1 <= n)%Z -> exists s, sch_new Rnum_ops c n = Some s /\ an_eta s = c /\ an_z s = 0 /\ d_held (an_x s) = 0 /\ s = mkAll (mkDelay (IZR (n - 1) / 44100) 44100 (line_new 0 (delay_length Rnum_ops (IZR (n - 1) / 44100) 44100 + 1))) c 0.
Proof.
  intros Hn. unfold sch_new, delay_new, default_sr. cbn [nofZ ndiv nleb Rnum_ops]. fold Rnum_ops. change (n0 Rnum_ops) with 0. destruct (Rle_dec 0 (IZR (n - 1) / 44100)) as [_|N].
  - eexists. split; [reflexivity|]. cbn [an_eta an_z an_x]. repeat split. apply d_held_new.
  - exfalso. apply N. assert (0 <= IZR (n - 1)) by (apply IZR_le; lia). unfold Rdiv. lra.
Qed.
Lemma sch_list c l : Forall (fun n => (1 <= n)%Z) l -> -1 <= c <= 1 -> exists ss, sequence (map (sch_new Rnum_ops c) l) = Some ss /\ Forall s_ok ss /\ l_held ss = 0 /\ length ss = length l /\ Forall2 (fun n s => sch_new Rnum_ops c n = Some s) l ss.
Proof.
  intros H Hc. induction H as [|n l Hn _ (ss & E & O & L & Ln & F2)]; [exists []; repeat split; constructor|]. destruct (sch_new_eq c n Hn) as (s & Es & E1 & E2 & E3 & _). exists (s :: ss). cbn [map sequence]. rewrite Es, E. split; [reflexivity|].
  split; [constructor; [unfold s_ok; lra|exact O]|]. split; [unfold l_held in *; cbn [fold_right]; rewrite L; unfold s_held; rewrite E1, E2, E3; ring|]. split; [cbn; congruence|]. constructor; assumption.
Qed.
Section New.
  Context {X : Type}.
  Variables (time diffusion : R) (filter : X).
  Hypothesis Hd : 0 <= diffusion <= 1.
  Let c := lerp Rnum_ops (dec Rnum_ops 1 2) (dec Rnum_ops 9 10) diffusion.
  Lemma coeff_eq : c = 1 / 2 + 4 / 10 * diffusion. Proof. unfold c, lerp, dec. cbn [nadd nmul nsub ndiv nofZ Rnum_ops]. change (n1 Rnum_ops) with 1. field. Qed.
  Lemma coeff_range : 1 / 2 <= c <= 9 / 10. Proof. rewrite coeff_eq. lra. Qed.
  Definition fresh_block (b : rblock R X) : Prop := Forall s_ok (rb_all0 b) /\ Forall s_ok (rb_all1 b) /\ l_held (rb_all0 b) = 0 /\ l_held (rb_all1 b) = 0 /\ rb_f0 b = filter /\ rb_f1 b = filter /\ d_held (rb_delay b) = 0.
  Lemma block_new_ok i : (i < 8)%nat -> exists b, block_new Rnum_ops c filter i = Some b /\ fresh_block b.
  Proof.
    intros Hi. pose proof coeff_range as C. unfold block_new. rewrite <- !(map_map (fun j => nth (i + j * 8) _ 0%Z) (sch_new Rnum_ops c)).
    destruct (sch_list c (map (fun j => nth (i + j * 8) ldelays 0%Z) (seq 0 4))) as (s0 & E0 & O0 & L0 & _).
    { apply Forall_map. do 8 (destruct i as [|i]; [repeat constructor; discriminate|]). lia. } { lra. }
    destruct (sch_list c (map (fun j => nth (i + j * 8) rdelays 0%Z) (seq 0 4))) as (s1 & E1 & O1 & L1 & _).
    { apply Forall_map. do 8 (destruct i as [|i]; [repeat constructor; discriminate|]). lia. } { lra. }
    rewrite E0, E1. unfold delay_new, default_sr. cbn [nofZ ndiv nleb Rnum_ops]. fold Rnum_ops. change (n0 Rnum_ops) with 0.
    assert (M : (0 <= nth (7 - i) mdelays 0)%Z) by (do 8 (destruct i as [|i]; [discriminate|]); lia). apply IZR_le in M. destruct (Rle_dec 0 (IZR (nth (7 - i) mdelays 0%Z) / 44100)) as [_|N]; [|exfalso; apply N; unfold Rdiv; lra].
    eexists. split; [reflexivity|]. unfold fresh_block. cbn [rb_all0 rb_all1 rb_f0 rb_f1 rb_delay]. repeat split; auto. apply d_held_new.
  Qed.
  Lemma new_ok : exists r, loopR time diffusion filter = Some r /\ length (rv_blocks r) = 8%nat /\ Forall fresh_block (rv_blocks r) /\ rv_fb r = 0 /\ rv_a r = loop_gainR time /\
    Forall s_ok (rv_pre r) /\ l_held (firstn 2 (rv_pre r)) = 0 /\ l_held (skipn 2 (rv_pre r)) = 0 /\ length (rv_pre r) = 4%nat /\
    Forall2 (fun n s => sch_new Rnum_ops c n = Some s) predelay (rv_pre r) /\ sequence (map (block_new Rnum_ops c filter) (seq 0 8)) = Some (rv_blocks r).
  Proof.
    unfold loopR, reverb_new. fold c. assert (B : exists bs, sequence (map (block_new Rnum_ops c filter) (seq 0 8)) = Some bs /\ length bs = 8%nat /\ Forall fresh_block bs).
    { assert (G : forall l, Forall (fun i => (i < 8)%nat) l -> exists bs, sequence (map (block_new Rnum_ops c filter) l) = Some bs /\ length bs = length l /\ Forall fresh_block bs).
      { induction 1 as [|i l Hi _ (bs & E & L & F)]; [exists []; repeat split; constructor|]. destruct (block_new_ok i Hi) as (b & Eb & Fb). exists (b :: bs). cbn [map sequence]. rewrite Eb, E. repeat split; cbn; auto. }
      apply (G (seq 0 8)). apply Forall_forall. intros i Hi. apply in_seq in Hi. lia. }
    destruct B as (bs & Eb & Lb & Fb). rewrite Eb. pose proof coeff_range as C. destruct (sch_list c predelay) as (ss & Es & O & L & Ln & F2); [repeat constructor; discriminate|lra|]. rewrite Es.
    eexists. split; [reflexivity|]. cbn [rv_blocks rv_fb rv_a rv_pre]. repeat split; auto.
    - destruct ss as [|s0 [|s1 [|s2 [|s3 [|]]]]]; try discriminate. unfold l_held in *. cbn in *. inversion O as [|? ? O0 O']; subst. inversion O' as [|? ? O1 O'']; subst. inversion O'' as [|? ? O2 O3]; subst. inversion O3 as [|? ? O4 _]; subst.
      pose proof (s_held_pos s0 O0). pose proof (s_held_pos s1 O1). pose proof (s_held_pos s2 O2). pose proof (s_held_pos s3 O4). lra.
    - destruct ss as [|s0 [|s1 [|s2 [|s3 [|]]]]]; try discriminate. unfold l_held in *. cbn in *. inversion O as [|? ? O0 O']; subst. inversion O' as [|? ? O1 O'']; subst. inversion O'' as [|? ? O2 O3]; subst. inversion O3 as [|? ? O4 _]; subst.
      pose proof (s_held_pos s0 O0). pose proof (s_held_pos s1 O1). pose proof (s_held_pos s2 O2). pose proof (s_held_pos s3 O4). lra.
  Qed.
End New.
Lemma loop_gain_range time : 0 < time -> 0 < loop_gainR time < 1.
Proof.
  intros H. unfold loop_gainR, db_amp. cbn [ndiv nofZ Rnum_ops]. rewrite Rpower_mult. split; [apply exp_pos|]. rewrite <- (Rpower_O 10) by lra. apply Rpower_lt; [lra|].
  assert (0 < 35 / 1000 / time) by (unfold Rdiv; apply Rmult_lt_0_compat; [lra|now apply Rinv_0_lt_compat]). lra.
Qed.
Lemma pot_zero {X} held a (filter : X) bs : held filter = 0 -> Forall (fresh_block filter) bs -> pot held a bs = 0.
Proof.
  intros Hh. induction 1 as [|b l (_ & _ & H0 & H1 & F0 & F1 & Hd) _ IH]; cbn [pot]; [reflexivity|]. rewrite IH. unfold b_pot, b_held0, b_held1, b_heldd. rewrite H0, H1, F0, F1, Hd, Hh. ring.
Qed.
Lemma loop_energy {P X} (xo : unit_ops R P X) x_rate held time diffusion filter : passive xo x_rate held -> 0 < time -> 0 <= diffusion <= 1 -> held filter = 0 ->
  exists r, loopR time diffusion filter = Some r /\ forall l, total (rev_run xo x_rate r l) <= total (rev_inputs l) / (4 * ((1 - loop_gainR time) * (1 - loop_gainR time))).
Proof.
  intros Hp Ht Hd Hh. destruct (new_ok time diffusion filter Hd) as (r & E & L8 & Fb & F0 & Ea & Op & P0 & P1 & L4 & _). exists r. split; [exact E|]. intros l. destruct (loop_gain_range time Ht) as [A0 A1]. set (a := loop_gainR time) in *.
  destruct (exists_last (l := rv_blocks r)) as (bs & b & Eb); [intros N; rewrite N in L8; discriminate|]. pose proof Fb as Fb'. rewrite Eb in Fb'. apply Forall_app in Fb' as [Fs Fl]. apply Forall_cons_iff in Fl as [Fl _].
  assert (I : inv held a r 0).
  { exists bs, b. split; [exact Eb|]. split; [eapply Forall_impl; [|exact Fs]; intros x (Q0 & Q1 & _); split; assumption|]. split; [destruct Fl as (Q0 & Q1 & _); split; assumption|]. repeat split; auto.
    unfold pre_held. rewrite P0, P1. unfold loop_pot. rewrite F0, (pot_zero held a filter bs Hh Fs). destruct Fl as (_ & _ & H0 & H1 & G0 & G1 & Hdl). unfold b_held0, b_held1, b_heldd. rewrite H0, H1, G0, G1, Hdl, Hh. ring. }
  pose proof (run_energy xo x_rate held Hp a ltac:(lra) l r 0 I) as Q. unfold K in Q. eapply Rle_trans; [exact Q|]. right. field. lra.
Qed.
