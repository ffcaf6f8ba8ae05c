(* The first samples that Reverb plays. *)
From Coq Require Import Reals Lra.
From Verif Require Export RevSpec.
From Verif Require Import Base BufProofs HadamardProofs DelaySpec DelayProofs DelayReals RevProofs RevLoop.
From Verif Require Import RevSpec.
Local Open Scope R_scope.
Notation dopsR := (@dl_ops R Rnum_ops unit).
Notation chainR := (sch_chain (P := unit) Rnum_ops).

Definition d_hist (d : @delay R) (L : nat) (h : list R) : Prop := holds 0 L (l_buf (d_line d)) (l_i (d_line d)) h.
Lemma d_hist_step d L h v : d_hist d L h -> let (d', o) := delay_step Rnum_ops d [v] in d_hist d' L (v :: h) /\ o = [nth (L - 1) (v :: h) 0].
Proof.
  intros H. pose proof (delay_tick_ok 0 L (d_line d) h v H) as T. unfold delay_step. change (n0 Rnum_ops) with 0. destruct (DelayModel.delay_tick 0 (d_line d) [v]) as [l o]. exact T.
Qed.
Lemma d_hist_new t sr L : (0 < L)%nat -> d_hist (mkDelay t sr (line_new 0 L)) L []. Proof. intros H. exact (holds_new 0 L H). Qed.
(* an allpass of n samples with what went into its delay, the latest first *)
Definition s_hist (eta : R) (n : nat) (s : @schroeder R) (h : list R) : Prop := an_eta s = eta /\ an_z s = nth (n - 1) h 0 /\ d_hist (an_x s) n h /\ (0 < n)%nat.
Lemma s_hist_step eta n s h x : s_hist eta n s h -> let z := nth (n - 1) h 0 in let v := x - eta * z in
  let (s', y) := mono Rnum_ops (all_tick Rnum_ops dopsR) s x in s_hist eta n s' (v :: h) /\ y = eta * v + z.
Proof.
  intros (E1 & E2 & H & Hn) z v. unfold mono, all_tick. cbn [u_tick dl_ops nsub nmul nadd Rnum_ops nth]. fold Rnum_ops. rewrite E1, E2. fold z. fold v. pose proof (d_hist_step _ _ _ v H) as T.
  destruct (delay_step Rnum_ops (an_x s) [v]) as [d o]. destruct T as [T1 ->]. split; [|reflexivity]. split; [reflexivity|]. split; [reflexivity|]. split; assumption.
Qed.
(* n is at least N, and k samples have passed *)
Definition young (eta : R) (N k : nat) (s : @schroeder R) : Prop := exists n h, (N <= n)%nat /\ length h = k /\ s_hist eta n s h.
Lemma young_step eta N k s x : young eta N k s -> (k < N)%nat -> let (s', y) := mono Rnum_ops (all_tick Rnum_ops dopsR) s x in young eta N (S k) s' /\ y = eta * x.
Proof.
  intros (n & h & Hn & Hk & H) Hlt. pose proof (s_hist_step eta n s h x H) as T. rewrite nth_overflow in T by lia. destruct (mono Rnum_ops (all_tick Rnum_ops dopsR) s x) as [s' y]. destruct T as [T1 ->].
  split; [|ring]. eexists n, _. split; [exact Hn|]. split; [|exact T1]. cbn. congruence.
Qed.
Lemma young_chain eta N k l : Forall (young eta N k) l -> (k < N)%nat -> forall x, let (l', y) := chainR l x in Forall (young eta N (S k)) l' /\ length l' = length l /\ y = eta ^ length l * x.
Proof.
  intros H Hk. induction H as [|s l Hs _ IH]; intros x; cbn [sch_chain]; [split; [constructor|split; [reflexivity|cbn; ring]]|].
  pose proof (young_step eta N k s x Hs Hk) as T. destruct (mono Rnum_ops (all_tick Rnum_ops dopsR) s x) as [s' w]. specialize (IH w). destruct (chainR l w) as [l' y]. destruct T as [T1 ->], IH as (I1 & I2 & ->).
  split; [constructor; assumption|]. split; [cbn; congruence|]. cbn [length pow]. ring.
Qed.
Definition b_young (eta : R) (N k : nat) (b : rblock R unit) : Prop :=
  Forall (young eta N k) (rb_all0 b) /\ length (rb_all0 b) = 4%nat /\ Forall (young eta N k) (rb_all1 b) /\ length (rb_all1 b) = 4%nat /\ exists L h, (N <= L)%nat /\ length h = k /\ d_hist (rb_delay b) L h.
Lemma b_young_step eta N k a i0 i1 b v : b_young eta N k b -> (S k < N)%nat ->
  let '(b', (y, o)) := block_tick Rnum_ops pass_ops a i0 i1 b v in b_young eta N (S k) b' /\ o = eta ^ 4 * i0 /\ y = eta ^ 4 * (a * o + i1).
Proof.
  intros (H0 & L0 & H1 & L1 & L & h & HL & Hh & Hd) Hk. unfold block_tick. pose proof (d_hist_step _ _ _ v Hd) as D. unfold mono at 1. destruct (delay_step Rnum_ops (rb_delay b) [v]) as [d o]. destruct D as [D1 ->].
  rewrite (nth_overflow (v :: h)) by (cbn; lia). cbn [nth nadd nmul Rnum_ops]. fold Rnum_ops.
  pose proof (young_chain eta N k _ H0 ltac:(lia) (a * 0 + i0)) as C0. destruct (chainR (rb_all0 b) (a * 0 + i0)) as [l0 w]. unfold mono at 1. cbn [u_tick pass_ops nth].
  pose proof (young_chain eta N k _ H1 ltac:(lia) (a * w + i1)) as C1. destruct (chainR (rb_all1 b) (a * w + i1)) as [l1 u]. unfold mono. cbn [u_tick pass_ops nth].
  destruct C0 as (C0 & Q0 & E0), C1 as (C1 & Q1 & E1). rewrite L0 in Q0, E0. rewrite L1 in Q1, E1. split; [|split; [rewrite E0; ring|exact E1]].
  split; [exact C0|]. split; [exact Q0|]. split; [exact C1|]. split; [exact Q1|]. exists L, (v :: h). split; [exact HL|]. split; [cbn; congruence|exact D1].
Qed.
Lemma bs_young_step eta N k a i0 i1 bs : Forall (b_young eta N k) bs -> (S k < N)%nat -> forall v o0 o1, bs <> [] ->
  exists bs' y, blocks_tick Rnum_ops pass_ops a i0 i1 bs v o0 o1 = (bs', (y, eta ^ 4 * i0, y)) /\ Forall (b_young eta N (S k)) bs' /\ bs' <> [] /\ y = eta ^ 4 * (a * (eta ^ 4 * i0) + i1).
Proof.
  intros H Hk. induction H as [|b bs Hb _ IH]; intros v o0 o1 N0; [congruence|]. cbn [blocks_tick]. pose proof (b_young_step eta N k a i0 i1 b v Hb Hk) as T. destruct (block_tick Rnum_ops pass_ops a i0 i1 b v) as [b' [y o]]. destruct T as (T1 & -> & T3).
  destruct bs as [|c bs]; [cbn [blocks_tick]; exists [b'], y; repeat split; auto; discriminate|]. destruct (IH y (eta ^ 4 * i0) y ltac:(discriminate)) as (bs' & z & E & F & _ & Ez). rewrite E. exists (b' :: bs'), z. repeat split; auto. discriminate.
Qed.

(* ---- the reverb after an impulse on the left ---- *)
Definition after (x : R) (k : nat) : list R := repeat 0 (k - 1) ++ repeat x (Nat.min 1 k).
Definition pre_at (eta x0 : R) (k : nat) (l : list (@schroeder R)) : Prop := exists s0 s1 s2 s3, l = [s0; s1; s2; s3] /\
  s_hist eta 245 s0 (after x0 k) /\ s_hist eta 367 s1 (after (eta * x0) k) /\ s_hist eta 263 s2 (repeat 0 k) /\ s_hist eta 349 s3 (repeat 0 k).
Lemma after_S x k : (1 <= k)%nat -> after x (S k) = 0 :: after x k.
Proof. intros H. unfold after. replace (S k - 1)%nat with (S (k - 1)) by lia. replace (Nat.min 1 (S k)) with 1%nat by lia. replace (Nat.min 1 k) with 1%nat by lia. reflexivity. Qed.
Lemma nth_after x k j : (1 <= k)%nat -> (j <> k - 1)%nat -> nth j (after x k) 0 = 0.
Proof.
  intros H Hj. unfold after. replace (Nat.min 1 k) with 1%nat by lia. destruct (Nat.lt_ge_cases j (k - 1)).
  - rewrite app_nth1 by (rewrite repeat_length; lia). apply nth_repeat.
  - apply nth_overflow. rewrite app_length, repeat_length. cbn. lia.
Qed.
Lemma nth_after_last x k : (1 <= k)%nat -> nth (k - 1) (after x k) 0 = x.
Proof. intros H. unfold after. replace (Nat.min 1 k) with 1%nat by lia. rewrite app_nth2, repeat_length, Nat.sub_diag by (rewrite repeat_length; lia). reflexivity. Qed.
(* one step of the two chains *)
Lemma pre_first eta l : pre_at eta (1 / 2) 0 l -> exists l', sch_chain (P := unit) Rnum_ops (firstn 2 l) (1 / 2) = (firstn 2 l', eta * (eta * (1 / 2))) /\ sch_chain (P := unit) Rnum_ops (skipn 2 l) 0 = (skipn 2 l', 0) /\ pre_at eta (1 / 2) 1 l'.
Proof.
  intros (s0 & s1 & s2 & s3 & -> & H0 & H1 & H2 & H3). cbn [firstn skipn]. cbn [sch_chain].
  pose proof (s_hist_step _ _ _ _ (1 / 2) H0) as T0. destruct (mono Rnum_ops (all_tick Rnum_ops dopsR) s0 (1 / 2)) as [t0 y0]. destruct T0 as [T0 E0]. cbn in E0.
  pose proof (s_hist_step _ _ _ _ y0 H1) as T1. destruct (mono Rnum_ops (all_tick Rnum_ops dopsR) s1 y0) as [t1 y1]. destruct T1 as [T1 E1]. cbn in E1.
  pose proof (s_hist_step _ _ _ _ 0 H2) as T2. destruct (mono Rnum_ops (all_tick Rnum_ops dopsR) s2 0) as [t2 y2]. destruct T2 as [T2 E2]. cbn in E2.
  pose proof (s_hist_step _ _ _ _ y2 H3) as T3. destruct (mono Rnum_ops (all_tick Rnum_ops dopsR) s3 y2) as [t3 y3]. destruct T3 as [T3 E3]. cbn in E3.
  assert (Y0 : y0 = eta * (1 / 2)) by (rewrite E0; ring). assert (Y1 : y1 = eta * (eta * (1 / 2))) by (rewrite E1, Y0; ring). assert (Y2 : y2 = 0) by (rewrite E2; ring). assert (Y3 : y3 = 0) by (rewrite E3, Y2; ring).
  exists [t0; t1; t2; t3]. cbn [firstn skipn]. rewrite Y1, Y3. split; [reflexivity|]. split; [reflexivity|]. exists t0, t1, t2, t3. split; [reflexivity|].
  unfold after in *. cbn in T0, T1, T2, T3 |- *. replace (1 / 2 - eta * 0) with (1 / 2) in T0 by ring. replace (y0 - eta * 0) with (eta * (1 / 2)) in T1 by (rewrite Y0; ring). replace (0 - eta * 0) with 0 in T2 by ring. replace (y2 - eta * 0) with 0 in T3 by (rewrite Y2; ring). auto.
Qed.
Lemma pre_step eta x0 k l : (1 <= k <= 245)%nat -> pre_at eta x0 k l -> exists l' y, sch_chain (P := unit) Rnum_ops (firstn 2 l) 0 = (firstn 2 l', y) /\ sch_chain (P := unit) Rnum_ops (skipn 2 l) 0 = (skipn 2 l', 0) /\
  ((k < 245)%nat -> y = 0 /\ pre_at eta x0 (S k) l') /\ (k = 245%nat -> y = eta * ((1 - eta * eta) * x0)).
Proof.
  intros Hk (s0 & s1 & s2 & s3 & -> & H0 & H1 & H2 & H3). cbn [firstn skipn]. cbn [sch_chain].
  pose proof (s_hist_step _ _ _ _ 0 H0) as T0. destruct (mono Rnum_ops (all_tick Rnum_ops dopsR) s0 0) as [t0 y0]. destruct T0 as [T0 E0].
  pose proof (s_hist_step _ _ _ _ y0 H1) as T1. destruct (mono Rnum_ops (all_tick Rnum_ops dopsR) s1 y0) as [t1 y1]. destruct T1 as [T1 E1].
  pose proof (s_hist_step _ _ _ _ 0 H2) as T2. destruct (mono Rnum_ops (all_tick Rnum_ops dopsR) s2 0) as [t2 y2]. destruct T2 as [T2 E2]. rewrite nth_repeat in T2, E2.
  pose proof (s_hist_step _ _ _ _ y2 H3) as T3. destruct (mono Rnum_ops (all_tick Rnum_ops dopsR) s3 y2) as [t3 y3]. destruct T3 as [T3 E3]. rewrite nth_repeat in T3, E3.
  assert (Y2 : y2 = 0) by (rewrite E2; ring). assert (Y3 : y3 = 0) by (rewrite E3, Y2; ring).
  assert (N1 : nth (367 - 1) (after (eta * x0) k) 0 = 0) by (apply nth_after; lia). rewrite N1 in T1, E1.
  exists [t0; t1; t2; t3], y1. cbn [firstn skipn]. rewrite Y3. split; [reflexivity|]. split; [reflexivity|]. split.
  - intros Hlt. assert (N0 : nth (245 - 1) (after x0 k) 0 = 0) by (apply nth_after; lia). rewrite N0 in T0, E0. assert (Y0 : y0 = 0) by (rewrite E0; ring). assert (Y1 : y1 = 0) by (rewrite E1, Y0; ring). split; [exact Y1|].
    exists t0, t1, t2, t3. split; [reflexivity|]. rewrite !after_S by lia. cbn [repeat].
    replace (0 - eta * 0) with 0 in T0, T2 by ring. replace (y0 - eta * 0) with 0 in T1 by (rewrite Y0; ring). replace (y2 - eta * 0) with 0 in T3 by (rewrite Y2; ring). auto.
  - intros ->. rewrite (nth_after_last x0 245) in T0, E0 by lia. rewrite E1, E0. ring.
Qed.
Definition at_age (eta x0 a : R) (N k : nat) (r : reverb R unit) : Prop :=
  pre_at eta x0 k (rv_pre r) /\ Forall (b_young eta N k) (rv_blocks r) /\ rv_blocks r <> [] /\ rv_a r = a.
Lemma split2 {A} (l : list A) : firstn 2 l ++ skipn 2 l = l. Proof. apply firstn_skipn. Qed.
Lemma dec_half : dec Rnum_ops 1 2 = 1 / 2. Proof. reflexivity. Qed.
Lemma r_first eta a N r : (1 < N)%nat -> at_age eta (1 / 2) a N 0 r -> exists r' o, reverb_tick Rnum_ops pass_ops r [1; 0] = (r', o) /\ at_age eta (1 / 2) a N 1 r'.
Proof.
  intros HN (H1 & H2 & H3 & H4). unfold reverb_tick. cbn [nth]. rewrite dec_half. cbn [nmul Rnum_ops]. fold Rnum_ops. rewrite Rmult_1_l, Rmult_0_l. destruct (pre_first eta _ H1) as (l' & E0 & E1 & P1). rewrite E0, E1, split2.
  destruct (bs_young_step eta N 0 (rv_a r) (eta * (eta * (1 / 2))) 0 (rv_blocks r) H2 HN (rv_fb r) 0 0 H3) as (bs' & y & Eb & F & Nn & _). change (n0 Rnum_ops) with 0. rewrite Eb. eexists. eexists. split; [reflexivity|]. repeat split; auto.
Qed.
Lemma r_step eta a N k r : (S k < N)%nat -> (1 <= k < 245)%nat -> at_age eta (1 / 2) a N k r -> exists r', reverb_tick Rnum_ops pass_ops r [0; 0] = (r', [0; 0]) /\ at_age eta (1 / 2) a N (S k) r'.
Proof.
  intros HN Hk (H1 & H2 & H3 & H4). unfold reverb_tick. cbn [nth nmul Rnum_ops]. fold Rnum_ops. rewrite !Rmult_0_l. destruct (pre_step eta (1 / 2) k _ ltac:(lia) H1) as (l' & y & E0 & E1 & P1 & _). rewrite E0, E1, split2. destruct (P1 ltac:(lia)) as [-> P2].
  destruct (bs_young_step eta N k (rv_a r) 0 0 (rv_blocks r) H2 HN (rv_fb r) 0 0 H3) as (bs' & y & Eb & F & Nn & Ey). change (n0 Rnum_ops) with 0. rewrite Eb. eexists. split.
  - assert (Z0 : eta ^ 4 * 0 = 0) by ring. assert (Zy : y = 0) by (rewrite Ey; ring). rewrite Z0, Zy. reflexivity.
  - repeat split; auto.
Qed.
Lemma r_echo eta N k r : (S k < N)%nat -> pre_at eta (1 / 2) 245 (rv_pre r) -> Forall (b_young eta N k) (rv_blocks r) -> rv_blocks r <> [] ->
  exists r' y, reverb_tick Rnum_ops pass_ops r [0; 0] = (r', [eta ^ 5 * (1 - eta * eta) / 2; y]).
Proof.
  intros HN H1 H2 H3. unfold reverb_tick. cbn [nth nmul Rnum_ops]. fold Rnum_ops. rewrite !Rmult_0_l. destruct (pre_step eta (1 / 2) 245 _ ltac:(lia) H1) as (l' & y & E0 & E1 & _ & P1). rewrite E0, E1, split2.
  destruct (bs_young_step eta N k (rv_a r) y 0 (rv_blocks r) H2 HN (rv_fb r) 0 0 H3) as (bs' & z & Eb & F & Nn & Ey). change (n0 Rnum_ops) with 0. rewrite Eb. exists (mkRev l' bs' z (rv_a r)), z. assert (V : eta ^ 4 * y = eta ^ 5 * (1 - eta * eta) / 2) by (rewrite (P1 eq_refl); field). rewrite V. reflexivity.
Qed.
Lemma r_zero eta a N r : (1 < N)%nat -> at_age eta (1 / 2) a N 0 r -> exists r', reverb_tick Rnum_ops pass_ops r [0; 0] = (r', [0; 0]).
Proof.
  intros HN ((s0 & s1 & s2 & s3 & E & H0 & H1 & H2' & H3') & H2 & H3 & H4). unfold reverb_tick. cbn [nth nmul Rnum_ops]. fold Rnum_ops. rewrite !Rmult_0_l, E. cbn [firstn skipn].
  assert (Y : forall s n, (2 <= n)%nat -> s_hist eta n s [] -> young eta 2 0 s) by (intros s n Hn H; exists n, []; auto).
  pose proof (young_chain eta 2 0 [s0; s1] ltac:(repeat constructor; [apply (Y s0 245%nat)|apply (Y s1 367%nat)]; auto; lia) ltac:(lia) 0) as C0. destruct (chainR [s0; s1] 0) as [p0 i0]. destruct C0 as (_ & _ & C0).
  pose proof (young_chain eta 2 0 [s2; s3] ltac:(repeat constructor; [apply (Y s2 263%nat)|apply (Y s3 349%nat)]; auto; lia) ltac:(lia) 0) as C1. destruct (chainR [s2; s3] 0) as [p1 i1]. destruct C1 as (_ & _ & C1).
  assert (Z0 : i0 = 0) by (rewrite C0; ring). assert (Z1 : i1 = 0) by (rewrite C1; ring).
  destruct (bs_young_step eta N 0 (rv_a r) i0 i1 (rv_blocks r) H2 HN (rv_fb r) 0 0 H3) as (bs' & y & Eb & F & Nn & Ey). change (n0 Rnum_ops) with 0. rewrite Eb. eexists.
  assert (Q0 : eta ^ 4 * i0 = 0) by (rewrite Z0; ring). assert (Zy : y = 0) by (rewrite Ey, Z0, Z1; ring). rewrite Q0, Zy. reflexivity.
Qed.

(* ---- new, reset and set_sample_rate ---- *)
Definition coeff (diffusion : R) : R := 1 / 2 + 4 / 10 * diffusion.
Definition d_long (d : @delay R) : Prop := d_sr d = 44100 /\ 400 / 44100 <= d_time d /\ d_line d = line_new 0 (delay_length Rnum_ops (d_time d) 44100 + 1).
Definition s_long (eta : R) (s : @schroeder R) : Prop := an_eta s = eta /\ an_z s = 0 /\ d_long (an_x s).
Definition b_long (eta : R) (b : rblock R unit) : Prop := Forall (s_long eta) (rb_all0 b) /\ length (rb_all0 b) = 4%nat /\ Forall (s_long eta) (rb_all1 b) /\ length (rb_all1 b) = 4%nat /\ d_long (rb_delay b).
Lemma s_long_new c n s : (401 <= n)%Z -> sch_new Rnum_ops c n = Some s -> s_long c s.
Proof.
  intros Hn E. destruct (sch_new_eq c n ltac:(lia)) as (s' & E' & E1 & E2 & _ & E3). rewrite E in E'. injection E' as <-. split; [exact E1|]. split; [exact E2|]. rewrite E3. cbn [an_x]. repeat split. cbn [d_time].
  assert (400 <= IZR (n - 1)) by (apply IZR_le; lia). lra.
Qed.
Lemma long_list c l ss : Forall (fun n => (401 <= n)%Z) l -> -1 <= c <= 1 -> sequence (map (sch_new Rnum_ops c) l) = Some ss -> Forall (s_long c) ss /\ length ss = length l.
Proof.
  intros H Hc E. destruct (sch_list c l) as (ss' & E' & _ & _ & L & F2); [eapply Forall_impl; [|exact H]; cbn; intros; lia|exact Hc|]. rewrite E in E'. injection E' as <-. split; [|exact L].
  clear -H F2. revert H. induction F2 as [|n s l ss Hs _ IH]; intros H; [constructor|]. apply Forall_cons_iff in H as [H1 H2]. constructor; [exact (s_long_new c n s H1 Hs)|auto].
Qed.
Lemma block_long c i b : -1 <= c <= 1 -> (i < 8)%nat -> block_new Rnum_ops c tt i = Some b -> b_long c b.
Proof.
  intros Hc Hi. unfold block_new. rewrite <- !(map_map (fun j => nth (i + j * 8) _ 0%Z) (sch_new Rnum_ops c)).
  destruct (sequence (map (sch_new Rnum_ops c) (map (fun j => nth (i + j * 8) ldelays 0%Z) (seq 0 4)))) as [s0|] eqn:E0; [|discriminate].
  destruct (sequence (map (sch_new Rnum_ops c) (map (fun j => nth (i + j * 8) rdelays 0%Z) (seq 0 4)))) as [s1|] eqn:E1; [|discriminate].
  apply long_list in E0 as [E0 L0]; [| |exact Hc]. 2: { apply Forall_map. do 8 (destruct i as [|i]; [repeat constructor; discriminate|]). lia. }
  apply long_list in E1 as [E1 L1]; [| |exact Hc]. 2: { apply Forall_map. do 8 (destruct i as [|i]; [repeat constructor; discriminate|]). lia. }
  unfold delay_new, default_sr. cbn [nofZ ndiv nleb Rnum_ops]. fold Rnum_ops. change (n0 Rnum_ops) with 0.
  assert (M : (400 <= nth (7 - i) mdelays 0)%Z) by (do 8 (destruct i as [|i]; [discriminate|]); lia). apply IZR_le in M. destruct (Rle_dec 0 (IZR (nth (7 - i) mdelays 0%Z) / 44100)) as [_|N]; [|discriminate].
  set (m := IZR (nth (7 - i) mdelays 0%Z)) in *. intros E. injection E as <-. unfold b_long. cbn [rb_all0 rb_all1 rb_delay]. rewrite map_length, seq_length in L0, L1. repeat split; auto. cbn [d_time]. lra.
Qed.
Lemma blocks_long c l : -1 <= c <= 1 -> Forall (fun i => (i < 8)%nat) l -> forall bs, sequence (map (block_new Rnum_ops c tt) l) = Some bs -> Forall (b_long c) bs.
Proof.
  intros Hc H. induction H as [|i l Hi _ IH]; intros bs E; cbn [map sequence] in E; [injection E as <-; constructor|]. destruct (block_new Rnum_ops c tt i) as [b|] eqn:Eb; [|discriminate]. destruct (sequence (map (block_new Rnum_ops c tt) l)) as [bs'|]; [|discriminate].
  injection E as <-. constructor; [exact (block_long c i b Hc Hi Eb)|auto].
Qed.
Lemma length_exact n : delay_length Rnum_ops (INR n / 44100) 44100 = n.
Proof.
  pose proof (pos_INR n). unfold delay_length. cbn [nmul Rnum_ops]. replace (INR n / 44100 * 44100) with (INR n) by field. destruct (round_us_near (INR n) H) as [H1 H2]. fold Rnum_ops. set (k := round_us _ _) in *.
  assert (k < n + 1)%nat by (apply INR_lt; rewrite plus_INR; cbn; lra). assert (n < k + 1)%nat by (apply INR_lt; rewrite plus_INR; cbn; lra). lia.
Qed.
Lemma pre_fresh c n s : sch_new Rnum_ops c (Z.of_nat (S n)) = Some s -> s_hist c (S n) s [].
Proof.
  intros E. destruct (sch_new_eq c (Z.of_nat (S n)) ltac:(lia)) as (s' & E' & E1 & E2 & _ & E3). rewrite E in E'. injection E' as <-. replace (Z.of_nat (S n) - 1)%Z with (Z.of_nat n) in E3 by lia. rewrite <- INR_IZR_INZ, length_exact in E3.
  split; [exact E1|]. split; [rewrite E2; destruct (S n - 1)%nat; reflexivity|]. split; [|lia]. rewrite E3. cbn [an_x]. replace (n + 1)%nat with (S n) by lia. apply d_hist_new. lia.
Qed.
Lemma long_length t sr : 400 / 44100 <= t -> 44100 <= sr -> (400 <= delay_length Rnum_ops t sr)%nat.
Proof.
  intros Ht Hs. unfold delay_length. cbn [nmul Rnum_ops]. assert (X : 400 <= t * sr). { apply Rle_trans with (400 / 44100 * sr); [lra|]. apply Rmult_le_compat_r; lra. } fold Rnum_ops. destruct (round_us_near (t * sr) ltac:(lra)) as [_ H]. set (k := round_us _ _) in *.
  apply INR_le. rewrite INR_IZR_INZ. cbn. apply Rnot_lt_le. intros N. assert (K : (k < 400)%nat) by (apply INR_lt; rewrite (INR_IZR_INZ 400); exact N). assert (INR k <= INR 399) by (apply le_INR; lia). rewrite (INR_IZR_INZ 399) in H0. cbn in H0. lra.
Qed.
Definition d_ready (d : @delay R) : Prop := exists L, (400 <= L)%nat /\ d_hist d L [].
Lemma d_ready_long d : d_long d -> d_ready d.
Proof.
  intros (H1 & H2 & H3). exists (delay_length Rnum_ops (d_time d) 44100%R + 1)%nat. pose proof (long_length (d_time d) 44100 H2 ltac:(lra)) as L. revert L H3. generalize (delay_length Rnum_ops (d_time d) 44100). intros q L H3. split; [lia|]. unfold d_hist. rewrite H3. apply (d_hist_new 0 0). lia.
Qed.
Lemma d_ready_rate d sr : d_long d -> 44100 <= sr -> d_ready (delay_set_sample_rate Rnum_ops d sr).
Proof.
  intros H Hs. unfold delay_set_sample_rate. destruct (fneq Rnum_ops (d_sr d) sr); [|apply d_ready_long; exact H]. destruct H as (_ & H2 & _). exists (delay_length Rnum_ops (d_time d) sr + 1)%nat. pose proof (long_length (d_time d) sr H2 Hs) as L. revert L. generalize (delay_length Rnum_ops (d_time d) sr). intros q L. split; [lia|]. apply d_hist_new. lia.
Qed.
Lemma d_ready_reset d L h : (400 <= L)%nat -> d_hist d L h -> d_ready (delay_reset Rnum_ops d).
Proof.
  intros HL H. exists L. split; [exact HL|]. unfold delay_reset, line_reset. change (n0 Rnum_ops) with 0. destruct H as (H & _). rewrite H. apply d_hist_new. lia.
Qed.
Lemma s_ready eta s : an_eta s = eta -> an_z s = 0 -> d_ready (an_x s) -> young eta 400 0 s.
Proof. intros H1 H2 (L & HL & H). exists L, []. split; [exact HL|]. split; [reflexivity|]. split; [exact H1|]. split; [rewrite H2; destruct (L - 1)%nat; reflexivity|]. split; [exact H|lia]. Qed.
Lemma young_reset eta k s : young eta 400 k s -> young eta 400 0 (all_reset Rnum_ops dopsR s).
Proof. intros (n & h & Hn & _ & H1 & _ & H & _). apply s_ready; [exact H1|reflexivity|]. exact (d_ready_reset _ n h Hn H). Qed.
Lemma b_young_reset eta k b : b_young eta 400 k b -> b_young eta 400 0 (block_reset Rnum_ops pass_ops b).
Proof.
  intros (H0 & L0 & H1 & L1 & L & h & HL & _ & H). unfold block_reset, b_young. cbn [rb_all0 rb_all1 rb_delay]. rewrite !map_length. split; [apply Forall_map; eapply Forall_impl; [|exact H0]; intros s; apply young_reset|]. split; [exact L0|].
  split; [apply Forall_map; eapply Forall_impl; [|exact H1]; intros s; apply young_reset|]. split; [exact L1|]. destruct (d_ready_reset _ L h HL H) as (L' & HL' & H'). exists L', []. auto.
Qed.
Lemma b_young_new eta b : b_long eta b -> b_young eta 400 0 b.
Proof.
  intros (H0 & L0 & H1 & L1 & H). assert (G : forall s, s_long eta s -> young eta 400 0 s) by (intros s (A & B & C); apply s_ready; auto; apply d_ready_long; exact C).
  repeat split; auto; try (eapply Forall_impl; [exact G|assumption]). destruct (d_ready_long _ H) as (L & HL & Q). exists L, []. auto.
Qed.
Lemma b_young_rate eta sr xr b : b_long eta b -> 44100 <= sr -> b_young eta 400 0 (block_rate Rnum_ops xr sr b).
Proof.
  intros (H0 & L0 & H1 & L1 & H) Hs. assert (G : forall s, s_long eta s -> young eta 400 0 (sch_rate Rnum_ops s sr)) by (intros s (A & B & C); apply s_ready; auto; apply d_ready_rate; assumption).
  unfold block_rate, b_young. cbn [rb_all0 rb_all1 rb_delay]. rewrite !map_length. repeat split; auto; try (apply Forall_map; eapply Forall_impl; [exact G|assumption]). destruct (d_ready_rate _ sr H Hs) as (L & HL & Q). exists L, []. auto.
Qed.

Lemma rev_new_early time diffusion xr : 0 <= diffusion <= 1 -> exists r, loopR time diffusion tt = Some r /\ let eta := coeff diffusion in
  at_age eta (1 / 2) (rv_a r) 400 0 r /\ forall sr, 44100 <= sr -> at_age eta (1 / 2) (rv_a r) 400 0 (reverb_rate Rnum_ops xr r sr).
Proof.
  intros Hd. destruct (new_ok time diffusion tt Hd) as (r & E & L8 & _ & _ & _ & _ & _ & _ & _ & F2 & Eb). exists r. split; [exact E|]. pose proof (coeff_range diffusion Hd) as CR. rewrite (coeff_eq diffusion) in *. cbv zeta. unfold coeff.
  set (c := 1 / 2 + 4 / 10 * diffusion) in *. assert (P : pre_at c (1 / 2) 0 (rv_pre r)).
  { destruct (rv_pre r) as [|s0 [|s1 [|s2 [|s3 [|s4 l]]]]]; repeat (match goal with H : Forall2 _ _ _ |- _ => inversion_clear H end). exists s0, s1, s2, s3. split; [reflexivity|].
    split; [apply (pre_fresh c 244); assumption|]. split; [apply (pre_fresh c 366); assumption|]. split; [apply (pre_fresh c 262); assumption|apply (pre_fresh c 348); assumption]. }
  apply blocks_long in Eb; [|lra|apply Forall_forall; intros i Hi; apply in_seq in Hi; lia].
  assert (N : rv_blocks r <> []) by (intros N; rewrite N in L8; discriminate). split.
  - repeat split; auto. eapply Forall_impl; [|exact Eb]. intros b. apply b_young_new.
  - intros sr Hs. unfold reverb_rate, at_age. cbn [rv_pre rv_blocks rv_a]. split; [exact P|]. split; [apply Forall_map; eapply Forall_impl; [|exact Eb]; intros b Hb; apply b_young_rate; assumption|]. split; [|reflexivity]. intros Q. apply map_eq_nil in Q. contradiction.
Qed.
Definition impulse (k : nat) : list rev_op := RTick [1; 0] :: repeat (RTick [0; 0]) k.
Lemma run_silent eta a xr m : forall k r l, at_age eta (1 / 2) a 400 k r -> (1 <= k)%nat -> (k + m = 245)%nat -> exists r', at_age eta (1 / 2) a 400 245 r' /\ rev_run pass_ops xr r (repeat (RTick [0; 0]) m ++ l) = repeat [0; 0] m ++ rev_run pass_ops xr r' l.
Proof.
  induction m as [|m IH]; intros k r l H Hk Hm; [exists r; replace k with 245%nat in H by lia; split; [exact H|reflexivity]|]. destruct (r_step eta a 400 k r ltac:(lia) ltac:(lia) H) as (r1 & E & H1). destruct (IH (S k) r1 l H1 ltac:(lia) ltac:(lia)) as (r' & H' & E').
  exists r'. split; [exact H'|]. cbn [repeat app rev_run]. rewrite E, E'. reflexivity.
Qed.
Lemma run_impulse eta a xr r l : at_age eta (1 / 2) a 400 0 r -> exists o r', at_age eta (1 / 2) a 400 245 r' /\ rev_run pass_ops xr r (impulse 244 ++ l) = o :: repeat [0; 0] 244 ++ rev_run pass_ops xr r' l.
Proof.
  intros H. destruct (r_first eta a 400 r ltac:(lia) H) as (r1 & o & E & H1). destruct (run_silent eta a xr 244 1 r1 l H1 ltac:(lia) ltac:(lia)) as (r' & H' & E'). exists o, r'. split; [exact H'|]. unfold impulse. cbn [app]. cbn [rev_run]. rewrite E. f_equal. exact E'.
Qed.
Lemma echo_pos diffusion : 0 <= diffusion <= 1 -> 0 < coeff diffusion ^ 5 * (1 - coeff diffusion * coeff diffusion) / 2.
Proof.
  intros H. unfold coeff. set (c := 1 / 2 + 4 / 10 * diffusion). assert (0 < c < 1) by (unfold c; lra). assert (0 < c ^ 5) by (apply pow_lt; lra). assert (0 < 1 - c * c) by nra. assert (0 < c ^ 5 * (1 - c * c)) by (apply Rmult_lt_0_compat; assumption). lra.
Qed.
(* reset leaves the pre-diffusers as they are *)
Lemma reset_echo xr time diffusion : 0 <= diffusion <= 1 -> exists r, loopR time diffusion tt = Some r /\
  rev_run pass_ops xr r [RTick [0; 0]] = [[0; 0]] /\ exists o x y, rev_run pass_ops xr r (impulse 244 ++ [RReset; RTick [0; 0]]) = o :: repeat [0; 0] 244 ++ [[x; y]] /\ 0 < x.
Proof.
  intros Hd. destruct (rev_new_early time diffusion xr Hd) as (r & E & H & _). exists r. split; [exact E|]. split; [destruct (r_zero _ _ 400 r ltac:(lia) H) as (r' & E'); cbn [rev_run]; rewrite E'; reflexivity|].
  destruct (run_impulse _ _ xr r [RReset; RTick [0; 0]] H) as (o & r' & (H1 & H2 & H3 & _) & E'). rewrite E'. cbn [rev_run].
  destruct (r_echo (coeff diffusion) 400 0 (reverb_reset Rnum_ops pass_ops r')) as (r'' & y & Ey); [lia|exact H1|apply Forall_map; eapply Forall_impl; [|exact H2]; intros b; apply b_young_reset|intros Q; apply map_eq_nil in Q; contradiction|].
  rewrite Ey. eexists. eexists. eexists. split; [reflexivity|]. apply echo_pos. exact Hd.
Qed.
(* set_sample_rate leaves them too: the second sound comes after 245 samples whatever the rate *)
Lemma rate_echo xr time diffusion sr : 0 <= diffusion <= 1 -> 44100 <= sr -> exists r, loopR time diffusion tt = Some r /\
  exists o x y, rev_run pass_ops xr r (RRate sr :: impulse 244 ++ [RTick [0; 0]]) = o :: repeat [0; 0] 244 ++ [[x; y]] /\ 0 < x.
Proof.
  intros Hd Hs. destruct (rev_new_early time diffusion xr Hd) as (r & E & _ & H). exists r. split; [exact E|]. specialize (H sr Hs). cbn [rev_run].
  destruct (run_impulse _ _ xr _ [RTick [0; 0]] H) as (o & r' & (H1 & H2 & H3 & _) & E'). rewrite E'. cbn [rev_run].
  destruct (r_echo (coeff diffusion) 400 245 r') as (r'' & y & Ey); [lia|exact H1|exact H2|exact H3|].
  rewrite Ey. eexists. eexists. eexists. split; [reflexivity|]. apply echo_pos. exact Hd.
Qed.
