(* Proofs about taps that move and reverb2_stereo. *)
From Coq Require Import Reals Lra Lia.
From Verif Require Import Base BufProofs HadamardProofs DelaySpec DelayProofs DelayReals RevProofs RevGraph RevStereo RevLoop HallTap.
From Verif Require Import HallSpec.
Local Open Scope R_scope.
Local Notation energy := HadamardSpec.energy.

Section Tap.
  Variables (sr lo hi : R).
  Hypothesis Hs : 0 < sr. Hypothesis Hm : 0 <= lo <= hi.
  Notation L := (linear_length Rnum_ops sr hi).
  Notation at_ d := (clamp Rnum_ops lo hi d * sr).
  Lemma at_pos d : 0 <= at_ d.
  Proof. pose proof (clamp_bounds lo hi d) as [B _]. rewrite Rmin_left in B by lra. apply Rmult_le_pos; lra. Qed.
  Lemma tap_tick_is s hist x d : holds 0 L (l_buf s) (l_i s) hist -> let (s', o) := linear_tick Rnum_ops lo hi sr s [x; d] in holds 0 L (l_buf s') (l_i s') (x :: hist) /\
    o = [lerp Rnum_ops (nth (Z.to_nat (Int_part (at_ d))) (x :: hist) 0) (nth (Z.to_nat (Int_part (at_ d)) + 1) (x :: hist) 0) (at_ d - IZR (Int_part (at_ d)))].
  Proof.
    intros H. destruct (pow_of (Z.to_nat (ceilZ Rnum_ops (hi * sr)%R + 2))) as [q E].
    destruct (taps_tick_ok Rnum_ops _ _ L q E 0 (linear_reads_R sr lo hi Hs Hm 0 (or_introl eq_refl)) (linear_spec_ext Rnum_ops _ _ sr) s hist [x; d] H) as [T1 T2].
    unfold linear_tick. destruct (taps_tick _ _ s [x; d]) as [s' o]. cbn [fst snd] in *. split; [exact T1|]. rewrite T2. unfold out_of. cbn [tl fold_left nth]. f_equal. change (nadd Rnum_ops (n0 Rnum_ops)) with (Rplus 0). rewrite Rplus_0_l. reflexivity.
  Qed.
  Section Slow.
    Variable e : R.
    Hypothesis He : 0 <= e <= 1 / 3.
    Lemma Hslow : 2 / 3 <= 1 - e <= 1. Proof. lra. Qed.
    Notation owe := (owed (1 - e)).
    Lemma tap_pay s hist x d D' : holds 0 L (l_buf s) (l_i s) hist -> D' <= at_ d + e -> let (s', o) := linear_tick Rnum_ops lo hi sr s [x; d] in holds 0 L (l_buf s') (l_i s') (x :: hist) /\
      exists y, o = [y] /\ y * y + owe (x :: hist) D' <= owe hist (at_ d) + (1 + 2 * e) * (x * x).
    Proof.
      intros H HD. pose proof (tap_tick_is s hist x d H) as T. destruct (linear_tick _ _ _ _ s [x; d]) as [s' o]. destruct T as [T1 ->]. split; [exact T1|]. eexists. split; [reflexivity|].
      replace (1 + 2 * e) with (3 - 2 * (1 - e)) by ring. apply (tap_step (1 - e) Hslow hist x (at_ d) D'); [apply at_pos|lra|reflexivity].
    Qed.
    Lemma owed_nil D : owe [] D = 0. Proof. reflexivity. Qed.
    Lemma taps_pay dls : rises_by e (read_at_delay sr lo hi dls) -> forall s hist xs, holds 0 L (l_buf s) (l_i s) hist -> length xs = length dls ->
      total (snd (ticks (linear_tick Rnum_ops lo hi sr) s (zipw (fun x d => [x; d]) xs dls))) <= (1 + 2 * e) * energy xs + match dls with [] => 0 | d :: _ => owe hist (at_ d) end.
    Proof.
      induction dls as [|d dls IH]; intros Hr s hist xs H Lx; [destruct xs; [unfold total; cbn; lra|discriminate]|]. destruct xs as [|x xs]; [discriminate|]. injection Lx as Lx.
      set (D' := match dls with [] => at_ d | d' :: _ => at_ d' end).
      assert (HD : D' <= at_ d + e) by (unfold D'; destruct dls as [|d' dls]; [lra|]; apply (proj1 Hr)).
      assert (Hr' : rises_by e (read_at_delay sr lo hi dls)) by (destruct dls; [exact I|apply (proj2 Hr)]).
      cbn [zipw ticks]. pose proof (tap_pay s hist x d D' H HD) as T. destruct (linear_tick _ _ _ _ s [x; d]) as [s1 o]. destruct T as (T1 & y & -> & T2).
      specialize (IH Hr' s1 (x :: hist) xs T1 Lx). destruct (ticks _ s1 _) as [s2 os]. cbn [snd] in *. unfold total in *. cbn [weighted energy].
      assert (Q : match dls with [] => 0 | d' :: _ => owe (x :: hist) (at_ d') end <= owe (x :: hist) D') by (unfold D'; destruct dls; [apply owed_nonneg|lra]).
      lra.
    Qed.
    Lemma tapped_energy xs dls : length xs = length dls -> rises_by e (read_at_delay sr lo hi dls) -> total (tapped sr lo hi xs dls) <= (1 + 2 * e) * energy xs.
    Proof.
      intros Lx Hr. pose proof (taps_pay dls Hr (line_new 0 L) [] xs (holds_new 0 L ltac:(apply next_pow2_pos)) Lx) as T. unfold tapped. eapply Rle_trans; [exact T|]. destruct dls; [lra|]. rewrite owed_nil. lra.
    Qed.
  End Slow.
End Tap.

(* ---- gains from an invariant that bounds what a node may still give ---- *)
Section Storage.
  Context {P U : Type}.
  Variable ops : unit_ops R P U.
  Lemma gain_storage n g (Inv : node R U -> R -> Prop) : (forall x V, Inv x V -> 0 <= V) ->
    (forall x V i, Inv x V -> length i = n -> exists V', Inv (fst (tick R_arith ops x i)) V' /\ energy (snd (tick R_arith ops x i)) + V' <= g * energy i + V) ->
    forall l x V, stream n l -> Inv x V -> weighted 1 (outputs R_arith ops x l) <= g * weighted 1 l + V.
  Proof.
    intros Hv Ht. induction l as [|i l IH]; intros x V L H; [pose proof (Hv x V H); cbn; lra|]. apply Forall_cons_iff in L as [L1 L2]. rewrite outputs_cons. cbn [weighted].
    destruct (Ht x V i H L1) as (V' & H' & T). specialize (IH _ V' L2 H'). lra.
  Qed.
End Storage.

(* ---- the panners at the end, for any leaves ---- *)
Section Pans.
  Context {P U : Type}.
  Variable ops : unit_ops R P U.
  Variable inj : panner R -> U.
  Hypothesis Hi : forall p, u_ins ops (inj p) = 1%nat. Hypothesis Ho : forall p, u_outs ops (inj p) = 2%nat.
  Hypothesis Ht : forall p i, u_tick ops (inj p) i = (inj p, pan_out p i).
  Notation lv := (map (fun p => Leaf (inj p))).
  Lemma ipans_all ps : forall is, length is = length ps -> tick_all (tick R_arith ops) (lv ps) is = (lv ps, zipw pan_out ps is).
  Proof. induction ps as [|p ps IH]; intros [|i is] L; try discriminate; [reflexivity|]. injection L as L. cbn [map tick_all]. rewrite IH by exact L. cbn [tick]. rewrite Ht. reflexivity. Qed.
  Lemma ipans_hd ps : ps <> [] -> hd_ins ops (lv ps) = 1%nat /\ hd_outs ops (lv ps) = 2%nat.
  Proof. destruct ps as [|p ps]; [congruence|]. intros _. split; [exact (Hi p)|exact (Ho p)]. Qed.
  Lemma ipans_tick ps i : ps <> [] -> tick R_arith ops (Reduce Rplus (lv ps)) i = (Reduce Rplus (lv ps), reduce_out R_arith Rplus 2 (zipw pan_out ps (slices (length ps) 1 i))).
  Proof. intros N. rewrite tick_Reduce. cbv zeta. rewrite map_length. destruct (ipans_hd ps N) as [-> ->]. rewrite ipans_all by apply slices_length. reflexivity. Qed.
  Lemma ipans_energy ps i : ps <> [] -> Forall (fun p => p_left p * p_left p + p_right p * p_right p <= 1) ps -> length i = length ps ->
    exists a b, snd (tick R_arith ops (Reduce Rplus (lv ps)) i) = [a; b] /\ a * a + b * b <= INR (length ps) * energy i.
  Proof. intros N H L. rewrite ipans_tick by exact N. pose proof (pans_energy ps i N H L) as E. rewrite pans_tick in E by exact N. exact E. Qed.
  Lemma ipans_stage ps c : ps <> [] -> Forall (fun p => p_left p * p_left p + p_right p * p_right p <= 1) ps -> let x := Unop (fun v => v * c) (Reduce Rplus (lv ps)) in
    wf ops x /\ ins ops x = length ps /\ outs ops x = 2%nat /\ energy_gain ops 1 (INR (length ps) * (c * c)) x.
  Proof.
    intros N F x. destruct (ipans_hd ps N) as [H1 H2]. assert (Ix : ins ops (Reduce Rplus (lv ps)) = length ps) by (rewrite ins_Reduce, map_length, H1; lia).
    split; [|split; [exact Ix|split; [exact H2|]]].
    - cbn [wf x]. split.
      + apply all_Forall, Forall_map, Forall_forall. intros p _. exact I.
      + destruct ps as [|p ps]; [congruence|]. unfold uniform. cbn [map]. change (Leaf (inj p) :: map (fun p => Leaf (inj p)) ps) with (map (fun p : panner R => Leaf (A := R) (inj p)) (p :: ps)). apply Forall_map, Forall_forall. intros q _. cbn [ins outs]. rewrite !Hi, !Ho. split; reflexivity.
    - apply gain_pure.
      + intros i. unfold x. rewrite tick_Unop. cbn [fst]. rewrite ipans_tick by exact N. reflexivity.
      + intros i Li. unfold x in *. rewrite tick_Unop. cbn [snd]. change (ins ops (Unop (fun v => v * c) (Reduce Rplus (lv ps)))) with (ins ops (Reduce Rplus (lv ps))) in Li. rewrite Ix in Li. destruct (ipans_energy ps i N F Li) as (a & b & E & H). rewrite E. cbn [map HadamardSpec.energy].
        pose proof (sq_nonneg c). replace (a * c * (a * c) + (b * c * (b * c) + 0)) with (c * c * (a * a + b * b)) by ring. replace (INR (length ps) * (c * c) * energy i) with (c * c * (INR (length ps) * energy i)) by ring. now apply Rmult_le_compat_l.
  Qed.
End Pans.

Section Hall.
  Context {P X : Type}.
  Variable xo : unit_ops R P X.
  Variable x_rate : X -> R -> X.
  Variable held : X -> R.
  Hypothesis Hp : passive xo x_rate held.
  Notation ho := (hops xo).
  Notation tk := (tick R_arith (hops xo)).
  Notation nt := (mono Rnum_ops (all_tick Rnum_ops (dl_ops (P := P) Rnum_ops))).

  Lemma h_outs_tick (u : hleaf R X) i : h_ins (fst (h_tick (P := P) Rnum_ops xo u i)) = h_ins u /\ h_outs (fst (h_tick Rnum_ops xo u i)) = h_outs u /\ length (snd (h_tick Rnum_ops xo u i)) = h_outs u.
  Proof. destruct u as [x|f n|lo hi sr s|s|p]; cbn [h_tick]; [destruct (mono Rnum_ops (u_tick xo) x _)| |unfold linear_tick, taps_tick|destruct (nt s _)|]; cbn; auto. Qed.
  Lemma h_laws : unit_laws 0 ho.
  Proof.
    split; intros u.
    - intros i. apply h_outs_tick.
    - intros i. apply h_outs_tick.
    - intros i _. apply h_outs_tick.
    - apply (default_process_contract 0 (h_tick Rnum_ops xo) (h_outs u) (h_ins u) (fun v => h_outs v = h_outs u)); [|reflexivity].
      intros v i E _. destruct (h_outs_tick v i) as (_ & H1 & H2). split; congruence.
  Qed.

  Section Line.
    Variables (sr lo hi a e : R) (f : nat -> R).
    Hypothesis Hs : 0 < sr. Hypothesis Hm : 0 <= lo <= hi. Hypothesis He : 0 <= e <= 1 / 3.
    Notation at_ d := (clamp Rnum_ops lo hi d * sr).
    Hypothesis Hf : forall n, at_ (f (S n)) <= at_ (f n) + e.
    Definition hline (x : X) (n : nat) (s : line R) (c : @schroeder R) : node R (hleaf R X) :=
      Pipe (Pipe (Stack (Binop Rmult (Leaf (HFilter x)) (Constant [a])) (Leaf (HCtl f n))) (Leaf (HTap lo hi sr s))) (Leaf (HNest c)).
    Definition hline_inv (y : node R (hleaf R X)) (V : R) : Prop := exists x n s c hist, y = hline x n s c /\ holds 0 (linear_length Rnum_ops sr hi) (l_buf s) (l_i s) hist /\ s_ok c /\
      V = s_held c + owed (1 - e) hist (at_ (f n)) + (1 + 2 * e) * (a * a) * held x.
    Lemma hline_tick x n s c v : let (x', w) := mono Rnum_ops (u_tick xo) x v in let (s', o) := linear_tick Rnum_ops lo hi sr s [w * a; f n] in
      let (c', z) := mono Rnum_ops (all_tick Rnum_ops (dl_ops (P := P) Rnum_ops)) c (nth 0 o 0) in tk (hline x n s c) [v] = (hline x' (S n) s' c', [z]).
    Proof.
      destruct (mono Rnum_ops (u_tick xo) x v) as [x' w] eqn:E1. destruct (linear_tick _ lo hi sr s _) as [s' o] eqn:E2. destruct (nt c _) as [c' z] eqn:E3.
      unfold hline. rewrite !tick_Pipe, tick_Stack, tick_Binop. unfold hops. cbn [tick u_tick u_ins hops h_ops h_tick h_ins ins firstn skipn app zipw nth fst snd Nat.add]. change (n0 Rnum_ops) with 0. rewrite E1. cbn [tick u_tick u_ins hops h_ops h_tick h_ins ins firstn skipn app zipw nth fst snd Nat.add]. rewrite E2. cbn [tick u_tick u_ins hops h_ops h_tick h_ins ins firstn skipn app zipw nth fst snd Nat.add]. rewrite E3. reflexivity.
    Qed.
    Lemma hline_gain y V : hline_inv y V -> V = 0 -> energy_gain ho 1 ((1 + 2 * e) * (a * a)) y.
    Proof.
      intros H -> l L. destruct Hp as (P0 & P1 & _). assert (E0 : 0 <= (1 + 2 * e) * (a * a)) by (apply Rmult_le_pos; [lra|apply sq_nonneg]).
      assert (G : weighted 1 (outputs R_arith ho y l) <= (1 + 2 * e) * (a * a) * weighted 1 l + 0); [|lra].
      apply (gain_storage ho 1 _ hline_inv).
      - intros x V (x0 & n & s & c & hist & _ & _ & Hc & ->). pose proof (s_held_pos c Hc). pose proof (owed_nonneg (1 - e) hist (at_ (f n))). pose proof (Rmult_le_pos _ _ E0 (P0 x0)). lra.
      - intros y0 V i (x & n & s & c & hist & -> & Hh & Hc & ->) Li. destruct i as [|v [|]]; try discriminate.
        pose proof (hline_tick x n s c v) as T. specialize (P1 x v). unfold mono in T at 1. destruct (u_tick xo x [v]) as [x' ox]. change (n0 Rnum_ops) with 0 in T. set (w := nth 0 ox 0) in *.
        pose proof (tap_pay sr lo hi Hs Hm e He s hist (w * a) (f n) (at_ (f (S n))) Hh (Hf n)) as Q. destruct (linear_tick _ lo hi sr s _) as [s' o]. destruct Q as (Q1 & y1 & -> & Q2). cbn [nth] in T.
        pose proof (s_held_tick (P := P) c y1 Hc) as S. destruct (nt c y1) as [c' z]. destruct S as [S1 S2]. rewrite T. cbn [fst snd].
        exists (s_held c' + owed (1 - e) (w * a :: hist) (at_ (f (S n))) + (1 + 2 * e) * (a * a) * held x'). split; [exists x', (S n), s', c', (w * a :: hist); auto|].
        cbn [HadamardSpec.energy]. assert (M : (1 + 2 * e) * (a * a) * (w * w + held x') <= (1 + 2 * e) * (a * a) * (v * v + held x)) by (apply Rmult_le_compat_l; assumption).
        replace ((1 + 2 * e) * (w * a * (w * a))) with ((1 + 2 * e) * (a * a) * (w * w)) in Q2 by ring. lra.
      - destruct H as (x & n & s & c & hist & -> & _). exact L.
      - exact H.
    Qed.
  End Line.

  (* ---- the pre-diffusers ---- *)
  Definition pre_node (a b c d : @schroeder R) : node R (hleaf R X) := Stack (Pipe (Leaf (HNest a)) (Leaf (HNest b))) (Pipe (Leaf (HNest c)) (Leaf (HNest d))).
  Lemma pre_tick a b c d u v : 
    let (a', p) := nt a u in let (b', q) := nt b p in let (c', r) := nt c v in let (d', s) := nt d r in tk (pre_node a b c d) [u; v] = (pre_node a' b' c' d', [q; s]).
  Proof.
    destruct (nt a u) as [a' p] eqn:Ea. destruct (nt b p) as [b' q] eqn:Eb. destruct (nt c v) as [c' r] eqn:Ec. destruct (nt d r) as [d' s] eqn:Ed.
    unfold pre_node. rewrite tick_Stack, !tick_Pipe. unfold hops. cbn [tick u_tick u_ins hops h_ops h_tick h_ins ins firstn skipn app zipw nth fst snd Nat.add]. rewrite Ea. cbn [tick u_tick u_ins hops h_ops h_tick h_ins ins firstn skipn app zipw nth fst snd Nat.add]. rewrite Eb. cbn [tick u_tick u_ins hops h_ops h_tick h_ins ins firstn skipn app zipw nth fst snd Nat.add]. rewrite Ec. cbn [tick u_tick u_ins hops h_ops h_tick h_ins ins firstn skipn app zipw nth fst snd Nat.add]. rewrite Ed. reflexivity.
  Qed.
  Definition pre_inv (y : node R (hleaf R X)) (V : R) : Prop := exists a b c d, y = pre_node a b c d /\ s_ok a /\ s_ok b /\ s_ok c /\ s_ok d /\ V = s_held a + s_held b + s_held c + s_held d.
  Lemma pre_gain y : pre_inv y 0 -> energy_gain ho 1 1 y.
  Proof.
    intros H l L. enough (weighted 1 (outputs R_arith ho y l) <= 1 * weighted 1 l + 0) by lra. apply (gain_storage ho 2 _ pre_inv).
    - intros x V (a & b & c & d & _ & A & B & C & D & ->). pose proof (s_held_pos a A). pose proof (s_held_pos b B). pose proof (s_held_pos c C). pose proof (s_held_pos d D). lra.
    - intros x V i (a & b & c & d & -> & A & B & C & D & ->) Li. destruct i as [|u [|v [|]]]; try discriminate. pose proof (pre_tick a b c d u v) as T.
      pose proof (s_held_tick (P := P) a u A) as Ta. destruct (nt a u) as [a' p]. pose proof (s_held_tick (P := P) b p B) as Tb. destruct (nt b p) as [b' q].
      pose proof (s_held_tick (P := P) c v C) as Tc. destruct (nt c v) as [c' r]. pose proof (s_held_tick (P := P) d r D) as Td. destruct (nt d r) as [d' s].
      destruct Ta as [A' Ta], Tb as [B' Tb], Tc as [C' Tc], Td as [D' Td]. rewrite T. cbn [fst snd HadamardSpec.energy]. eexists. split; [exists a', b', c', d'; auto 10|]. lra.
    - destruct H as (a & b & c & d & -> & _). exact L.
    - exact H.
  Qed.
  Lemma nest_ok sr coeff t : 0 <= t -> -1 <= coeff <= 1 -> exists c, nest_c (X := X) Rnum_ops sr coeff t = Some (HNest c) /\ s_ok c /\ s_held c = 0.
  Proof.
    intros Ht Hc. unfold nest_c. destruct (delay_at_some sr t Ht) as [d E]. rewrite E. apply delay_at_eq in E as [_ ->]. eexists. split; [reflexivity|]. split; [exact Hc|]. unfold s_held. cbn [an_eta an_z an_x]. change (n0 Rnum_ops) with 0. rewrite d_held_new. ring.
  Qed.

  (* ---- the numbers ---- *)
  Lemma index_range i : (i < 32)%nat -> (11 <= nth (hall_index i) hall_delays 0 <= 677)%Z.
  Proof.
    intros H. assert (A : forallb (fun i => (11 <=? nth (hall_index i) hall_delays 0)%Z && (nth (hall_index i) hall_delays 0 <=? 677)%Z) (seq 0 32) = true) by reflexivity.
    rewrite forallb_forall in A. specialize (A i ltac:(apply in_seq; lia)). apply andb_prop in A as [A1 A2]. apply Z.leb_le in A1, A2. lia.
  Qed.
  Lemma allpass_range i : (i < 32)%nat -> 11 / 44100 <= hall_allpass Rnum_ops i <= 677 / 44100.
  Proof. intros H. destruct (index_range i H) as [A B]. unfold hall_allpass, default_sr. cbn [ndiv nofZ Rnum_ops]. apply IZR_le in A, B. lra. Qed.
  Lemma min_range room : 40 / 1000 <= hall_min Rnum_ops room <= 100 / 1000 /\ hall_min Rnum_ops room <= hall_max Rnum_ops room.
  Proof.
    assert (A : 40 / 1000 <= hall_min Rnum_ops room <= 100 / 1000).
    { unfold hall_min, dec. cbn [nofZ nadd nmul ndiv Rnum_ops]. pose proof (clamp_bounds 10 30 room) as [B C]. rewrite Rmin_left in B by lra. set (c := clamp _ _ _ _) in *. clearbody c. lra. }
    split; [exact A|]. unfold hall_max. cbn [nofZ nadd nmul ndiv nmax Rnum_ops]. eapply Rle_trans; [|apply Rmax_l]. lra.
  Qed.
  Lemma lo_range room i : (i < 32)%nat -> 0 <= hall_lo Rnum_ops room i <= hall_hi Rnum_ops room i /\ hall_hi Rnum_ops room i = hall_lo Rnum_ops room i + 2 / 1000.
  Proof.
    intros H. destruct (min_range room) as [A B]. pose proof (allpass_range i H) as C. unfold hall_lo, hall_hi, hall_delay, dec. cbn [nofZ nadd nsub nmul ndiv Rnum_ops].
    set (m := hall_min _ _) in *. set (M := hall_max _ _) in *. set (p := hall_allpass _ _) in *. clearbody m M p. assert (0 <= IZR (Z.of_nat (hall_index i)) * ((M - m) / 32)) by (apply Rmult_le_pos; [apply IZR_le; lia|lra]). split; [|field]. lra.
  Qed.
  Lemma clamp_lip lo hi u v t : 0 <= t -> u <= v + t -> clamp Rnum_ops lo hi u <= clamp Rnum_ops lo hi v + t.
  Proof. intros Ht H. unfold clamp. cbn. unfold Rmin, Rmax. repeat destruct (Rle_dec _ _); lra. Qed.
  Lemma gain_range room time : 0 < time -> hall_gainR room time = Rpower 10 (- (3 / 2) * hall_min Rnum_ops room / time) /\ 0 < hall_gainR room time < 1.
  Proof.
    intros Ht. assert (E : hall_gainR room time = Rpower 10 (- (3 / 2) * hall_min Rnum_ops room / time)).
    { unfold hall_gainR, hall_gain, db_amp, dec. cbn [nofZ nmul ndiv Rnum_ops]. rewrite Rpower_mult. f_equal. field. lra. }
    split; [exact E|]. rewrite E. split; [apply exp_pos|]. rewrite <- (Rpower_O 10) by lra. apply Rpower_lt; [lra|]. destruct (min_range room) as [A _]. assert (0 < 3 / 2 * hall_min Rnum_ops room / time); [|unfold Rdiv in *; lra].
    unfold Rdiv. repeat apply Rmult_lt_0_compat; try lra. now apply Rinv_0_lt_compat.
  Qed.
  Lemma sequence_lines {T} (Q : node R (hleaf R X) -> Prop) (f : T -> option (node R (hleaf R X))) l : (forall t, In t l -> exists x, f t = Some x /\ Q x) -> exists xs, sequence (map f l) = Some xs /\ length xs = length l /\ Forall Q xs.
  Proof.
    induction l as [|t l IH]; intros H; [exists []; repeat split; constructor|]. destruct (H t (or_introl eq_refl)) as (x & E & Hx). destruct IH as (xs & Es & L & F); [intros; apply H; now right|].
    exists (x :: xs). cbn [map sequence]. rewrite E, Es. repeat split; [cbn; congruence|constructor; assumption].
  Qed.

  Lemma hall_ok sr room time diffusion e ctl filter : held filter = 0 -> 0 < sr -> 0 < time -> 0 <= diffusion <= 1 -> 0 <= e <= 1 / 3 ->
    (forall i lo hi n, hi = lo + 2 / 1000 -> ctl i lo hi (S n) * sr <= ctl i lo hi n * sr + e) -> let g := hall_gainR room time * sqrt (1 + 2 * e) in g < 1 ->
    exists x, hallR xo sr room time diffusion ctl filter = Some x /\ wf ho x /\ ins ho x = 2%nat /\ outs ho x = 2%nat /\ energy_gain ho 1 (8 * (g / (1 - g) * (g / (1 - g)))) x.
  Proof.
    intros Hh Hs Ht Hd He Hc g Hg. destruct (gain_range room time Ht) as [_ [A0 A1]]. set (a := hall_gainR room time) in *.
    assert (Q : 0 < sqrt (1 + 2 * e) /\ sqrt (1 + 2 * e) * sqrt (1 + 2 * e) = 1 + 2 * e) by (split; [apply sqrt_lt_R0; lra|apply sqrt_sqrt; lra]). destruct Q as [Q0 Q1].
    assert (G0 : 0 < g) by (now apply Rmult_lt_0_compat). assert (G2 : g * g = (1 + 2 * e) * (a * a)) by (transitivity (sqrt (1 + 2 * e) * sqrt (1 + 2 * e) * (a * a)); [unfold g; ring|now rewrite Q1]).
    assert (Hco : -1 <= lerp Rnum_ops (dec Rnum_ops 1 2) (dec Rnum_ops 9 10) diffusion <= 1).
    { replace (lerp Rnum_ops (dec Rnum_ops 1 2) (dec Rnum_ops 9 10) diffusion) with (1 / 2 * (1 - diffusion) + 9 / 10 * diffusion) by (unfold lerp, dec; cbn; ring). lra. }
    destruct (sequence_lines (gline ho 1 (g * g)) (hall_line Rnum_ops Rpower (Rpower 10) sr room time diffusion ctl filter) (seq 0 32)) as (lines & El & Ll & Fl).
    { intros i Hin. apply in_seq in Hin. destruct (lo_range room i ltac:(lia)) as [Lo Lh]. unfold hall_line. cbv zeta. set (lo := hall_lo Rnum_ops room i) in *. set (hi := hall_hi Rnum_ops room i) in *.
      unfold tap_linear. cbn [nleb Rnum_ops]. change (n0 Rnum_ops) with 0. destruct (Rle_dec 0 lo); [|lra]. destruct (Rle_dec lo hi); [|lra]. cbn [andb].
      destruct (nest_ok sr (lerp Rnum_ops (dec Rnum_ops 1 2) (dec Rnum_ops 9 10) diffusion) (hall_allpass Rnum_ops i - 1 / 44100)) as (c & Ec & Oc & Zc); [pose proof (allpass_range i ltac:(lia)); lra|exact Hco|].
      change (nsub Rnum_ops (hall_allpass Rnum_ops i) (ndiv Rnum_ops (n1 Rnum_ops) (default_sr Rnum_ops))) with (hall_allpass Rnum_ops i - 1 / 44100). rewrite Ec. eexists. split; [reflexivity|].
      refine (conj _ (conj eq_refl (conj eq_refl _))); [cbn; auto 10|]. rewrite G2. apply (hline_gain sr lo hi a e (ctl i lo hi) Hs ltac:(lra) He) with (V := 0).
      - intros n. specialize (Hc i lo hi n Lh). replace e with (e / sr * sr) by (field; lra). rewrite <- Rmult_plus_distr_r. apply Rmult_le_compat_r; [lra|]. apply clamp_lip.
        + apply Rmult_le_pos; [lra|left; now apply Rinv_0_lt_compat].
        + apply Rmult_le_reg_r with sr; [exact Hs|]. rewrite Rmult_plus_distr_r. replace (e / sr * sr) with e by (field; lra). exact Hc.
      - exists filter, 0%nat, (line_new 0 (linear_length Rnum_ops sr hi)), c, []. split; [reflexivity|]. split; [apply holds_new, next_pow2_pos|]. split; [exact Oc|]. rewrite Zc, Hh, owed_nil. ring.
      - reflexivity. }
    assert (Hn : forall m, (0 <= m)%Z -> exists c, nest_c (X := X) Rnum_ops sr (dec Rnum_ops 618 1000) (ndiv Rnum_ops (nofZ Rnum_ops m) (default_sr Rnum_ops)) = Some (HNest c) /\ s_ok c /\ s_held c = 0).
    { intros m M. apply nest_ok; [|unfold dec; cbn; lra]. unfold default_sr. cbn [ndiv nofZ Rnum_ops]. apply IZR_le in M. lra. }
    destruct (Hn 224%Z ltac:(lia)) as (c1 & E1 & O1 & Z1). destruct (Hn 340%Z ltac:(lia)) as (c2 & E2 & O2 & Z2). destruct (Hn 247%Z ltac:(lia)) as (c3 & E3 & O3 & Z3). destruct (Hn 366%Z ltac:(lia)) as (c4 & E4 & O4 & Z4).
    unfold hallR, reverb2_stereo, hall_pre. rewrite El, E1, E2, E3, E4. eexists. split; [reflexivity|].
    assert (Gp : energy_gain ho 1 1 (pre_node c1 c2 c3 c4)) by (apply pre_gain; exists c1, c2, c3, c4; rewrite Z1, Z2, Z3, Z4; split; [reflexivity|]; do 4 (split; [assumption|]); ring).
    change (Stack _ _) with (pre_node c1 c2 c3 c4). set (pre := pre_node c1 c2 c3 c4) in *. assert (Wp : wf ho pre) by (cbn; auto 10). assert (Op : outs ho pre = 2%nat) by reflexivity. assert (Ip : ins ho pre = 2%nat) by reflexivity.
    destruct (gain_fdn ho h_laws 1 g 5 lines G0 ltac:(lra) ltac:(lra) Ll Fl) as (Gn & Wn & In & On). rewrite Rmult_1_r in Gn. rewrite Ll in In, On. set (k := g / (1 - g)) in *. set (n := fdn _ _ lines) in *.
    set (ps := map (fun i => panner_new Rnum_ops cos sin (PI / 4) 1 (lerp Rnum_ops (nofZ Rnum_ops (-1)) (n1 Rnum_ops) (MathModel.smooth9 Rnum_ops (ndiv Rnum_ops (nofZ Rnum_ops (Z.of_nat i)) (nofZ Rnum_ops 31))))) (seq 0 32)).
    destruct (ipans_stage ho HPan (fun _ => eq_refl) (fun _ => eq_refl) (fun _ _ => eq_refl) ps (1 / 8)) as (Wo & Io & Oo & Go).
    { unfold ps. discriminate. }
    { unfold ps. apply Forall_map, Forall_forall. intros i _. apply pan_unit. }
    assert (Lps : length ps = 32%nat) by (unfold ps; now rewrite map_length, seq_length).
    assert (Eo : Unop (fun v => nmul Rnum_ops v (dec Rnum_ops 1 8)) (hall_pans (X := X) Rnum_ops cos sin (PI / 4)) = Unop (fun v => v * (1 / 8)) (Reduce Rplus (map (fun p => Leaf (HPan p)) ps))) by (unfold hall_pans, ps; rewrite map_map; reflexivity).
    rewrite Eo. rewrite Lps in Io, Go. set (o := Unop _ _) in *. clearbody o ps n pre.
    assert (Kn : 0 <= k * k) by apply sq_nonneg.
    assert (W1 : wf ho (Pipe pre (MultiSplit 2 16))) by (refine (conj Wp (conj I _)); exact Op).
    assert (W2 : wf ho (Pipe (Pipe pre (MultiSplit 2 16)) n)) by (refine (conj W1 (conj Wn _)); exact (eq_sym In)).
    assert (EO : outs ho n = ins ho o) by (rewrite Io; exact On).
    refine (conj (conj W2 (conj Wo EO)) (conj Ip (conj Oo _))).
    apply (gain_le ho 1 (INR 32 * (1 / 8 * (1 / 8)) * (k * k * (INR 16 * 1)))); [cbn [INR]; lra|].
    apply (gain_pipe ho h_laws); [cbn [INR]; lra|exact W2|exact EO| |exact Go].
    apply (gain_pipe ho h_laws); [exact Kn|exact W1|exact (eq_sym In)| |exact Gn].
    apply (gain_pipe ho h_laws); [cbn [INR]; lra|exact Wp|exact Op|exact Gp|apply gain_split].
  Qed.
End Hall.
