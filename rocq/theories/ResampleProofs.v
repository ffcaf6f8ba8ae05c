(* Proofs about the resampler. *)
From Coq Require Import Reals Lra Lia.
From Verif Require Import SeqSamples.
From Verif Require Export ResampleSpec MathReals.
Local Open Scope nat_scope.

Lemma mask_mod i : mask i = i mod 128.
Proof. unfold mask. change 127 with (Nat.ones 7). now rewrite Nat.land_ones. Qed.
Lemma mask_lt i : mask i < 128. Proof. rewrite mask_mod. apply Nat.mod_upper_bound. lia. Qed.
Lemma mask_ne i j : i < j -> j < i + 128 -> mask i <> mask j.
Proof.
  intros H1 H2 E. rewrite !mask_mod in E. pose proof (Nat.div_mod i 128 ltac:(lia)). pose proof (Nat.div_mod j 128 ltac:(lia)). rewrite E in *. assert (i / 128 < j / 128) by lia. lia.
Qed.
Lemma put_length {V} (b : list (list V)) i f : length f = length b -> length (put_frame b i f) = length b.
Proof. intros H. unfold put_frame. rewrite map_length, combine_length. lia. Qed.
Lemma put_nth {V} (b : list (list V)) i f k d : length f = length b -> k < length b -> nth k (put_frame b i f) [] = upd (nth k b []) i (nth k f d).
Proof.
  intros H Hk. unfold put_frame. rewrite nth_indep with (d' := (fun p => upd (fst p) i (snd p)) ([], d)) by (rewrite map_length, combine_length; lia).
  rewrite (map_nth (fun p => upd (fst p) i (snd p))). rewrite combine_nth by auto. reflexivity.
Qed.

Lemma nth_map_in {X Y} (f : X -> Y) l d e k : k < length l -> nth k (map f l) e = f (nth k l d).
Proof. intros H. rewrite nth_indep with (d' := f d) by now rewrite map_length. apply map_nth. Qed.
Lemma list_eq_nth (a b : list R) n : length a = n -> length b = n -> (forall k, k < n -> nth k a 0%R = nth k b 0%R) -> a = b.
Proof. intros Ha Hb H. apply nth_ext with (d := 0%R) (d' := 0%R); [lia|]. intros k Hk. apply H. lia. Qed.
Section Proofs.
  Context {S : Type} (gen_tick : S -> S * list R).
  Notation nmR := Rnum_ops.
  Variables (x0 : S) (ch : nat).
  Hypothesis Hch : forall n, length (gen_frame gen_tick x0 n) = ch.
  Notation g k n := (nth k (gen_frame gen_tick x0 n) 0%R).
  (* the rings hold the last 128 frames *)
  Definition holds (r : resampler S R R) : Prop :=
    r_x r = gen_at gen_tick x0 (r_prod r) /\ length (r_buf r) = ch /\ (forall k, k < ch -> length (nth k (r_buf r) []) = 128) /\
    forall k i, k < ch -> i < r_prod r -> r_prod r <= i + 128 -> nth (mask i) (nth k (r_buf r) []) 0%R = g k i.
  Lemma fill_step r : holds r -> let (x, inner) := gen_tick (r_x r) in holds (mkResampler x (put_frame (r_buf r) (mask (r_prod r)) inner) (r_cons r) (r_prod r + 1)).
  Proof.
    intros (H1 & H2 & H3 & H4). destruct (gen_tick (r_x r)) as [x inner] eqn:E. assert (Ei : inner = gen_frame gen_tick x0 (r_prod r)) by (unfold gen_frame; rewrite <- H1, E; reflexivity).
    assert (L : length inner = length (r_buf r)) by (rewrite Ei, Hch; auto).
    unfold holds. cbn [r_x r_prod r_buf]. split; [|split; [now rewrite put_length|split]].
    - rewrite Nat.add_1_r. cbn [gen_at]. now rewrite <- H1, E.
    - intros k Hk. rewrite put_nth with (d := 0%R) by lia. rewrite length_upd. auto.
    - intros k i Hk Hi Hp. rewrite put_nth with (d := 0%R) by lia. rewrite nth_upd. rewrite H3 by auto. pose proof (mask_lt (r_prod r)) as Hm.
      destruct (Nat.eqb_spec (mask (r_prod r)) (mask i)) as [Em|Em]; cbn [andb].
      + rewrite (proj2 (Nat.ltb_lt _ _) Hm). assert (i = r_prod r). { destruct (Nat.eq_dec i (r_prod r)); auto. exfalso. apply (mask_ne i (r_prod r)); auto; lia. } subst i. now rewrite Ei.
      + assert (i <> r_prod r) by (intros ->; tauto). apply H4; auto; lia.
  Qed.
  Lemma fill_ok ci fuel : forall r, holds r -> ci + 3 <= r_prod r + fuel -> exists r', res_fill gen_tick fuel ci r = Some r' /\ holds r' /\ r_cons r' = r_cons r /\ r_prod r' = Nat.max (r_prod r) (ci + 3).
  Proof.
    induction fuel as [|fuel IH]; intros r H Hf; cbn [res_fill].
    - destruct (Nat.leb_spec (r_prod r) (ci + 2)); [lia|]. exists r. repeat split; try apply H. lia.
    - destruct (Nat.leb_spec (r_prod r) (ci + 2)); [|exists r; repeat split; try apply H; lia].
      pose proof (fill_step r H) as Hs. destruct (gen_tick (r_x r)) as [x inner]. destruct (IH _ Hs) as (r' & R1 & R2 & R3 & R4); [cbn [r_prod]; lia|]. exists r'. cbn [r_cons r_prod] in *. repeat split; auto; try apply R2. lia.
  Qed.
  Local Open Scope R_scope.
  Lemma int_floor c : Int_part (c - (c - IZR (Int_part c))) = Int_part c.
  Proof. replace (c - (c - IZR (Int_part c))) with (IZR (Int_part c)) by ring. apply int_part_spec; lra. Qed.
  Lemma int_pos c : 1 <= c -> (1 <= Int_part c)%Z.
  Proof. intros H. apply int_part_le. exact H. Qed.
  (* the number of ticks of the generator when the position is c *)
  Definition needed (c : R) : nat := (Z.to_nat (Int_part c) + 3)%nat.
  Lemma tick_ok r v : holds r -> 1 <= r_cons r -> (r_prod r <= needed (r_cons r))%nat ->
    let c := r_cons r + Rmax 0 v in
    exists r', res_tick nmR nmR idR idR gen_tick r v = Some (r', map (fun k => gen_interp gen_tick x0 k c) (seq 0 ch)) /\ holds r' /\ r_cons r' = c /\ r_prod r' = needed c.
  Proof.
    intros H Hc Hp c. assert (1 <= c) by (unfold c; pose proof (Rmax_l 0 v); lra). pose proof (int_pos c H0) as Ic. unfold res_tick.
    change (nadd nmR) with Rplus. change (nsub nmR) with Rminus. change (nmax nmR (n0 nmR) v) with (Rmax 0 v). change (nfloor nmR) with Int_part. change (nofZ nmR) with IZR. fold c. rewrite int_floor.
    set (ci := Z.to_nat (Int_part c)).
    assert (Hn : (r_prod r <= ci + 3)%nat). { unfold needed in Hp. assert (Int_part (r_cons r) <= Int_part c)%Z. { apply int_part_le. pose proof (base_Int_part (r_cons r)). unfold c. pose proof (Rmax_l 0 v). lra. } unfold ci. lia. }
    destruct (fill_ok ci (ci + 3) (mkResampler (r_x r) (r_buf r) c (r_prod r))) as (r' & R1 & R2 & R3 & R4); [exact H|cbn [r_prod]; lia|]. cbn [r_cons r_prod] in R3, R4. rewrite R1. exists r'.
    assert (Ep : r_prod r' = (ci + 3)%nat) by lia. split; [|split; auto]. f_equal. f_equal. destruct R2 as (S1 & S2 & S3 & S4).
    apply (list_eq_nth _ _ ch); [now rewrite map_length|now rewrite map_length, seq_length|]. intros k Hk.
    rewrite (nth_map_in _ _ [] 0) by lia. rewrite (nth_map_in _ _ 0%nat 0) by (rewrite seq_length; lia). rewrite seq_nth by lia. cbn [Nat.add].
    change (n0 nmR) with 0. assert (1 <= ci)%nat by (unfold ci; lia).
    assert (M : mask (ci + 127) = mask (ci - 1)). { rewrite !mask_mod. replace (ci + 127)%nat with (ci - 1 + 1 * 128)%nat by lia. now rewrite Nat.mod_add. } rewrite M.
    unfold gen_interp. fold ci. rewrite !S4 by lia. reflexivity.
  Qed.
  Lemma run_ok l : forall r, holds r -> 1 <= r_cons r -> (r_prod r <= needed (r_cons r))%nat ->
    exists r', res_run nmR nmR idR idR gen_tick r l = Some (r', map (fun n => map (fun k => gen_interp gen_tick x0 k (r_cons r - 1 + position (firstn (Datatypes.S n) l))) (seq 0 ch)) (seq 0 (length l))) /\
      holds r' /\ r_cons r' = r_cons r - 1 + position l /\ (l <> [] -> r_prod r' = needed (r_cons r')).
  Proof.
    induction l as [|v l IH]; intros r H Hc Hp; cbn [res_run].
    - exists r. split; [reflexivity|]. split; auto. split; [cbn; lra|tauto].
    - destruct (tick_ok r v H Hc Hp) as (r1 & R1 & R2 & R3 & R4). rewrite R1. destruct (IH r1 R2) as (r2 & Q1 & Q2 & Q3 & Q4). { rewrite R3. pose proof (Rmax_l 0 v). lra. } { rewrite R3, R4. lia. }
      rewrite Q1. exists r2. split; [|split; auto; split].
      + f_equal. f_equal. cbn [length seq map firstn position]. f_equal. { apply map_ext. intros k. f_equal. lra. }
        rewrite <- seq_shift, map_map. apply map_ext. intros n. apply map_ext. intros k. f_equal. rewrite R3. cbn [firstn]. destruct l; cbn [position]; lra.
      + rewrite Q3, R3. cbn [position]. lra.
      + intros _. destruct l as [|w l]; [|apply Q4; discriminate]. cbn in Q1. injection Q1 as <-. now rewrite R3, R4.
  Qed.
End Proofs.

Section Run.
  Context {S : Type} (gen_tick : S -> S * list R) (gen_reset : S -> S).
  Notation nmR := Rnum_ops.
  Lemma start_holds (r : resampler S R R) ch : res_shape r ch -> holds gen_tick (gen_reset (r_x r)) ch (res_reset nmR gen_reset r).
  Proof. intros [H1 H2]. unfold holds. cbn. split; auto. split; auto. split; [|intros; lia]. intros k Hk. apply H2. apply nth_In. lia. Qed.
  Local Open Scope R_scope.
  Lemma resampled (r : resampler S R R) ch l : let x := gen_reset (r_x r) in res_shape r ch -> (forall n, length (gen_frame gen_tick x n) = ch) ->
    exists r' os, res_run nmR nmR idR idR gen_tick (res_reset nmR gen_reset r) l = Some (r', os) /\ length os = length l /\
      (forall n k, (n < length l)%nat -> (k < ch)%nat -> length (nth n os []) = ch /\ nth k (nth n os []) 0 = gen_interp gen_tick x k (position (firstn (Datatypes.S n) l))) /\
      (l <> [] -> r_x r' = gen_at gen_tick x (Z.to_nat (Int_part (position l)) + 3)).
  Proof.
    intros x H1 H2. destruct (run_ok gen_tick x ch H2 l (res_reset nmR gen_reset r)) as (r' & R1 & R2 & R3 & R4).
    { now apply start_holds. } { cbn. lra. } { cbn [res_reset r_prod]. lia. }
    change (r_cons (res_reset nmR gen_reset r)) with 1 in *. eexists. eexists. split; [exact R1|]. rewrite map_length, seq_length. split; auto. split.
    - intros n k Hn Hk. rewrite (nth_map_in _ _ 0%nat []) by (rewrite seq_length; lia). rewrite map_length, seq_length. split; auto.
      rewrite (nth_map_in _ _ 0%nat 0) by (rewrite seq_length; lia). rewrite !seq_nth by lia. cbn [Nat.add]. f_equal. lra.
    - intros Hl. destruct R2 as (Q1 & _). rewrite Q1, R4, R3 by auto. unfold needed. f_equal. replace (1 - 1 + position l) with (position l) by ring. reflexivity.
  Qed.
  Lemma position_repeat v n : position (repeat v n) = 1 + INR n * Rmax 0 v.
  Proof. induction n as [|n IH]; [cbn; ring|]. rewrite S_INR. cbn [repeat position]. rewrite IH. ring. Qed.
  Lemma firstn_repeat {X} (v : X) m n : (m <= n)%nat -> firstn m (repeat v n) = repeat v m.
  Proof. revert n. induction m as [|m IH]; intros n H; [reflexivity|]. destruct n; [lia|]. cbn. f_equal. apply IH. lia. Qed.
  Lemma interp_int x k (n : nat) : gen_interp gen_tick x k (INR n) = nth k (gen_frame gen_tick x n) 0.
  Proof.
    unfold gen_interp. assert (E : Int_part (INR n) = Z.of_nat n) by (apply int_part_spec; rewrite <- INR_IZR_INZ; lra). rewrite E, Nat2Z.id, <- INR_IZR_INZ. replace (INR n - INR n) with 0 by ring. apply spline_ends.
  Qed.
  Lemma whole_speed (r : resampler S R R) ch m n : let x := gen_reset (r_x r) in res_shape r ch -> (forall n, length (gen_frame gen_tick x n) = ch) ->
    option_map snd (res_run nmR nmR idR idR gen_tick (res_reset nmR gen_reset r) (repeat (INR m) n)) = Some (map (fun i => gen_frame gen_tick x (1 + Datatypes.S i * m)) (seq 0 n)).
  Proof.
    intros x H1 H2. destruct (resampled r ch (repeat (INR m) n) H1 H2) as (r' & os & R1 & R2 & R3 & _). rewrite R1. cbn [option_map snd]. f_equal. rewrite repeat_length in *.
    apply nth_ext with (d := []) (d' := []); [now rewrite map_length, seq_length|]. intros i Hi. rewrite R2 in Hi. rewrite (nth_map_in _ _ 0%nat []) by (rewrite seq_length; lia). rewrite seq_nth by lia. cbn [Nat.add].
    destruct (Nat.eq_dec ch 0) as [E|E].
    - assert (length (nth i os []) = 0)%nat.
      { assert (Hs := R1). destruct (run_ok gen_tick x ch H2 (repeat (INR m) n) (res_reset nmR gen_reset r)) as (r2 & Q1 & _). { now apply start_holds. } { cbn. lra. } { cbn [res_reset r_prod]. lia. }
        rewrite R1 in Q1. injection Q1 as -> ->. rewrite (nth_map_in _ _ 0%nat []) by (rewrite seq_length, repeat_length; lia). now rewrite map_length, seq_length. }
      pose proof (H2 (1 + Datatypes.S i * m)%nat) as L. rewrite E in L. apply length_zero_iff_nil in H. rewrite H. symmetry. apply length_zero_iff_nil. exact L.
    - apply (list_eq_nth _ _ ch); [exact (proj1 (R3 i 0%nat Hi ltac:(lia)))|apply H2|]. intros k Hk. rewrite (proj2 (R3 i k Hi Hk)). rewrite firstn_repeat by lia. rewrite position_repeat. rewrite Rmax_right by apply pos_INR.
      replace (1 + INR (Datatypes.S i) * INR m) with (INR (1 + Datatypes.S i * m)) by (rewrite plus_INR, mult_INR; reflexivity). apply interp_int.
  Qed.
End Run.
Section Interp.
  Context {S : Type} (gen_tick : S -> S * list R).
  Local Open Scope R_scope.
  (* a generator of a quadratic function of time is resampled exactly *)
  Lemma interp_quadratic x k a b c t : 1 <= t -> (forall n, nth k (gen_frame gen_tick x n) 0 = a * INR n * INR n + b * INR n + c) -> gen_interp gen_tick x k t = a * t * t + b * t + c.
  Proof.
    intros Ht H. unfold gen_interp. cbv zeta. rewrite !H. pose proof (int_pos t Ht) as Ip. set (z := Int_part t) in *. pose proof (base_Int_part t) as [B1 B2]. fold z in B1, B2.
    rewrite minus_INR, !plus_INR by lia. assert (Ez : INR (Z.to_nat z) = IZR z) by (rewrite INR_IZR_INZ, Z2Nat.id by lia; reflexivity). rewrite Ez. change (INR 1) with 1. change (INR 2) with 2.
    set (w := IZR z) in *. pose proof (spline_quadratic a (2 * a * w + b) (a * w * w + b * w + c) (t - w)) as Q. cbv zeta in Q.
    replace (a * t * t + b * t + c) with (a * (t - w) * (t - w) + (2 * a * w + b) * (t - w) + (a * w * w + b * w + c)) by ring. rewrite <- Q. f_equal; ring.
  Qed.
  Lemma position_ge l : 1 <= position l.
  Proof. induction l as [|v l IH]; [cbn; lra|]. cbn [position]. pose proof (Rmax_l 0 v). lra. Qed.
  Lemma interp_range x k t lo hi : (forall n, lo <= nth k (gen_frame gen_tick x n) 0 <= hi) -> lo - (hi - lo) / 8 <= gen_interp gen_tick x k t <= hi + (hi - lo) / 8.
  Proof.
    intros H. unfold gen_interp. pose proof (base_Int_part t) as [B1 B2]. pose proof (spline_over lo hi _ _ _ _ (t - IZR (Int_part t)) (H (Z.to_nat (Int_part t) - 1)%nat) (H (Z.to_nat (Int_part t))) (H (Z.to_nat (Int_part t) + 1)%nat) (H (Z.to_nat (Int_part t) + 2)%nat)) as K.
    apply K. unfold in01. lra.
  Qed.
End Interp.
