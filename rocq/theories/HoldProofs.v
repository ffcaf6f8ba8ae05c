(* Proofs about sample-and-hold. *)
From Coq Require Import Reals Lra Lia.
From Verif Require Import HoldSpec TuneSpec.
Local Open Scope R_scope.
Local Open Scope nat_scope.

Section Hold.
  Context {G S X : Type}.
  Variable tl_ : tools R G S X.
  Hypothesis Hr : random_ok tl_.
  Notation nm := Rnum_ops.
  Notation step := (hold_step nm tl_).
  Fixpoint hold_run (s : hold R G) (ins : list (R * R)) : list R :=
    match ins with [] => [] | (x, f) :: r => let (s', y) := step s x f in y :: hold_run s' r end.
  Lemma run_hold ins : forall s, t_outs nm tl_ (THold s) (frames_of ins) = Some (map (fun y => [y]) (hold_run s ins)).
  Proof.
    induction ins as [|[x f] r IH]; intros s; [reflexivity|]. unfold t_outs, frames_of in *. cbn [map t_run t_tick nth fst snd hold_run]. destruct (step s x f) as [s' y].
    specialize (IH s'). destruct (t_run nm tl_ (THold s') _) as [[m os]|]; [|discriminate]. cbn [map]. congruence.
  Qed.
  Lemma leb_R a b : nleb nm a b = true <-> (a <= b)%R.
  Proof. cbn. destruct (Rle_dec a b); split; auto; discriminate. Qed.

  (* inside a stretch *)
  Lemma inside ins : forall s, exists seg rest s', ins = seg ++ rest /\ hold_run s ins = repeat (hd_hold s) (length seg) ++ hold_run s' rest /\
    hd_var s' = hd_var s /\ hd_sd s' = hd_sd s /\ hd_rnd s' = hd_rnd s /\ hd_t s' = (hd_t s + INR (length seg) * hd_sd s)%R /\
    (seg = [] \/ (hd_t s + INR (length seg - 1) * hd_sd s < hd_next s)%R) /\ (rest = [] \/ (hd_next s <= hd_t s')%R /\ (hd_next s' <= hd_t s')%R).
  Proof.
    induction ins as [|[x f] r IH]; intros s.
    - exists [], [], s. cbn. repeat (split; auto). lra.
    - destruct (nleb nm (hd_next s) (hd_t s)) eqn:E.
      + exists [], ((x, f) :: r), s. cbn [app length repeat INR]. apply leb_R in E. repeat (split; auto). lra.
      + cbn [hold_run]. unfold hold_step. rewrite E. set (s1 := mkHold _ _ _ _ _ _ _). destruct (IH s1) as (seg & rest & s' & -> & E1 & V & D & Q & T & A & B).
        assert (N : (hd_t s < hd_next s)%R) by (destruct (Rlt_le_dec (hd_t s) (hd_next s)) as [|C]; auto; apply leb_R in C; congruence).
        exists ((x, f) :: seg), rest, s'. cbn [app length repeat]. rewrite E1. change (hd_hold s1) with (hd_hold s). change (hd_next s1) with (hd_next s) in *. change (hd_t s1) with (hd_t s + hd_sd s)%R in *. change (hd_sd s1) with (hd_sd s) in *. change (hd_var s1) with (hd_var s) in *. change (hd_rnd s1) with (hd_rnd s) in *.
        split; auto. split; auto. split; auto. split; auto. split; auto. split; [rewrite T, S_INR; ring|]. split; [|auto]. right. replace (Datatypes.S (length seg) - 1) with (length seg) by lia.
        destruct A as [->|A]; [cbn; lra|]. destruct (length seg) as [|k] eqn:L; [cbn; lra|]. rewrite S_INR. replace (Datatypes.S k - 1) with k in A by lia. lra.
  Qed.
  Lemma lerp_range v r : (0 <= v)%R -> (0 <= r < 1)%R -> (1 - v <= lerp nm (1 - v) (1 + v) r <= 1 + v)%R.
  Proof. intros. unfold lerp. cbn. nra. Qed.
  Lemma holds k : forall ins s, length ins <= k -> (0 <= hd_var s)%R -> (hd_next s <= hd_t s)%R -> Forall (fun p => 0 < snd p)%R ins -> holding (hd_var s) (hd_sd s) (draw tl_ (hd_rnd s)) ins (hold_run s ins).
  Proof.
    induction k as [|k IH]; intros ins s Hk Hv Hn Hf.
    - destruct ins; [constructor|cbn in Hk; lia].
    - destruct ins as [|[x f] r]; [constructor|]. apply Forall_cons_iff in Hf as [Hf0 Hf]. cbn [snd] in Hf0. cbn [hold_run]. unfold hold_step. apply leb_R in Hn. rewrite Hn.
      pose proof (Hr (hd_rnd s)) as HR. destruct (tl_next tl_ (hd_rnd s)) as [g q] eqn:Eg. cbn [snd] in HR. cbn [hd_rnd hd_hash hd_sd hd_var hd_t hd_next hd_hold].
      set (time := ndiv nm (lerp nm (nsub nm (n1 nm) (hd_var s)) (nadd nm (n1 nm) (hd_var s)) q) f).
      assert (Ht : ((1 - hd_var s) / f <= time <= (1 + hd_var s) / f)%R).
      { pose proof (lerp_range (hd_var s) q Hv HR) as [L1 L2]. assert (0 < / f)%R by (now apply Rinv_0_lt_compat). unfold time, Rdiv. cbn [ndiv nsub nadd nofZ n1 Rnum_ops]. unfold Rdiv. split; apply Rmult_le_compat_r; auto; lra. }
      set (s1 := mkHold g (hd_hash s) (hd_sd s) (hd_var s) (nadd nm (hd_t s) (hd_sd s)) (nadd nm (hd_t s) time) x).
      destruct (inside r s1) as (seg & rest & s' & -> & E1 & V & D & Q & T & A & B). rewrite E1. change (hd_hold s1) with x. rewrite app_comm_cons.
      change (x :: repeat x (length seg)) with (repeat x (Datatypes.S (length seg))). change (hd_var s1) with (hd_var s) in *. change (hd_sd s1) with (hd_sd s) in *.
      change (hd_t s1) with (hd_t s + hd_sd s)%R in *. change (hd_next s1) with (hd_t s + time)%R in *.
      apply (H_hold _ _ _ x f seg rest _ time Ht).
      + cbn [draw]. rewrite Eg. unfold time, lerp. cbn. f_equal. ring.
      + destruct seg as [|e seg]; [now right|]. left. destruct A as [A|A]; [discriminate|]. cbn [length] in *. rewrite S_INR. replace (Datatypes.S (length seg) - 1) with (length seg) in A by lia. lra.
      + destruct B as [->|[B1 B2]]; [now left|]. right. rewrite S_INR. lra.
      + rewrite <- V, <- D. destruct B as [->|[B1 B2]]; [constructor|]. change (holding (hd_var s') (hd_sd s') (draw tl_ (fst (tl_next tl_ (hd_rnd s)))) rest (hold_run s' rest)). rewrite Eg. cbn [fst]. change g with (hd_rnd s1). rewrite <- Q. apply IH; auto.
        * cbn [length] in Hk. rewrite app_length in Hk. lia.
        * now rewrite V.
        * apply Forall_app in Hf. tauto.
  Qed.
End Hold.

Theorem hold_stretches {G S X} (tl_ : tools R G S X) v sr n ins os : random_ok tl_ -> (0 <= v)%R -> Forall (fun p => 0 < snd p)%R ins -> build Rnum_ops tl_ true (OHold v) = Some n ->
  t_outs Rnum_ops tl_ n (ARate sr :: frames_of ins) = Some os -> exists ys, os = map (fun y => [y]) ys /\ holding v (1 / sr) (draw tl_ (tl_rnd tl_ 0%N)) ins ys.
Proof.
  intros Hr Hv Hf [= <-] E. unfold t_outs in E. cbn [t_run t_rate] in E. fold (t_outs Rnum_ops tl_ (THold (hold_rate Rnum_ops (hold_new Rnum_ops tl_ v) sr)) (frames_of ins)) in E.
  rewrite run_hold in E. inversion E. eexists. split; [reflexivity|].
  apply (holds tl_ Hr (length ins) ins (hold_rate Rnum_ops (hold_new Rnum_ops tl_ v) sr)); auto. cbn. lra.
Qed.

(* without variability and with a constant frequency *)
Lemma holding_regular sd f n rs ins ys : (0 < sd)%R -> (INR n * sd < 1 / f)%R -> (1 / f <= INR (S n) * sd)%R -> Forall (fun p => snd p = f) ins -> holding 0 sd rs ins ys ->
  length ys = length ins /\ forall k, k < length ins -> nth k ys 0%R = fst (nth (k / S n * S n) ins (0, 0)%R).
Proof.
  intros Hs H1 H2 Hf H. revert Hf. induction H as [|rs x g seg rest ys time Ht _ Ha Hb H IH]; intros Hf; [split; [auto|cbn; lia]|].
  apply Forall_cons_iff in Hf as [Hg Hf]. cbn in Hg. subst g. apply Forall_app in Hf as [_ Hf]. destruct (IH Hf) as [L Hk].
  assert (time = 1 / f)%R as -> by (unfold Rdiv in *; lra). rewrite !app_length, repeat_length. cbn [length]. rewrite app_length. split; [lia|]. intros k Hlt.
  assert (Hle : length seg <= n).
  { destruct Ha as [Ha|Ha]; [|subst seg; cbn; lia]. apply INR_le. assert (INR (length seg) * sd < INR (S n) * sd)%R by lra. apply Rmult_lt_reg_r in H0; auto. apply INR_lt in H0. apply le_INR. lia. }
  destruct (Nat.lt_ge_cases k (S (length seg))) as [Hc|Hc].
  - rewrite app_nth1 by (rewrite repeat_length; lia). rewrite Nat.div_small by lia. cbn [Nat.mul nth fst].
    rewrite (nth_indep _ 0%R x) by (rewrite repeat_length; lia). apply nth_repeat.
  - assert (Eq : length seg = n).
    { destruct Hb as [->|Hb]; [cbn in Hlt; lia|]. assert (INR n * sd < INR (S (length seg)) * sd)%R by lra. apply Rmult_lt_reg_r in H0; auto. apply INR_lt in H0. lia. }
    rewrite app_nth2 by (rewrite repeat_length; lia). rewrite repeat_length, Eq in *.
    rewrite Hk by lia. f_equal. replace (k / S n * S n) with (S n + (k - S n) / S n * S n).
    + set (d := (k - S n) / S n * S n). clearbody d. cbn [Nat.add nth]. rewrite app_nth2 by lia. f_equal. lia.
    + replace k with ((k - S n) + 1 * S n) at 2 by lia. rewrite Nat.div_add by lia. lia.
Qed.
Theorem hold_regular {G S X} (tl_ : tools R G S X) sr f n m ins os : random_ok tl_ -> (0 < sr)%R -> (0 < f)%R -> (INR m < sr / f <= INR (Datatypes.S m))%R -> Forall (fun p => snd p = f) ins ->
  build Rnum_ops tl_ true (OHold 0%R) = Some n -> t_outs Rnum_ops tl_ n (ARate sr :: frames_of ins) = Some os ->
  length os = length ins /\ forall k, k < length ins -> nth k os [] = [fst (nth (k / Datatypes.S m * Datatypes.S m) ins (0, 0)%R)].
Proof.
  intros Hr Hs Hf [H1 H2] Hi Hn E. assert (Hp : Forall (fun p => 0 < snd p)%R ins) by (eapply Forall_impl; [|exact Hi]; cbn; intros p ->; auto).
  destruct (hold_stretches tl_ 0%R sr n ins os Hr (Rle_refl 0) Hp Hn E) as (ys & -> & H).
  assert (Hd : (0 < 1 / sr)%R) by (apply Rdiv_lt_0_compat; lra).
  destruct (holding_regular (1 / sr) f m (draw tl_ (tl_rnd tl_ 0%N)) ins ys Hd) as [L K]; auto.
  - apply (Rmult_lt_compat_r (1 / sr)) in H1; auto. replace (sr / f * (1 / sr))%R with (1 / f)%R in H1 by (field; lra). exact H1.
  - apply (Rmult_le_compat_r (1 / sr)) in H2; [|lra]. replace (sr / f * (1 / sr))%R with (1 / f)%R in H2 by (field; lra). exact H2.
  - rewrite map_length. split; auto. intros k Hk. rewrite <- K by auto. rewrite (nth_indep _ [] ((fun y => [y]) 0%R)) by (rewrite map_length; lia). rewrite (map_nth (fun y => [y])). reflexivity.
Qed.

Lemma hold_total {G S X} (tl_ : tools R G S X) v sr ins : exists n os, build Rnum_ops tl_ true (OHold v) = Some n /\ t_outs Rnum_ops tl_ n (ARate sr :: frames_of ins) = Some os.
Proof.
  exists (THold (hold_new Rnum_ops tl_ v)). eexists. split; [reflexivity|]. unfold t_outs. cbn [t_run t_rate].
  exact (run_hold tl_ ins (hold_rate Rnum_ops (hold_new Rnum_ops tl_ v) sr)).
Qed.
Lemma ramp_rate : ~ (forall (sr f : R) n N os, (0 < f < sr / 2)%R -> build Rnum_ops real_tools true (OHold 0%R) = Some n ->
  t_outs Rnum_ops real_tools n (ARate sr :: frames_of (ramp_in f N)) = Some os -> (Rabs (INR (samplings (fun k => nth 0 (nth k os []) 0) N) - INR N * f / sr) <= 1)%R).
Proof.
  intros H. destruct (hold_total real_tools 0%R 8%R (ramp_in 3 48)) as (n & os & Hn & E).
  assert (Hr : random_ok real_tools) by (intros g; cbn; lra).
  assert (Hi : Forall (fun p => snd p = 3%R) (ramp_in 3 48)) by (apply Forall_forall; intros p Hp; apply in_map_iff in Hp as (k & <- & _); reflexivity).
  destruct (hold_regular real_tools 8%R 3%R n 2 (ramp_in 3 48) os Hr ltac:(lra) ltac:(lra) ltac:(cbn; lra) Hi Hn E) as [L K].
  specialize (H 8%R 3%R n 48 os ltac:(lra) Hn E).
  replace (samplings (fun k => nth 0 (nth k os []) 0%R) 48) with 16 in H.
  - unfold Rabs in H. destruct (Rcase_abs _) as [C|C]; rewrite !INR_IZR_INZ in H, C; cbn [Z.of_nat] in H, C; cbn in H, C; lra.
  - unfold samplings. rewrite (filter_ext_in _ (fun k => Nat.eqb (k / 3 * 3) k)); [reflexivity|]. intros k Hk. apply in_seq in Hk.
    assert (Hl : length (ramp_in 3 48) = 48) by (unfold ramp_in; now rewrite map_length, seq_length).
    rewrite K by lia. cbn [nth]. unfold ramp_in. assert (Hd : k / 3 * 3 < 48) by (pose proof (Nat.mul_div_le k 3 ltac:(lia)); lia).
    rewrite (nth_indep _ _ (INR 0, 3%R)) by (rewrite map_length, seq_length; lia). rewrite (map_nth (fun k => (INR k, 3%R))). rewrite seq_nth by lia. cbn [fst Nat.add].
    destruct (Nat.eqb_spec (k / 3 * 3) k) as [Hq|Hne]; destruct (Req_EM_T _ _) as [He|He]; try reflexivity; exfalso; [apply He; now rewrite Hq|apply INR_eq in He; contradiction].
Qed.
