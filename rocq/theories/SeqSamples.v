(* The output of the score in closed form, when all events are pushed first. *)
From Coq Require Import Reals Lra Lia Permutation.
From Verif Require Import SeqModel SeqSpec SeqGroups SeqProofs UnitModel.
Local Open Scope R_scope.

Lemma int_part_spec x z : IZR z <= x -> x < IZR z + 1 -> Int_part x = z.
Proof.
  intros H1 H2. unfold Int_part. assert (E : (z + 1)%Z = up x) by (apply tech_up; rewrite plus_IZR; cbn; lra). lia.
Qed.
Lemma int_part_le x z : IZR z <= x <-> (z <= Int_part x)%Z.
Proof.
  destruct (base_Int_part x) as [H1 H2]. split; intros H.
  - apply Z.lt_succ_r. apply lt_IZR. rewrite succ_IZR. lra.
  - apply IZR_le in H. lra.
Qed.

Lemma total_ticks {U} n : total (U := U) (repeat CTick n) = n.
Proof. induction n as [|n IH]; [reflexivity|]. cbn [repeat total fold_right samples]. fold (total (U := U) (repeat CTick n)). now rewrite IH. Qed.

Section Samples.
  Context {P U : Type}.
  Variables (at_ : fade -> R -> R) (ops : unit_ops R P U) (usr : U -> R -> U) (pop : list (event R U) -> option (event R U * list (event R U))).
  Notation event := (event R U). Notation seqr := (seqr R U). Notation call := (call R U). Notation score := (score U).
  Hypothesis at_one : forall f, at_ f 1 = 1.
  Hypothesis laws : seq_unit_laws ops usr.
  Hypothesis Hpop : heap_laws Rnum_ops pop.
  Notation sc_run := (sc_run at_ ops usr). Notation sc_play := (sc_play at_ ops). Notation sc_step := (sc_step at_ ops usr).

  (* playing in pieces is playing at once *)
  Lemma sc_play_add n m : forall p : score, sc_play (n + m) p = let (p1, o1) := sc_play n p in let (p2, o2) := sc_play m p1 in (p2, o1 ++ o2).
  Proof.
    induction n as [|n IH]; intros p; cbn [Nat.add SeqSpec.sc_play].
    - now destruct (sc_play m p).
    - destruct (sc_sample at_ ops p) as [p1 o]. rewrite IH. destruct (sc_play n p1) as [p2 o1]. now destruct (sc_play m p2).
  Qed.
  Lemma sc_run_plays outs ps : plays_ok outs ps -> forall p : score, sc_run p ps = sc_play (total ps) p.
  Proof.
    induction 1 as [|c ps Hc Hps IH]; intros p; [reflexivity|]. cbn [SeqSpec.sc_run total fold_right]. fold (total ps). destruct c as [| | | | |n out| |]; try contradiction; cbn [SeqSpec.sc_step samples]; rewrite sc_play_add.
    - destruct (sc_play 1 p) as [p1 o1]. rewrite IH. now destruct (sc_play (total ps) p1).
    - destruct (sc_play n p) as [p1 o1]. rewrite IH. now destruct (sc_play (total ps) p1).
  Qed.
  Lemma fair_same sd t n (e e' : event) : same_plan e e' -> fair sd t n e -> fair sd t n e'.
  Proof. intros (A & B & _ & C & D & _). unfold fair, over. now rewrite A, B, C, D. Qed.
  Lemma fair_cut_same sd ps : forall t (e e' : event), same_plan e e' -> fair_cut sd t ps e -> fair_cut sd t ps e'.
  Proof.
    induction ps as [|c ps IH]; intros t e e' Hs; cbn [fair_cut]; [auto|]. intros [H1 H2]. split; [|now apply (IH _ e)].
    destruct c; auto. now apply (fair_same _ _ _ e).
  Qed.
  Lemma plays_allowed outs ps : plays_ok outs ps -> forall p : score, sc_outs p = outs -> Forall (fair_cut (1 / sc_sr p) (sc_time p) ps) (sc_events p) -> all_allowed at_ ops usr p ps.
  Proof.
    induction 1 as [|c ps Hc Hps IH]; intros p Ho Hf; cbn [all_allowed]; [exact I|].
    assert (Step : forall n, samples c = n -> fst (sc_step p c) = fst (sc_play n p) -> all_allowed at_ ops usr (fst (sc_step p c)) ps).
    { intros n En Es. rewrite Es. rewrite sc_play_voices. cbn [fst]. apply IH; [exact Ho|]. cbn [sc_sr sc_time sc_events]. rewrite Forall_map. eapply Forall_impl; [|exact Hf]. cbn beta. intros e He. cbn [fair_cut] in He. destruct He as [_ He]. rewrite En in He. eapply fair_cut_same; [apply vplay_plan|exact He]. }
    destruct c as [| | | | |n out| |]; try contradiction; split; cbn [allowed].
    - exact I.
    - now apply (Step 1%nat).
    - destruct Hc as [H1 H2]. split; [exact H1|]. split; [now rewrite Ho|]. eapply Forall_impl; [|exact Hf]. cbn [fair_cut]. tauto.
    - now apply (Step n).
  Qed.

  (* pushes *)
  Lemma sc_run_pushes es : forall (p : score), sc_run p (map CPush es) = (with_events p (rev (map (retune (fun u => usr u (sc_sr p))) es) ++ sc_events p), []).
  Proof.
    induction es as [|e es IH]; intros p; cbn [map rev app SeqSpec.sc_run SeqSpec.sc_step]; [destruct p; reflexivity|].
    rewrite IH. cbn [with_events sc_events sc_sr sc_time sc_outs sc_replay app]. now rewrite <- app_assoc.
  Qed.
  Lemma sc_run_app a b : forall p : score, sc_run p (a ++ b) = let (p1, o1) := sc_run p a in let (p2, o2) := sc_run p1 b in (p2, o1 ++ o2).
  Proof.
    induction a as [|c a IH]; intros p; cbn [app SeqSpec.sc_run]; [now destruct (sc_run p b)|]. destruct (sc_step p c) as [p1 o1]. rewrite IH. destruct (sc_run p1 a) as [p2 o2]. destruct (sc_run p2 b) as [p3 o3]. now rewrite app_assoc.
  Qed.
  Lemma allowed_app a b : forall p : score, all_allowed at_ ops usr p a -> all_allowed at_ ops usr (fst (sc_run p a)) b -> all_allowed at_ ops usr p (a ++ b).
  Proof.
    induction a as [|c a IH]; intros p Ha Hb; cbn [app all_allowed SeqSpec.sc_run] in *; [exact Hb|]. destruct Ha as [H1 H2]. split; [exact H1|]. apply IH; [exact H2|].
    destruct (sc_step p c) as [p1 o1]. cbn [fst] in *. now destruct (sc_run p1 a).
  Qed.
  Lemma pushes_allowed es : forall p : score, NoDup (map ev_id es) -> (forall i, In i (map ev_id es) -> ~ In i (map ev_id (sc_events p))) -> Forall (pushable_R ops p) es -> all_allowed at_ ops usr p (map CPush es).
  Proof.
    induction es as [|e es IH]; intros p N D H; cbn [map all_allowed]; [exact I|]. inversion N; subst. inversion H; subst. split.
    - split; [assumption|]. apply D. now left.
    - apply IH; auto. intros i Hi. cbn. intros [X|X]; [subst i; contradiction|]. apply (D i); [now right|exact X].
  Qed.

  (* the samples an event covers *)
  Lemma covers_within sr (e : event) k : 0 < sr -> covers (1 / sr) e (INR k / sr) <-> within sr e k.
  Proof.
    intros Hsr. assert (Hi : sr * / sr = 1) by (field; lra). unfold covers, within.
    assert (Hm : forall a b, a < b <-> a * sr < b * sr). { intros a b. split; intros H; [now apply Rmult_lt_compat_r|]. now apply Rmult_lt_reg_r in H. }
    assert (Ek : (INR k / sr + 1 / sr / 2) * sr = INR k + 1 / 2) by (field; lra).
    assert (A : ev_start e < INR k / sr + 1 / sr / 2 <-> (first_sample sr e <= k)%nat).
    { rewrite Hm, Ek. unfold first_sample, nearest. set (y := ev_start e * sr). destruct (base_Int_part (y + 1 / 2)) as [B1 B2]. rewrite INR_IZR_INZ. split; intros H.
      - assert (IZR (Int_part (y + 1 / 2)) < IZR (Z.of_nat k + 1)) by (rewrite plus_IZR; lra). apply lt_IZR in H0. lia.
      - assert (Int_part (y + 1 / 2) <= Z.of_nat k)%Z by lia. apply IZR_le in H0. lra. }
    destruct (ev_end e) as [x|]; [|tauto]. rewrite (Hm _ x), Ek. tauto.
  Qed.
  (* the frames do not depend on how long the unit plays *)
  Lemma solo_ok (u : U) n k : (k < n)%nat -> nth k (snd (ticks (u_tick ops) u (repeat [] n))) [] = solo ops u k.
  Proof.
    unfold solo. revert u n. induction k as [|k IH]; intros u [|n] H; try lia.
    - cbn. destruct (u_tick ops u []) as [u1 o]. destruct (ticks (u_tick ops) u1 (repeat [] n)). reflexivity.
    - cbn [repeat ticks]. destruct (u_tick ops u []) as [u1 o]. specialize (IH u1 n ltac:(lia)). cbn [repeat ticks] in IH. destruct (ticks (u_tick ops) u1 (repeat [] n)). destruct (u_tick ops u1 []) as [u2 o2]. destruct (ticks (u_tick ops) u2 (repeat [] k)). cbn [snd nth] in *. exact IH.
  Qed.
  (* the end of the span among the first n samples *)
  Lemma span_end sr (e : event) n : exists ei, (first_sample sr e <= ei)%nat /\ forall k, (k < n)%nat -> (within sr e k <-> (first_sample sr e <= k < ei)%nat).
  Proof.
    set (si := first_sample sr e). destruct (ev_end e) as [x|] eqn:E.
    - exists (Nat.max si (Z.to_nat (- Int_part (- (x * sr - 1 / 2))))). split; [lia|]. intros k Hk. unfold within. fold si. rewrite E.
      assert (A : INR k + 1 / 2 < x * sr <-> (Z.of_nat k < - Int_part (- (x * sr - 1 / 2)))%Z).
      { destruct (base_Int_part (- (x * sr - 1 / 2))) as [B1 B2]. rewrite INR_IZR_INZ. split; intros H.
        - apply lt_IZR. rewrite opp_IZR. lra.
        - assert (Z.of_nat k + 1 <= - Int_part (- (x * sr - 1 / 2)))%Z by lia. apply IZR_le in H0. rewrite plus_IZR, opp_IZR in H0. lra. }
      rewrite A. lia.
    - exists (Nat.max si n). split; [lia|]. intros k Hk. unfold within. fold si. rewrite E. lia.
  Qed.
  Lemma voice_part sr outs n (e : event) k c : 0 < sr -> (k < n)%nat -> (c < outs)%nat ->
    vat at_ ops outs (1 / sr) n 0 (retune (fun u => usr u sr) e) k c = part at_ ops usr sr e k c.
  Proof.
    intros Hsr Hk Hc. set (e' := retune (fun u => usr u sr) e). set (si := Nat.min (first_sample sr e) n). destruct (span_end sr e n) as (ei0 & He0 & Hs). set (ei := Nat.min ei0 n).
    assert (Et : forall j, 0 + INR j * (1 / sr) = INR j / sr) by (intros j; field; lra).
    destruct (vplay_span at_ ops outs (1 / sr) n si ei 0 e') as [_ Hv]; [subst si ei; lia| |].
    - intros j Hj. rewrite Et. rewrite (covers_within sr e' j Hsr). change (within sr e' j) with (within sr e j). rewrite (Hs j Hj). subst si ei. lia.
    - unfold vat. rewrite (Hv k Hk). unfold part. destruct (within_dec sr e k) as [W|W].
      + apply (Hs k Hk) in W. assert (Esi : si = first_sample sr e) by (subst si; lia). assert (Hlt : (k < ei)%nat) by (subst ei; lia).
        replace (Nat.leb si k && Nat.ltb k ei)%bool with true by (symmetry; apply andb_true_intro; split; [apply Nat.leb_le|apply Nat.ltb_lt]; lia).
        rewrite nth_weighted. rewrite Et. rewrite solo_ok by lia. rewrite Esi. reflexivity.
      + replace (Nat.leb si k && Nat.ltb k ei)%bool with false.
        * apply nth_repeat0.
        * symmetry. apply Bool.not_true_is_false. intros X. apply Bool.andb_true_iff in X. destruct X as [X1 X2]. apply Nat.leb_le in X1. apply Nat.ltb_lt in X2. apply W. apply (Hs k Hk). subst si ei. lia.
  Qed.
  Lemma samples_of_events sr replay outs es ps : 0 < sr -> NoDup (map ev_id es) -> Forall (pushable_R ops (mkScore [] 0 sr outs replay)) es -> plays_ok outs ps -> Forall (fair_cut (1 / sr) 0 ps) es ->
    exists s', run Rnum_ops at_ ops usr pop (seq_new Rnum_ops sr replay outs) (map CPush es ++ ps) =
      Some (s', map (fun k => map (fun c => sum (map (fun e => part at_ ops usr sr e k c) es)) (seq 0 outs)) (seq 0 (total ps))).
  Proof.
    intros Hsr N Hp Hps Hf. set (p0 := mkScore [] 0 sr outs replay : score).
    assert (Ha : all_allowed at_ ops usr p0 (map CPush es ++ ps)).
    { apply allowed_app; [apply pushes_allowed; auto|]. rewrite sc_run_pushes. cbn [fst]. apply (plays_allowed outs); auto. cbn [with_events sc_events sc_sr sc_time]. subst p0. cbn [sc_events sc_sr sc_time]. rewrite app_nil_r. apply Forall_rev. apply Forall_map. eapply Forall_impl; [|exact Hf]. intros e He. eapply fair_cut_same; [|exact He]. repeat split. }
    destruct (run_follows at_ ops usr pop at_one laws Hpop _ p0 _ (new_follows ops sr replay outs Hsr) Ha) as (s' & E & _). exists s'. rewrite E. f_equal. f_equal.
    rewrite sc_run_app, sc_run_pushes. rewrite (sc_run_plays outs ps Hps). rewrite sc_play_voices. cbn [snd app]. subst p0. cbn [with_events sc_outs sc_sr sc_time sc_events].
    apply map_ext_in. intros k Hk. apply in_seq in Hk. apply map_ext_in. intros c Hc. apply in_seq in Hc. rewrite app_nil_r. rewrite <- map_rev, map_map. 
    rewrite (map_ext (fun e => vat at_ ops outs (1 / sr) (total ps) 0 (retune (fun u => usr u sr) e) k c) (fun e => part at_ ops usr sr e k c)).
    - apply sum_perm. apply Permutation_map. symmetry. apply Permutation_rev.
    - intros e. apply voice_part; auto; lia.
  Qed.

  (* events without fades that do not end halfway between two samples *)
  Lemma plain_fair sr (e : event) ps : 0 < sr -> ev_in e <= 0 -> ev_out e <= 0 -> (match ev_end e with Some x => forall j : Z, x * sr <> IZR j + 1 / 2 | None => True end) ->
    forall (m : Z), fair_cut (1 / sr) (IZR m / sr) ps e.
  Proof.
    intros Hsr Hi Ho Ht. induction ps as [|c ps IH]; intros m; cbn [fair_cut]; [exact I|]. split.
    - destruct c; auto. right. right. split; [|split; left; assumption]. destruct (ev_end e) as [x|]; [|exact I]. intros [j Hj]. apply (Ht (m + j)%Z). rewrite Hj, plus_IZR. field. lra.
    - replace (IZR m / sr + INR (samples c) * (1 / sr)) with (IZR (m + Z.of_nat (samples c)) / sr); [apply IH|]. rewrite plus_IZR, <- INR_IZR_INZ. field. lra.
  Qed.
  Lemma ticks_fair sr (e : event) ps : Forall (eq CTick) ps -> forall t, fair_cut sr t ps e.
  Proof. induction 1 as [|c ps <- H IH]; intros t; cbn [fair_cut]; auto. Qed.

  (* the weights *)
  Lemma weights_01 (f01 : forall f p, 0 <= p <= 1 -> 0 <= at_ f p <= 1) sd (e : event) T : 0 < sd -> covers sd e T -> ev_start e <= T ->
    0 <= weight_in at_ e T <= 1 /\ 0 <= weight_out at_ e T <= 1.
  Proof.
    intros Hsd [H1 H2] Hs. assert (Q : forall a b, 0 <= a -> a <= b -> 0 < b -> 0 <= a / b <= 1).
    { intros a b Ha Hab Hb. split; [apply Rmult_le_pos; [exact Ha|left; now apply Rinv_0_lt_compat]|]. apply Rmult_le_reg_r with b; [exact Hb|]. unfold Rdiv. rewrite Rmult_assoc, Rinv_l by lra. lra. }
    unfold weight_in, weight_out. split.
    - destruct (Rlt_dec 0 (ev_in e)); [|lra]. destruct (Rlt_dec T (ev_start e + ev_in e)); [|lra]. apply f01, Q; lra.
    - destruct (ev_end e) as [x|]; [|lra]. destruct (Rlt_dec 0 (ev_out e)); [|lra]. destruct (Rlt_dec (x - ev_out e) T); [|lra]. apply f01, Q; lra.
  Qed.
End Samples.
