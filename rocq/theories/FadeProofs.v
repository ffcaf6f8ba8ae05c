From Coq Require Import Reals Lra.
From Verif Require Export FadeSpec BufProofs UnitProofs.
Local Open Scope R_scope.

Section Proofs.
  Context {P U : Type}.
  Variable at_ : fade -> R -> R.
  Variable ops : unit_ops R P U.
  Variable sr : R.
  Hypothesis Hl : unit_laws 0 ops.
  Notation xt := (x_tick Rnum_ops at_ ops sr).
  Notation xp := (x_process Rnum_ops at_ ops sr).

  Lemma ticks_quiet ins : forall x, x_next x = None -> x_latest x = None ->
    ticks xt x ins = (mkX (after ops (x_unit x) ins) None None (x_phase x) (x_tmp x), alone ops (x_unit x) ins).
  Proof.
    induction ins as [|i ins IH]; intros [u nx la p t] Hn Hla; cbn [x_next x_latest] in Hn, Hla; subst nx la; cbn [x_unit x_phase x_tmp]; [reflexivity|].
    unfold after, alone in *. cbn [ticks]. unfold x_tick at 1. cbn [x_unit x_next x_latest x_phase x_tmp]. destruct (u_tick ops u i) as [u' o].
    rewrite IH by reflexivity. cbn [x_unit x_phase x_tmp]. destruct (ticks (u_tick ops) u' ins). reflexivity.
  Qed.

  Lemma ticks_len ins : forall u, length (alone ops u ins) = length ins.
  Proof. intros u. apply ticks_length. Qed.

  Lemma INR_pos N k : (k < N)%nat -> 0 < INR N.
  Proof. intros H. apply lt_0_INR. lia. Qed.
  Lemma mixed_done f N k a b : (N <= k)%nat -> mixed at_ f N k a b = b.
  Proof.
    intros H. unfold mixed. apply (nth_ext _ _ [] []); rewrite map_length, seq_length; auto. intros j Hj. rewrite nth_map_seq by auto.
    destruct (Nat.ltb_spec (k + j) N); auto. lia.
  Qed.
  Lemma mixed_cons f N k a0 a b0 b : (k < N)%nat -> mixed at_ f N k (a0 :: a) (b0 :: b) =
    zipw (fun x y => x * at_ f (1 - INR k / INR N) + y * at_ f (INR k / INR N)) a0 b0 :: mixed at_ f N (S k) a b.
  Proof.
    intros H. unfold mixed. cbn [length seq map]. rewrite Nat.add_0_r. cbn [nth]. destruct (Nat.ltb_spec k N); [|lia]. f_equal.
    rewrite <- seq_shift, map_map. apply map_ext. intros j. cbn [nth]. replace (k + S j)%nat with (S k + j)%nat by lia. reflexivity.
  Qed.

  (* The crossfade by ticks. *)
  Lemma ticks_fading ins : forall x N k e, fading sr N k e x ->
    ticks xt x ins =
    ((if Nat.ltb (k + length ins) N
      then mkX (after ops (x_unit x) ins) (Some (ed_set_unit e (after ops (ed_unit e) ins))) None (INR (k + length ins) / INR N) (x_tmp x)
      else mkX (after ops (ed_unit e) ins) None None 0 (x_tmp x)),
     mixed at_ (ed_fade e) N k (alone ops (x_unit x) ins) (alone ops (ed_unit e) ins)).
  Proof.
    induction ins as [|i ins IH]; intros [u nx la p t] N k e (Hn & Hla & Ht & Hk & Hp); cbn [x_next x_latest x_phase] in Hn, Hla, Hp; subst nx la p; cbn [x_unit x_tmp].
    - cbn [length ticks]. rewrite Nat.add_0_r. destruct (Nat.ltb_spec k N); [|lia]. destruct e. reflexivity.
    - pose proof (INR_pos N k Hk) as HN. unfold after, alone. cbn [ticks length]. unfold x_tick at 1. cbn [x_unit x_next x_latest x_phase x_tmp]. destruct (u_tick ops u i) as [u' o]. destruct (u_tick ops (ed_unit e) i) as [w t'].
      assert (Hph : INR k / INR N + 1 / (ed_time e * sr) = INR (S k) / INR N). { rewrite Ht, S_INR. field. lra. }
      change (nadd Rnum_ops) with Rplus. change (ndiv Rnum_ops) with Rdiv. change (nmul Rnum_ops) with Rmult. change (nsub Rnum_ops) with Rminus. change (n1 Rnum_ops) with 1. rewrite Hph.
      change (nleb Rnum_ops 1 (INR (S k) / INR N)) with (if Rle_dec 1 (INR (S k) / INR N) then true else false).
      rewrite (surjective_pairing (ticks (u_tick ops) u' ins)), (surjective_pairing (ticks (u_tick ops) w ins)). cbn [fst snd]. rewrite mixed_cons by auto.
      assert (Ez : zipw (fun a b => a + b * at_ (ed_fade e) (INR k / INR N)) (map (fun v => v * at_ (ed_fade e) (1 - INR k / INR N)) o) t' =
                   zipw (fun x y => x * at_ (ed_fade e) (1 - INR k / INR N) + y * at_ (ed_fade e) (INR k / INR N)) o t') by apply zipw_map_l.
      rewrite Ez. destruct (Rle_dec 1 (INR (S k) / INR N)) as [Hd|Hd].
      + assert (HSN : S k = N). { apply Rmult_le_compat_r with (r := INR N) in Hd; [|lra]. unfold Rdiv in Hd. rewrite Rmult_assoc, Rinv_l, Rmult_1_r, Rmult_1_l in Hd by lra. apply INR_le in Hd. lia. }
        unfold next_phase. cbn [x_next ed_unit ed_set_unit x_latest x_tmp]. rewrite ticks_quiet by reflexivity. cbn [x_unit x_phase x_tmp].
        destruct (Nat.ltb_spec (k + S (length ins)) N); [lia|]. rewrite mixed_done by lia. reflexivity.
      + assert (HSN : (S k < N)%nat). { apply Nat.nle_gt. intros C. apply Hd. apply le_INR in C. apply Rmult_le_reg_r with (r := INR N); [lra|]. unfold Rdiv. rewrite Rmult_assoc, Rinv_l, Rmult_1_r, Rmult_1_l by lra. exact C. }
        rewrite (IH _ N (S k) (ed_set_unit e w)). 2: { split; [reflexivity|]. split; [reflexivity|]. split; [exact Ht|]. split; [exact HSN|reflexivity]. }
        cbn [x_unit x_tmp ed_unit ed_set_unit ed_fade]. replace (S k + length ins)%nat with (k + S (length ins))%nat by lia. reflexivity.
  Qed.

  (* ---- blocks ---- *)
  Lemma ramp_R N k j : 0 < INR N -> ramp Rnum_ops (INR k / INR N) (1 / INR N) j = INR (k + j) / INR N.
  Proof.
    intros H. revert k. induction j as [|j IH]; intros k; cbn [ramp]; [now rewrite Nat.add_0_r|].
    change (nadd Rnum_ops) with Rplus. replace (INR k / INR N + 1 / INR N) with (INR (S k) / INR N) by (rewrite S_INR; field; lra). rewrite IH. f_equal. f_equal. lia.
  Qed.
  Lemma to_usize_INR m : to_usize Rnum_ops (INR m) = m.
  Proof. unfold to_usize. change (nfloor Rnum_ops) with Int_part. rewrite Int_part_INR. lia. Qed.
  Lemma frame_blend (e : nedit R U) p d m size a b j : (j < size)%nat -> (size <= MAXB)%nat -> frame 0 (zipw (blend Rnum_ops at_ e p d m size) a b) j =
    zipw (fun x y => if Nat.ltb j m then x * at_ (ed_fade e) (1 - ramp Rnum_ops p d j) + y * at_ (ed_fade e) (ramp Rnum_ops p d j) else y) (frame 0 a j) (frame 0 b j).
  Proof.
    intros Hj Hs. unfold frame. revert b. induction a as [|ca a IH]; intros [|cb b]; cbn [zipw map]; auto. rewrite IH. f_equal. unfold blend. rewrite nth_map_seq by lia.
    destruct (Nat.ltb_spec j size); [|lia]. destruct (Nat.ltb j m); reflexivity.
  Qed.
  Lemma zipw_shaped (f : list R -> list R -> list R) k a b : (forall x y, length (f x y) = MAXB) -> length a = k -> length b = k -> shaped k (zipw f a b).
  Proof.
    intros H Ha Hb. split; [rewrite zipw_length; lia|]. clear k Ha Hb. revert b. induction a as [|x a IH]; intros [|y b]; cbn [zipw]; constructor; auto.
  Qed.
  Lemma alone_length u ins : Forall (fun f => length f = u_ins ops u) ins -> Forall (fun f => length f = u_outs ops u) (alone ops u ins).
  Proof.
    unfold alone. revert u. induction ins as [|i ins IH]; intros u H; cbn [ticks]; [constructor|]. inversion H; subst. pose proof (ul_ins _ _ Hl u i) as E1. pose proof (ul_outs _ _ Hl u i) as E2. pose proof (ul_len _ _ Hl u i H2) as E3.
    destruct (u_tick ops u i) as [u' o]. cbn [fst snd] in *. specialize (IH u'). rewrite E1, E2 in IH. specialize (IH H3). destruct (ticks (u_tick ops) u' ins). cbn [snd] in *. constructor; auto.
  Qed.
  Lemma after_ins u ins : u_ins ops (after ops u ins) = u_ins ops u /\ u_outs ops (after ops u ins) = u_outs ops u.
  Proof.
    unfold after. revert u. induction ins as [|i ins IH]; intros u; cbn [ticks]; auto. pose proof (ul_ins _ _ Hl u i) as E1. pose proof (ul_outs _ _ Hl u i) as E2. destruct (u_tick ops u i) as [u' o]. cbn [fst] in *. specialize (IH u'). destruct (ticks (u_tick ops) u' ins). cbn [fst] in *. rewrite <- E1, <- E2. auto.
  Qed.
  Lemma frames_nth b size j : (j < size)%nat -> nth j (frames 0 b size) [] = frame 0 b j.
  Proof. intros H. now apply nth_frames. Qed.

  (* one block; quiet or fading *)
  Definition exact (x : slotx R U) : Prop := x_latest x = None /\ (x_next x = None \/ exists N k e, fading sr N k e x).

  Lemma process_exact x size inb out : exact x -> fits ops x -> (size <= MAXB)%nat -> shaped (u_ins ops (x_unit x)) inb -> shaped (u_outs ops (x_unit x)) out ->
    exists x' out', xp x size inb out = (x', out') /\ frames 0 out' size = snd (ticks xt x (frames 0 inb size)) /\ same_slot x' (fst (ticks xt x (frames 0 inb size))) /\
      exact x' /\ fits ops x' /\ shaped (u_outs ops (x_unit x)) out' /\ u_ins ops (x_unit x') = u_ins ops (x_unit x) /\ u_outs ops (x_unit x') = u_outs ops (x_unit x).
  Proof.
    intros [Hla Hx] [Htmp Hfit] Hs Hi Ho. pose proof (ul_process _ _ Hl (x_unit x) size inb out Hs Hi Ho) as HU. unfold x_process. destruct (u_process ops (x_unit x) size inb out) as [u out1]. destruct HU as [EU SU].
    assert (Eu : u = after ops (x_unit x) (frames 0 inb size) /\ frames 0 out1 size = alone ops (x_unit x) (frames 0 inb size)) by (unfold after, alone; rewrite <- EU; auto). destruct Eu as [Eu Eo].
    destruct (after_ins (x_unit x) (frames 0 inb size)) as [Ai Ao]. rewrite <- Eu in Ai, Ao.
    destruct Hx as [Hn|(N & k & e & HF)].
    - rewrite Hn. eexists _, _. split; [reflexivity|]. rewrite ticks_quiet by auto. cbn [fst snd]. split; auto. rewrite Hla. split; [repeat split; cbn; auto|]. split; [split; cbn; auto|]. split; [split; cbn [x_unit x_tmp x_next]; [now rewrite Ao|discriminate]|]. auto.
    - pose proof HF as (Hn & _ & Ht & Hk & Hp). rewrite Hn. pose proof (INR_pos N k Hk) as HN. destruct (Hfit e Hn) as [Fi Fo].
      pose proof (ul_process _ _ Hl (ed_unit e) size inb (x_tmp x) Hs) as HW. rewrite Fi, Fo in HW. specialize (HW Hi Htmp). destruct (u_process ops (ed_unit e) size inb (x_tmp x)) as [w tmp]. destruct HW as [EW SW].
      assert (Ew : w = after ops (ed_unit e) (frames 0 inb size) /\ frames 0 tmp size = alone ops (ed_unit e) (frames 0 inb size)) by (unfold after, alone; rewrite <- EW; auto). destruct Ew as [Ew Et].
      destruct (after_ins (ed_unit e) (frames 0 inb size)) as [Wi Wo]. rewrite <- Ew in Wi, Wo.
      change (nadd Rnum_ops) with Rplus. change (ndiv Rnum_ops) with Rdiv. change (nmul Rnum_ops) with Rmult. change (nsub Rnum_ops) with Rminus. change (n1 Rnum_ops) with 1. change (nofZ Rnum_ops) with IZR.
      assert (Epl : (1 - x_phase x) * ed_time e * sr = INR (N - k)). { rewrite Rmult_assoc, Ht, Hp, minus_INR by lia. field. lra. }
      rewrite Epl, to_usize_INR, Ht, Hp. rewrite <- INR_IZR_INZ. set (m := Nat.min size (N - k)).
      assert (Eph : INR k / INR N + INR m / INR N = INR (k + m) / INR N) by (rewrite plus_INR; field; lra). rewrite Eph.
      rewrite (ticks_fading _ x N k e HF). rewrite frames_length. rewrite <- Eu, <- Ew.
      eexists _, _. split; [reflexivity|]. split.
      { cbn [snd]. rewrite <- Eo, <- Et. unfold mixed. rewrite frames_length. apply (nth_ext _ _ [] []); [now rewrite frames_length, map_length, seq_length|]. rewrite frames_length. intros j Hj. rewrite frames_nth by auto. rewrite nth_map_seq by auto. rewrite !frames_nth by auto.
        rewrite frame_blend by auto. rewrite ramp_R by auto. unfold m. destruct (Nat.ltb_spec j (Nat.min size (N - k))), (Nat.ltb_spec (k + j) N); try lia; auto. rewrite zipw_snd; auto. rewrite !frame_length. destruct SU, SW. lia. }
      assert (Hsz : shaped (u_outs ops (x_unit x)) (zipw (blend Rnum_ops at_ e (INR k / INR N) (1 / INR N) m size) out1 tmp)). { apply zipw_shaped; [intros a b; unfold blend; now rewrite map_length, seq_length|apply SU|apply SW]. }
      cbn [fst]. destruct (Nat.leb_spec (N - k) size) as [Hle|Hgt].
      + destruct (Nat.ltb_spec (k + size) N); [lia|]. unfold next_phase. cbn [x_next ed_unit ed_set_unit x_latest x_tmp]. rewrite Hla.
        split; [repeat split; cbn; auto|]. split; [split; cbn; auto|]. split; [split; cbn [x_unit x_tmp x_next]; [rewrite Wo, Fo; auto|discriminate]|]. split; auto. cbn [x_unit]. split; congruence.
      + destruct (Nat.ltb_spec (k + size) N); [|lia]. replace m with size by (unfold m; lia). rewrite Hla.
        split; [repeat split; cbn; auto|]. split. { split; cbn [x_latest x_next]; auto. right. exists N, (k + size)%nat, (ed_set_unit e w). repeat split; cbn; auto. }
        split. { split; cbn [x_unit x_tmp x_next]; [now rewrite Ao|]. intros e' [= <-]. cbn [ed_unit ed_set_unit]. split; congruence. } split; [|cbn [x_unit]; auto]. apply zipw_shaped; [intros a b; unfold blend; now rewrite map_length, seq_length|apply SU|apply SW].
  Qed.

  Lemma same_slot_ticks ins : forall x y, same_slot x y -> snd (ticks xt x ins) = snd (ticks xt y ins) /\ same_slot (fst (ticks xt x ins)) (fst (ticks xt y ins)).
  Proof.
    induction ins as [|i ins IH]; intros x y H; cbn [ticks]; [auto|].
    assert (E : snd (xt x i) = snd (xt y i) /\ same_slot (fst (xt x i)) (fst (xt y i))).
    { destruct x as [u nx la p t], y as [u2 nx2 la2 p2 t2]. destruct H as (A & B & C & D). cbn in A, B, C, D. subst u2 nx2 la2 p2. unfold x_tick. cbn [x_unit x_next x_latest x_phase x_tmp]. destruct (u_tick ops u i).
      destruct nx as [e|]; [|repeat split]. destruct (u_tick ops (ed_unit e) i). destruct (nleb _ _ _); repeat split. }
    destruct (xt x i) as [x' o], (xt y i) as [y' o']. cbn [fst snd] in E. destruct E as [<- E]. specialize (IH _ _ E). destruct (ticks xt x' ins), (ticks xt y' ins). cbn [fst snd] in *. destruct IH as [-> IH]. auto.
  Qed.

  (* any sequence of blocks *)
  Theorem blocks_exact bs : forall x, exact x -> fits ops x -> Forall (fit_block ops (x_unit x)) bs ->
    snd (x_blocks at_ ops sr x bs) = snd (ticks xt x (frames_in bs)) /\ same_slot (fst (x_blocks at_ ops sr x bs)) (fst (ticks xt x (frames_in bs))).
  Proof.
    induction bs as [|[[size inb] out] bs IH]; intros x He Hf H; cbn [x_blocks]; [repeat split|]. inversion H as [|? ? Hb Hr]; subst. destruct Hb as (Hs & Hi & Ho).
    destruct (process_exact x size inb out He Hf Hs Hi Ho) as (x' & out' & E & Efr & Esl & He' & Hf' & _ & Ei & Eo). rewrite E.
    assert (Hr' : Forall (fit_block ops (x_unit x')) bs). { eapply Forall_impl; [|exact Hr]. intros [[? ?] ?]. unfold fit_block. now rewrite Ei, Eo. }
    destruct (IH x' He' Hf' Hr') as [I1 I2]. unfold frames_in. cbn [map concat]. fold (frames_in bs). rewrite ticks_app.
    destruct (same_slot_ticks (frames_in bs) _ _ Esl) as [S1 S2]. destruct (x_blocks at_ ops sr x' bs) as [x2 os]. destruct (ticks xt x (frames 0 inb size)) as [y os1]. cbn [fst snd] in *. 
    destruct (ticks xt y (frames_in bs)) as [y2 os2]. cbn [fst snd] in *. rewrite Efr, I1, S1. split; auto.
    destruct I2 as (A1 & A2 & A3 & A4), S2 as (B1 & B2 & B3 & B4). repeat split; congruence.
  Qed.
End Proofs.

(* the placeholder *)
Lemma nth_fill {A} (z : A) k ch i d : (i < length ch)%nat -> nth i (fill k z ch) d = if Nat.ltb i k then z else nth i ch d.
Proof.
  intros H. unfold fill. destruct (Nat.ltb_spec i k) as [L|L].
  - rewrite app_nth1 by (rewrite repeat_length; lia). rewrite (nth_indep _ d z) by (rewrite repeat_length; lia). apply nth_repeat.
  - rewrite app_nth2; rewrite repeat_length; [|lia]. rewrite nth_skipn_add. f_equal. lia.
Qed.
Lemma dummy_process_nth {A} (zero : A) outputs size out c k : shaped outputs out -> (c < outputs)%nat -> (k < MAXB)%nat ->
  nth k (nth c (dummy_process zero size out) []) zero = if Nat.ltb k ((size + 7) / 8) then zero else nth k (nth c out []) zero.
Proof.
  intros [Hlen Hall] Hc Hk. unfold dummy_process. rewrite (nth_indep _ [] (fill ((size + 7) / 8) zero [])) by (rewrite map_length; lia). rewrite map_nth. apply nth_fill.
  rewrite Forall_forall in Hall. rewrite Hall; auto. apply nth_In. lia.
Qed.
Lemma dummy_process_silent {A} (zero : A) outputs size : dummy_process zero size (repeat (repeat zero MAXB) outputs) = repeat (repeat zero MAXB) outputs.
Proof.
  assert (E : fill ((size + 7) / 8) zero (repeat zero MAXB) = repeat zero MAXB).
  { apply (nth_ext _ _ zero zero). - unfold fill. rewrite app_length, skipn_length, !repeat_length. lia.
    - intros i Hi. assert (i < MAXB)%nat by (unfold fill in Hi; rewrite app_length, skipn_length, !repeat_length in Hi; lia). rewrite nth_fill by (now rewrite repeat_length). destruct (Nat.ltb _ _); auto. now rewrite nth_repeat. }
  unfold dummy_process. induction outputs as [|k IH]; cbn [repeat map]; auto. now rewrite E, IH.
Qed.
