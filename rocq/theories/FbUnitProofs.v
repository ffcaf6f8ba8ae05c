(* Proofs about FeedbackUnit. *)
From Coq Require Import ZArith Lia.
From Verif Require Export DelayProofs Requests.

Lemma ticks_as_loop_aux {A} (z : A) (new old : list A) d : length new <= d - 1 -> nth (d - 1) (new ++ old) z = nth (d - 1 - length new) old z.
Proof. intros H. now rewrite app_nth2 by lia. Qed.

Section Loop.
  Context {A P U : Type}.
  Variables (zero : A) (add : A -> A -> A) (ops : unit_ops A P U).
  Lemma loop_app n d a : forall u past b, loop zero add ops n d u past (a ++ b) =
    let (u1, o1) := loop zero add ops n d u past a in let (u2, o2) := loop zero add ops n d u1 (rev o1 ++ past) b in (u2, o1 ++ o2).
  Proof.
    induction a as [|i a IH]; intros u past b; cbn [app loop]; [cbn; now destruct (loop zero add ops n d u past b)|].
    destruct (u_tick ops u (zipw add i (nth (d - 1) past (repeat zero n)))) as [u1 o]. rewrite IH. destruct (loop zero add ops n d u1 (o :: past) a) as [u2 o1]. cbn [rev]. rewrite <- app_assoc. cbn [app].
    now destruct (loop zero add ops n d u2 (rev o1 ++ o :: past) b).
  Qed.
  (* no longer than the delay, the loop is open *)
  Lemma loop_open n d old ins : forall u new, length new + length ins <= d ->
    loop zero add ops n d u (new ++ old) ins = ticks (u_tick ops) u (zipw (zipw add) ins (map (fun t => nth (d - 1 - t) old (repeat zero n)) (seq (length new) (length ins)))).
  Proof.
    induction ins as [|i ins IH]; intros u new H; cbn [loop length seq map zipw ticks] in *; [reflexivity|].
    rewrite ticks_as_loop_aux by lia. destruct (u_tick ops u _) as [u1 o]. specialize (IH u1 (o :: new)). cbn [length app] in IH. rewrite IH by lia. reflexivity.
  Qed.
  Lemma loop_length n d ins : forall u past, length (snd (loop zero add ops n d u past ins)) = length ins.
  Proof. induction ins as [|i ins IH]; intros u past; cbn [loop]; [reflexivity|]. destruct (u_tick ops u _) as [u1 o]. specialize (IH u1 (o :: past)). destruct (loop zero add ops n d u1 (o :: past) ins). cbn in *. now rewrite IH. Qed.
End Loop.

Section Fb.
  Context {A P U : Type}.
  Variables (zero : A) (add : A -> A -> A) (ops : unit_ops A P U).
  Hypothesis laws : unit_laws zero ops.
  Notation frame := (frame zero).
  Notation transposed L line := (map (frame line) (seq 0 L)).
  Variables (n d : nat).
  Let L := next_pow2 d.
  Hypothesis Hd : 1 <= d.
  Notation z := (repeat zero n).
  Definition lined (line : list (list A)) : Prop := length line = n /\ Forall (fun ch => length ch = L) line.
  Definition ring (line : list (list A)) (i : nat) (hist : list (list A)) : Prop := lined line /\ holds z L (transposed L line) i hist.
  Lemma L_facts : exists k, L = 2 ^ k /\ d <= L /\ 0 < L.
  Proof. apply next_pow2_spec. Qed.
  Lemma frame_set line i j o : lined line -> length o = n -> i < L -> frame (set_frame line i o) j = if Nat.eqb i j then o else frame line j.
  Proof.
    intros [H1 H2] Ho Hi. unfold BufModel.frame, set_frame. clear laws Hd. revert o n H1 Ho. induction H2 as [|ch line Hch Hl IH]; intros [|v o] m H1 Ho; cbn [length] in *; try (subst m; discriminate); cbn [zipw map].
    - now destruct (Nat.eqb i j).
    - rewrite (IH o (m - 1)) by lia. rewrite nth_upd. destruct (Nat.eqb_spec i j); cbn [andb]; [|reflexivity]. destruct (Nat.ltb_spec i (length ch)); [reflexivity|lia].
  Qed.
  Lemma lined_set line i o : lined line -> length o = n -> lined (set_frame line i o).
  Proof.
    intros [H1 H2] Ho. clear laws Hd. split; [unfold set_frame; rewrite zipw_length; lia|]. unfold set_frame. clear H1 Ho. revert o. induction H2 as [|ch line Hch Hl IH]; intros [|v o]; cbn [zipw]; constructor; auto. now rewrite length_upd.
  Qed.
  Lemma transposed_set line i o : lined line -> length o = n -> i < L -> transposed L (set_frame line i o) = upd (transposed L line) i o.
  Proof.
    intros H Ho Hi. apply (nth_ext _ _ z z); [now rewrite length_upd, !map_length|]. intros j Hj. rewrite map_length, seq_length in Hj.
    rewrite nth_upd, !nth_map_seq by exact Hj. rewrite map_length, seq_length. rewrite frame_set by auto. destruct (Nat.ltb_spec i L); [|lia]. now rewrite andb_true_r.
  Qed.
  Lemma ring_write line i hist o : ring line i hist -> length o = n -> ring (set_frame line i o) ((i + 1) mod L) (o :: hist).
  Proof. intros [H1 H2] Ho. split; [now apply lined_set|]. rewrite transposed_set; auto; [now apply holds_write|]. apply H2. Qed.
  Lemma ring_at line i hist j q : ring line i hist -> j < L -> q < L -> (Z.of_nat q mod Z.of_nat L = (Z.of_nat i - 1 - Z.of_nat j) mod Z.of_nat L)%Z -> frame line q = nth j hist z.
  Proof. intros [_ H] Hj Hq E. rewrite <- (holds_read z L _ i hist j q H Hj Hq E). now rewrite nth_map_seq. Qed.
  Lemma Zmod_nat a : (Z.of_nat (a mod L) = Z.of_nat a mod Z.of_nat L)%Z. Proof. apply Nat2Z.inj_mod. Qed.
  (* the read position t samples on *)
  Lemma ring_delayed line i hist t : ring line i hist -> t < d -> frame line ((i + L - d + t) mod L) = nth (d - 1 - t) hist z.
  Proof.
    intros H Ht. destruct L_facts as (k & _ & H1 & H2). apply (ring_at line i hist); auto; [lia|apply Nat.mod_upper_bound; lia|]. rewrite Zmod_nat, Z.mod_mod by lia.
    replace (Z.of_nat (i + L - d + t)) with (Z.of_nat i - 1 - Z.of_nat (d - 1 - t) + 1 * Z.of_nat L)%Z by lia. now rewrite Z.mod_add by lia.
  Qed.
  Definition fb_ok (u : U) (hist : list (list A)) (s : fbunit A U) : Prop :=
    fb_x s = u /\ fb_samples s = d /\ fb_len s = L /\ ring (fb_line s) (fb_index s) hist /\ shaped n (fb_buf s) /\ u_ins ops u = n /\ u_outs ops u = n.
  Lemma mask_L i : mask_i L i = i mod L. Proof. destruct L_facts as (k & E & _). exact (mask_mod L k i E). Qed.
  Lemma hist_len line i hist j : ring line i hist -> j < L -> length (nth j hist z) = n.
  Proof. intros [H1 H2] Hj. destruct H2 as (_ & _ & H2). rewrite <- (H2 j Hj). rewrite nth_map_seq by (apply Nat.mod_upper_bound; lia). rewrite frame_length. apply H1. Qed.

  Lemma fb_tick_ok u hist s i : fb_ok u hist s -> length i = n ->
    let (u', os) := loop zero add ops n d u hist [i] in let (s', o) := fb_tick zero add ops s i in os = [o] /\ length o = n /\ fb_ok u' (rev os ++ hist) s'.
  Proof.
    intros (E1 & E2 & E3 & E4 & E5 & E6 & E7) Hi. cbn [loop]. unfold fb_tick, read_index. rewrite E1, E2, E3, !mask_L. destruct L_facts as (k & _ & H1 & H2).
    assert (R := ring_delayed _ _ _ 0 E4 ltac:(lia)). rewrite Nat.add_0_r, Nat.sub_0_r in R. rewrite R.
    set (v := zipw add i (nth (d - 1) hist z)). assert (Lv : length v = n) by (subst v; rewrite zipw_length, (hist_len _ _ _ _ E4) by lia; lia).
    pose proof (ul_len _ _ laws u v ltac:(congruence)) as Ho. pose proof (ul_ins _ _ laws u v) as Hi'. pose proof (ul_outs _ _ laws u v) as Ho'.
    destruct (u_tick ops u v) as [u' o]. cbn [fst snd] in *. split; [reflexivity|]. split; [congruence|]. cbn [rev app]. unfold fb_ok. cbn [fb_x fb_samples fb_len fb_line fb_index fb_buf].
    split; [reflexivity|]. split; [reflexivity|]. split; [reflexivity|]. split; [apply ring_write; congruence|]. split; [exact E5|]. split; congruence.
  Qed.
  Lemma gather_ok line inb : length line = n -> length inb = n -> forall k i r buf, shaped n buf -> i + k <= MAXB -> r < L ->
    let b := fb_gather zero add k i r L line inb buf in
    shaped n b /\ map (frame b) (seq i k) = map (fun t => zipw add (frame inb (i + t)) (frame line ((r + t) mod L))) (seq 0 k) /\ (forall j, j < i -> frame b j = frame buf j).
  Proof.
    intros Hl Hi. destruct L_facts as (kk & _ & _ & HL). induction k as [|k IH]; intros i r buf Hb Hk Hr; cbn [fb_gather]; [split; [exact Hb|]; split; [reflexivity|auto]|].
    assert (Lz : length (zipw add (frame inb i) (frame line r)) = n) by (rewrite zipw_length, !frame_length; lia).
    destruct (IH (S i) (mask_i L (r + 1)) (set_frame buf i (zipw add (frame inb i) (frame line r)))) as (I1 & I2 & I3); [now apply set_frame_shaped|lia|rewrite mask_L; apply Nat.mod_upper_bound; lia|].
    cbv zeta. split; [exact I1|]. split.
    - cbn [seq map]. rewrite I3 by lia. rewrite (frame_set_frame zero n) by (auto; lia). rewrite Nat.eqb_refl, !Nat.add_0_r, (Nat.mod_small r) by lia. f_equal. rewrite I2.
      rewrite <- (seq_shift k 0), map_map. apply map_ext. intros t. rewrite mask_L, Nat.add_mod_idemp_l by lia. replace (S i + t) with (i + S t) by lia. replace (r + 1 + t) with (r + S t) by lia. reflexivity.
    - intros j Hj. rewrite I3 by lia. rewrite (frame_set_frame zero n) by (auto; lia). destruct (Nat.eqb_spec i j); [lia|reflexivity].
  Qed.
  Lemma store_ok out : length out = n -> forall k i w line hist, ring line w hist ->
    ring (fb_store zero k i w L out line) ((w + k) mod L) (rev (map (frame out) (seq i k)) ++ hist).
  Proof.
    intros Hl. destruct L_facts as (kk & _ & _ & HL). induction k as [|k IH]; intros i w line hist H; cbn [fb_store seq map rev app].
    - rewrite Nat.add_0_r, Nat.mod_small by apply H. exact H.
    - rewrite <- app_assoc. cbn [app]. replace ((w + S k) mod L) with ((mask_i L (w + 1) + k) mod L) by (rewrite mask_L, Nat.add_mod_idemp_l by lia; f_equal; lia).
      apply IH. rewrite mask_L. apply ring_write; [exact H|]. now rewrite frame_length.
  Qed.
  Lemma each_ok inb : length inb = n -> forall k i w u line out hist, ring line w hist -> shaped n out -> i + k <= MAXB -> u_ins ops u = n -> u_outs ops u = n ->
    let '(u', line', out') := fb_each zero add ops k i ((w + L - d) mod L) w L u line inb out in
    let (v, os) := loop zero add ops n d u hist (map (frame inb) (seq i k)) in
    u' = v /\ shaped n out' /\ map (frame out') (seq i k) = os /\ (forall j, j < i -> frame out' j = frame out j) /\ ring line' ((w + k) mod L) (rev os ++ hist) /\ u_ins ops v = n /\ u_outs ops v = n.
  Proof.
    intros Hi. destruct L_facts as (kk & _ & Hdl & HL). induction k as [|k IH]; intros i w u line out hist H Ho Hk Hui Huo; cbn [fb_each seq map loop].
    - split; [reflexivity|]. split; [exact Ho|]. split; [reflexivity|]. split; [auto|]. split; [|auto]. cbn [rev app]. rewrite Nat.add_0_r, Nat.mod_small by apply H. exact H.
    - assert (R := ring_delayed _ _ _ 0 H ltac:(lia)). rewrite Nat.add_0_r, Nat.sub_0_r in R. rewrite R. set (v := zipw add (frame inb i) (nth (d - 1) hist z)).
      assert (Lv : length v = n) by (subst v; rewrite zipw_length, frame_length, (hist_len _ _ _ _ H) by lia; lia).
      pose proof (ul_len _ _ laws u v ltac:(congruence)) as Hlo. pose proof (ul_ins _ _ laws u v) as Hi'. pose proof (ul_outs _ _ laws u v) as Ho'.
      destruct (u_tick ops u v) as [u1 o]. cbn [fst snd] in *. assert (Lo : length o = n) by congruence.
      assert (Ew : mask_i L ((w + L - d) mod L + 1) = (mask_i L (w + 1) + L - d) mod L).
      { rewrite !mask_L. rewrite Nat.add_mod_idemp_l by lia. replace ((w + 1) mod L + L - d) with ((w + 1) mod L + (L - d)) by lia. rewrite Nat.add_mod_idemp_l by lia. f_equal. lia. }
      rewrite Ew. pose proof (ring_write _ _ _ _ H Lo) as W. rewrite <- mask_L in W.
      specialize (IH (S i) (mask_i L (w + 1)) u1 (set_frame line w o) (set_frame out i o) (o :: hist) W ltac:(now apply set_frame_shaped) ltac:(lia) ltac:(congruence) ltac:(congruence)).
      destruct (fb_each zero add ops k (S i) _ _ _ _ _ _ _) as [[u' line'] out']. destruct (loop zero add ops n d u1 (o :: hist) (map (frame inb) (seq (S i) k))) as [v2 os].
      destruct IH as (I1 & I2 & I3 & I4 & I5 & I6 & I7). split; [exact I1|]. split; [exact I2|]. split; [|split; [|split; [|auto]]].
      + f_equal; [|exact I3]. rewrite I4 by lia. rewrite (frame_set_frame zero n) by (auto; lia). now rewrite Nat.eqb_refl.
      + intros j Hj. rewrite I4 by lia. rewrite (frame_set_frame zero n) by (auto; lia). destruct (Nat.eqb_spec i j); [lia|reflexivity].
      + cbn [rev]. rewrite <- app_assoc. cbn [app]. replace ((w + S k) mod L) with ((mask_i L (w + 1) + k) mod L) by (rewrite mask_L, Nat.add_mod_idemp_l by lia; f_equal; lia). exact I5.
  Qed.
  Lemma ticks_arity ins : forall u, u_ins ops (fst (ticks (u_tick ops) u ins)) = u_ins ops u /\ u_outs ops (fst (ticks (u_tick ops) u ins)) = u_outs ops u.
  Proof.
    induction ins as [|i ins IH]; intros u; cbn [ticks]; [auto|]. pose proof (ul_ins _ _ laws u i) as Hi'. pose proof (ul_outs _ _ laws u i) as Ho'. destruct (u_tick ops u i) as [u1 o]. specialize (IH u1). destruct (ticks (u_tick ops) u1 ins). cbn [fst] in *. destruct IH. split; congruence.
  Qed.
  Lemma zipw_maps {X Y Z W} (f : Y -> Z -> W) (g : X -> Y) (h : X -> Z) l : zipw f (map g l) (map h l) = map (fun x => f (g x) (h x)) l.
  Proof. induction l; cbn; congruence. Qed.
  Lemma fb_process_ok u hist s size inb out : fb_ok u hist s -> size <= MAXB -> shaped n inb -> shaped n out ->
    let (u', os) := loop zero add ops n d u hist (frames zero inb size) in let (s', out') := fb_process zero add ops s size inb out in
    os = frames zero out' size /\ shaped n out' /\ fb_ok u' (rev os ++ hist) s'.
  Proof.
    intros (E1 & E2 & E3 & E4 & E5 & E6 & E7) Hs Hi Ho. unfold fb_process, read_index. rewrite E1, E2, E3. destruct L_facts as (kk & _ & Hdl & HL). rewrite !mask_L. destruct (Nat.leb_spec size d) as [Hsd|Hsd].
    - destruct (gather_ok (fb_line s) inb (proj1 (proj1 E4)) (proj1 Hi) size 0 ((fb_index s + L - d) mod L) (fb_buf s) E5 ltac:(lia) ltac:(apply Nat.mod_upper_bound; lia)) as (G1 & G2 & _).
      set (buf := fb_gather zero add size 0 ((fb_index s + L - d) mod L) L (fb_line s) inb (fb_buf s)) in *.
      assert (C := ul_process _ _ laws u size buf out Hs). rewrite E6, E7 in C. specialize (C G1 Ho). destruct (u_process ops u size buf out) as [u1 out1]. destruct C as [C1 C2].
      pose proof (loop_open zero add ops n d hist (frames zero inb size) u []) as O. cbn [length app Nat.add] in O. unfold frames in O at 1. rewrite map_length, seq_length in O. specialize (O Hsd). rewrite O.
      assert (Eb : zipw (zipw add) (frames zero inb size) (map (fun t => nth (d - 1 - t) hist z) (seq 0 (length (frames zero inb size)))) = frames zero buf size).
      { unfold frames at 3. rewrite G2. unfold frames. rewrite map_length, seq_length, zipw_maps. apply map_ext_in. intros t Ht. apply in_seq in Ht. f_equal. rewrite Nat.add_mod_idemp_l by lia. symmetry. apply (ring_delayed _ _ _ t E4). lia. }
      rewrite Eb. rewrite <- C1. pose proof (ticks_arity (frames zero buf size) u) as Ar. rewrite <- C1 in Ar. cbn [fst] in Ar. destruct Ar as [Ar1 Ar2].
      split; [reflexivity|]. split; [exact C2|]. unfold fb_ok. cbn [fb_x fb_samples fb_len fb_line fb_index fb_buf]. split; [reflexivity|]. split; [reflexivity|]. split; [reflexivity|]. split; [|split; [exact G1|split; congruence]].
      apply store_ok; [apply C2|exact E4].
    - pose proof (each_ok inb (proj1 Hi) size 0 (fb_index s) u (fb_line s) out hist E4 Ho ltac:(lia) E6 E7) as X. fold (frames zero inb size) in X.
      destruct (fb_each zero add ops size 0 _ (fb_index s) L u (fb_line s) inb out) as [[u1 line1] out1]. destruct (loop zero add ops n d u hist (frames zero inb size)) as [v os].
      destruct X as (X1 & X2 & X3 & X4 & X5 & X6 & X7). split; [symmetry; exact X3|]. split; [exact X2|]. unfold fb_ok. cbn [fb_x fb_samples fb_len fb_line fb_index fb_buf]. split; [exact X1|]. split; [reflexivity|]. split; [reflexivity|]. split; [exact X5|]. split; [exact E5|]. split; assumption.
  Qed.
  Lemma frame_repeat L' m j : frame (repeat (repeat zero L') m) j = repeat zero m.
  Proof. unfold BufModel.frame. induction m; cbn; [reflexivity|]. now rewrite IHm, nth_repeat. Qed.
  Lemma ring_new : ring (repeat (repeat zero L) n) 0 [].
  Proof.
    destruct L_facts as (kk & _ & _ & HL). split; [split; [apply repeat_length|apply Forall_forall; intros c Hc; apply repeat_spec in Hc; subst c; apply repeat_length]|].
    split; [now rewrite map_length, seq_length|]. split; [exact HL|]. intros j Hj. rewrite nth_map_seq by (apply Nat.mod_upper_bound; lia). rewrite frame_repeat. now destruct j.
  Qed.
  Lemma fb_new_ok u : u_ins ops u = n -> u_outs ops u = n -> fb_ok u [] (fb_new zero ops u d).
  Proof.
    intros H1 H2. unfold fb_ok, fb_new. cbn [fb_x fb_samples fb_len fb_line fb_index fb_buf]. rewrite H1. split; [reflexivity|]. split; [reflexivity|]. split; [reflexivity|]. split; [exact ring_new|]. split; [|auto].
    split; [apply repeat_length|apply Forall_forall; intros c Hc; apply repeat_spec in Hc; subst c; apply repeat_length].
  Qed.
  Lemma fb_reset_ok u hist s : fb_ok u hist s -> u_ins ops (u_reset ops u) = n -> u_outs ops (u_reset ops u) = n -> fb_ok (u_reset ops u) [] (fb_reset zero ops s).
  Proof.
    intros (E1 & E2 & E3 & E4 & E5 & E6 & E7) R1 R2. unfold fb_ok, fb_reset. cbn [fb_x fb_samples fb_len fb_line fb_index fb_buf]. split; [congruence|]. split; [exact E2|]. split; [exact E3|]. split; [|auto].
    replace (map (fun ch => repeat zero (length ch)) (fb_line s)) with (repeat (repeat zero L) n); [exact ring_new|]. destruct E4 as [[Q1 Q2] _]. clear - Q1 Q2. revert n Q1. induction Q2 as [|c l Hc Hl IH]; intros m Q1; cbn in *; subst m; [reflexivity|]. cbn. rewrite Hc. f_equal. now apply IH.
  Qed.
  Lemma fb_requests rs : forall u hist s, fb_ok u hist s -> Forall (request_ok n n) rs ->
    let (u', os) := loop zero add ops n d u hist (concat (map (fed zero) rs)) in
    let (s', os') := serve_all zero (fb_tick zero add ops) (fb_process zero add ops) s rs in os' = os /\ fb_ok u' (rev os ++ hist) s'.
  Proof.
    induction rs as [|r rs IH]; intros u hist s H Hf; cbn [map concat serve_all loop]; [cbn; auto|]. inversion Hf as [|? ? Hr Hf']; subst.
    rewrite loop_app. assert (S1 : let (u1, o1) := loop zero add ops n d u hist (fed zero r) in let (s1, o) := serve zero (fb_tick zero add ops) (fb_process zero add ops) s r in o = o1 /\ fb_ok u1 (rev o1 ++ hist) s1).
    { destruct r as [i|size inb out]; cbn [fed serve request_ok] in *.
      - pose proof (fb_tick_ok u hist s i H Hr) as X. destruct (loop zero add ops n d u hist [i]) as [u1 o1]. destruct (fb_tick zero add ops s i) as [s1 o]. destruct X as (X1 & X2 & X3). auto.
      - destruct Hr as (R1 & R2 & R3). pose proof (fb_process_ok u hist s size inb out H R1 R2 R3) as X. destruct (loop zero add ops n d u hist (frames zero inb size)) as [u1 o1]. destruct (fb_process zero add ops s size inb out) as [s1 o]. destruct X as (X1 & X2 & X3). auto. }
    destruct (loop zero add ops n d u hist (fed zero r)) as [u1 o1]. destruct (serve zero (fb_tick zero add ops) (fb_process zero add ops) s r) as [s1 o]. destruct S1 as [S1 S2]. subst o.
    specialize (IH u1 _ s1 S2 Hf'). destruct (loop zero add ops n d u1 (rev o1 ++ hist) (concat (map (fed zero) rs))) as [u2 o2]. destruct (serve_all zero (fb_tick zero add ops) (fb_process zero add ops) s1 rs) as [s2 os]. destruct IH as [I1 I2]. subst os. split; [reflexivity|]. rewrite rev_app_distr, <- app_assoc. exact I2.
  Qed.
End Fb.
