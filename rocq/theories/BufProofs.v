From Verif Require Export BufModel.

Lemma zipw_length {X Y Z} (f : X -> Y -> Z) l m : length (zipw f l m) = Nat.min (length l) (length m).
Proof. revert m; induction l; intros [|y m]; cbn; auto. Qed.
Lemma nth_error_zipw {X Y Z} (f : X -> Y -> Z) l m i :
  nth_error (zipw f l m) i = match nth_error l i, nth_error m i with Some x, Some y => Some (f x y) | _, _ => None end.
Proof.
  revert m i; induction l; intros [|y m] [|i]; cbn; auto.
  destruct (nth_error l i); auto.
Qed.
Lemma zipw_app {X Y Z} (f : X -> Y -> Z) l1 l2 m1 m2 : length l1 = length m1 ->
  zipw f (l1 ++ l2) (m1 ++ m2) = zipw f l1 m1 ++ zipw f l2 m2.
Proof. revert m1; induction l1; intros [|y m1] H; cbn in *; try lia; auto. f_equal. apply IHl1. lia. Qed.

Lemma zipw_map_l {X Y Z W} (f : X -> Y -> Z) (g : W -> X) l m : zipw f (map g l) m = zipw (fun a b => f (g a) b) l m.
Proof. revert m; induction l; intros [|y m]; cbn; auto. f_equal; auto. Qed.
Lemma zipw_map_r {X Y Z W} (f : X -> Y -> Z) (g : W -> Y) l m : zipw f l (map g m) = zipw (fun a b => f a (g b)) l m.
Proof. revert m; induction l; intros [|y m]; cbn; auto. f_equal; auto. Qed.
Lemma map_zipw {X Y Z W} (f : X -> Y -> Z) (h : Z -> W) l m : map h (zipw f l m) = zipw (fun a b => h (f a b)) l m.
Proof. revert m; induction l; intros [|y m]; cbn; auto. f_equal; auto. Qed.
Lemma zipw_ext_Forall {X Y Z} (f g : X -> Y -> Z) l m :
  (forall a b, In a l -> In b m -> f a b = g a b) -> zipw f l m = zipw g l m.
Proof.
  revert m; induction l; intros [|y m] H; cbn; auto. f_equal; [apply H; cbn; auto|].
  apply IHl. intros; apply H; cbn; auto.
Qed.
Lemma zipw_fst {X Y} (l : list X) (m : list Y) : length l = length m -> zipw (fun a _ => a) l m = l.
Proof. revert m; induction l; intros [|y m] H; cbn in *; try lia; auto. f_equal. apply IHl; lia. Qed.
Lemma zipw_snd {X Y} (l : list X) (m : list Y) : length l = length m -> zipw (fun _ b => b) l m = m.
Proof. revert m; induction l; intros [|y m] H; cbn in *; try lia; auto. f_equal. apply IHl; lia. Qed.

Lemma slices_length {X} n k (l : list X) : length (slices n k l) = n.
Proof. revert l; induction n; intros; cbn; auto. Qed.
Lemma slices_each {X} n k (l : list X) : length l = n * k -> Forall (fun s => length s = k) (slices n k l).
Proof.
  revert l; induction n; intros l H; cbn [slices]; constructor.
  - rewrite firstn_length; lia.
  - apply IHn. rewrite skipn_length; lia.
Qed.
Lemma concat_slices {X} n k (l : list X) : length l = n * k -> concat (slices n k l) = l.
Proof.
  revert l; induction n; intros l H; cbn [slices concat].
  - destruct l; cbn in *; auto; lia.
  - rewrite IHn by (rewrite skipn_length; lia). apply firstn_skipn.
Qed.
Lemma map_slices {X Y} (f : X -> Y) n k l : slices n k (map f l) = map (map f) (slices n k l).
Proof. revert l; induction n; intros; cbn; auto. rewrite firstn_map, skipn_map, IHn. reflexivity. Qed.
Lemma concat_length_uniform {X} k (ls : list (list X)) : Forall (fun s => length s = k) ls -> length (concat ls) = length ls * k.
Proof. induction 1; cbn; auto. rewrite app_length; lia. Qed.

Lemma simd_samples_ge n : n <= simd_samples n.
Proof. unfold simd_samples. pose proof (Nat.div_mod_eq (n + 7) 8). pose proof (Nat.mod_upper_bound (n + 7) 8). lia. Qed.
Lemma simd_samples_max n : n <= 64 -> simd_samples n <= 64.
Proof.
  intros H. unfold simd_samples. assert ((n + 7) / 8 <= 8); [|lia].
  transitivity ((64 + 7) / 8); [apply Nat.div_le_mono; lia|reflexivity].
Qed.

Section Proofs.
  Context {A : Type}.
  Variable zero : A.
  Notation shaped := (@shaped A).
  Notation frame := (frame zero).
  Notation frames := (frames zero).

  Lemma frame_length b i : length (frame b i) = length b.
  Proof. apply map_length. Qed.
  Lemma frames_length b n : length (frames b n) = n.
  Proof. unfold BufModel.frames. rewrite map_length, seq_length. reflexivity. Qed.
  Lemma frames_0 b : frames b 0 = [].
  Proof. reflexivity. Qed.
  Lemma nth_frames b n i d : i < n -> nth i (frames b n) d = frame b i.
  Proof. intros. unfold BufModel.frames. apply nth_map_seq; auto. Qed.
  Lemma frames_ext b b' n : (forall i, i < n -> frame b i = frame b' i) -> frames b n = frames b' n.
  Proof. intros H. unfold BufModel.frames. apply map_ext_in. intros i Hi. apply H. apply in_seq in Hi. lia. Qed.
  Lemma frames_each b n : Forall (fun f => length f = length b) (frames b n).
  Proof. unfold BufModel.frames. apply Forall_forall. intros f Hf. apply in_map_iff in Hf as (i & <- & _). apply frame_length. Qed.

  Lemma frame_app b1 b2 i : frame (b1 ++ b2) i = frame b1 i ++ frame b2 i.
  Proof. apply map_app. Qed.
  Lemma frame_firstn k b i : frame (firstn k b) i = firstn k (frame b i).
  Proof. unfold BufModel.frame. symmetry. apply firstn_map. Qed.
  Lemma frame_skipn k b i : frame (skipn k b) i = skipn k (frame b i).
  Proof. unfold BufModel.frame. symmetry. apply skipn_map. Qed.

  Lemma shaped_app n m b c : shaped n b -> shaped m c -> shaped (n + m) (b ++ c).
  Proof. intros [H1 H2] [H3 H4]. split; [rewrite app_length; lia|apply Forall_app; auto]. Qed.
  Lemma shaped_firstn n k b : shaped n b -> k <= n -> shaped k (firstn k b).
  Proof.
    intros [H1 H2] H. split; [rewrite firstn_length; lia|]. apply Forall_forall. intros x Hx.
    rewrite Forall_forall in H2. apply H2. rewrite <- (firstn_skipn k b). apply in_or_app; auto.
  Qed.
  Lemma shaped_skipn n k b : shaped n b -> shaped (n - k) (skipn k b).
  Proof.
    intros [H1 H2]. split; [rewrite skipn_length; lia|]. apply Forall_forall. intros x Hx.
    rewrite Forall_forall in H2. apply H2. rewrite <- (firstn_skipn k b). apply in_or_app; auto.
  Qed.
  Lemma shaped_nil : shaped 0 [].
  Proof. split; auto. Qed.
  Lemma shaped_slices n k b : shaped (n * k) b -> Forall (shaped k) (slices n k b).
  Proof.
    revert b; induction n; intros b H; cbn [slices]; constructor.
    - eapply shaped_firstn; eauto; lia.
    - apply IHn. replace (n * k) with (S n * k - k) by lia. apply shaped_skipn; auto.
  Qed.
  Lemma shaped_concat k bs : Forall (shaped k) bs -> shaped (length bs * k) (concat bs).
  Proof.
    intros H; induction H as [|b bs Hb Hbs IH]; cbn; [split; auto|]. apply shaped_app; auto.
  Qed.

  Lemma set_frame_shaped n b i o : shaped n b -> length o = n -> shaped n (set_frame b i o).
  Proof.
    intros [H1 H2] Ho. split.
    - unfold set_frame. rewrite zipw_length. lia.
    - revert o n H1 Ho; induction H2 as [|ch b Hch Hb IH]; intros [|v o] n H1 Ho; cbn; constructor.
      + rewrite length_upd; auto.
      + destruct n; [discriminate|]. apply (IH o n); cbn in *; lia.
  Qed.

  Lemma frame_set_frame n b i j o : shaped n b -> length o = n -> i < MAXB ->
    frame (set_frame b i o) j = if Nat.eqb i j then o else frame b j.
  Proof.
    intros [H1 H2] Ho Hi. unfold BufModel.frame, set_frame. rewrite map_zipw.
    transitivity (zipw (fun ch v => if Nat.eqb i j then v else nth j ch zero) b o).
    - apply zipw_ext_Forall. intros ch v Hch _. rewrite nth_upd. rewrite Forall_forall in H2. rewrite (H2 _ Hch).
      destruct (Nat.ltb_spec i MAXB); [|lia]. rewrite andb_true_r. reflexivity.
    - destruct (Nat.eqb i j).
      + apply zipw_snd; lia.
      + rewrite <- (zipw_map_l (fun a _ => a) (fun ch => nth j ch zero) b o). apply zipw_fst. rewrite map_length; lia.
  Qed.

  Lemma write_simd_length size f ch : length (write_simd zero size f ch) = MAXB.
  Proof. unfold write_simd. rewrite map_length, seq_length. reflexivity. Qed.
  Lemma nth_write_simd size f ch k : size <= MAXB -> k < size -> nth k (write_simd zero size f ch) zero = f k.
  Proof.
    intros Hs Hk. unfold write_simd. rewrite nth_map_seq by lia.
    pose proof (simd_samples_ge size). destruct (Nat.ltb_spec k (simd_samples size)); [auto|lia].
  Qed.

  Lemma zip_simd_shaped n size f s d : length s = n -> length d = n -> shaped n (zip_simd zero size f s d).
  Proof.
    intros H1 H2. split.
    - unfold zip_simd. rewrite zipw_length. lia.
    - unfold zip_simd. clear. revert d; induction s; intros [|y d]; cbn; constructor; auto using write_simd_length.
  Qed.
  Lemma frame_zip_simd size f s d i : size <= MAXB -> i < size ->
    frame (zip_simd zero size f s d) i = zipw f (frame s i) (frame d i).
  Proof.
    intros Hs Hi. unfold BufModel.frame, zip_simd. rewrite map_zipw, zipw_map_l, zipw_map_r.
    apply zipw_ext_Forall. intros a b _ _. apply nth_write_simd; auto.
  Qed.
  Lemma copy_simd_shaped n size s d : length s = n -> length d = n -> shaped n (copy_simd zero size s d).
  Proof.
    intros H1 H2. split.
    - unfold copy_simd. rewrite zipw_length. lia.
    - unfold copy_simd. clear. revert d; induction s; intros [|y d]; cbn; constructor; auto using write_simd_length.
  Qed.
  Lemma frame_copy_simd size s d i : size <= MAXB -> i < size -> length s = length d ->
    frame (copy_simd zero size s d) i = frame s i.
  Proof.
    intros Hs Hi Hl. unfold BufModel.frame, copy_simd. rewrite map_zipw.
    rewrite <- (zipw_fst (map (fun ch => nth i ch zero) s) d) by (rewrite map_length; auto).
    rewrite zipw_map_l. apply zipw_ext_Forall. intros a b _ _. rewrite nth_write_simd; auto.
  Qed.

  Section Machine.
    Context {X : Type}.
    Variable tick : X -> list A -> X * list A.

    Lemma ticks_app x i1 i2 :
      ticks tick x (i1 ++ i2) =
      let (x', o1) := ticks tick x i1 in let (x'', o2) := ticks tick x' i2 in (x'', o1 ++ o2).
    Proof.
      revert x; induction i1 as [|i i1 IH]; intros x; cbn.
      - destruct (ticks tick x i2); auto.
      - destruct (tick x i) as [x' o]. rewrite IH. destruct (ticks tick x' i1) as [x'' o1].
        destruct (ticks tick x'' i2); auto.
    Qed.
    Lemma ticks_length x ins : length (snd (ticks tick x ins)) = length ins.
    Proof.
      revert x; induction ins as [|i ins IH]; intros x; cbn; auto.
      destruct (tick x i) as [x' o]. specialize (IH x'). destruct (ticks tick x' ins); cbn in *; lia.
    Qed.

    (* the default block processing satisfies the block contract *)
    Lemma process_ticks_ok n (Inv : X -> Prop) m :
      (forall x i, Inv x -> length i = m -> Inv (fst (tick x i)) /\ length (snd (tick x i)) = n) ->
      forall k i x inb out, Inv x -> length inb = m -> shaped n out -> i + k <= MAXB ->
      let r := process_ticks zero tick k i x inb out in
      let t := ticks tick x (map (frame inb) (seq i k)) in
      fst r = fst t /\ shaped n (snd r) /\ map (frame (snd r)) (seq i k) = snd t /\
      (forall j, j < i -> frame (snd r) j = frame out j).
    Proof.
      intros Hlen. induction k as [|k IH]; intros i x inb out Hx Hin Hout Hk; cbn.
      - repeat split; auto; apply Hout.
      - destruct (Hlen x (frame inb i) Hx) as [Hx' Ho]; [now rewrite frame_length|].
        destruct (tick x (frame inb i)) as [x' o]. cbn in Ho, Hx'.
        destruct (IH (S i) x' inb (set_frame out i o)) as (E1 & E2 & E3 & E4); auto; try lia.
        { apply set_frame_shaped; auto. }
        destruct (process_ticks zero tick k (S i) x' inb (set_frame out i o)) as [x2 out2].
        cbn [fst snd] in *.
        destruct (ticks tick x' (map (frame inb) (seq (S i) k))) as [x3 os]; cbn [fst snd] in *.
        repeat split; auto; try apply E2.
        + f_equal; auto. rewrite E4 by lia. rewrite (frame_set_frame n); auto; [|unfold MAXB in *; lia].
          now rewrite Nat.eqb_refl.
        + intros j Hj. rewrite E4 by lia. rewrite (frame_set_frame n); auto; [|unfold MAXB in *; lia].
          destruct (Nat.eqb_spec i j); [lia|auto].
    Qed.
  End Machine.
End Proofs.
