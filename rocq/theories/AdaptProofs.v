(* Proofs about the adapters. *)
From Coq Require Import Lia.
From Verif Require Export AdaptSpec RequestProofs.

Section Big.
  Context {A P U : Type}.
  Variables (zero : A) (ops : unit_ops A P U).
  Hypothesis laws : unit_laws zero ops.
  Lemma copy_ok n : forall s d (src dst : list A), s + n <= length src -> d + n <= length dst ->
    exists r, copy n s d src dst = Some r /\ length r = length dst /\ forall j, nth j r zero = if Nat.leb d j && Nat.ltb j (d + n) then nth (s + (j - d)) src zero else nth j dst zero.
  Proof.
    induction n as [|n IH]; intros s d src dst Hs Hd; cbn [copy].
    - exists dst. split; [reflexivity|]. split; [reflexivity|]. intros j. destruct (Nat.leb_spec d j); destruct (Nat.ltb_spec j (d + 0)); cbn [andb]; try reflexivity. lia.
    - destruct (nth_error src s) as [v|] eqn:E; [|apply nth_error_None in E; lia]. destruct (Nat.ltb_spec d (length dst)); [|lia].
      destruct (IH (S s) (S d) src (upd dst d v)) as (r & E1 & E2 & E3); [lia|rewrite length_upd; lia|]. exists r. split; [exact E1|]. split; [now rewrite E2, length_upd|]. intros j. rewrite E3, nth_upd.
      apply nth_error_nth with (d := zero) in E. destruct (Nat.leb_spec (S d) j); destruct (Nat.ltb_spec j (S d + n)); destruct (Nat.leb_spec d j); destruct (Nat.ltb_spec j (d + S n)); destruct (Nat.eqb_spec d j); try lia; cbn [andb]; try reflexivity.
      + f_equal. lia.
      + destruct (Nat.ltb_spec d (length dst)); [|lia]. subst j. rewrite Nat.sub_diag, Nat.add_0_r. symmetry. exact E.
  Qed.
  Definition same_lens (a b : list (list A)) : Prop := map (@length A) a = map (@length A) b.
  Lemma copies_ok n s d src : forall dst, length src = length dst -> Forall (fun ch => s + n <= length ch) src -> Forall (fun ch => d + n <= length ch) dst ->
    exists r, copies n s d src dst = Some r /\ copies_out n s d src dst = Some r /\ same_lens r dst /\
    forall j, frame zero r j = if Nat.leb d j && Nat.ltb j (d + n) then frame zero src (s + (j - d)) else frame zero dst j.
  Proof.
    induction src as [|x src IH]; intros [|y dst] Hl Hs Hd; try discriminate; cbn [copies copies_out].
    - exists []. repeat split. intros j. now destruct (_ && _).
    - inversion Hs; subst. inversion Hd; subst. destruct (copy_ok n s d x y) as (z & Z1 & Z2 & Z3); auto. destruct (IH dst) as (r & R1 & R2 & R3 & R4); auto. rewrite Z1, R1, R2. exists (z :: r). split; [reflexivity|]. split; [reflexivity|]. split.
      + unfold same_lens in *. cbn. now rewrite Z2, R3.
      + intros j. unfold frame in *. cbn [map]. rewrite R4, Z3. now destruct (_ && _).
  Qed.
  Lemma same_lens_forall n a b : same_lens a b -> Forall (fun ch => n <= length ch) b -> Forall (fun ch => n <= length ch) a.
  Proof. intros E H. assert (X : Forall (fun k => n <= k) (map (@length A) b)) by (rewrite Forall_map; exact H). rewrite <- E in X. rewrite Forall_map in X. exact X. Qed.
  Lemma same_lens_shaped n a b : same_lens a b -> shaped n b -> shaped n a.
  Proof.
    intros E [H1 H2]. split; [rewrite <- (map_length (@length A) a), E, map_length; exact H1|]. assert (X : Forall (fun k => k = MAXB) (map (@length A) b)) by (rewrite Forall_map; exact H2). rewrite <- E in X. rewrite Forall_map in X. exact X.
  Qed.
  Lemma same_lens_length a b : same_lens a b -> length a = length b.
  Proof. intros E. rewrite <- (map_length (@length A) a), E. apply map_length. Qed.
  Variables (ins outs : nat).
  Definition big_inv (s : big A U) : Prop := shaped ins (bg_in s) /\ shaped outs (bg_out s) /\ u_ins ops (bg_unit s) = ins /\ u_outs ops (bg_unit s) = outs.
  Lemma unit_arity l : forall u, u_ins ops (fst (ticks (u_tick ops) u l)) = u_ins ops u /\ u_outs ops (fst (ticks (u_tick ops) u l)) = u_outs ops u.
  Proof.
    induction l as [|i l IH]; intros u; cbn [ticks]; [auto|]. pose proof (ul_ins _ _ laws u i) as Hi'. pose proof (ul_outs _ _ laws u i) as Ho'. destruct (u_tick ops u i) as [u1 o]. specialize (IH u1). destruct (ticks (u_tick ops) u1 l). cbn [fst] in *. destruct IH. split; congruence.
  Qed.
  Lemma frames_ext (a b : list (list A)) i n k : (forall j, j < n -> frame zero a (i + j) = frame zero b (k + j)) -> map (frame zero a) (seq i n) = map (frame zero b) (seq k n).
  Proof.
    intros H. apply (nth_ext _ _ [] []); [now rewrite !map_length, !seq_length|]. intros j Hj. rewrite map_length, seq_length in Hj.
    rewrite (nth_indep _ [] (frame zero a 0)) by (now rewrite map_length, seq_length). rewrite (nth_indep (map (frame zero b) _) [] (frame zero b 0)) by (now rewrite map_length, seq_length). rewrite !map_nth, !seq_nth by exact Hj. now apply H.
  Qed.
  Lemma big_loop_ok size input : length input = ins -> Forall (fun ch => size <= length ch) input -> forall fuel i s output, size - i <= fuel -> i <= size -> big_inv s -> length output = outs -> Forall (fun ch => size <= length ch) output ->
    exists s' o, big_loop ops fuel i size s input output = Some (s', o) /\ big_inv s' /\ same_lens o output /\
    (bg_unit s', map (frame zero o) (seq i (size - i))) = ticks (u_tick ops) (bg_unit s) (map (frame zero input) (seq i (size - i))) /\ (forall j, j < i \/ size <= j -> frame zero o j = frame zero output j).
  Proof.
    intros Hli Hin. induction fuel as [|fuel IH]; intros i s output Hf Hi (I1 & I2 & I3 & I4) Hlo Hout; cbn [big_loop]; destruct (Nat.ltb_spec i size) as [Hlt|Hge]; try lia.
    - exists s, output. replace (size - i) with 0 by lia. split; [reflexivity|]. split; [repeat split; try assumption; try apply I1; apply I2|]. split; [reflexivity|]. split; [reflexivity|auto].
    - set (n := Nat.min (size - i) MAXB). assert (Hn : 0 < n <= MAXB) by (subst n; unfold MAXB; lia). assert (Hn2 : i + n <= size) by (subst n; lia).
      destruct (copies_ok n i 0 input (bg_in s)) as (b & B1 & _ & B3 & B4).
      { rewrite Hli. symmetry. apply I1. } { eapply Forall_impl; [|exact Hin]. cbn. lia. } { eapply Forall_impl; [|exact (proj2 I1)]. cbn. intros a ->. lia. }
      rewrite B1. pose proof (same_lens_shaped _ _ _ B3 I1) as Sb. pose proof (ul_process _ _ laws (bg_unit s) n b (bg_out s) (proj2 Hn)) as C. rewrite I3, I4 in C. specialize (C Sb I2).
      pose proof (unit_arity (frames zero b n) (bg_unit s)) as Ar.
      destruct (u_process ops (bg_unit s) n b (bg_out s)) as [u1 o1]. destruct C as [C1 C2]. rewrite <- C1 in Ar. cbn [fst] in Ar. destruct Ar as [Ar1 Ar2].
      destruct (copies_ok n 0 i o1 output) as (o2 & _ & O2 & O3 & O4).
      { rewrite Hlo. apply C2. } { eapply Forall_impl; [|exact (proj2 C2)]. cbn. intros a ->. lia. } { eapply Forall_impl; [|exact Hout]. cbn. lia. }
      rewrite O2. destruct (IH (i + n) (mkBig u1 b o1) o2) as (s' & o & L1 & L2 & L3 & L4 & L5); [lia|lia|repeat split; cbn [bg_in bg_out bg_unit]; try apply Sb; try apply C2; congruence|now rewrite (same_lens_length _ _ O3)|exact (same_lens_forall _ _ _ O3 Hout)|].
      exists s', o. split; [exact L1|]. split; [exact L2|]. split; [unfold same_lens in *; congruence|]. cbn [bg_unit] in L4. split.
      + replace (size - i) with (n + (size - (i + n))) by lia. rewrite !seq_app, !map_app, ticks_app. 
        assert (E1 : map (frame zero input) (seq i n) = frames zero b n). { unfold frames. apply frames_ext. intros j Hj. cbn [Nat.add]. rewrite B4. cbn [Nat.leb andb Nat.add]. destruct (Nat.ltb_spec j n); [|lia]. now rewrite Nat.sub_0_r. }
        assert (E2 : map (frame zero o) (seq i n) = frames zero o1 n). { unfold frames. apply frames_ext. intros j Hj. cbn [Nat.add]. rewrite L5 by lia. rewrite O4. destruct (Nat.leb_spec i (i + j)); [|lia]. destruct (Nat.ltb_spec (i + j) (i + n)); [|lia]. cbn [andb]. f_equal. lia. }
        rewrite E1, E2, <- C1, <- L4. reflexivity.
      + intros j Hj. rewrite L5 by lia. rewrite O4. destruct (Nat.leb_spec i j); destruct (Nat.ltb_spec j (i + n)); cbn [andb]; try reflexivity. lia.
    - exists s, output. replace (size - i) with 0 by lia. split; [reflexivity|]. split; [repeat split; try assumption; try apply I1; apply I2|]. split; [reflexivity|]. split; [reflexivity|auto].
  Qed.
  Lemma big_calls_ok cs : forall s, big_inv s -> Forall (big_ok ins outs) cs ->
    exists s' os, big_calls ops s cs = Some (s', os) /\ big_inv s' /\ length os = length cs /\
    (bg_unit s', concat (zipw (fun c o => frames zero o (fst (fst c))) cs os)) = ticks (u_tick ops) (bg_unit s) (concat (map (fun c => frames zero (snd (fst c)) (fst (fst c))) cs)) /\
    Forall2 (fun c o => same_lens o (snd c) /\ forall j, fst (fst c) <= j -> frame zero o j = frame zero (snd c) j) cs os.
  Proof.
    induction cs as [|[[size input] output] cs IH]; intros s Hs Hc; cbn [big_calls].
    - exists s, []. split; [reflexivity|]. split; [exact Hs|]. split; [reflexivity|]. split; [reflexivity|constructor].
    - inversion Hc as [|? ? Hc1 Hc2]; subst. destruct Hc1 as (C1 & C2 & C3 & C4). unfold process_big. destruct (big_loop_ok size input C1 C3 size 0 s output) as (s1 & o & L1 & L2 & L3 & L4 & L5); [lia|lia|exact Hs|exact C2|exact C4|]. rewrite L1.
      destruct (IH s1 L2 Hc2) as (s2 & os & R1 & R2 & R3 & R4 & R5). rewrite R1. exists s2, (o :: os). split; [reflexivity|]. split; [exact R2|]. split; [cbn; now rewrite R3|]. split.
      + cbn [zipw concat map fst snd]. rewrite ticks_app. rewrite Nat.sub_0_r in L4. fold (frames zero o size) in L4. fold (frames zero input size) in L4. rewrite <- L4, <- R4. reflexivity.
      + constructor; [|exact R5]. cbn [fst snd]. split; [exact L3|]. intros j Hj. apply L5. lia.
  Qed.
End Big.

Section Rated.
  Context {A P U : Type}.
  Variables (zero : A) (ops : unit_ops A P U) (outs : nat).
  (* the unit writes blocks of the right shape *)
  Hypothesis shape : forall u b, shaped outs b -> shaped outs (snd (u_process ops u MAXB [] b)).
  Definition rated_inv (s : rated A U) : Prop := shaped outs (rt_buf s) /\ rt_index s <= MAXB.
  Lemma refill_inv s : rated_inv s -> rated_inv (refill ops s) /\ rt_index (refill ops s) < MAXB.
  Proof.
    intros [H1 H2]. unfold refill. destruct (Nat.eqb_spec (rt_index s) MAXB) as [E|E]; [|split; [split; auto|lia]]. pose proof (shape (rt_unit s) (rt_buf s) H1) as S1. destruct (u_process ops (rt_unit s) MAXB [] (rt_buf s)) as [u b]. cbn [snd] in S1. split; [split; [exact S1|cbn; lia]|cbn; unfold MAXB; lia].
  Qed.
  Lemma refill_idem s : rt_index s < MAXB -> refill ops s = s.
  Proof. intros H. unfold refill. destruct (Nat.eqb_spec (rt_index s) MAXB); [lia|reflexivity]. Qed.
  Lemma tick_refill s i : rated_inv s -> rated_tick zero ops s i = rated_tick zero ops (refill ops s) i.
  Proof. intros H. unfold rated_tick. destruct (refill_inv s H) as [_ L]. now rewrite (refill_idem (refill ops s) L). Qed.
  Lemma rated_keep s i : rated_inv s -> rated_inv (fst (rated_tick zero ops s i)).
  Proof. intros H. destruct (refill_inv s H) as [[R1 R2] R3]. unfold rated_tick. cbn [fst]. split; [exact R1|]. cbn [rt_index]. lia. Qed.
  Lemma within n : forall u b idx, idx + n <= MAXB -> ticks (rated_tick zero ops) (mkRated u b idx) (repeat [] n) = (mkRated u b (idx + n), map (frame zero b) (seq idx n)).
  Proof.
    induction n as [|n IH]; intros u b idx H; cbn [repeat ticks seq map]; [now rewrite Nat.add_0_r|]. unfold rated_tick at 1. rewrite refill_idem by (cbn; lia). cbn [rt_unit rt_buf rt_index]. rewrite IH by lia. do 2 f_equal; [lia|]. now rewrite Nat.add_1_r.
  Qed.
  Lemma blit_ok i n idx b out : shaped outs b -> shaped outs out -> i + n <= MAXB -> idx + n <= MAXB ->
    shaped outs (blit i n idx b out) /\ forall j, frame zero (blit i n idx b out) j = if Nat.leb i j && Nat.ltb j (i + n) then frame zero b (idx + (j - i)) else frame zero out j.
  Proof.
    intros [B1 B2] [O1 O2] Hi Hx. clear shape. revert out outs B1 O1 O2. induction B2 as [|s b Hs Hb IH]; intros out m B1 O1 O2; destruct out as [|d out]; cbn [length] in *; try (subst m; discriminate).
    - split; [split; auto|]. intros j. now destruct (_ && _).
    - inversion O2; subst. destruct (IH out (length b)) as [I1 I2]; [reflexivity|lia|assumption|].
      assert (Ld : length (firstn i d ++ firstn n (skipn idx s) ++ skipn (i + n) d) = MAXB) by (rewrite !app_length, !firstn_length, !skipn_length; lia).
      split; [split; [cbn; f_equal; apply I1|cbn [blit zipw]; constructor; [exact Ld|apply I1]]|]. intros j. unfold frame in *. cbn [blit zipw map]. unfold blit in I2. rewrite I2.
      assert (E : nth j (firstn i d ++ firstn n (skipn idx s) ++ skipn (i + n) d) zero = if Nat.leb i j && Nat.ltb j (i + n) then nth (idx + (j - i)) s zero else nth j d zero).
      { destruct (Nat.leb_spec i j) as [G|G]; cbn [andb].
        - rewrite app_nth2 by (rewrite firstn_length; lia). rewrite firstn_length, Nat.min_l by lia. destruct (Nat.ltb_spec j (i + n)) as [G2|G2].
          + rewrite app_nth1 by (rewrite firstn_length, skipn_length; lia). rewrite nth_firstn_lt by lia. now rewrite nth_skipn_add.
          + rewrite app_nth2 by (rewrite firstn_length, skipn_length; lia). rewrite firstn_length, skipn_length. rewrite nth_skipn_add. f_equal. lia.
        - rewrite app_nth1 by (rewrite firstn_length; lia). now rewrite nth_firstn_lt. }
      rewrite E. now destruct (_ && _).
  Qed.
  Lemma ticks_refill s n : rated_inv s -> 0 < n -> ticks (rated_tick zero ops) s (repeat [] n) = ticks (rated_tick zero ops) (refill ops s) (repeat [] n).
  Proof. intros H Hn. destruct n; [lia|]. cbn [repeat ticks]. now rewrite tick_refill. Qed.
  Lemma rated_loop_ok size : size <= MAXB -> forall fuel i s out, size - i <= fuel -> i <= size -> rated_inv s -> shaped outs out ->
    let r := rated_loop ops fuel i size s out in
    (fst r, map (frame zero (snd r)) (seq i (size - i))) = ticks (rated_tick zero ops) s (repeat [] (size - i)) /\ shaped outs (snd r) /\ forall j, j < i -> frame zero (snd r) j = frame zero out j.
  Proof.
    intros Hs. induction fuel as [|fuel IH]; intros i s out Hf Hi Hinv Ho; cbn [rated_loop]; destruct (Nat.ltb_spec i size) as [Hlt|Hge]; try lia.
    - replace (size - i) with 0 by lia. cbn. auto.
    - destruct (refill_inv s Hinv) as [[R1 R2] R3]. rewrite (ticks_refill s (size - i) Hinv) by lia. destruct (refill ops s) as [u b idx]. cbn [rt_unit rt_buf rt_index] in *.
      set (n := Nat.min (size - i) (MAXB - idx)). assert (Hn : 0 < n /\ idx + n <= MAXB /\ i + n <= size) by (subst n; lia).
      destruct (blit_ok i n idx b out R1 Ho) as [B1 B2]; [lia|lia|]. destruct (IH (i + n) (mkRated u b (idx + n)) (blit i n idx b out)) as (I1 & I2 & I3); [lia|lia|split; cbn; [exact R1|lia]|exact B1|]. cbv zeta in *.
      destruct (rated_loop ops fuel (i + n) size (mkRated u b (idx + n)) (blit i n idx b out)) as [s' out']. cbn [fst snd] in *. split; [|split; [exact I2|]].
      + replace (size - i) with (n + (size - (i + n))) by lia. rewrite seq_app, map_app, repeat_app, ticks_app, within by lia. rewrite <- I1. f_equal. f_equal. apply frames_ext. intros j Hj. rewrite I3 by lia. rewrite B2. destruct (Nat.leb_spec i (i + j)); [|lia]. destruct (Nat.ltb_spec (i + j) (i + n)); [|lia]. cbn [andb]. f_equal. lia.
      + intros j Hj. rewrite I3 by lia. rewrite B2. destruct (Nat.leb_spec i j); [lia|reflexivity].
    - replace (size - i) with 0 by lia. cbn. auto.
  Qed.
  Lemma rated_contract s : rated_inv s -> block_contract zero (rated_tick zero ops) (rated_process ops) 0 outs s.
  Proof.
    intros Hinv size inb out Hs Hi Ho. unfold rated_process. destruct (rated_loop_ok size Hs size 0 s out) as (L1 & L2 & _); [lia|lia|exact Hinv|exact Ho|]. cbv zeta in *. destruct (rated_loop ops size 0 size s out) as [s' out']. cbn [fst snd] in *. rewrite Nat.sub_0_r in L1. split; [|exact L2].
    unfold frames at 1. rewrite L1. f_equal. destruct Hi as [Hi _]. destruct inb; [|discriminate]. unfold frames. clear. generalize 0. induction size; intros k; cbn; [reflexivity|]. f_equal. apply IHsize.
  Qed.
  (* ticks give the blocks of the unit in order *)
  Definition idle (l : list (list A)) : Prop := Forall (fun i => i = []) l.
  Lemma full_block u b : let (u1, b1) := u_process ops u MAXB [] b in shaped outs b -> ticks (rated_tick zero ops) (mkRated u b MAXB) (repeat [] MAXB) = (mkRated u1 b1 MAXB, frames zero b1 MAXB).
  Proof.
    destruct (u_process ops u MAXB [] b) as [u1 b1] eqn:E. intros Hb. rewrite ticks_refill; [|split; cbn; [exact Hb|lia]|unfold MAXB; lia]. unfold refill. cbn [rt_index rt_unit rt_buf]. rewrite Nat.eqb_refl, E. rewrite within by lia. reflexivity.
  Qed.
  Lemma stream_ticks m : forall u b, shaped outs b -> let '(u', b', l) := block_stream zero ops m u b in
    ticks (rated_tick zero ops) (mkRated u b MAXB) (repeat [] (MAXB * m)) = (mkRated u' b' MAXB, l) /\ shaped outs b' /\ length l = MAXB * m.
  Proof.
    induction m as [|m IH]; intros u b Hb; cbn [block_stream]; [rewrite Nat.mul_0_r; cbn; auto|]. pose proof (full_block u b) as Fb. pose proof (shape u b Hb) as S1. destruct (u_process ops u MAXB [] b) as [u1 b1]. cbn [snd] in S1. specialize (IH u1 b1 S1). destruct (block_stream zero ops m u1 b1) as [[u2 b2] l]. destruct IH as (I1 & I2 & I3).
    replace (MAXB * S m) with (MAXB + MAXB * m) by lia. rewrite repeat_app, ticks_app, Fb by exact Hb. rewrite I1. split; [reflexivity|]. split; [exact I2|]. rewrite app_length, I3. unfold frames. now rewrite map_length, seq_length.
  Qed.
  Lemma idle_repeat (l : list (list A)) : Forall (fun i => length i = 0) l -> l = repeat [] (length l).
  Proof. induction 1 as [|i l Hi Hl IH]; cbn; [reflexivity|]. destruct i; [|discriminate]. now rewrite IH at 1. Qed.
  Lemma bs_S m u b : block_stream zero ops (S m) u b = let (u1, b1) := u_process ops u MAXB [] b in let '(u2, b2, l) := block_stream zero ops m u1 b1 in (u2, b2, frames zero b1 MAXB ++ l).
  Proof. reflexivity. Qed.
  Lemma block_stream_snoc m : forall u b, block_stream zero ops (S m) u b =
    let '(u1, b1, l) := block_stream zero ops m u b in let (u2, b2) := u_process ops u1 MAXB [] b1 in (u2, b2, l ++ frames zero b2 MAXB).
  Proof.
    induction m as [|m IH]; intros u b.
    - cbn [block_stream]. destruct (u_process ops u MAXB [] b). now rewrite app_nil_r.
    - rewrite (bs_S (S m) u b), (bs_S m u b). destruct (u_process ops u MAXB [] b) as [u1 b1]. rewrite IH. destruct (block_stream zero ops m u1 b1) as [[u2 b2] l]. destruct (u_process ops u2 MAXB [] b2) as [u3 b3]. now rewrite app_assoc.
  Qed.
  (* n samples: all whole blocks, and the first r samples of one more if r > 0 *)
  Lemma stream_any u b q r : shaped outs b -> r < MAXB -> let m := if Nat.eqb r 0 then q else S q in let '(u', b', l) := block_stream zero ops m u b in
    let t := ticks (rated_tick zero ops) (mkRated u b MAXB) (repeat [] (MAXB * q + r)) in snd t = firstn (MAXB * q + r) l /\ rt_unit (fst t) = u'.
  Proof.
    intros Hb Hr. cbv zeta. rewrite repeat_app, ticks_app. pose proof (stream_ticks q u b Hb) as T. destruct (Nat.eqb_spec r 0) as [->|Hr0].
    - destruct (block_stream zero ops q u b) as [[u1 b1] l]. destruct T as (T1 & T2 & T3). rewrite T1. cbn. rewrite app_nil_r, Nat.add_0_r. split; [symmetry; apply firstn_all2; unfold MAXB in *; lia|reflexivity].
    - rewrite block_stream_snoc. destruct (block_stream zero ops q u b) as [[u1 b1] l]. destruct T as (T1 & T2 & T3). rewrite T1. destruct (u_process ops u1 MAXB [] b1) as [u2 b2] eqn:E.
      rewrite ticks_refill; [|split; cbn; [exact T2|lia]|lia]. unfold refill. cbn [rt_index rt_unit rt_buf]. rewrite Nat.eqb_refl, E, within by lia. cbn [fst snd rt_unit]. split; [|reflexivity].
      rewrite firstn_app, T3, firstn_all2 by lia. replace (MAXB * q + r - MAXB * q) with r by lia. f_equal. unfold frames. rewrite firstn_map. f_equal. replace MAXB with (r + (MAXB - r)) by lia. rewrite seq_app, firstn_app, seq_length, Nat.sub_diag, firstn_O, app_nil_r. now rewrite firstn_all2 by (rewrite seq_length; lia).
  Qed.
  Lemma stream_lawful m : unit_laws zero ops -> forall u b, shaped outs b -> u_ins ops u = 0 -> u_outs ops u = outs ->
    let '(u', b', l) := block_stream zero ops m u b in ticks (u_tick ops) u (repeat [] (MAXB * m)) = (u', l).
  Proof.
    intros Hl. induction m as [|m IH]; intros u b Hb Hi Ho; cbn [block_stream]; [now rewrite Nat.mul_0_r|].
    pose proof (ul_process _ _ Hl u MAXB [] b (le_n MAXB)) as C. rewrite Hi, Ho in C. specialize (C (conj eq_refl (Forall_nil _)) Hb). pose proof (unit_arity zero ops Hl (repeat [] MAXB) u) as Ar. destruct (u_process ops u MAXB [] b) as [u1 b1]. destruct C as [C1 C2].
    change (frames zero [] MAXB) with (repeat (@nil A) MAXB) in C1. rewrite <- C1 in Ar. cbn [fst] in Ar. destruct Ar as [A1 A2]. specialize (IH u1 b1 C2 ltac:(congruence) ltac:(congruence)). destruct (block_stream zero ops m u1 b1) as [[u2 b2] l].
    replace (MAXB * S m) with (MAXB + MAXB * m) by lia. now rewrite repeat_app, ticks_app, <- C1, IH.
  Qed.
  Lemma ticks_firstn {X} (tick : X -> list A -> X * list A) l : forall n x, snd (ticks tick x (firstn n l)) = firstn n (snd (ticks tick x l)).
  Proof. induction l as [|i l IH]; intros [|n] x; cbn [firstn ticks]; try reflexivity. destruct (tick x i) as [x1 o]. specialize (IH n x1). destruct (ticks tick x1 (firstn n l)). destruct (ticks tick x1 l). cbn in *. now rewrite IH. Qed.
  Lemma fed_idle rs : Forall (request_ok 0 outs) rs -> concat (map (fed zero) rs) = repeat [] (length (concat (map (fed zero) rs))).
  Proof. intros H. apply idle_repeat. induction H as [|r rs Hr Hrs IH]; cbn; [constructor|]. apply Forall_app. split; [exact (fed_len zero 0 outs r Hr)|exact IH]. Qed.
  Lemma rated_requests u b rs : shaped outs b -> Forall (request_ok 0 outs) rs ->
    let n := length (concat (map (fed zero) rs)) in let '(u', b', l) := block_stream zero ops ((n + 63) / 64) u b in
    let r := serve_all zero (rated_tick zero ops) (rated_process ops) (mkRated u b MAXB) rs in snd r = firstn n l /\ rt_unit (fst r) = u'.
  Proof.
    intros Hb Hr. cbv zeta. rewrite (requests_are_ticks zero _ _ 0 outs rated_inv) with (rs := rs); [|intros x i Hx _; now apply rated_keep|exact rated_contract|split; cbn; [exact Hb|lia]|exact Hr].
    pose proof (fed_idle rs Hr) as Ec. set (c := concat (map (fed zero) rs)) in *. clearbody c. set (n := length c) in *. clearbody n. subst c.
    pose proof (Nat.div_mod n 64 ltac:(lia)) as D. pose proof (Nat.mod_upper_bound n 64 ltac:(lia)) as M. pose proof (stream_any u b (n / 64) (n mod 64) Hb M) as T. cbv zeta in T. change MAXB with 64 in T. rewrite <- D in T. change 64 with MAXB in T at 1.
    replace ((n + 63) / 64) with (if Nat.eqb (n mod 64) 0 then n / 64 else S (n / 64)); [exact T|]. destruct (Nat.eqb_spec (n mod 64) 0) as [E|E].
    - replace (n + 63) with (63 + (n / 64) * 64) by lia. rewrite Nat.div_add by lia. reflexivity.
    - replace (n + 63) with ((n mod 64 - 1) + (S (n / 64)) * 64) by lia. rewrite Nat.div_add by lia. rewrite (Nat.div_small (n mod 64 - 1)) by lia. reflexivity.
  Qed.
End Rated.

Lemma blank_shaped {A} (zero : A) n : shaped n (repeat (repeat zero MAXB) n).
Proof. split; [apply repeat_length|]. apply Forall_forall. intros c Hc. apply repeat_spec in Hc. subst c. apply repeat_length. Qed.
Lemma big_new_ok {A P U} (zero : A) (ops : unit_ops A P U) u : big_inv ops (u_ins ops u) (u_outs ops u) (big_new zero ops u).
Proof. split; [exact (blank_shaped zero _)|]. split; [exact (blank_shaped zero _)|]. auto. Qed.
Lemma rated_lawful {A P U} (zero : A) (ops : unit_ops A P U) u rs s : unit_laws zero ops -> (forall v b, shaped (u_outs ops u) b -> shaped (u_outs ops u) (snd (u_process ops v MAXB [] b))) ->
  rated_new zero ops u = Some s -> Forall (request_ok 0 (u_outs ops u)) rs ->
  snd (serve_all zero (rated_tick zero ops) (rated_process ops) s rs) = snd (ticks (u_tick ops) u (concat (map (fed zero) rs))).
Proof.
  intros Hl Hs E Hr. unfold rated_new in E. destruct (Nat.eqb_spec (u_ins ops u) 0) as [Ei|]; [|discriminate]. assert (E2 : s = mkRated u (repeat (repeat zero MAXB) (u_outs ops u)) MAXB) by congruence. subst s. clear E.
  pose proof (rated_requests zero ops (u_outs ops u) Hs u _ rs (blank_shaped zero _) Hr) as X. cbv zeta in X. pose proof (fed_idle zero (u_outs ops u) rs Hr) as Ec. 
  pose proof (stream_lawful zero ops (u_outs ops u) Hs ((length (concat (map (fed zero) rs)) + 63) / 64) Hl u _ (blank_shaped zero _) Ei eq_refl) as Y.
  destruct (block_stream zero ops _ u (repeat (repeat zero MAXB) (u_outs ops u))) as [[u' b'] l]. destruct X as [X _]. rewrite X. 
  set (c := concat (map (fed zero) rs)) in *. clearbody c. set (n := length c) in *. clearbody n. subst c.
  replace (repeat (@nil A) n) with (firstn n (repeat (@nil A) (MAXB * ((n + 63) / 64)))); [rewrite ticks_firstn, Y; reflexivity|].
  assert (Hn : n <= MAXB * ((n + 63) / 64)). { pose proof (Nat.div_mod (n + 63) 64 ltac:(lia)). pose proof (Nat.mod_upper_bound (n + 63) 64 ltac:(lia)). unfold MAXB. lia. }
  replace (MAXB * ((n + 63) / 64)) with (n + (MAXB * ((n + 63) / 64) - n)) by lia. rewrite repeat_app, firstn_app, repeat_length, Nat.sub_diag, firstn_O, app_nil_r. apply firstn_all2. rewrite repeat_length. lia.
Qed.

(* ---- listeners ---- *)
Section Listen.
  Context {A P U : Type}.
  Variable ops : unit_ops A P U.
  Variable zero : A.
  Lemma receive_ok q : forall (l : listener P U), receive_from q l = mkListener (ls_x l) [].
  Proof. induction q as [|p q IH]; intros l; cbn [receive_from]; [reflexivity|]. now rewrite IH. Qed.
  Lemma listener_rewound u q : listener_reset ops (mkListener u q) = mkListener (u_reset ops u) [].
  Proof. unfold listener_reset, receive_settings. rewrite receive_ok. reflexivity. Qed.
  Lemma listen_ignores es : forall l, let r := serve_all zero (u_tick ops) (u_process ops) (ls_x l) (asked es) in snd (listen_run zero ops l es) = snd r /\ ls_x (fst (listen_run zero ops l es)) = fst r.
  Proof.
    induction es as [|[p|r] es IH]; intros l; cbn [listen_run asked flat_map app]; [cbn; auto| |].
    - specialize (IH (fst (try_send l p))). unfold try_send in *. destruct (Nat.ltb (length (ls_queue l)) 64); exact IH.
    - fold (asked es). cbn [serve_all]. destruct r as [i|size inb out]; cbn [serve].
      + unfold listener_tick, receive_settings. rewrite receive_ok. cbn [ls_x ls_queue]. destruct (u_tick ops (ls_x l) i) as [u o]. specialize (IH (mkListener u [])). cbn [ls_x] in IH. destruct (listen_run zero ops (mkListener u []) es) as [l2 os]. destruct (serve_all zero (u_tick ops) (u_process ops) u (asked es)). cbn [fst snd] in *. destruct IH as [-> ->]. auto.
      + unfold listener_process, receive_settings. rewrite receive_ok. cbn [ls_x ls_queue]. destruct (u_process ops (ls_x l) size inb out) as [u o]. specialize (IH (mkListener u [])). cbn [ls_x] in IH. destruct (listen_run zero ops (mkListener u []) es) as [l2 os]. destruct (serve_all zero (u_tick ops) (u_process ops) u (asked es)). cbn [fst snd] in *. destruct IH as [-> ->]. auto.
  Qed.
  Lemma listen_drains l r : ls_queue (fst (serve zero (listener_tick ops) (listener_process ops) l r)) = [].
  Proof.
    destruct r as [i|size inb out]; cbn [serve].
    - unfold listener_tick, receive_settings. rewrite receive_ok. cbn. now destruct (u_tick ops (ls_x l) i).
    - unfold listener_process, receive_settings. rewrite receive_ok. cbn. now destruct (u_process ops (ls_x l) size inb out).
  Qed.
  Lemma send_ok ps : forall l : listener P U, length (ls_queue l) + length ps <= 64 -> let (l', bs) := sends l ps in bs = repeat true (length ps) /\ ls_queue l' = ls_queue l ++ ps.
  Proof.
    induction ps as [|p ps IH]; intros l H; cbn [sends length repeat] in *; [now rewrite app_nil_r|]. unfold try_send. destruct (Nat.ltb_spec (length (ls_queue l)) 64); [|lia].
    specialize (IH (mkListener (ls_x l) (ls_queue l ++ [p]))). cbn [ls_queue] in IH. rewrite app_length in IH. cbn [length] in IH. specialize (IH ltac:(lia)). destruct (sends _ ps) as [l2 bs]. destruct IH as [-> ->]. now rewrite <- app_assoc.
  Qed.
End Listen.
