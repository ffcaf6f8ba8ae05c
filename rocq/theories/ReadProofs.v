(* Loading of audio files. *)
From Coq Require Import Lia.
From Verif Require Export ReadSpec.
From Verif Require Import WaveProofs.

Section Proofs.
  Context {A F E C P : Type} (zero : A) (no_track : E).
  Notation wave := (wave A F). Notation chunk := (chunk A F).
  Lemma silence n (w : wave) : 0 < channels w -> push_silence zero n w = Some (mkWave (map (fun ch => ch ++ repeat zero n) (w_vec w)) (w_rate w) (w_len w + n)).
  Proof.
    revert w. induction n as [|n IH]; intros w H; cbn [push_silence repeat].
    - rewrite Nat.add_0_r. f_equal. destruct w as [v r l]. cbn. f_equal. rewrite <- (map_id v) at 1. apply map_ext. intros. now rewrite app_nil_r.
    - unfold push. assert (Nat.ltb 0 (channels w) = true) as -> by now apply Nat.ltb_lt. rewrite IH by (unfold channels in *; cbn [w_vec]; now rewrite map_length). cbn [w_vec w_rate w_len]. f_equal. f_equal; [|lia].
      rewrite map_map. apply map_ext. intros ch. now rewrite <- app_assoc.
  Qed.
  Lemma upd_mid {X} (l1 l2 : list X) x y : upd (l1 ++ x :: l2) (length l1) y = l1 ++ y :: l2.
  Proof. induction l1 as [|a l1 IH]; [reflexivity|]. cbn. now rewrite IH. Qed.
  Lemma nth_mid {X} (l1 l2 : list X) x : nth_error (l1 ++ x :: l2) (length l1) = Some x.
  Proof. now rewrite nth_error_app2, Nat.sub_diag by lia. Qed.
  Lemma write_one c frames r len v1 v2 ch : length v1 = c -> frames <= len -> length ch = len - frames -> forall xs done,
    length done + length xs = frames ->
    write_channel c (length done) frames xs (mkWave (v1 ++ (ch ++ done ++ repeat zero (length xs)) :: v2) r len) = Some (mkWave (F := F) (v1 ++ (ch ++ done ++ xs) :: v2) r len).
  Proof.
    intros HC HF HL. induction xs as [|x xs IH]; intros done H; cbn [write_channel length repeat]; [reflexivity|]. cbn [w_len]. destruct (Nat.ltb_spec len frames); [lia|]. unfold w_set. cbn [w_vec w_rate w_len]. rewrite <- HC, nth_mid.
    cbn [length] in H. destruct (Nat.ltb_spec (len - frames + length done) (length (ch ++ done ++ zero :: repeat zero (length xs)))) as [G|G]; [|rewrite !app_length in G; cbn [length] in G; lia].
    rewrite upd_mid. rewrite app_assoc. replace (len - frames + length done) with (length (ch ++ done)) by (rewrite app_length; lia). rewrite upd_mid. rewrite <- app_assoc.
    specialize (IH (done ++ [x])). rewrite app_length in IH. cbn [length] in IH. replace (S (length done)) with (length done + 1) by lia.
    rewrite HC. rewrite <- !app_assoc in IH. cbn [app] in IH. apply IH. lia.
  Qed.
  Lemma write_rest frames r len : frames <= len -> forall chs c v1 rest, length v1 = c -> length chs <= length rest -> 0 < c -> Forall (fun xs => length xs = frames) chs -> Forall (fun ch => length ch = len - frames) rest ->
    write_channels zero c frames chs (mkWave (F := F) (v1 ++ map (fun ch => ch ++ repeat zero frames) rest) r len) =
    Some (mkWave (v1 ++ zipw (fun ch xs => ch ++ xs) (firstn (length chs) rest) chs ++ map (fun ch => ch ++ repeat zero frames) (skipn (length chs) rest)) r len).
  Proof.
    intros HF. induction chs as [|xs chs IH]; intros c v1 rest HC HL C0 HX HR; [reflexivity|]. destruct rest as [|ch rest]; [cbn in HL; lia|]. apply Forall_cons_iff in HX as [X1 X2]. apply Forall_cons_iff in HR as [R1 R2].
    cbn [write_channels]. destruct (Nat.eqb_spec c 0); [lia|]. cbn [map]. pose proof (write_one c frames r len v1 (map (fun ch => ch ++ repeat zero frames) rest) ch HC HF R1 xs [] X1) as W. cbn [length app] in W. rewrite X1 in W. rewrite W.
    cbn [length firstn skipn zipw app]. specialize (IH (S c) (v1 ++ [ch ++ xs]) rest). rewrite <- !app_assoc in IH. cbn [app] in IH. rewrite IH; [reflexivity|..]; auto; [rewrite app_length; cbn; lia|cbn in HL; lia].
  Qed.
  (* a chunk with as many channels as the wave or less: the other channels get silence *)
  Lemma write_all frames chs (w : wave) : 0 < length chs <= channels w -> Forall (fun xs => length xs = frames) chs -> Forall (fun ch => length ch = w_len w) (w_vec w) ->
    write_channels zero 0 frames chs w = Some (mkWave (zipw (fun ch xs => ch ++ xs) (firstn (length chs) (w_vec w)) chs ++ map (fun ch => ch ++ repeat zero frames) (skipn (length chs) (w_vec w))) (w_rate w) (w_len w + frames)).
  Proof.
    intros HL HX HR. destruct chs as [|xs chs]; [cbn in HL; lia|]. cbn [write_channels Nat.eqb]. rewrite silence by lia. destruct w as [v r len]. unfold channels in HL. cbn [w_vec w_rate w_len] in *. destruct v as [|ch rest]; [cbn in HL; lia|].
    apply Forall_cons_iff in HX as [X1 X2]. apply Forall_cons_iff in HR as [R1 R2]. cbn [map].
    pose proof (write_one 0 frames r (len + frames) [] (map (fun ch => ch ++ repeat zero frames) rest) ch eq_refl ltac:(lia) ltac:(lia) xs [] X1) as W. cbn [length app] in W. rewrite X1 in W. rewrite W.
    pose proof (write_rest frames r (len + frames) ltac:(lia) chs 1 [ch ++ xs] rest eq_refl ltac:(cbn in HL; lia) ltac:(lia) X2) as Q. cbn [app] in Q. rewrite Q; [reflexivity|]. eapply Forall_impl; [|exact R2]. cbn. intros; lia.
  Qed.
  (* the wave so far: n channels of the chunks *)
  Definition so_far (n : nat) (r : F) (ks : list chunk) : wave := mkWave (map (joined ks) (seq 0 n)) r (if Nat.eqb n 0 then 0 else total_frames ks).
  Lemma joined_app (a b : list chunk) c : joined (a ++ b) c = joined a c ++ joined b c. Proof. apply flat_map_app. Qed.
  Lemma total_app (a b : list chunk) : total_frames (a ++ b) = total_frames a + total_frames b. Proof. unfold total_frames. induction a as [|k a IH]; [reflexivity|]. cbn [app fold_right]. rewrite IH. lia. Qed.
  Lemma joined_length (ks : list chunk) c n : c < n -> Forall chunk_ok ks -> Forall (fun k => length (c_data k) = n) ks -> length (joined ks c) = total_frames ks.
  Proof.
    intros HC. induction ks as [|k ks IH]; intros H1 H2; [reflexivity|]. apply Forall_cons_iff in H1 as [A1 A2]. apply Forall_cons_iff in H2 as [B1 B2]. unfold joined in *. cbn [flat_map total_frames fold_right]. rewrite app_length, IH by auto. unfold total_frames. f_equal.
    unfold chunk_ok in A1. rewrite Forall_forall in A1. apply A1, nth_In. lia.
  Qed.
  Lemma zipw_map_seq (f g : nat -> list A) n : zipw (fun ch xs => ch ++ xs) (map f (seq 0 n)) (map g (seq 0 n)) = map (fun c => f c ++ g c) (seq 0 n).
  Proof. generalize 0. induction n as [|n IH]; intros s; [reflexivity|]. cbn. now rewrite IH. Qed.
  Lemma data_seq (k : chunk) n : length (c_data k) = n -> c_data k = map (fun c => nth c (c_data k) []) (seq 0 n).
  Proof.
    intros <-. generalize (c_data k). intros l. induction l as [|x l IH]; [reflexivity|]. cbn [length seq map]. f_equal. rewrite <- seq_shift, map_map. cbn [nth]. exact IH.
  Qed.
  Lemma add_next n r ks k : chunk_ok k -> length (c_data k) = n -> Forall chunk_ok ks -> Forall (fun k => length (c_data k) = n) ks ->
    write_channels zero 0 (c_frames k) (c_data k) (so_far n r ks) = Some (so_far n r (ks ++ [k])).
  Proof.
    intros HK HN H1 H2. destruct (Nat.eq_dec n 0) as [Z|Z].
    - subst n. rewrite Z. apply length_zero_iff_nil in Z. rewrite Z. reflexivity.
    - rewrite write_all.
      + f_equal. unfold so_far. cbn [w_vec w_rate w_len]. destruct (Nat.eqb_spec n 0); [lia|]. f_equal; [|rewrite total_app; cbn; lia].
        assert (L : length (map (joined ks) (seq 0 n)) = n) by now rewrite map_length, seq_length. rewrite HN. rewrite firstn_all2, skipn_all2 by lia. cbn [map]. rewrite app_nil_r. rewrite (data_seq k n HN) at 1. rewrite zipw_map_seq.
        apply map_ext. intros c. rewrite joined_app. unfold joined at 3. cbn. now rewrite app_nil_r.
      + unfold channels, so_far. cbn [w_vec]. rewrite map_length, seq_length. lia.
      + exact HK.
      + unfold so_far. cbn [w_vec w_len]. destruct (Nat.eqb_spec n 0); [lia|]. apply Forall_forall. intros ch Hc. apply in_map_iff in Hc as (c & <- & Hc). apply in_seq in Hc. apply (joined_length ks c n); auto; lia.
  Qed.
  Variable decode : C -> list P -> P -> E + chunk.
  Lemma loop_ok codec id end_ n r : forall packets past ks, let (ds, e) := decoded decode codec past (contents id packets) in
    Forall chunk_ok (ks ++ ds) -> Forall (fun k => length (c_data k) = n) (ks ++ ds) -> ks <> [] ->
    read_loop zero decode codec id past (Some (so_far n r ks)) packets end_ = match e with Some e => Failed e | None => Loaded (so_far n r (ks ++ ds)) end.
  Proof.
    induction packets as [|[pid p] packets IH]; intros past ks; [cbn; intros; now rewrite app_nil_r|]. unfold contents. cbn [filter fst]. cbn [read_loop]. destruct (N.eqb pid id) eqn:Q; cbn [negb map snd decoded]; [|exact (IH past ks)].
    destruct (decode codec past p) as [e|k]; [intros _ _ _; reflexivity|]. specialize (IH (past ++ [p]) (ks ++ [k])). unfold contents in IH. destruct (decoded decode codec (past ++ [p]) _) as [ds e]. rewrite <- app_assoc in IH. cbn [app] in IH. intros H1 H2 N.
    unfold add_chunk. pose proof H1 as H1'. pose proof H2 as H2'. apply Forall_app in H1' as [A1 A2]. apply Forall_app in H2' as [B1 B2]. apply Forall_cons_iff in A2 as [A2 _]. apply Forall_cons_iff in B2 as [B2 _]. rewrite add_next by auto.
    apply IH; auto. now destruct ks.
  Qed.
  Lemma loop_start codec id end_ packets : let (ds, e) := decoded decode codec [] (contents id packets) in
    Forall chunk_ok ds -> (forall k k', In k ds -> In k' ds -> length (c_data k) = length (c_data k')) ->
    read_loop zero decode codec id [] None packets end_ = match e, ds with Some e, _ => Failed e | None, [] => Failed end_ | None, k :: _ => Loaded (so_far (length (c_data k)) (c_rate k) ds) end.
  Proof.
    assert (G : forall past, let (ds, e) := decoded decode codec past (contents id packets) in
      Forall chunk_ok ds -> (forall k k', In k ds -> In k' ds -> length (c_data k) = length (c_data k')) ->
      read_loop zero decode codec id past None packets end_ = match e, ds with Some e, _ => Failed e | None, [] => Failed end_ | None, k :: _ => Loaded (so_far (length (c_data k)) (c_rate k) ds) end); [|exact (G [])].
    induction packets as [|[pid p] ps IH]; intros past; [cbn; intros; reflexivity|]. unfold contents. cbn [filter fst]. cbn [read_loop]. destruct (N.eqb pid id) eqn:Q; cbn [negb map snd decoded]; [|exact (IH past)].
    destruct (decode codec past p) as [e|k]; [intros _ _; reflexivity|]. pose proof (loop_ok codec id end_ (length (c_data k)) (c_rate k) ps (past ++ [p]) [k]) as L. unfold contents in L. destruct (decoded decode codec (past ++ [p]) _) as [ds e]. intros H1 H2.
    unfold add_chunk. pose proof H1 as H1'. apply Forall_cons_iff in H1' as [A1 A2].
    assert (W : w_new (A := A) (length (c_data k)) (c_rate k) = so_far (length (c_data k)) (c_rate k) []).
    { assert (Z : forall m s, map (joined (A := A) (F := F) []) (seq s m) = repeat [] m) by (induction m as [|m IHm]; intros s; [reflexivity|cbn [repeat seq map]; now rewrite IHm]). unfold w_new, so_far. rewrite Z. destruct (Nat.eqb (length (c_data k)) 0); reflexivity. }
    rewrite W, add_next by auto. cbn [app] in *. rewrite L; [reflexivity|exact H1| |discriminate]. apply Forall_forall. intros k' Hk'. apply H2; [exact Hk'|now left].
  Qed.
End Proofs.
