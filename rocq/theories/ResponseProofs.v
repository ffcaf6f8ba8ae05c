(* The reported response of every expression over stable linear units is what its output settles to. *)
From Coq Require Import Reals Lra Lia.
From Verif Require Import FreqSpec FirSpec UnitProofs.
From Verif Require Export FirProofs FilterProofs SignalProofs LatencyProofs.
From Coquelicot Require Import Complex.
Local Open Scope R_scope.

(* ---- the meaning is respected ---- *)
Lemma settles_shift w h f c : settles w h f -> settles w h (fun t => f t + c).
Proof.
  intros H. eapply settles_to; [|exact (settles_plus w h (RtoC 0) f (fun _ => c) H (settles_const w c))].
  apply injective_projections; cbn; ring.
Qed.
Lemma settles_neg w h f : settles w h f -> settles w (Copp h) (fun t => - f t).
Proof.
  intros H. eapply settles_to; [|eapply settles_ext; [|exact (settles_scale w (-1) h f H)]].
  - apply injective_projections; cbn; ring.
  - intros; cbn; ring.
Qed.
Lemma settles_scaled w h f c : settles w h f -> settles w (cscale nmR h c) (fun t => f t * c).
Proof. intros H. rewrite cscale_eq. eapply settles_ext; [|exact (settles_scale w c h f H)]. intros; cbn; ring. Qed.
Lemma settles_sub w h g f1 f2 : settles w h f1 -> settles w g f2 -> settles w (Cminus h g) (fun t => f1 t - f2 t).
Proof. intros H1 H2. exact (settles_plus w h (Copp g) f1 (fun t => - f2 t) H1 (settles_neg w g f2 H2)). Qed.
Lemma responds_arb w S g : responds w (arb_label S) g.
Proof.
  destruct S as [|a r]; [exact I|]. unfold arb_label.
  assert (H : forall b, match b with Value _ | Response _ _ => False | _ => True end ->
     match fold_left (fun c s => combine_nonlinear nmR c s (n0 nmR)) r b with Value _ | Response _ _ => False | _ => True end).
  { clear. induction r as [|s r IH]; intros b Hb; cbn [fold_left]; auto. apply IH. unfold combine_nonlinear.
    destruct (distort nmR b (n0 nmR)), (distort nmR s (n0 nmR)); exact I. }
  specialize (H (distort nmR a (n0 nmR)) ltac:(destruct a; exact I)).
  destruct (fold_left _ r (distort nmR a (n0 nmR))); cbn; auto; contradiction.
Qed.
Lemma responds_respected w : respected (responds w).
Proof.
  constructor.
  - intros s f g E H. destruct s; cbn in *; auto; [intros; now rewrite <- E|]. eapply settles_ext; [|exact H]. auto.
  - intros v t. reflexivity.
  - intros k s t f g Hs Ht. destruct k, s, t; cbn [bin_route combine_linear responds bin_op nadd nsub nmul nmR] in *; auto; try (intros; now rewrite Hs, Ht).
    + eapply settles_to; [|eapply settles_ext; [|exact (settles_shift w r (g tt) v Ht)]]; [apply injective_projections; cbn; ring|]. intros; cbn; rewrite Hs; ring.
    + eapply settles_to; [|eapply settles_ext; [|exact (settles_shift w r (f tt) v Hs)]]; [apply injective_projections; cbn; ring|]. intros; cbn; rewrite Ht; ring.
    + exact (settles_plus w r r0 (f tt) (g tt) Hs Ht).
    + eapply settles_to; [|eapply settles_ext; [|exact (settles_shift w _ _ v (settles_neg w r (g tt) Ht))]]; [apply injective_projections; cbn; ring|]. intros; cbn; rewrite Hs; ring.
    + eapply settles_to; [|eapply settles_ext; [|exact (settles_shift w r (f tt) (- v) Hs)]]; [apply injective_projections; cbn; ring|]. intros; cbn; rewrite Ht; ring.
    + exact (settles_sub w r r0 (f tt) (g tt) Hs Ht).
    + eapply settles_to; [|eapply settles_ext; [|exact (settles_scale w v r (g tt) Ht)]]; [apply injective_projections; cbn; ring|]. intros; cbn; rewrite Hs; ring.
    + eapply settles_to; [|eapply settles_ext; [|exact (settles_scale w v r (f tt) Hs)]]; [apply injective_projections; cbn; ring|]. intros; cbn; rewrite Ht; ring.
  - intros k s f Hs. destruct k as [| |c|c|c], s; cbn [un_route responds un_op nadd nsub nmul nneg nmR] in *; auto; try (intros; now rewrite Hs).
    + exact (settles_neg w r (f tt) Hs).
    + exact (settles_shift w r (f tt) c Hs).
    + exact (settles_shift w _ _ c (settles_neg w r (f tt) Hs)).
    + exact (settles_scaled w r (f tt) c Hs).
  - intros c s f Hs. destruct s; cbn [sig_scale responds nmul nmR] in *; auto; [intros; now rewrite Hs|]. exact (settles_scaled w r (f tt) c Hs).
  - intros S X g _ _. apply responds_arb.
Qed.

(* ---- one filter ---- *)
Lemma filt_settles sr freq h x f : stable sr f -> settles (radians sr freq) h x ->
  settles (radians sr freq) (Cmult h (filt_response nmR elR f sr freq)) (fout f x).
Proof.
  intros Hs Hx. destruct f; cbn [stable] in Hs.
  - now apply tick_settles.
  - now apply delay_settles.
  - now apply low_settles.
  - now apply dc_settles.
  - now apply all_settles.
  - now apply high_settles.
  - now apply pink_settles.
  - now apply follow_settles.
  - now apply biquad_settles.
  - destruct Hs as (Hr & Hm & Hp). set (p := vf_par s) in *. set (w := radians sr freq).
    pose proof (sv_shape_pos (vf_mode s) p Hp) as Hpos. pose proof (sv_coefs_shape (vf_mode s) p) as Hc. pose proof (sv_mode_response (vf_mode s) p (cis w) Hp (cis_mod w)) as HR.
    unfold svf_matches in Hm. fold p in Hm. destruct (sv_shape (vf_mode s) p) as [[[[g k] m0] m1] m2]. destruct Hpos as [Hg Hk]. rewrite Hc in Hm.
    pose proof (sv_stable g k Hg Hk m0 m1 m2) as Hst. pose proof (sv_transfer g k Hg Hk m0 m1 m2 (cis w) (cis_mod w)) as HT. cbv zeta in HT.
    eapply settles_to; [|apply (svf_settles sr freq h x Hx s)].
    + fold w. f_equal. rewrite cis_inv, Hm, HT, <- HR. cbn [filt_response]. fold p. f_equal. rewrite polar_eq, Hr. f_equal.
      unfold w, radians, tau. cbn. unfold Rdiv. ring.
    + rewrite Hm. exact Hst.
  - now apply fir_settles.
Qed.

(* ---- leaf units ---- *)
Lemma bank_ports fs i : length (fst (bank_step nmR fs i)) = length fs /\ length (snd (bank_step nmR fs i)) = length fs.
Proof.
  revert i; induction fs as [|f r IH]; intros i; [auto|]. cbn [bank_step]. destruct (filt_step nmR f (hd (n0 nmR) i)) as [f' y].
  specialize (IH (tl i)). destruct (bank_step nmR r (tl i)) as [r' ys]. cbn in *. lia.
Qed.
Lemma lu_laws : unit_laws 0 (lu_ops nmR).
Proof.
  assert (Hi : forall u i, lu_ins (fst (lu_tick nmR u i)) = lu_ins u /\ lu_outs (fst (lu_tick nmR u i)) = lu_outs u /\ length (snd (lu_tick nmR u i)) = lu_outs u).
  { intros u i. destruct u as [fs|n m|l r]; cbn [lu_tick lu_ins lu_outs fst snd]; auto.
    - pose proof (bank_ports fs i). destruct (bank_step nmR fs i) as [fs' o]. cbn in *. lia.
    - unfold mixer_tick; cbn [snd]. rewrite map_length. auto. }
  split; try (intros; apply Hi). intros u.
  exact (default_process_contract 0 (lu_tick nmR) (lu_outs u) (lu_ins u) (fun v => lu_outs v = lu_outs u) u
    (fun v i Hv _ => conj (eq_trans (proj1 (proj2 (Hi v i))) Hv) (eq_trans (proj2 (proj2 (Hi v i))) Hv)) eq_refl).
Qed.
Lemma bank_nth fs i j d : (j < length fs)%nat -> length i = length fs ->
  nth j (fst (bank_step nmR fs i)) d = fst (filt_step nmR (nth j fs d) (nth j i 0)) /\ nth j (snd (bank_step nmR fs i)) 0 = snd (filt_step nmR (nth j fs d) (nth j i 0)).
Proof.
  revert i j; induction fs as [|f r IH]; intros i j Hj Hl; [cbn in Hj; lia|]. destruct i as [|a i]; [discriminate|]. cbn [bank_step hd tl].
  destruct (filt_step nmR f a) as [f' y] eqn:E. destruct (bank_step nmR r i) as [r' ys] eqn:Er. cbn [fst snd]. destruct j as [|j]; cbn [nth]; [rewrite E; auto|].
  specialize (IH i j ltac:(cbn in Hj; lia) ltac:(cbn in Hl; lia)). rewrite Er in IH. exact IH.
Qed.
Lemma bank_output fs (X : nat -> list R) : width (length fs) X -> forall t,
  (exists fs', state R_arith (lu_ops nmR) (Leaf (Bank fs)) X t = Leaf (Bank fs') /\ length fs' = length fs /\
    forall j, (j < length fs)%nat -> nth j fs' (FTick 0) = frun (nth j fs (FTick 0)) (fun t => nth j (X t) 0) t) /\
  forall j, (j < length fs)%nat -> nth j (output R_arith (lu_ops nmR) (Leaf (Bank fs)) X t) 0 = fout (nth j fs (FTick 0)) (fun t => nth j (X t) 0) t.
Proof.
  intros HX t.
  assert (H : exists fs', state R_arith (lu_ops nmR) (Leaf (Bank fs)) X t = Leaf (Bank fs') /\ length fs' = length fs /\
    forall j, (j < length fs)%nat -> nth j fs' (FTick 0) = frun (nth j fs (FTick 0)) (fun t => nth j (X t) 0) t).
  { induction t as [|t (fs' & E & L & Hn)]; [exists fs; auto|]. cbn [state]. rewrite E. cbn [tick]. change (u_tick (lu_ops nmR)) with (lu_tick nmR). cbn [lu_tick].
    destruct (bank_step nmR fs' (X t)) as [fs2 o] eqn:Eb. exists fs2. split; [reflexivity|]. pose proof (bank_ports fs' (X t)) as [B _]. rewrite Eb in B. cbn in B. split; [lia|].
    intros j Hj. destruct (bank_nth fs' (X t) j (FTick 0)) as [B1 _]; [lia|rewrite HX; auto|]. rewrite Eb in B1. cbn [fst] in B1. rewrite B1, Hn by auto. reflexivity. }
  split; auto. destruct H as (fs' & E & L & Hn). intros j Hj. unfold output. rewrite E. cbn [tick]. change (u_tick (lu_ops nmR)) with (lu_tick nmR). cbn [lu_tick].
  destruct (bank_nth fs' (X t) j (FTick 0)) as [_ B2]; [lia|rewrite HX; auto|]. destruct (bank_step nmR fs' (X t)) as [fs2 o]. cbn [snd] in *. rewrite B2, Hn by auto. reflexivity.
Qed.
Lemma still_output u (f : list R -> list R) X : (forall i, lu_tick nmR u i = (u, f i)) -> forall t, output R_arith (lu_ops nmR) (Leaf u) X t = f (X t).
Proof.
  intros H t. assert (E : state R_arith (lu_ops nmR) (Leaf u) X t = Leaf u).
  { induction t as [|t IH]; [reflexivity|]. cbn [state]. rewrite IH. cbn [tick]. change (u_tick (lu_ops nmR)) with (lu_tick nmR). now rewrite H. }
  unfold output. rewrite E. cbn [tick]. change (u_tick (lu_ops nmR)) with (lu_tick nmR). now rewrite H.
Qed.
Lemma nth_combine {X Y} (l : list X) (m : list Y) j dx dy : (j < length l)%nat -> (j < length m)%nat -> nth j (combine l m) (dx, dy) = (nth j l dx, nth j m dy).
Proof. revert m j; induction l as [|a l IH]; intros [|b m] [|j] H1 H2; cbn in *; auto; try lia. apply IH; lia. Qed.
Lemma lu_sound sr freq u : lu_stable sr u -> leaf_sound (lu_ops nmR) (lu_route nmR elR sr) lu_copes (responds (radians sr freq)) freq u.
Proof.
  intros Hs S S' X (H1 & H2 & H3) _ E. set (w := radians sr freq) in *.
  assert (HW : forall v, width (u_outs (lu_ops nmR) u) (output R_arith (lu_ops nmR) (Leaf u) (X v))) by (intros v; apply (output_width R_arith (lu_ops nmR) lu_laws (Leaf u)); [exact I|apply H2]).
  destruct u as [fs|n m|l r]; cbn [lu_stable] in Hs; cbn [u_ins u_outs lu_ops lu_ins lu_outs] in *.
  - cbn [lu_route] in E. destruct (Nat.leb_spec (length fs) (length S)); [|lia].
    assert (S' = map (fun p => sig_filter nmR (snd p) (n0 nmR) (fun r => cmul nmR r (filt_response nmR elR (fst p) sr freq))) (combine fs S)) as -> by congruence.
    assert (L : length (map (fun p => sig_filter nmR (snd p) (n0 nmR) (fun r => cmul nmR r (filt_response nmR elR (fst p) sr freq))) (combine fs S)) = length fs) by (rewrite map_length, combine_length; lia).
    split; auto. split; [lia|split; auto]. intros i Hi.
    rewrite (nth_indep _ Unknown (sig_filter nmR Unknown (n0 nmR) (fun r => cmul nmR r (filt_response nmR elR (FTick 0) sr freq)))) by lia.
    rewrite (map_nth (fun p => sig_filter nmR (snd p) (n0 nmR) (fun r => cmul nmR r (filt_response nmR elR (fst p) sr freq))) (combine fs S) (FTick 0, Unknown)).
    rewrite nth_combine by lia. cbn [fst snd]. specialize (H3 i Hi). destruct (nth i S Unknown) as [| | |rr ll]; cbn [sig_filter responds] in *; auto.
    apply (settles_ext w _ (fout (nth i fs (FTick 0)) (fun t => nth i (X tt t) 0))).
    + intros t. symmetry. apply bank_output; auto.
    + apply filt_settles; auto. rewrite Forall_forall in Hs. apply Hs. apply nth_In. auto.
  - cbn [lu_route] in E. destruct (Nat.ltb_spec 0 n) as [Hn|Hn]; [|discriminate]. destruct (Nat.leb_spec n (length S)); [|lia]. cbn [andb] in E.
    set (label := fun row => fold_left (fun acc j => combine_sum nmR acc (sig_scale nmR (nth j S Unknown) (nth j row (n0 nmR)))) (seq 1 (n - 1)) (sig_scale nmR (nth 0 S Unknown) (nth 0 row (n0 nmR)))) in *.
    assert (S' = map label m) as -> by congruence. split; [apply map_length|]. split; [rewrite map_length; auto|split; auto]. intros i Hi.
    rewrite (nth_indep _ Unknown (label [])) by (rewrite map_length; auto). rewrite map_nth. set (row := nth i m []).
    assert (Hr : length row = n). { rewrite Forall_forall in Hs. apply Hs. apply nth_In. auto. }
    pose proof (responds_respected w) as HM.
    apply (mc_ext _ HM _ (fun v t => sigma n (fun j => nth j (X v t) 0 * nth j row 0))).
    { intros v t. rewrite (still_output (Mix n m) (fun i => map (fun row => dot nmR i row) m)) by reflexivity.
      rewrite (nth_indep _ 0 (dot nmR (X v t) [])) by (rewrite map_length; auto). rewrite (map_nth (fun row => dot nmR (X v t) row)). fold row.
      rewrite dot_sigma, Hr, H2, Nat.min_id. reflexivity. }
    assert (F : forall k, (k < n)%nat -> responds w (fold_left (fun acc j => combine_sum nmR acc (sig_scale nmR (nth j S Unknown) (nth j row (n0 nmR)))) (seq 1 k) (sig_scale nmR (nth 0 S Unknown) (nth 0 row (n0 nmR))))
      (fun v t => sigma (k + 1) (fun j => nth j (X v t) 0 * nth j row 0))).
    { induction k as [|k IH]; intros Hk.
      - cbn [seq fold_left]. apply (mc_ext _ HM _ (fun v t => nth 0 (X v t) 0 * nth 0 row 0)); [intros; cbn; ring|]. apply (mc_scale _ HM (nth 0 row 0)). apply H3. auto.
      - rewrite seq_S, fold_left_app. cbn [fold_left Nat.add]. rewrite combine_sum_bin.
        assert (HB := mc_bin _ HM KAdd _ _ _ _ (IH ltac:(lia)) (mc_scale _ HM (nth (Datatypes.S k) row 0) _ _ (H3 (Datatypes.S k) Hk))).
        eapply (mc_ext _ HM); [|exact HB]. intros v t. cbn [bin_op nadd nmR sigma]. replace (k + 1)%nat with (Datatypes.S k) by lia. reflexivity. }
    specialize (F (n - 1)%nat ltac:(lia)). replace (n - 1 + 1)%nat with n in F by lia. exact F.
  - cbn [lu_route] in E. destruct S as [|a S]; [discriminate|]. assert (S' = [sig_scale nmR a l; sig_scale nmR a r]) as -> by congruence.
    split; auto. split; [cbn; lia|split; auto]. specialize (H3 0%nat ltac:(lia)). cbn [nth] in H3. pose proof (responds_respected w) as HM. intros i Hi.
    assert (HO : forall v t, output R_arith (lu_ops nmR) (Leaf (Pan l r)) (X v) t = [l * nth 0 (X v t) 0; r * nth 0 (X v t) 0]) by (intros; apply (still_output (Pan l r) (fun i => [l * nth 0 i 0; r * nth 0 i 0])); reflexivity).
    destruct i as [|[|i]]; [| |lia]; cbn [nth]; (eapply (mc_ext _ HM); [|apply (mc_scale _ HM); exact H3]); intros v t; cbv beta; rewrite HO; cbn [nth]; ring.
Qed.

(* ---- expressions ---- *)
Lemma response_sound sr freq (x : expr R (lunit R)) : wf (lu_ops nmR) (node_of nmR x) -> safe lu_copes true x = true -> over (lu_stable sr) nmR x ->
  forall i r, response nmR (lu_ops nmR) (lu_route nmR elR sr) x freq i = Some (Some r) ->
  settles (radians sr freq) r (fun t => nth i (output R_arith (lu_ops nmR) (node_of nmR x) (fun t => repeat (cos (radians sr freq * INR t)) (xins nmR (lu_ops nmR) x)) t) 0).
Proof.
  intros Hw Hs Ho i r E. unfold response in E. destruct (Nat.ltb_spec i (xouts nmR (lu_ops nmR) x)) as [Hi|]; [|discriminate].
  destruct (route nmR (lu_ops nmR) (lu_route nmR elR sr) freq x (repeat (Response (c1 nmR) (n0 nmR)) (xins nmR (lu_ops nmR) x))) as [o|] eqn:Eo; [|discriminate].
  destruct (nth_error o i) as [s|] eqn:Es; [|discriminate]. set (w := radians sr freq) in *. set (n := xins nmR (lu_ops nmR) x) in *.
  set (X := fun (_ : unit) (t : nat) => repeat (cos (w * INR t)) n).
  assert (HL : labelled (responds w) n (repeat (Response (c1 nmR) (n0 nmR)) n) X).
  { split; [rewrite repeat_length; auto|split]. { intros v t. apply repeat_length. } intros j Hj.
    rewrite (nth_indep _ Unknown (Response (c1 nmR) (n0 nmR))) by (rewrite repeat_length; auto). rewrite nth_repeat. cbn [responds].
    apply (settles_ext w _ (fun t => cos (w * INR t))); [|exact (settles_cos w)]. intros t. unfold X.
    rewrite (nth_indep _ 0 (cos (w * INR t))) by (rewrite repeat_length; auto). now rewrite nth_repeat. }
  destruct (all_good (responds w) (responds_respected w) (lu_ops nmR) lu_laws (lu_route nmR elR sr) lu_copes freq (lu_stable sr) (fun u => lu_sound sr freq u)
    x true Hw Hs Ho _ o X (fun _ => repeat_length _ _) HL Eo) as [(_ & _ & L3) _].
  specialize (L3 i Hi). rewrite (nth_error_nth _ _ Unknown Es) in L3. destruct s; try discriminate. assert (r0 = r) as -> by congruence. exact L3.
Qed.
