(* Proofs about reverb_stereo and reverb4_stereo. *)
From Coq Require Import Reals Lra.
From Verif Require Export RevGraph.
From Verif Require Import Base BufProofs HadamardProofs DelaySpec DelayProofs DelayReals.
From Verif Require Import RevSpec.
Local Open Scope R_scope.

Lemma pan_unit x : let p := panner_new Rnum_ops cos sin (PI / 4) 1 x in p_left p * p_left p + p_right p * p_right p <= 1.
Proof. unfold panner_new, pan_weights. cbn [p_left p_right]. set (y := nmul _ _ _). pose proof (sin2_cos2 y) as H. unfold Rsqr in H. cbn zeta. cbn [p_left p_right]. lra. Qed.
Lemma panned_pans n : exists ps, panned Rnum_ops cos sin (PI / 4) n = pans ps /\ length ps = n /\ Forall (fun p => p_left p * p_left p + p_right p * p_right p <= 1) ps.
Proof.
  unfold panned, pans. eexists (map (fun i => panner_new Rnum_ops cos sin (PI / 4) 1 _) (seq 0 n)). rewrite map_map. split; [reflexivity|]. split; [now rewrite map_length, seq_length|].
  apply Forall_map, Forall_forall. intros i _. apply pan_unit.
Qed.
Lemma pans_wf ps : ps <> [] -> wf rops (pans ps) /\ ins rops (pans ps) = length ps /\ outs rops (pans ps) = 2%nat.
Proof.
  intros N. unfold pans. rewrite ins_Reduce, map_length. split; [|split].
  - cbn [wf]. split.
    + apply all_Forall, Forall_map, Forall_forall. intros p _. exact I.
    + destruct ps as [|p ps]; [congruence|]. unfold uniform. cbn [map]. change (Leaf (LPan p) :: map (fun p => Leaf (LPan p)) ps) with (map (fun p : panner R => Leaf (U := rleaf R) (A := R) (LPan p)) (p :: ps)). apply Forall_map, Forall_forall. intros q _. split; reflexivity.
  - replace (hd_ins rops (map (fun p => Leaf (LPan p)) ps)) with 1%nat by (destruct ps; [congruence|reflexivity]). lia.
  - destruct ps; [congruence|]. reflexivity.
Qed.
Lemma out_stage r n c : (1 <= n)%nat -> let x := Binop Rmult (panned Rnum_ops cos sin (PI / 4) n) (Constant [c; c]) in
  wf rops x /\ ins rops x = n /\ outs rops x = 2%nat /\ energy_gain rops r (INR n * (c * c)) x.
Proof.
  intros Hn x. destruct (panned_pans n) as (ps & E & L & F). unfold x. rewrite E. assert (N : ps <> []) by (intros ->; cbn in L; lia). destruct (pans_wf ps N) as (W & I1 & O1).
  assert (Ix : ins rops (Binop Rmult (pans ps) (Constant [c; c])) = n) by (cbn [ins]; fold (ins rops (pans ps)); rewrite I1; cbn; lia).
  split; [split; [exact W|split; [exact I|exact O1]]|]. split; [exact Ix|]. split; [exact O1|]. apply gain_pure.
  - intros i. rewrite tick_Binop. cbn [fst]. rewrite pans_tick by exact N. reflexivity.
  - intros i Li. rewrite Ix in Li. rewrite tick_Binop. cbv zeta. cbn [snd tick]. rewrite I1, firstn_all2 by lia. destruct (pans_energy ps i N F ltac:(lia)) as (a & b & Eo & H). rewrite Eo. cbn [zipw energy]. rewrite L in H.
    pose proof (sq_nonneg c). replace (a * c * (a * c) + (b * c * (b * c) + 0)) with (c * c * (a * a + b * b)) by ring. replace (INR n * (c * c) * energy i) with (c * c * (INR n * energy i)) by ring. now apply Rmult_le_compat_l.
Qed.
Lemma gainR_eq room time : time <> 0 -> gainR room time = Rpower 10 (- (9 / 1000) * room / time).
Proof. intros Ht. unfold gainR, pass_gain, db_amp, dec. cbn [nofZ nmul ndiv Rnum_ops]. rewrite Rpower_mult. f_equal. field. exact Ht. Qed.
Lemma gainR_bounds room time : 0 < room -> 0 < time -> 0 < gainR room time < 1.
Proof.
  intros Hr Ht. rewrite gainR_eq by lra. split; [apply exp_pos|]. rewrite <- (Rpower_O 10) by lra. apply Rpower_lt; [lra|]. 
  assert (0 < 9 / 1000 * room / time); [|unfold Rdiv in *; lra]. unfold Rdiv. repeat apply Rmult_lt_0_compat; try lra. now apply Rinv_0_lt_compat.
Qed.
Lemma lines_Forall {T} r g (f : T -> option (node R (rleaf R))) l xs : sequence (map f l) = Some xs -> (forall t x, In t l -> f t = Some x -> gline rops r g x) -> Forall (gline rops r g) xs /\ length xs = length l.
Proof.
  intros E H. apply sequence_spec in E. induction E as [|t x l xs Ex _ IH]; [split; [constructor|reflexivity]|]. destruct IH as [I1 I2]; [intros; eapply H; eauto; now right|]. split; [|cbn; congruence].
  constructor; [|exact I1]. eapply H; eauto. now left.
Qed.
Lemma three_taps a damping : 0 <= a -> 0 <= damping <= 2 -> let alpha := (1 - damping + 1) / 2 in let beta := (1 - alpha) / 2 in Rabs (beta * a) + Rabs (alpha * a) + Rabs (beta * a) = a.
Proof. intros Ha Hd alpha beta. assert (0 <= alpha) by (unfold alpha; lra). assert (0 <= beta) by (unfold beta, alpha; lra). rewrite !Rabs_right by nra. unfold beta. lra. Qed.
Lemma gains_pos r a D : 1 <= r -> 0 < a -> a * r ^ (D + 3) < 1 -> let g := a * r ^ (D + 2) in 0 < g /\ 0 < r /\ g * r < 1 /\ g * r = a * r ^ (D + 3).
Proof. intros Hr Ha H g. assert (E : g * r = a * r ^ (D + 3)) by (unfold g; replace (D + 3)%nat with (S (D + 2)) by lia; cbn [pow]; ring). repeat split; try lra. apply Rmult_lt_0_compat; [lra|apply pow_lt; lra]. Qed.

Lemma stereo_ok sr room time damping r D : 0 < room -> 0 < time -> 0 <= damping <= 2 -> 1 <= r -> let a := gainR room time in a * r ^ (D + 3) < 1 ->
  Forall (fun d => (delay_length Rnum_ops (dec Rnum_ops d 1000000 * room / 10)%R sr <= D)%nat) stereo_delays ->
  exists x, stereoR sr room time damping = Some x /\ let k := a * r ^ (D + 2) / (1 - a * r ^ (D + 3)) in stereo_gain r (2 * (k * k)) x.
Proof.
  intros Hroom Ht Hd Hr a Ha HD. destruct (gainR_bounds room time Hroom Ht) as [A0 A1]. fold a in A0, A1. destruct (gains_pos r a D Hr A0 Ha) as (G0 & R0 & Gr & Eg). cbv zeta in *.
  set (alpha := (1 - damping + 1) / 2). set (beta := (1 - alpha) / 2).
  set (f := fun d => delay_fir Rnum_ops sr (dec Rnum_ops d 1000000 * room / 10) [beta * a; alpha * a; beta * a]).
  destruct (sequence_some f stereo_delays) as [xs Ex].
  { apply Forall_forall. intros d Hin. unfold f, delay_fir. destruct (delay_at_some sr (dec Rnum_ops d 1000000 * room / 10)) as [dl ->]; [|eauto].
    assert (0 <= dec Rnum_ops d 1000000). { unfold dec. cbn [ndiv nofZ Rnum_ops]. apply Rmult_le_pos; [|lra]. apply IZR_le. clear -Hin. cbn in Hin. repeat (destruct Hin as [<-|Hin]; [discriminate|]). contradiction. }
    unfold Rdiv. apply Rmult_le_pos; [apply Rmult_le_pos; lra|lra]. }
  unfold stereoR, reverb_stereo. cbv zeta. match goal with |- context [sequence ?q] => change q with (map f stereo_delays) end. rewrite Ex. eexists. split; [reflexivity|].
  destruct (lines_Forall r (a * r ^ (D + 2) * (a * r ^ (D + 2))) f stereo_delays xs Ex) as [Fl Ll].
  { intros d x Hin Hx. unfold f in Hx. rewrite Forall_forall in HD. pose proof (delay_fir_line r sr _ _ _ _ D x Hr Hx (HD d Hin)) as Q. cbv zeta in Q. pose proof (three_taps a damping ltac:(lra) Hd) as T3. cbv zeta in T3. fold alpha in T3. fold beta in T3. rewrite T3 in Q. exact Q. }
  destruct (gain_fdn rops rl_laws r (a * r ^ (D + 2)) 5 xs G0 R0 Gr Ll Fl) as (Gn & Wn & In & On). rewrite Eg in Gn. set (k := a * r ^ (D + 2) / (1 - a * r ^ (D + 3))) in *. rewrite Ll in In, On.
  change (dec Rnum_ops 1 16) with (1 / 16). destruct (out_stage r 32 (1 / 16) ltac:(lia)) as (Wo & Io & Oo & Go). change (nmul Rnum_ops) with Rmult. set (o := Binop _ _ _) in *. set (n := fdn _ _ _) in *.
  assert (Kn : 0 <= k * k) by apply sq_nonneg. refine (conj (conj (conj I (conj Wn _)) (conj Wo _)) (conj eq_refl (conj Oo _))).
  - exact (eq_sym In).
  - exact (eq_trans On (eq_sym Io)).
  - apply (gain_le rops r (INR 32 * (1 / 16 * (1 / 16)) * (k * k * INR 16))); [cbn [INR]; lra|]. 
    apply (gain_pipe rops rl_laws); [cbn [INR]; lra|exact (conj I (conj Wn (eq_sym In)))|exact (eq_trans On (eq_sym Io))| |exact Go].
    apply (gain_pipe rops rl_laws); [exact Kn|exact I|exact (eq_sym In)|apply gain_split|exact Gn].
Qed.
Lemma stereo4_ok sr delays time r D : 0 < time -> length delays = 32%nat -> Forall (fun d => 0 <= d /\ (delay_length Rnum_ops d sr <= D)%nat) delays -> 1 <= r -> let a := gainR 10 time in a * r ^ (D + 3) < 1 ->
  exists x, stereo4R sr delays time = Some x /\ let k := a * r ^ (D + 2) / (1 - a * r ^ (D + 3)) in stereo_gain r (8 * (k * k * (k * k))) x.
Proof.
  intros Ht Hl HD Hr a Ha. destruct (gainR_bounds 10 time ltac:(lra) Ht) as [A0 A1]. fold a in A0, A1. destruct (gains_pos r a D Hr A0 Ha) as (G0 & R0 & Gr & Eg). cbv zeta in *.
  set (f := fun d => delay_fir Rnum_ops sr d [- a / 4; - a / 2; - a / 4]).
  assert (S : forall l, (forall d, In d l -> In d delays) -> length l = 16%nat -> exists xs, sequence (map f l) = Some xs /\ Forall (gline rops r (a * r ^ (D + 2) * (a * r ^ (D + 2)))) xs /\ length xs = (2 ^ 4)%nat).
  { intros l Hin Ll. rewrite Forall_forall in HD. destruct (sequence_some f l) as [xs Ex].
    - apply Forall_forall. intros d Hd. unfold f, delay_fir. destruct (delay_at_some sr d) as [dl ->]; [|eauto]. apply HD. auto.
    - exists xs. split; [exact Ex|]. destruct (lines_Forall r (a * r ^ (D + 2) * (a * r ^ (D + 2))) f l xs Ex) as [Fl L]; [|split; [exact Fl|rewrite L, Ll; reflexivity]].
      intros d x Hd Hx. unfold f in Hx. pose proof (delay_fir_line r sr _ _ _ _ D x Hr Hx (proj2 (HD d (Hin d Hd)))) as Q. cbv zeta in Q.
      replace (Rabs (- a / 4) + Rabs (- a / 2) + Rabs (- a / 4)) with a in Q by (rewrite !Rabs_left by lra; lra). exact Q. }
  destruct (S (firstn 16 delays)) as (xs & Ex & Fx & Lx); [intros d Hd; rewrite <- (firstn_skipn 16 delays); apply in_or_app; auto|rewrite firstn_length; lia|].
  destruct (S (skipn 16 delays)) as (ys & Ey & Fy & Ly); [intros d Hd; rewrite <- (firstn_skipn 16 delays); apply in_or_app; auto|rewrite skipn_length; lia|].
  unfold stereo4R, reverb4_stereo_delays. rewrite Hl. change (Nat.eqb 32 32) with true. cbv iota zeta.
  match goal with |- context [match sequence ?p with Some _ => match sequence ?q with _ => _ end | None => _ end] => change p with (map f (firstn 16 delays)); change q with (map f (skipn 16 delays)) end. rewrite Ex, Ey. eexists. split; [reflexivity|].
  destruct (gain_fdn rops rl_laws r (a * r ^ (D + 2)) 4 xs G0 R0 Gr Lx Fx) as (Gn & Wn & In & On). destruct (gain_fdn rops rl_laws r (a * r ^ (D + 2)) 4 ys G0 R0 Gr Ly Fy) as (Gm & Wm & Im & Om).
  rewrite Eg in Gn, Gm. set (k := a * r ^ (D + 2) / (1 - a * r ^ (D + 3))) in *. rewrite Lx in In, On. rewrite Ly in Im, Om.
  change (dec Rnum_ops 1 4) with (1 / 4). destruct (out_stage r 16 (1 / 4) ltac:(lia)) as (Wo & Io & Oo & Go). change (nmul Rnum_ops) with Rmult. set (o := Binop _ _ _) in *. set (n := fdn _ _ xs) in *. set (m := fdn _ _ ys) in *.
  assert (Kn : 0 <= k * k) by apply sq_nonneg.
  assert (W1 : wf rops (Pipe (MultiSplit 2 8) n)) by (refine (conj I (conj Wn _)); exact (eq_sym In)).
  assert (W2 : wf rops (Pipe (Pipe (MultiSplit 2 8) n) (MultiJoin 2 8))) by (refine (conj W1 (conj _ _)); [cbn; lia|exact On]).
  assert (W3 : wf rops (Pipe (Pipe (Pipe (MultiSplit 2 8) n) (MultiJoin 2 8)) (MultiSplit 2 8))) by (refine (conj W2 (conj I eq_refl))).
  assert (W4 : wf rops (Pipe (Pipe (Pipe (Pipe (MultiSplit 2 8) n) (MultiJoin 2 8)) (MultiSplit 2 8)) m)) by (refine (conj W3 (conj Wm _)); exact (eq_sym Im)).
  assert (EO : outs rops m = ins rops o) by (rewrite Io; exact Om).
  refine (conj (conj W4 (conj Wo EO)) (conj eq_refl (conj Oo _))).
  apply (gain_le rops r (INR 16 * (1 / 4 * (1 / 4)) * (k * k * (INR 8 * (/ 8 * (k * k * INR 8)))))); [cbn [INR]; right; field|].
  apply (gain_pipe rops rl_laws); [cbn [INR]; lra|exact W4|exact EO| |exact Go].
  apply (gain_pipe rops rl_laws); [exact Kn|exact W3|exact (eq_sym Im)| |exact Gm].
  apply (gain_pipe rops rl_laws); [cbn [INR]; lra|exact W2|reflexivity| |apply gain_split].
  apply (gain_pipe rops rl_laws); [lra|exact W1|exact On| |apply gain_join8].
  apply (gain_pipe rops rl_laws); [exact Kn|exact I|exact (eq_sym In)|apply gain_split|exact Gn].
Qed.
