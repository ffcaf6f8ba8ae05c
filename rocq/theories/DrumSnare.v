(* Proofs about brown noise and the snare drum of DrumModel.v. *)
From Coq Require Import Reals Lra Lia FunctionalExtensionality Psatz.
From Verif Require Import EnvProofs OscProofs MeterProofs FxProofs PreProofs SoundProofs SoundCurves.
From Verif Require Import DrumSpec DrumProofs.
Import ListNotations.
Local Open Scope R_scope.
Local Notation nR := Rnum_ops.
Local Notation tickD := (NodeModel.tick R_arith drumR).
Local Notation nodeD := (NodeModel.node R (du R unit unit R)).

(* ---- brown noise ---- *)
Section Brown.
  Variables (sr : R) (h : N).
  Let c := exp (- (2 * PI * 10 / sr)).
  Lemma coeff_R : pole_coeff nR R_elem sr 10 = c.
  Proof. unfold pole_coeff, c. cbn [nmul ndiv nneg Rnum_ops e_exp R_elem]. rewrite tau_R. f_equal. unfold Rdiv. ring. Qed.
  Definition low_leaf (n : nat) : nodeD := Leaf (DTune (TLow false (late c (1 - c) (white_at h) n) c 10 sr)).
  Lemma low_leaf_step n i : nth 0 i 0 = white_at h n -> tickD (low_leaf n) i = (low_leaf (S n), [smoothed sr 10 (white_at h) n]).
  Proof.
    intros H. unfold low_leaf. cbn [tick drumR du_ops u_tick du_tick t_tick]. change (n0 nR) with 0. rewrite H. cbn [andb]. unfold low_step. cbn [nadd nsub nmul Rnum_ops]. change (n1 nR) with 1.
    assert (E : (1 - c) * white_at h n + c * late c (1 - c) (white_at h) n = leaky c (1 - c) (white_at h) n) by (rewrite leaky_late; ring). rewrite E. reflexivity.
  Qed.
  Definition brown_node (n : nat) : nodeD := Pipe (white_st h n) (Binop (nmul nR) (low_leaf n) (Constant [137 / 10])).
  Lemma brown_0 : brownR sr h = brown_node 0.
  Proof.
    unfold brownR, brown_noise, brown_node. rewrite white_0. cbn [build t_rate]. unfold low_tune. cbn [t_rate]. unfold low_tune. change (nofZ nR 10) with 10. change (tl_elem real_tools) with R_elem. rewrite coeff_R. reflexivity.
  Qed.
  Lemma brown_step n i : tickD (brown_node n) i = (brown_node (S n), [13.7 * smoothed sr 10 (white_at h) n]).
  Proof.
    unfold brown_node. cbn [tick]. rewrite (white_step h n i). rewrite low_leaf_step by reflexivity. cbn [zipw combine map fst snd nmul Rnum_ops]. do 2 f_equal. lra.
  Qed.
  Lemma brown_outputs N n : (n < N)%nat -> nth n (drums_out (brownR sr h) (repeat [] N)) [] = [13.7 * smoothed sr 10 (white_at h) n].
  Proof.
    intros H. rewrite undriven. apply (driven_outputs (fun k y => y = brown_node k) (fun n => [13.7 * smoothed sr 10 (white_at h) n]) (fun _ => [])); [|apply brown_0|exact H].
    intros k y ->. eexists. split; [apply brown_step|]; reflexivity.
  Qed.
  Lemma brown_level n : 0 < sr -> Rabs (13.7 * smoothed sr 10 (white_at h) n) <= 13.7.
  Proof.
    intros S0. unfold smoothed. cbv zeta. fold c. assert (C : 0 < c < 1).
    { split; [apply exp_pos|]. unfold c. rewrite <- exp_0. apply exp_increasing. apply Ropp_lt_gt_0_contravar. pose proof PI_RGT_0. apply Rdiv_lt_0_compat; lra. }
    pose proof (leaky_bound c (1 - c) (white_at h) 1 n ltac:(lra) ltac:(rewrite Rabs_pos_eq; lra) ltac:(intros k; apply Rabs_le; apply white_range)) as L.
    rewrite (Rabs_pos_eq c) in L by lra. replace ((1 - c) / (1 - c) * 1) with 1 in L by (field; lra). rewrite Rabs_mult, (Rabs_pos_eq 13.7) by lra. lra.
  Qed.
End Brown.

(* ---- the lowpass filter with an input for its cutoff frequency ---- *)
Section Low.
  Variables (sr : R) (f x : nat -> R).
  Definition svf_ok (n : nat) (s : svf R) : Prop :=
    vf_mode s = MLowpass /\ (vf_ic1 s, vf_ic2 s) = low_state sr f x n /\ exists c, vf_par s = mkSvp sr c 1 1 /\ vf_c s = sv_coefs nR R_elem MLowpass (mkSvp sr c 1 1).
  Lemma den_pos g : 0 < 1 + g + g * g. Proof. nra. Qed.
  Lemma svf_low n s i : svf_ok n s -> nth 0 i 0 = x n -> nth 1 i 0 = f n -> nth 2 i 0 = 1 ->
    exists s', tickD (Leaf (DTune (TSvf s 1 0))) i = (Leaf (DTune (TSvf s' 1 0)), [lowpassed sr f x n]) /\ svf_ok (S n) s'.
  Proof.
    intros (M & St & c & P & C) I0 I1 I2. cbn [tick drumR du_ops u_tick du_tick t_tick Nat.add Nat.leb]. change (tl_elem real_tools) with R_elem. change (n0 nR) with 0.
    assert (U : sv_inputs nR real_tools s i = mkSvf MLowpass (mkSvp sr (f n) 1 1) (sv_coefs nR R_elem MLowpass (mkSvp sr (f n) 1 1)) (vf_ic1 s) (vf_ic2 s)).
    { unfold sv_inputs. rewrite M. cbn [sv_gained]. rewrite P. cbn [sp_cutoff sp_q sp_gain sp_sr]. change (n0 nR) with 0. rewrite I1, I2. destruct (_ || _)%bool eqn:Q.
      - unfold svf_update. rewrite M. reflexivity.
      - apply Bool.orb_false_iff in Q. destruct Q as [Q _]. unfold neqb in Q. apply Bool.negb_false_iff, andb_prop in Q. destruct Q as [Q1 Q2].
        assert (Ef : f n = c). { revert Q1 Q2. cbn [nleb Rnum_ops]. repeat destruct (Rle_dec _ _); try discriminate. intros _ _. lra. } rewrite <- Ef in *. destruct s as [m p cc a b]. cbn [vf_mode vf_par vf_c vf_ic1 vf_ic2] in *. now subst. }
    rewrite U, I0. unfold svf_step. cbn [vf_mode vf_par vf_c vf_ic1 vf_ic2]. set (g := warped sr f n).
    assert (Cf : sv_coefs nR R_elem MLowpass (mkSvp sr (f n) 1 1) = mkSv (1 / (1 + g * (g + 1))) (g * (1 / (1 + g * (g + 1)))) (g * (g * (1 / (1 + g * (g + 1))))) 0 0 1).
    { unfold sv_coefs, sv_with. cbn [nadd nmul ndiv nofZ Rnum_ops e_tan e_pi R_elem sp_cutoff sp_sr sp_q]. change (n1 nR) with 1. change (n0 nR) with 0. replace (1 / 1) with 1 by field. reflexivity. }
    rewrite Cf. cbn [sv_a1 sv_a2 sv_a3 sv_m0 sv_m1 sv_m2 nadd nsub nmul nofZ Rnum_ops]. pose proof (den_pos g) as D.
    eexists. split; [apply f_equal2; [reflexivity|]|].
    - unfold lowpassed, low_of, band_of. fold g. rewrite <- St. cbn [fst snd]. f_equal. field. nra.
    - split; [reflexivity|]. cbn [vf_ic1 vf_ic2 vf_par vf_c]. split.
      + cbn [low_state]. cbv zeta. fold g. rewrite <- St. unfold low_of, band_of. cbn [fst snd]. f_equal; field; nra.
      + exists (f n). split; [reflexivity|]. now rewrite Cf.
  Qed.
  (* lowpass_q(1) with its third input *)
  Definition low_node (s : svf R) : nodeD := Pipe (Stack (MultiPass 2) (Constant [1])) (Leaf (DTune (TSvf s 1 0))).
  Lemma low_node_step n s : svf_ok n s -> exists s', tickD (low_node s) [x n; f n] = (low_node s', [lowpassed sr f x n]) /\ svf_ok (S n) s'.
  Proof.
    intros H. destruct (svf_low n s [x n; f n; 1] H eq_refl eq_refl eq_refl) as (s' & E & H'). exists s'. split; [|exact H']. unfold low_node.
    change (tickD (Pipe (Stack (MultiPass 2) (Constant [1])) (Leaf (DTune (TSvf s 1 0)))) [x n; f n]) with
      (let (y', o') := tickD (Leaf (DTune (TSvf s 1 0))) [x n; f n; 1] in (Pipe (Stack (MultiPass 2) (Constant [1])) y', o')). rewrite E. reflexivity.
  Qed.
  Lemma low_node_0 : exists s, lowpass_q nR real_tools sr 1 = low_node s /\ svf_ok 0 s.
  Proof.
    unfold lowpass_q. cbn [build t_rate]. eexists. split; [reflexivity|]. unfold svf_ok, svf_do, svf_new, svf_update. cbn [vf_mode vf_par vf_c vf_ic1 vf_ic2 sp_cutoff sp_q sp_gain low_state].
    split; [reflexivity|]. split; [reflexivity|]. exists 440. split; reflexivity.
  Qed.
End Low.

(* ---- the snare drum ---- *)
Section Snare.
  Variables (sr : R) (h : nat -> N) (r : nat -> R) (sharpness : R).
  Hypothesis HS : usual sr.
  Hypothesis HH : forall i, (h i < 2 ^ 64)%N.
  Lemma one_control i E n : lfo_of sr (h i) 1 (fun t => [E t]) n = [control sr h i E n].
  Proof. apply one_channel; [exact HS|apply HH]. Qed.
  Definition control_node (i : nat) (E : R -> R) (n : nat) : nodeD := lifted (lfo_at sr (h i) 1 (fun t => [E t]) n).
  Lemma control_step i E n l : tickD (control_node i E n) l = (control_node i E (S n), [control sr h i E n]).
  Proof. unfold control_node. rewrite lfo_step', one_control. reflexivity. Qed.
  Definition mode_pitch (i : nat) : R -> R := bent (nth i snare_modes 0) (r (2 * i)%nat) (r (2 * i + 1)%nat).
  Definition mode_node (i n : nat) : nodeD := Pipe (control_node (2 * i) (mode_pitch i) n) (lifted (sine_at sr (h (2 * i + 1)%nat) (control sr h (2 * i) (mode_pitch i)) n)).
  Lemma mode_step i n l : tickD (mode_node i n) l = (mode_node i (S n), [mode sr h r i n]).
  Proof. unfold mode_node. cbn [tick]. rewrite control_step. rewrite (sine_step' sr (h (2 * i + 1)%nat) (control sr h (2 * i) (mode_pitch i)) n) by reflexivity. reflexivity. Qed.
  Lemma mode_0 i z : nth i snare_modes 0 = IZR z -> bend_sine nR sr h r i (nofZ nR z) = mode_node i 0.
  Proof.
    intros Z. unfold bend_sine, mode_node. cbv zeta. rewrite (sine_0 sr (h (2 * i + 1)%nat) (control sr h (2 * i) (mode_pitch i)) (HH _)). unfold control_node, lifted. f_equal. rewrite lfo_0. f_equal. f_equal.
    apply functional_extensionality. intros t. unfold mode_pitch, bent. rewrite Z. unfold lerp. cbn [nadd nsub nmul nofZ Rnum_ops]. change (n1 nR) with 1. f_equal. ring.
  Qed.
  Lemma fall_0 i z : fall nR exp sr h i (nofZ nR z) = control_node i (fading (IZR z)) 0.
  Proof.
    unfold fall, control_node, lifted. rewrite lfo_0. f_equal. f_equal. apply functional_extensionality. intros t. unfold fading. cbn [nmul nneg nofZ Rnum_ops]. do 2 f_equal. ring.
  Qed.
  Definition add2 (a b : nodeD) : nodeD := Binop (nadd nR) a b.
  Definition mul2 (a b : nodeD) : nodeD := Binop (nmul nR) a b.
  Definition by_num (a : nodeD) (c : R) : nodeD := an_mul nR a c.
  Lemma add2_step a b a' b' u v : ins drumR a = 0%nat -> tickD a [] = (a', [u]) -> tickD b [] = (b', [v]) -> tickD (add2 a b) [] = (add2 a' b', [u + v]).
  Proof. intros I A B. unfold add2. cbn [tick]. rewrite firstn_nil, skipn_nil, A, B. reflexivity. Qed.
  Lemma mul2_step a b a' b' u v : ins drumR a = 0%nat -> tickD a [] = (a', [u]) -> tickD b [] = (b', [v]) -> tickD (mul2 a b) [] = (mul2 a' b', [u * v]).
  Proof. intros I A B. unfold mul2. cbn [tick]. rewrite firstn_nil, skipn_nil, A, B. reflexivity. Qed.
  Lemma by_num_step a a' u c : tickD a [] = (a', [u]) -> tickD (by_num a c) [] = (by_num a' c, [u * c]).
  Proof. intros A. unfold by_num, an_mul. cbn [tick]. rewrite A. reflexivity. Qed.
  Definition mix_node (n : nat) : nodeD :=
    add2 (add2 (mul2 (by_num (add2 (mode_node 0 n) (mode_node 1 n)) (2 / 10)) (control_node 18 (fading 16) n))
      (mul2 (by_num (add2 (add2 (add2 (add2 (add2 (add2 (mode_node 2 n) (mode_node 3 n)) (mode_node 4 n)) (mode_node 5 n)) (mode_node 6 n)) (mode_node 7 n)) (mode_node 8 n)) (1 / 10)) (control_node 19 (fading 14) n)))
      (mul2 (by_num (pink_node (h 20%nat) n) (7 / 10)) (control_node 21 (fading 12) n)).
  Lemma mix_0 : snare_mix nR exp sr h r = mix_node 0.
  Proof.
    unfold snare_mix. cbv zeta. rewrite !fall_0. rewrite (mode_0 0 180), (mode_0 1 330), (mode_0 2 275), (mode_0 3 320), (mode_0 4 400), (mode_0 5 430), (mode_0 6 509), (mode_0 7 550), (mode_0 8 616) by reflexivity.
    pose proof (pink_0 (h 20%nat)) as P. unfold pinkR in P. rewrite P. reflexivity.
  Qed.
  Lemma mix_step n : tickD (mix_node n) [] = (mix_node (S n), [snare_mixed sr h r n]).
  Proof.
    unfold mix_node, snare_mixed.
    erewrite add2_step; [|reflexivity| |].
    2: { apply add2_step; [reflexivity| |].
         - apply mul2_step; [reflexivity| |apply control_step]. apply by_num_step. apply add2_step; [reflexivity|apply mode_step|apply mode_step].
         - apply mul2_step; [reflexivity| |apply control_step]. apply by_num_step. repeat (apply add2_step; [reflexivity| |apply mode_step]). apply mode_step. }
    2: { apply mul2_step; [reflexivity| |apply control_step]. apply by_num_step. apply pink_step'. }
    do 2 f_equal. lra.
  Qed.
  Definition cut := control sr h 22 snare_cutoff.
  Definition snare_node (n : nat) (s : svf R) (d : @declick R) : nodeD := Pipe (Pipe (Stack (mix_node n) (control_node 22 snare_cutoff n)) (low_node s)) (Leaf (DSu (UDeclick d))).
  Lemma snare_step n s d : svf_ok sr cut (snare_mixed sr h r) n s -> at_time (snare_attack sharpness) (INR n / sr) sr d -> exists s' d',
    tickD (snare_node n s d) [] = (snare_node (S n) s' d', [snare_of sr h r sharpness n]) /\ svf_ok sr cut (snare_mixed sr h r) (S n) s' /\ at_time (snare_attack sharpness) (INR (S n) / sr) sr d'.
  Proof.
    intros H D. assert (SP : 0 < sr) by (destruct HS; lra). destruct (low_node_step sr cut (snare_mixed sr h r) n s H) as (s' & E & H').
    set (v := lowpassed sr cut (snare_mixed sr h r) n) in *. destruct (d_tick (snare_attack sharpness) (INR n / sr) sr d v SP D) as [D' O].
    exists s', (fst (declick_tick nR nR (fun x => x) d v)). split; [|split; [exact H'|]].
    - assert (E1 : tickD (Stack (mix_node n) (control_node 22 snare_cutoff n)) [] = (Stack (mix_node (S n)) (control_node 22 snare_cutoff (S n)), [snare_mixed sr h r n; cut n])).
      { cbn [tick]. rewrite firstn_nil, skipn_nil, mix_step, control_step. reflexivity. }
      assert (E2 : tickD (Pipe (Stack (mix_node n) (control_node 22 snare_cutoff n)) (low_node s)) [] = (Pipe (Stack (mix_node (S n)) (control_node 22 snare_cutoff (S n))) (low_node s'), [v])).
      { remember (low_node s) as L. remember (low_node s') as L'. remember (Stack (mix_node n) (control_node 22 snare_cutoff n)) as K. cbn [tick]. rewrite E1, E. reflexivity. }
      assert (E3 : tickD (Leaf (DSu (UDeclick d))) [v] = (Leaf (DSu (UDeclick (fst (declick_tick nR nR (fun x => x) d v)))), [snare_of sr h r sharpness n])).
      { cbn [tick drumR du_ops u_tick du_tick su_tick nth]. destruct (declick_tick nR nR (fun x => x) d v) as [d' y]. cbn [fst snd] in *. cbn [gained] in O. injection O as ->. reflexivity. }
      unfold snare_node. remember (Pipe (Stack (mix_node n) (control_node 22 snare_cutoff n)) (low_node s)) as K. remember (Leaf (DSu (UDeclick d))) as L. cbn [tick]. rewrite E2, E3. reflexivity.
    - replace (INR (S n) / sr) with (INR n / sr + 1 / sr) by (rewrite S_INR; unfold Rdiv; ring). exact D'.
  Qed.
  Lemma snare_0 : exists s d, snareR sr h r sharpness = snare_node 0 s d /\ svf_ok sr cut (snare_mixed sr h r) 0 s /\ at_time (snare_attack sharpness) (INR 0 / sr) sr d.
  Proof.
    destruct (low_node_0 sr cut (snare_mixed sr h r)) as (s & E & H). exists s, (declick_new nR (snare_attack sharpness) sr). split; [|split; [exact H|]].
    - unfold snareR, snaredrum, snare_node. rewrite mix_0. change (n1 nR) with 1. rewrite E. unfold control_node, lifted. rewrite lfo_0.
      replace (fun t => [xerp nR exp ln (nofZ nR 15000) (nofZ nR 1000) t]) with (fun t => [snare_cutoff t]).
      2: { apply functional_extensionality. intros t. rewrite xerp_R by (cbn; lra). unfold snare_cutoff. cbn [nofZ Rnum_ops]. do 3 f_equal. lra. }
      assert (A : xerp nR exp ln (ndiv nR (nofZ nR 2) (nofZ nR 100)) (ndiv nR (nofZ nR 2) (nofZ nR 1000)) sharpness = snare_attack sharpness).
      { rewrite xerp_R by (cbn; lra). unfold snare_attack. cbn [ndiv nofZ Rnum_ops]. f_equal. f_equal. lra. }
      rewrite A. reflexivity.
    - split; [reflexivity|]. split; [reflexivity|]. left. unfold declick_new, declick_rate. cbn [dc_t]. unfold Rdiv. cbn [INR]. rewrite Rmult_0_l. reflexivity.
  Qed.
  Lemma snare_outputs N n : (n < N)%nat -> nth n (drums_out (snareR sr h r sharpness) (repeat [] N)) [] = [snare_of sr h r sharpness n].
  Proof.
    intros Hn. rewrite undriven.
    apply (driven_outputs (fun k y => exists s d, y = snare_node k s d /\ svf_ok sr cut (snare_mixed sr h r) k s /\ at_time (snare_attack sharpness) (INR k / sr) sr d) (fun n => [snare_of sr h r sharpness n]) (fun _ => [])); [|exact snare_0|exact Hn].
    intros k y (s & d & -> & H & D). destruct (snare_step k s d H D) as (s' & d' & E & H' & D'). eexists. split; [exact E|]. exists s', d'. split; [reflexivity|]. split; assumption.
  Qed.
End Snare.
