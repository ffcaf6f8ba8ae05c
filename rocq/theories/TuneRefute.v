(* Settings that are lost, shapes that are not told the sample rate, and a filter that is lost at one frequency. *)
From Coq Require Import Reals Lra Machin SpecFloat.
From Verif Require Import OscFloat ShapeProofs TuneBounds TuneSpec.
Local Open Scope R_scope.

(* the resonator *)
Section Resonator.
  Context {G S X : Type}.
  Variable tl : tools R G S X.
  Hypothesis Hel : tl_elem tl = R_elem.
  Notation nm := Rnum_ops.
  Lemma reson_first f q : 0 < f -> 0 < q -> exists n, build nm tl false (OReson f q) = Some n /\ t_outs nm tl n [ATick [1]] = Some [[sqrt (1 - exp (- PI * f / (q * 44100)) * exp (- PI * f / (q * 44100))) * (1 / 2)]].
  Proof.
    intros Hf Hq. eexists. split; [reflexivity|]. unfold t_outs. cbn. rewrite Hel. cbn. do 3 f_equal. ring.
  Qed.
  Lemma below_one f q : 0 < f -> 0 < q -> 0 < exp (- PI * f / (q * 44100)) < 1.
  Proof.
    intros Hf Hq. split; [apply exp_pos|]. rewrite <- exp_0. apply exp_increasing. pose proof PI_RGT_0.
    replace (- PI * f / (q * 44100)) with (- (PI * f / (q * 44100))) by (field; lra). assert (0 < PI * f / (q * 44100)); [|lra]. apply Rdiv_lt_0_compat; nra.
  Qed.
  Lemma reson_differs f q q' : 0 < f -> 0 < q < q' -> sqrt (1 - exp (- PI * f / (q * 44100)) * exp (- PI * f / (q * 44100))) <> sqrt (1 - exp (- PI * f / (q' * 44100)) * exp (- PI * f / (q' * 44100))).
  Proof.
    intros Hf Hq E. pose proof (below_one f q Hf ltac:(lra)) as P1. pose proof (below_one f q' Hf ltac:(lra)) as P2.
    assert (L : exp (- PI * f / (q * 44100)) < exp (- PI * f / (q' * 44100))).
    { apply exp_increasing. pose proof PI_RGT_0. replace (- PI * f / (q * 44100)) with (- (PI * f / 44100) * / q) by (field; lra). replace (- PI * f / (q' * 44100)) with (- (PI * f / 44100) * / q') by (field; lra).
      assert (/ q' < / q) by (apply Rinv_lt_contravar; nra). assert (0 < PI * f / 44100) by (apply Rdiv_lt_0_compat; nra). nra. }
    apply sqrt_inj in E; [nra|nra|nra].
  Qed.
  Lemma reson_settings f q q' : 0 < f -> 0 < q < q' -> exists n n' m,
    build nm tl false (OReson f q) = Some n /\ t_set nm tl n (mkSetting (PCenterQ f q') []) = Some n' /\ build nm tl false (OReson f q') = Some m /\
    documented (OReson f q) (mkSetting (PCenterQ f q') []) = (OReson f q' : opcode R S X) /\
    (forall acts, t_outs nm tl n' acts = t_outs nm tl n acts) /\ t_outs nm tl n' [ATick [1]] <> t_outs nm tl m [ATick [1]].
  Proof.
    intros Hf Hq. destruct (reson_first f q Hf ltac:(lra)) as (n & B & O). destruct (reson_first f q' Hf ltac:(lra)) as (m & B' & O').
    exists n, n, m. split; [exact B|]. cbn in B. assert (T : t_set nm tl n (mkSetting (PCenterQ f q') []) = Some n) by (injection B as <-; reflexivity). split; [exact T|].
    split; [exact B'|]. split; [reflexivity|]. split; [reflexivity|]. rewrite O, O'. intro E. injection E as E. apply (reson_differs f q q' Hf Hq). lra.
  Qed.
End Resonator.

(* AllNest: no setting for the delay *)
Lemma nest_delay {F G S X} (nm : num F) (tl : tools F G S X) w c x n d ad : build nm tl w (ONest c x) = Some n -> t_set nm tl n (mkSetting (PDelay d) ad) = Some n.
Proof. cbn. intro E; injection E as <-. reflexivity. Qed.

(* shapes are not told the sample rate *)
Section Rate.
  Context {G X : Type}.
  Notation shp := (@shape R).
  Notation nm := Rnum_ops.
  Notation idR := (fun x : R => x).
  Notation one_ := (shape_one nm tanh atan sqrt PI (2 / PI)).
  Notation set_sr := (shape_set_sr nm idR idR Rpower).
  Variable tl : tools R G shp X.
  Hypothesis Hel : tl_elem tl = R_elem.
  Hypothesis Hsh : forall s x, tl_shape tl s x = match one_ s x with Some r => r | None => (s, x) end.
  Notation rr := (exp (- PI * 44100 / (1 * 88200))).
  Lemma adaptive_second t m : exists n, build nm tl false (ODirty true BResonator (Adaptive (Tanh 1) t m 0) 44100 1 1) = Some n /\
    let u := sqrt (1 - rr * rr) * (1 / 2) in
    t_outs nm tl (t_rate nm tl n 88200) [ATick [1]; ATick [0]] = Some [[u]; [- (2 * rr) * tanh (u / sqrt ((1 - m) * (1 / 1000000 + u * u)))]].
  Proof.
    eexists. split; [reflexivity|]. unfold t_outs. cbn. unfold dirty_step. cbn. rewrite Hel. cbn. rewrite !Hsh. cbn.
    set (u := sqrt (1 - rr * rr) * (1 / 2)).
    replace (2 * PI * 44100 / 88200) with PI by field. rewrite cos_PI. unfold micro. cbn.
    repeat match goal with |- context [u * 1 + 0] => replace (u * 1 + 0) with u by ring end.
    match goal with |- context [sqrt ?a] => lazymatch a with (m * 0 + _) => replace a with ((1 - m) * (1 / 1000000 + u * u)) by ring end end.
    match goal with |- context [tl_shape tl ?a ?b] => destruct (tl_shape tl a b) as [? ?] end. cbn.    rewrite (Rmult_1_r (u / _)). match goal with |- Some [[_]; [?a]] = Some [[_]; [?b]] => replace a with b by ring end. reflexivity.
  Qed.
  Lemma rr_range : 0 < rr < 1.
  Proof.
    split; [apply exp_pos|]. replace (- PI * 44100 / (1 * 88200)) with (- (PI / 2)) by field. pose proof PI_RGT_0.
    pose proof (exp_increasing (- (PI / 2)) 0 ltac:(lra)) as H0. now rewrite exp_0 in H0.
  Qed.
  Lemma adaptive_differs t m m' n n' : 0 < m < m' -> m' < 1 ->
    build nm tl false (ODirty true BResonator (Adaptive (Tanh 1) t m 0) 44100 1 1) = Some n -> build nm tl false (ODirty true BResonator (Adaptive (Tanh 1) t m' 0) 44100 1 1) = Some n' ->
    t_outs nm tl (t_rate nm tl n 88200) [ATick [1]; ATick [0]] <> t_outs nm tl (t_rate nm tl n' 88200) [ATick [1]; ATick [0]].
  Proof.
    intros Hm Hm' B B'. destruct (adaptive_second t m) as (k & K & O). destruct (adaptive_second t m') as (k' & K' & O'). rewrite B in K. rewrite B' in K'. injection K as <-. injection K' as <-.
    cbv zeta in O, O'. rewrite O, O'. pose proof rr_range as P. set (r := rr) in *. clearbody r. set (u := sqrt (1 - r * r) * (1 / 2)). assert (U : 0 < u). { unfold u. assert (0 < sqrt (1 - r * r)) by (apply sqrt_lt_R0; nra). lra. }
    clearbody u. set (w := 1 / 1000000 + u * u). assert (W : 0 < w) by (unfold w; nra). clearbody w. intro E. injection E as E.
    assert (A : u / sqrt ((1 - m) * w) < u / sqrt ((1 - m') * w)).
    { assert (S1 : 0 < sqrt ((1 - m') * w)) by (apply sqrt_lt_R0; nra). assert (S2 : sqrt ((1 - m') * w) < sqrt ((1 - m) * w)) by (apply sqrt_lt_1; nra).
      unfold Rdiv. apply Rmult_lt_compat_l; [lra|]. apply Rinv_lt_contravar; nra. }
    destruct tanh_saturates as (_ & _ & M & _). apply M in A. nra.
  Qed.
  Lemma half_power sr : 0 < sr -> 0 < Rpower (1 / 2) (1 / (1 * sr)) < 1.
  Proof.
    intro H. split; [unfold Rpower; apply exp_pos|]. assert (0 < 1 / (1 * sr)) by (apply Rdiv_lt_0_compat; lra).
    assert (ln (1 / 2) < 0). { rewrite <- ln_1. apply ln_increasing; lra. }
    pose proof (exp_increasing (1 / (1 * sr) * ln (1 / 2)) 0 ltac:(nra)) as H9. now rewrite exp_0 in H9.
  Qed.
  Lemma rate_lost : let sh := adaptive_new nm nm idR idR Rpower 1 (Tanh 1) in exists n n',
    build nm tl false (ODirty true BResonator sh 44100 1 1) = Some n /\ build nm tl false (ODirty true BResonator (set_sr sh 88200) 44100 1 1) = Some n' /\
    t_outs nm tl (t_rate nm tl n 88200) [ATick [1]; ATick [0]] <> t_outs nm tl (t_rate nm tl n' 88200) [ATick [1]; ATick [0]].
  Proof.
    intro sh. eexists. eexists. split; [reflexivity|]. split; [reflexivity|]. unfold sh, adaptive_new. cbn [shape_set_sr].
    apply (adaptive_differs 1 (Rpower (1 / 2) (1 / (1 * 44100))) (Rpower (1 / 2) (1 / (1 * 88200)))); try reflexivity.
    - split; [apply (half_power 44100); lra|]. unfold Rpower. apply exp_increasing. assert (ln (1 / 2) < 0). { rewrite <- ln_1. apply ln_increasing; lra. }
      replace (1 / (1 * 44100)) with (/ 44100) by field. replace (1 / (1 * 88200)) with (/ 88200) by field. assert (/ 88200 < / 44100) by lra. nra.
    - apply (half_power 88200). lra.
  Qed.
End Rate.

(* pi, and the sine of the number next to pi / 6 *)
Lemma pi_close : 314159265 / 100000000 < PI < 3141592655 / 1000000000.
Proof.
  pose proof (PI_2_3_7_ineq 5) as [A B]. unfold tg_alt, PI_2_3_7_tg, Ratan_seq in A, B. cbn [sum_f_R0 Nat.mul Nat.add pow INR] in A, B. split; lra.
Qed.
Lemma sine_close : 1 / 2 < sin (8784530 / 16777216) < 1 / 2 + / 33554432.
Proof.
  pose proof pi_close as P. pose proof sin_PI6 as S6. split.
  - rewrite <- S6. apply sin_increasing_1; lra.
  - assert (D : sin (8784530 / 16777216) - sin (PI / 6) <= 8784530 / 16777216 - PI / 6).
    { destruct (MVT_cor2 sin cos (PI / 6) (8784530 / 16777216)) as (c & E & _); [lra|intros; apply derivable_pt_lim_sin|]. rewrite E. pose proof (COS_bound c). nra. }
    lra.
Qed.

(* Rez in binary32 *)
Section Lost.
  Context {G S X : Type}.
  Variable tl : tools f32 G S X.
  Notation nm := f32_ops.
  Hypothesis Hpi : e_pi (tl_elem tl) = S754_finite false 13176795 (-22).
  Hypothesis Hsin : e_sin (tl_elem tl) (S754_finite false 8784530 (-24)) = ndiv nm (nofZ nm 1) (nofZ nm 2).
  Hypothesis Htanh : tl_tanh tl (n0 nm) = n0 nm.
  Lemma add_nan x : nadd nm x S754_nan = S754_nan. Proof. now destruct x. Qed.
  Lemma rez_lost m e bp acts : forall s os, rz_f s = nofZ nm 1 -> rz_fb s = S754_infinity false -> rz_bp s = bp -> (rz_buf0 s = S754_nan \/ (rz_buf0 s = n0 nm /\ rz_buf1 s = n0 nm)) ->
    rz_q s = S754_finite false m e -> Forall (fun a => match a with ATick _ | AReset => True | _ => False end) acts -> t_outs nm tl (TRez false s) acts = Some os -> Forall (fun o => o = [S754_nan]) os.
  Proof.
    unfold t_outs. induction acts as [|a acts IH]; intros s os Ef Eb Ep St Eq Hf.
    - cbn. intro E; injection E as <-. constructor.
    - inversion Hf as [|? ? Ha Hf']; subst. destruct a as [i|st|r|]; try contradiction; cbn [t_run].
      + cbn [t_tick andb]. unfold rez_step. cbv zeta.
        assert (N : nadd nm (rz_buf0 s) (nmul nm (rz_f s) (nadd nm (nsub nm (nth 0 i (n0 nm)) (rz_buf0 s)) (nmul nm (rz_fb s) (tl_tanh tl (nsub nm (rz_buf0 s) (rz_buf1 s)))))) = S754_nan).
        { destruct St as [E0|[E0 E1]]; rewrite E0; [now rewrite nan_add|]. rewrite E1, Eb. change (nsub nm (n0 nm) (n0 nm)) with (n0 nm). rewrite Htanh. change (nmul nm (S754_infinity false) (n0 nm)) with S754_nan.
          now rewrite add_nan, mul_nan, add_nan. }
        rewrite N. rewrite nan_sub, mul_nan, add_nan, nan_sub.
        match goal with |- context [t_run nm tl (TRez false ?s2) acts] => specialize (IH s2) end.
        destruct (t_run nm tl _ acts) as [[? os']|]; [|discriminate]. intro E; injection E as <-. constructor; [reflexivity|]. apply (IH os'); auto.
      + cbn [t_reset]. apply IH; auto.
  Qed.
  Lemma rez_nan m e bp cutoff sr n acts os : (cutoff, sr) = (7350, 44100)%Z \/ (cutoff, sr) = (8000, 48000)%Z \/ (cutoff, sr) = (16000, 96000)%Z ->
    build nm tl false (ORez bp (nofZ nm cutoff) (S754_finite false m e)) = Some n -> Forall (fun a => match a with ATick _ | AReset => True | _ => False end) acts ->
    t_outs nm tl (t_rate nm tl n (nofZ nm sr)) acts = Some os -> Forall (fun o => o = [S754_nan]) os.
  Proof.
    intros C B Hf R. cbn [build] in B. injection B as <-. cbn [t_rate] in R. refine (rez_lost m e bp acts _ os _ _ _ _ _ Hf R); try reflexivity; [| |now right].
    all: unfold rez_tune; cbn [rz_f rz_fb rz_cutoff rz_q rez_new rez_tune]; rewrite Hpi.
    all: assert (A : ndiv nm (nmul nm (S754_finite false 13176795 (-22)) (nofZ nm cutoff)) (nofZ nm sr) = S754_finite false 8784530 (-24)) by (destruct C as [C|[C|C]]; injection C as -> ->; vm_compute; reflexivity).
    all: unfold rez_new, rez_tune; cbn [rz_f rz_fb rz_cutoff rz_q]; change (sf_ofZ 24 128 cutoff) with (nofZ nm cutoff); rewrite A, Hsin; reflexivity.
  Qed.
End Lost.
