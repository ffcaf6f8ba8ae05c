(* Every stable filter settles to the sinusoid that its response predicts. *)
From Coq Require Import Reals Lra Lia.
From Verif Require Import FreqSpec FirProofs FirSpec DelayProofs UnitProofs.
From Verif Require Export FreqProofs.
From Coquelicot Require Import Complex.
Local Open Scope R_scope.

Notation nmR := Rnum_ops.
Notation elR := R_elem.
Notation frun := filt_at.
Notation fout := filt_out.
Lemma frun_S f x t : frun f x (S t) = fst (filt_step nmR (frun f x t) (x t)).
Proof. reflexivity. Qed.

(* ---- complex arithmetic of the model ---- *)
Lemma cdiv_eq a b : cdiv nmR a b = (a / b)%C.
Proof. unfold cdiv, Cdiv, Cinv, Cmult. cbn. replace (fst b * (fst b * 1)) with (fst b * fst b) by ring. replace (snd b * (snd b * 1)) with (snd b * snd b) by ring. unfold Rdiv. f_equal; ring. Qed.
Lemma cadd_eq a b : cadd nmR a b = (a + b)%C. Proof. reflexivity. Qed.
Lemma csub_eq a b : csub nmR a b = (a - b)%C. Proof. reflexivity. Qed.
Lemma cneg_eq a : cneg nmR a = (- a)%C. Proof. reflexivity. Qed.
Lemma cmul_eq a b : cmul nmR a b = (a * b)%C. Proof. reflexivity. Qed.
Lemma cre_eq a : cre nmR a = RtoC a. Proof. reflexivity. Qed.
Lemma polar_eq a : polar nmR elR a = cis a.
Proof. unfold polar, cis. cbn. now rewrite !Rmult_1_l. Qed.
Lemma cscale_eq a f : cscale nmR a f = (RtoC f * a)%C.
Proof. unfold cscale, Cmult, RtoC. cbn. f_equal; ring. Qed.
Ltac cplx := repeat (rewrite cdiv_eq || rewrite polar_eq); change (cadd nmR) with Cplus; change (csub nmR) with Cminus; change (cneg nmR) with Copp; change (cmul nmR) with Cmult; change (cre nmR) with RtoC; change (n1 nmR) with 1; change (n0 nmR) with 0.
Lemma RtoC_2 : RtoC 2 = (1 + 1)%C. Proof. apply injective_projections; cbn; ring. Qed.
Lemma RtoC_1 : RtoC (n1 nmR) = RtoC 1. Proof. reflexivity. Qed.

Section One.
  Variables sr freq : R.
  Let w := radians sr freq.
  Variable h : R * R.
  Variable x : nat -> R.
  Hypothesis Hx : settles w h x.
  Let z1 := cis (- w).
  Local Notation goal f := (settles w (Cmult h (filt_response nmR elR f sr freq)) (fout f x)).
  (* the argument of the exponential, however it is written *)
  Lemma angle_eq : - (freq * tau nmR elR / sr) = - w.
  Proof. unfold w, radians, tau. cbn. unfold Rdiv. ring. Qed.
  Lemma angle_eq' : - tau nmR elR * freq / sr = - w.
  Proof. unfold w, radians, tau. cbn. unfold Rdiv. ring. Qed.
  Lemma polar_z1 : polar nmR elR (nneg nmR (ndiv nmR (nmul nmR freq (tau nmR elR)) sr)) = z1.
  Proof. rewrite polar_eq. unfold z1. f_equal. apply angle_eq. Qed.


  Lemma frun_tick x1 t : frun (FTick x1) x (S t) = FTick (x t).
  Proof. induction t as [|t IH]; [reflexivity|]. rewrite frun_S, IH. reflexivity. Qed.
  Lemma tick_settles x1 : goal (FTick x1).
  Proof.
    eapply settles_to; [|apply (settles_delay 1 w h x (fout (FTick x1) x))]; auto.
    - cbn [filt_response]. rewrite polar_eq. f_equal. f_equal. cbn [nneg nmul ndiv nmR]. rewrite angle_eq'. cbn [INR]. ring.
    - intros t. unfold fout. cbn [Nat.add]. rewrite frun_tick. reflexivity.
  Qed.

  (* first order filters *)
  Lemma order1_settles f c b0 b1 : Rabs c < 1 -> (forall t, fout f x (S t) = c * fout f x t + (b0 * x (S t) + b1 * x t)) ->
    filt_response nmR elR f sr freq = ((RtoC b0 + RtoC b1 * z1) / (1 - RtoC c * z1))%C -> goal f.
  Proof. intros Hc Hr E. eapply settles_to; [|exact (order1 c b0 b1 w h x (fout f x) 0 Hc (fun t _ => Hr t) Hx)]. now rewrite E. Qed.
  Lemma frun_low c v t : frun (FLow c v) x (S t) = FLow c (fout (FLow c v) x t).
  Proof.
    assert (H : exists u, frun (FLow c v) x t = FLow c u). { induction t as [|t [u IH]]; [now exists v|]. rewrite frun_S, IH. cbn. eauto. }
    destruct H as [u E]. rewrite frun_S. unfold fout. rewrite E. reflexivity.
  Qed.
  Lemma low_settles c v : Rabs c < 1 -> goal (FLow c v).
  Proof.
    intros Hc. apply (order1_settles _ c (1 - c) 0 Hc).
    - intros t. unfold fout at 1. rewrite frun_low. cbn. unfold low_step. cbn. ring.
    - cbn [filt_response]. rewrite polar_z1. cplx. unfold Cdiv. f_equal. cbn [nsub nmR]. change (RtoC (n1 nmR - c)) with (RtoC (1 - c)). ring.
  Qed.
  Lemma frun_dc c x1 y1 t : frun (FDc c x1 y1) x (S t) = FDc c (x t) (fout (FDc c x1 y1) x t).
  Proof.
    assert (H : exists u v, frun (FDc c x1 y1) x t = FDc c u v). { induction t as [|t (u & v & IH)]; [now exists x1, y1|]. rewrite frun_S, IH. cbn. eauto. }
    destruct H as (u & v & E). rewrite frun_S. unfold fout. rewrite E. reflexivity.
  Qed.
  Lemma dc_settles c x1 y1 : Rabs c < 1 -> goal (FDc c x1 y1).
  Proof.
    intros Hc. apply (order1_settles _ c 1 (-1) Hc).
    - intros t. unfold fout at 1. rewrite frun_dc. cbn. unfold dc_step. cbn. ring.
    - cbn [filt_response]. rewrite polar_z1. cplx. unfold Cdiv. f_equal. change (RtoC (n1 nmR)) with (RtoC 1). apply injective_projections; cbn; ring.
  Qed.
  Lemma frun_high c x1 y1 t : frun (FHigh c x1 y1) x (S t) = FHigh c (x t) (fout (FHigh c x1 y1) x t).
  Proof.
    assert (H : exists u v, frun (FHigh c x1 y1) x t = FHigh c u v). { induction t as [|t (u & v & IH)]; [now exists x1, y1|]. rewrite frun_S, IH. cbn. eauto. }
    destruct H as (u & v & E). rewrite frun_S. unfold fout. rewrite E. reflexivity.
  Qed.
  Lemma high_settles c x1 y1 : Rabs c < 1 -> goal (FHigh c x1 y1).
  Proof.
    intros Hc. apply (order1_settles _ c c (- c) Hc).
    - intros t. unfold fout at 1. rewrite frun_high. cbn. unfold high_step. cbn. ring.
    - cbn [filt_response]. rewrite polar_z1. cplx. unfold Cdiv. f_equal. change (RtoC (n1 nmR)) with (RtoC 1). rewrite RtoC_opp. ring.
  Qed.
  Lemma frun_all c x1 y1 t : frun (FAll c x1 y1) x (S t) = FAll c (x t) (fout (FAll c x1 y1) x t).
  Proof.
    assert (H : exists u v, frun (FAll c x1 y1) x t = FAll c u v). { induction t as [|t (u & v & IH)]; [now exists x1, y1|]. rewrite frun_S, IH. cbn. eauto. }
    destruct H as (u & v & E). rewrite frun_S. unfold fout. rewrite E. reflexivity.
  Qed.
  Lemma all_settles c x1 y1 : Rabs c < 1 -> goal (FAll c x1 y1).
  Proof.
    intros Hc. apply (order1_settles _ (- c) c 1).
    - now rewrite Rabs_Ropp.
    - intros t. unfold fout at 1. rewrite frun_all. cbn. unfold all_step. cbn. ring.
    - cbn [filt_response]. rewrite polar_z1. cplx. unfold Cdiv. f_equal; [ring|]. f_equal. change (RtoC (n1 nmR)) with (RtoC 1). rewrite RtoC_opp. ring.
  Qed.

  (* the pinking filter: six one-pole filters, the previous sample and the sample *)
  Definition pinks s t : pink R := match frun (FPink s) x t with FPink s' => s' | _ => s end.
  Lemma frun_pink s t : frun (FPink s) x t = FPink (pinks s t) /\ pinks s (S t) = fst (pink_step nmR (pinks s t) (x t)).
  Proof.
    assert (H : exists s', frun (FPink s) x t = FPink s'). { induction t as [|t [s' IH]]; [now exists s|]. rewrite frun_S, IH. cbn. eauto. }
    destruct H as [s' E]. unfold pinks. rewrite frun_S, E. split; [reflexivity|]. cbn [filt_step]. destruct (pink_step nmR s' (x t)); reflexivity.
  Qed.
  Notation dec p q := (IZR p / IZR q).
  Lemma pole_settles c b v : Rabs c < 1 -> (forall t, v (S t) = c * v t + x t * b) -> settles w (h * (RtoC b / (1 - RtoC c * z1)))%C (fun t => v (S t)).
  Proof.
    intros Hc Hr. eapply settles_to; [|apply (order1 c b 0 w h x (fun t => v (S t)) 0 Hc); [|exact Hx]].
    - cbn. f_equal. fold z1. unfold Cdiv. f_equal. ring.
    - intros t _. rewrite (Hr (S t)). ring.
  Qed.
  Lemma pink_settles s : goal (FPink s).
  Proof.
    set (v := pinks s).
    assert (Hv : forall t, v (S t) = fst (pink_step nmR (v t) (x t))) by (intros; apply frun_pink).
    assert (Ho : forall t, fout (FPink s) x t = (((((((k0 (v (S t)) + k1 (v (S t))) + k2 (v (S t))) + k3 (v (S t))) + k4 (v (S t))) + k5 (v (S t))) + k6 (v t)) + x t * dec 5362 10000) * dec 115830421 1000000000).
    { intros t. unfold fout. rewrite (proj1 (frun_pink s t)), Hv. reflexivity. }
    assert (P0 := pole_settles (dec 99886 100000) (dec 555179 10000000) (fun t => k0 (v t))). assert (P1 := pole_settles (dec 99332 100000) (dec 750759 10000000) (fun t => k1 (v t))).
    assert (P2 := pole_settles (dec 96900 100000) (dec 1538520 10000000) (fun t => k2 (v t))). assert (P3 := pole_settles (dec 86650 100000) (dec 3104856 10000000) (fun t => k3 (v t))).
    assert (P4 := pole_settles (dec 55000 100000) (dec 5329522 10000000) (fun t => k4 (v t))). assert (P5 := pole_settles (- dec 7616 10000) (- dec 168980 10000000) (fun t => k5 (v t))).
    specialize (P0 ltac:(apply Rabs_def1; lra) ltac:(intros; cbv beta; rewrite Hv; reflexivity)). specialize (P1 ltac:(apply Rabs_def1; lra) ltac:(intros; cbv beta; rewrite Hv; reflexivity)).
    specialize (P2 ltac:(apply Rabs_def1; lra) ltac:(intros; cbv beta; rewrite Hv; reflexivity)). specialize (P3 ltac:(apply Rabs_def1; lra) ltac:(intros; cbv beta; rewrite Hv; reflexivity)).
    specialize (P4 ltac:(apply Rabs_def1; lra) ltac:(intros; cbv beta; rewrite Hv; reflexivity)).
    specialize (P5 ltac:(apply Rabs_def1; lra) ltac:(intros; cbv beta; rewrite Hv; cbn; ring)).
    assert (P6 : settles w (h * (RtoC (dec 115926 1000000) * z1))%C (fun t => k6 (v t))).
    { eapply settles_to; [|apply (settles_delay 1 w (RtoC (dec 115926 1000000) * h)%C (fun t => dec 115926 1000000 * x t)); [|apply settles_scale, Hx]].
      - cbn [INR]. replace (1 * - w) with (- w) by ring. fold z1. ring.
      - intros t. cbn [Nat.add]. rewrite Hv. cbn. ring. }
    assert (P7 : settles w (h * RtoC (dec 5362 10000))%C (fun t => x t * dec 5362 10000)).
    { eapply settles_to; [|eapply settles_ext; [|apply (settles_scale w (dec 5362 10000) _ _ Hx)]]; [ring|]. intros; cbn; ring. }
    assert (P := settles_plus _ _ _ _ _ (settles_plus _ _ _ _ _ (settles_plus _ _ _ _ _ (settles_plus _ _ _ _ _ (settles_plus _ _ _ _ _ (settles_plus _ _ _ _ _ (settles_plus _ _ _ _ _ P0 P1) P2) P3) P4) P5) P6) P7).
    apply (settles_scale w (dec 115830421 1000000000)) in P.
    eapply settles_to; [|eapply settles_ext; [|exact P]].
    - cbn [filt_response]. rewrite polar_z1. cplx. change (RtoC (n1 nmR)) with (RtoC 1). cbn [nneg ndiv nofZ nmR].
      replace (1 + RtoC (dec 7616 10000) * z1)%C with (1 - RtoC (- dec 7616 10000) * z1)%C by (rewrite RtoC_opp; ring).
      replace (- dec 16898 1000000) with (- dec 168980 10000000) by lra. unfold Cdiv. ring.
    - intros t. cbv beta. rewrite Ho. ring.
  Qed.

  (* the follower: three one-pole filters in a row; the coefficient of the first sample may be different *)
  Definition follows s t : @follow R := match frun (FFollow s) x t with FFollow s' => s' | _ => s end.
  Lemma frun_follow s t : frun (FFollow s) x t = FFollow (follows s t) /\ follows s (S t) = fo_tick nmR (follows s t) (x t).
  Proof.
    assert (H : exists s', frun (FFollow s) x t = FFollow s'). { induction t as [|t [s' IH]]; [now exists s|]. rewrite frun_S, IH. cbn. eauto. }
    destruct H as [s' E]. unfold follows. rewrite frun_S, E. split; reflexivity.
  Qed.
  Lemma follow_pole c g y v : Rabs (1 - c) < 1 -> (forall t, v (S (S t)) = c * y (S t) + (1 - c) * v (S t)) -> settles w g y ->
    settles w (g * (RtoC (1 - (1 - c)) / (1 - RtoC (1 - c) * z1)))%C (fun t => v (S t)).
  Proof.
    intros Hc Hr Hy. eapply settles_to; [|apply (order1 (1 - c) c 0 w g y (fun t => v (S t)) 0 Hc); [|exact Hy]].
    - cbn. f_equal. fold z1. replace (1 - (1 - c)) with c by ring. unfold Cdiv. f_equal. ring.
    - intros t _. rewrite (Hr t). ring.
  Qed.
  Lemma follow_settles s : 0 < fo_coeff s < 2 -> goal (FFollow s).
  Proof.
    intros Hc. set (c := fo_coeff s) in *. set (v := follows s).
    assert (Hv : forall t, v (S t) = fo_tick nmR (v t) (x t)) by (intros; apply frun_follow).
    assert (Hk : forall t, fo_coeff (v t) = c). { intros t. induction t as [|t IH]; [reflexivity|]. rewrite Hv. exact IH. }
    assert (Hn : forall t, fo_coeff_now (v (S t)) = c). { intros t. rewrite Hv. cbn. apply Hk. }
    assert (Hs : Rabs (1 - c) < 1) by (apply Rabs_def1; lra).
    assert (P1 : settles w (h * (RtoC (1 - (1 - c)) / (1 - RtoC (1 - c) * z1)))%C (fun t => fo_v1 (v (S t)))).
    { apply (follow_pole c h x (fun t => fo_v1 (v t)) Hs); auto. intros t. rewrite (Hv (S t)). cbn. rewrite Hn. reflexivity. }
    assert (P2 : settles w (h * (RtoC (1 - (1 - c)) / (1 - RtoC (1 - c) * z1)) * (RtoC (1 - (1 - c)) / (1 - RtoC (1 - c) * z1)))%C (fun t => fo_v2 (v (S t)))).
    { apply (follow_pole c _ (fun t => fo_v1 (v (S t))) (fun t => fo_v2 (v t)) Hs); auto. intros t. rewrite (Hv (S t)). cbn. rewrite Hn. reflexivity. }
    assert (P3 : settles w (h * (RtoC (1 - (1 - c)) / (1 - RtoC (1 - c) * z1)) * (RtoC (1 - (1 - c)) / (1 - RtoC (1 - c) * z1)) * (RtoC (1 - (1 - c)) / (1 - RtoC (1 - c) * z1)))%C (fun t => fo_v3 (v (S t)))).
    { apply (follow_pole c _ (fun t => fo_v2 (v (S t))) (fun t => fo_v3 (v t)) Hs); auto. intros t. rewrite (Hv (S t)). cbn. rewrite Hn. reflexivity. }
    eapply settles_to; [|eapply settles_ext; [|exact P3]].
    - cbn [filt_response]. rewrite polar_z1. cplx. fold c.
      change (nsub nmR) with Rminus. ring.
    - intros t. unfold fout. rewrite (proj1 (frun_follow s t)). cbn [filt_step snd]. fold v. now rewrite <- Hv.
  Qed.

  (* second order filters *)
  Lemma order2_settles f a1 a2 b0 b1 b2 : stable2 a1 a2 ->
    (forall t, fout f x (S (S t)) = - a1 * fout f x (S t) - a2 * fout f x t + (b0 * x (S (S t)) + b1 * x (S t) + b2 * x t)) ->
    filt_response nmR elR f sr freq = ((RtoC b0 + RtoC b1 * z1 + RtoC b2 * z1 * z1) / (1 + RtoC a1 * z1 + RtoC a2 * z1 * z1))%C -> goal f.
  Proof. intros Hc Hr E. eapply settles_to; [|exact (order2 a1 a2 b0 b1 b2 w h x (fout f x) 0 Hc (fun t _ => Hr t) Hx)]. now rewrite E. Qed.
  Lemma frun_biquad c x1 x2 y1 y2 t : let f := FBiquad (mkBiquad c x1 x2 y1 y2) in frun f x (S (S t)) = FBiquad (mkBiquad c (x (S t)) (x t) (fout f x (S t)) (fout f x t)).
  Proof.
    intros f. assert (H : forall t, exists u v p q, frun f x t = FBiquad (mkBiquad c u v p q)).
    { clear t. intros t. induction t as [|t (u & v & p & q & IH)]; [repeat eexists|]. rewrite frun_S, IH. cbn. repeat eexists. }
    destruct (H t) as (u & v & p & q & E). unfold fout. rewrite !frun_S, E. reflexivity.
  Qed.
  Lemma biquad_settles s : stable2 (bi_a1 (bq_c s)) (bi_a2 (bq_c s)) -> goal (FBiquad s).
  Proof.
    destruct s as [c x1 x2 y1 y2]. cbn [bq_c]. intros Hs. apply (order2_settles _ (bi_a1 c) (bi_a2 c) (bi_b0 c) (bi_b1 c) (bi_b2 c) Hs).
    - intros t. unfold fout at 1. rewrite frun_biquad. cbn. ring.
    - cbn [filt_response bq_c]. unfold bi_response. cplx. change (RtoC (n1 nmR)) with (RtoC 1).
      replace (nneg nmR (tau nmR elR)) with (- tau nmR elR) by reflexivity. replace (nmul nmR (- tau nmR elR) (ndiv nmR freq sr)) with (- w) by (rewrite <- angle_eq'; cbn; unfold Rdiv; ring).
      fold z1. unfold Cdiv. f_equal; [ring|]. f_equal. ring.
  Qed.

  (* the state variable filter *)
  Definition svfs s t : svf R := match frun (FSvf s) x t with FSvf s' => s' | _ => s end.
  Lemma frun_svf s t : frun (FSvf s) x t = FSvf (svfs s t) /\ svfs s (S t) = fst (svf_step nmR (svfs s t) (x t)) /\ vf_c (svfs s t) = vf_c s.
  Proof.
    assert (H : exists s', frun (FSvf s) x t = FSvf s' /\ vf_c s' = vf_c s).
    { induction t as [|t (s' & IH & Ec)]; [now exists s|]. rewrite frun_S, IH. cbn. eexists. split; [reflexivity|]. exact Ec. }
    destruct H as (s' & E & Ec). unfold svfs. rewrite frun_S, E. split; [reflexivity|]. split; auto.
  Qed.
  Definition sv_tr (c : svcoefs R) : R := 2 * sv_a1 c - 2 * sv_a3 c.
  Definition sv_det (c : svcoefs R) : R := (2 * sv_a1 c - 1) * (1 - 2 * sv_a3 c) + 4 * sv_a2 c * sv_a2 c.
  Definition sv_b0 (c : svcoefs R) : R := sv_m0 c + sv_m1 c * sv_a2 c + sv_m2 c * sv_a3 c.
  Definition sv_c1 (c : svcoefs R) : R := sv_m1 c * sv_a1 c + sv_m2 c * sv_a2 c.
  Definition sv_c2 (c : svcoefs R) : R := sv_m2 c * (1 - sv_a3 c) - sv_m1 c * sv_a2 c.
  Definition sv_cb (c : svcoefs R) : R := sv_c1 c * (2 * sv_a2 c) + sv_c2 c * (2 * sv_a3 c).
  Definition sv_cab (c : svcoefs R) : R :=
    sv_c1 c * ((2 * sv_a1 c - 1) * (2 * sv_a2 c) - 2 * sv_a2 c * (2 * sv_a3 c)) + sv_c2 c * (2 * sv_a2 c * (2 * sv_a2 c) + (1 - 2 * sv_a3 c) * (2 * sv_a3 c)).
  Definition sv_b1 (c : svcoefs R) : R := sv_cb c - sv_tr c * sv_b0 c.
  Definition sv_b2 (c : svcoefs R) : R := sv_cab c - sv_tr c * sv_cb c + sv_det c * sv_b0 c.
  Lemma svf_recurrence s t : let c := vf_c s in let y := fout (FSvf s) x in
    y (S (S t)) = - (- sv_tr c) * y (S t) - sv_det c * y t + (sv_b0 c * x (S (S t)) + sv_b1 c * x (S t) + sv_b2 c * x t).
  Proof.
    intros c y. assert (Hy : forall t, y t = snd (svf_step nmR (svfs s t) (x t))) by (intros k; unfold y, fout; rewrite (proj1 (frun_svf s k)); reflexivity).
    assert (Hv : forall t, svfs s (S t) = fst (svf_step nmR (svfs s t) (x t))) by (intros k; apply frun_svf).
    assert (Hc : vf_c (svfs s t) = c) by apply frun_svf. rewrite !Hy, !Hv. destruct (svfs s t) as [m p c' i1 i2]. cbn [vf_c] in Hc. subst c'.
    unfold sv_b2, sv_b1, sv_cab, sv_cb, sv_b0, sv_c1, sv_c2, sv_tr, sv_det. destruct c as [a1 a2 a3 m0 m1 m2]. cbn. ring.
  Qed.
  Lemma svf_settles s : stable2 (- sv_tr (vf_c s)) (sv_det (vf_c s)) ->
    settles w (Cmult h ((RtoC (sv_b0 (vf_c s)) + RtoC (sv_b1 (vf_c s)) * z1 + RtoC (sv_b2 (vf_c s)) * z1 * z1) / (1 + RtoC (- sv_tr (vf_c s)) * z1 + RtoC (sv_det (vf_c s)) * z1 * z1))%C) (fout (FSvf s) x).
  Proof. intros Hs. exact (order2 _ _ _ _ _ w h x (fout (FSvf s) x) 0 Hs (fun t _ => svf_recurrence s t) Hx). Qed.

  (* delay lines *)
  Lemma delay_out l n : length (l_buf l) = S n -> (l_i l < S n)%nat -> forall t, fout (FDelay l n) x (n + t)%nat = x t.
  Proof.
    intros Hl Hi.
    set (hist := map (fun j => nth ((l_i l + (S n - 1 - j)) mod S n) (l_buf l) 0) (seq 0 (S n))).
    assert (H0 : holds 0 (S n) (l_buf l) (l_i l) hist).
    { split; auto. split; auto. intros j Hj. unfold hist. rewrite nth_map_seq by auto. reflexivity. }
    assert (H : forall t, exists l', frun (FDelay l n) x t = FDelay l' n /\ holds 0 (S n) (l_buf l') (l_i l') (map x (rev (seq 0 t)) ++ hist)).
    { intros t. induction t as [|t (l' & E & Hh)]; [exists l; auto|]. rewrite frun_S, E. cbn [filt_step].
      pose proof (delay_tick_ok 0 (S n) l' _ (x t) Hh) as T. change (n0 nmR) with 0. destruct (delay_tick 0 l' [x t]) as [l2 o]. destruct T as [T1 T2].
      exists l2. split; [reflexivity|]. rewrite seq_S, rev_app_distr. exact T1. }
    intros t. destruct (H (n + t)%nat) as (l' & E & Hh). unfold fout. rewrite E. cbn [filt_step].
      pose proof (delay_tick_ok 0 (S n) l' _ (x (n + t)%nat) Hh) as T. change (n0 nmR) with 0. destruct (delay_tick 0 l' [x (n + t)%nat]) as [l2 o]. destruct T as [T1 T2].
      subst o. cbn [snd]. change (nth 0 [nth (S n - 1) (x (n + t)%nat :: map x (rev (seq 0 (n + t))) ++ hist) 0] 0) with (nth (S n - 1) (x (n + t)%nat :: map x (rev (seq 0 (n + t))) ++ hist) 0).
      replace (S n - 1)%nat with n by lia.
      replace (x (n + t)%nat :: map x (rev (seq 0 (n + t))) ++ hist) with (map x (rev (seq 0 (S (n + t)))) ++ hist) by (rewrite seq_S, rev_app_distr; reflexivity).
      rewrite app_nth1 by (rewrite map_length, rev_length, seq_length; lia).
      rewrite (nth_indep _ 0 (x 0%nat)) by (rewrite map_length, rev_length, seq_length; lia). rewrite map_nth, rev_nth by (rewrite seq_length; lia).
      rewrite seq_length, seq_nth by lia. f_equal. lia.
  Qed.
  Lemma delay_settles l n : length (l_buf l) = S n -> (l_i l < S n)%nat -> goal (FDelay l n).
  Proof.
    intros Hl Hi.
    eapply settles_to; [|apply (settles_delay n w h x (fout (FDelay l n) x)); [|exact Hx]].
    - cbn [filt_response]. rewrite polar_eq. f_equal. f_equal. unfold ofnat. cbn. rewrite <- INR_IZR_INZ. unfold w, radians, tau. cbn. unfold Rdiv. ring.
    - apply delay_out; auto.
  Qed.

  (* FIR filters *)
  Fixpoint Csum (n : nat) (f : nat -> C) : C := match n with O => RtoC 0 | S k => (Csum k f + f k)%C end.
  Lemma settles_sigma n g f : (forall i, (i < n)%nat -> settles w (g i) (f i)) -> settles w (Csum n g) (fun t => sigma n (fun i => f i t)).
  Proof.
    induction n as [|n IH]; intros H; [exact (settles_const w 0)|]. cbn [Csum sigma].
    exact (settles_plus _ _ _ _ _ (IH (fun i Hi => H i (Nat.lt_lt_succ_r _ _ Hi))) (H n (Nat.lt_succ_diag_r n))).
  Qed.
  Lemma fir_state ws v t : exists v', frun (FFir (mkFir ws v)) x t = FFir (mkFir ws v') /\
    forall i, (i < length ws)%nat -> (length ws <= t + i)%nat -> nth i v' 0 = x (t + i - length ws)%nat.
  Proof.
    induction t as [|t (v' & E & H)]; [exists v; split; [reflexivity|intros; lia]|]. rewrite frun_S, E. cbn [filt_step fir_tick f_w f_v fst snd].
    eexists. split; [reflexivity|]. intros i Hi Ht. rewrite nth_map_seq by auto. destruct (Nat.ltb_spec (i + 1) (length ws)) as [G|G].
    - change (n0 nmR) with 0. rewrite H by lia. f_equal. lia.
    - cbn [nth]. f_equal. lia.
  Qed.
  Lemma fir_out ws v t : (length ws <= t)%nat -> fout (FFir (mkFir ws v)) x t = sigma (length ws) (fun i => nth i ws 0 * x (t - (length ws - 1 - i))%nat).
  Proof.
    intros Ht. destruct (fir_state ws v t) as (v' & E & H). unfold fout. rewrite E. cbn [filt_step fir_tick f_w f_v fst snd nth].
    rewrite dot_sigma, map_length, seq_length, Nat.min_id. apply sigma_ext. intros i Hi. f_equal. rewrite nth_map_seq by auto.
    destruct (Nat.ltb_spec (i + 1) (length ws)) as [G|G].
    - change (n0 nmR) with 0. rewrite H by lia. f_equal. lia.
    - f_equal. lia.
  Qed.
  Lemma Csum_ext n f g : (forall i, (i < n)%nat -> f i = g i) -> Csum n f = Csum n g.
  Proof. induction n as [|n IH]; intros H; cbn; auto. rewrite IH, H by auto. reflexivity. Qed.
  Lemma Csum_scale n c f : (c * Csum n f)%C = Csum n (fun i => c * f i)%C.
  Proof. induction n as [|n IH]; cbn; [ring|]. rewrite <- IH. ring. Qed.
  Lemma fir_settles s : goal (FFir s).
  Proof.
    destruct s as [ws v]. set (n := length ws).
    assert (P : settles w (Csum n (fun i => RtoC (nth (n - 1 - i) ws 0) * (h * cis (INR i * - w)))%C) (fun t => sigma n (fun i => nth (n - 1 - i) ws 0 * x (t - i)%nat))).
    { apply settles_sigma. intros i Hi. apply settles_scale. apply (settles_delay i w h x); auto. intros t. f_equal. lia. }
    eapply settles_to; [|eapply (settles_late w _ _ _ n); [|exact P]].
    - cbn [filt_response f_w]. fold n. rewrite polar_eq. replace (ndiv nmR (nmul nmR (nneg nmR (tau nmR elR)) freq) sr) with (- w) by (rewrite <- angle_eq'; reflexivity). fold z1.
      change (n0 nmR) with 0.
      assert (F : forall m, fold_left (fun acc i => (cadd nmR (fst acc) (cmul nmR (cre nmR (nth (n - 1 - i) ws 0)) (snd acc)), cmul nmR (snd acc) z1)) (seq 0 m) ((0, 0), cre nmR (n1 nmR)) =
        (Csum m (fun i => RtoC (nth (n - 1 - i) ws 0) * cis (INR i * - w))%C, cis (INR m * - w))).
      { intros m. induction m as [|m IH]. { cbn [seq fold_left Csum INR]. rewrite Rmult_0_l, cis_0. reflexivity. }
        rewrite seq_S, fold_left_app, IH. cbn [fold_left fst snd Nat.add Csum]. f_equal.
        rewrite S_INR, Rmult_plus_distr_r, Rmult_1_l, cis_add. reflexivity. }
      rewrite F. cbn [fst]. rewrite Csum_scale. apply Csum_ext. intros i Hi. ring.
    - intros t Ht. rewrite fir_out by auto. fold n. cbv beta. rewrite <- (sigma_rev n). apply sigma_ext. intros i Hi.
      do 2 f_equal. lia.
  Qed.
End One.

(* ---- the transfer function of the state variable filter ---- *)
Section Svf.
  Variables g k : R.
  Hypothesis Hg : 0 < g.
  Hypothesis Hk : 0 < k.
  Notation D := (1 + g * (g + k)).
  Lemma D_pos : 1 < D. Proof. nra. Qed.
  Lemma sv_tr_eq m0 m1 m2 : sv_tr (sv_with nmR g k m0 m1 m2) = 2 * (1 - g * g) / D.
  Proof. unfold sv_tr, sv_with. cbn. pose proof D_pos. field. lra. Qed.
  Lemma sv_det_eq m0 m1 m2 : sv_det (sv_with nmR g k m0 m1 m2) = (1 + g * g - g * k) / D.
  Proof. unfold sv_det, sv_with. cbn. pose proof D_pos. field. lra. Qed.
  Lemma sv_stable m0 m1 m2 : stable2 (- sv_tr (sv_with nmR g k m0 m1 m2)) (sv_det (sv_with nmR g k m0 m1 m2)).
  Proof.
    rewrite sv_tr_eq, sv_det_eq. pose proof D_pos as HD. assert (0 < g * k) by nra. assert (0 < g * g) by nra. split; rewrite ?Rabs_Ropp; apply Rabs_def1.
    - apply (Rmult_lt_reg_r D); [lra|]. field_simplify; lra.
    - apply (Rmult_lt_reg_r D); [lra|]. field_simplify; lra.
    - apply (Rmult_lt_reg_r D); [lra|]. field_simplify; lra.
    - apply (Rmult_lt_reg_r D); [lra|]. field_simplify; lra.
  Qed.
  Definition sv_den (z : C) : C := ((z - 1) * (z - 1) + RtoC g * RtoC g * (1 + z) * (1 + z) + RtoC g * RtoC k * (z * z - 1))%C.
  Lemma sv_den_neq z : Cmod z = 1 -> sv_den z <> RtoC 0.
  Proof.
    intros Hz. assert (Hn : z <> RtoC 0) by (intros ->; rewrite Cmod_0 in Hz; lra).
    assert (Hi : Cmod (/ z)%C = 1) by (rewrite Cmod_inv by auto; rewrite Hz; field).
    pose proof (den2 _ _ _ (sv_stable 0 0 0) Hi) as H. rewrite sv_tr_eq, sv_det_eq in H. pose proof D_pos as HD.
    intros E. apply H. clear H.
    assert (HDC : RtoC D <> RtoC 0) by (intros HH; apply RtoC_inj in HH; lra).
    transitivity (sv_den z / (RtoC D * (z * z)))%C; [|rewrite E; field; auto].
    unfold sv_den. rewrite RtoC_opp, !RtoC_div by lra. repeat rewrite ?RtoC_plus, ?RtoC_minus, ?RtoC_mult in *. rewrite RtoC_2. field. auto.
  Qed.
  Lemma sv_transfer m0 m1 m2 z : Cmod z = 1 -> let c := sv_with nmR g k m0 m1 m2 in let z1 := (/ z)%C in
    ((RtoC (sv_b0 c) + RtoC (sv_b1 c) * z1 + RtoC (sv_b2 c) * z1 * z1) / (1 + RtoC (- sv_tr c) * z1 + RtoC (sv_det c) * z1 * z1) =
     (RtoC m0 * sv_den z + RtoC m1 * (RtoC g * (z * z - 1)) + RtoC m2 * (RtoC g * RtoC g * (1 + z) * (1 + z))) / sv_den z)%C.
  Proof.
    intros Hz c z1. pose proof D_pos as HD. assert (Hn : z <> RtoC 0) by (intros E; rewrite E, Cmod_0 in Hz; lra).
    assert (E0 : sv_b0 c = (m0 * D + m1 * g + m2 * (g * g)) / D) by (unfold c, sv_b0, sv_with; cbn; field; lra).
    assert (E1 : sv_b1 c = (m0 * (2 * (g * g) - 2) + 2 * m2 * (g * g)) / D) by (unfold c, sv_b1, sv_cb, sv_tr, sv_b0, sv_c1, sv_c2, sv_with; cbn; field; lra).
    assert (E2 : sv_b2 c = (m0 * (1 + g * g - g * k) - m1 * g + m2 * (g * g)) / D) by (unfold c, sv_b2, sv_cab, sv_cb, sv_tr, sv_det, sv_b0, sv_c1, sv_c2, sv_with; cbn; field; lra).
    rewrite E0, E1, E2. unfold c. rewrite sv_tr_eq, sv_det_eq. pose proof (sv_den_neq z Hz) as Hd.
    assert (HDC : RtoC D <> RtoC 0) by (intros HH; apply RtoC_inj in HH; lra).
    set (num := (RtoC m0 * sv_den z + RtoC m1 * (RtoC g * (z * z - 1)) + RtoC m2 * (RtoC g * RtoC g * (1 + z) * (1 + z)))%C).
    transitivity ((num / (RtoC D * (z * z))) / (sv_den z / (RtoC D * (z * z))))%C; [|field; auto].
    assert (Eq : forall a b c d : C, a = b -> c = d -> (a / c = b / d)%C) by (intros; subst; reflexivity).
    apply Eq; unfold z1, num, sv_den; rewrite ?RtoC_opp, !RtoC_div by lra;
      repeat rewrite ?RtoC_plus, ?RtoC_minus, ?RtoC_mult in *; rewrite ?RtoC_2; field; auto.
  Qed.
End Svf.

Lemma cis_inv a : cis (- a) = (/ cis a)%C.
Proof.
  pose proof (cis_neg a) as H. pose proof (cis_neq a) as Hn. rewrite <- (Cmult_1_r (cis (- a))). rewrite <- (Cinv_r _ Hn), Cmult_assoc, H. ring.
Qed.
Lemma RtoC_neq a : a <> 0 -> RtoC a <> RtoC 0.
Proof. intros H E. apply RtoC_inj in E. contradiction. Qed.
Lemma g_pos p : params_ok p -> 0 < tan (PI * sp_cutoff p / sp_sr p).
Proof.
  intros (H1 & _ & _). assert (0 < sp_sr p) by lra. pose proof PI_RGT_0. apply tan_gt_0.
  - apply Rdiv_lt_0_compat; nra.
  - apply (Rmult_lt_reg_r (sp_sr p)); auto. unfold Rdiv. rewrite Rmult_assoc, Rinv_l by lra. nra.
Qed.
(* the response as the model computes it, in Coquelicot's complex numbers *)
Ltac modes := cbv beta iota zeta delta [sv_response]; cbn [e_tan e_pi e_sqrt elR nmul ndiv nneg nmR nofZ]; cplx; change (nofZ nmR) with IZR; cbn [nneg nmR].
Definition sv_shape (m : svmode) (p : svparams R) : R * R * R * R * R :=
  let g := tan (PI * sp_cutoff p / sp_sr p) in let k := 1 / sp_q p in let a := sqrt (sp_gain p) in
  match m with
  | MLowpass => (g, k, 0, 0, 1)
  | MHighpass => (g, k, 1, - k, Ropp 1)
  | MBandpass => (g, k, 0, 1, 0)
  | MNotch => (g, k, 1, - k, 0)
  | MPeak => (g, k, 1, - k, IZR (-2))
  | MAllpass => (g, k, 1, IZR (-2) * k, 0)
  | MBell => let k := 1 / (sp_q p * a) in (g, k, 1, k * (a * a - 1), 0)
  | MLowshelf => (g / sqrt a, k, 1, k * (a - 1), a * a - 1)
  | MHighshelf => (g * sqrt a, k, a * a, k * (1 - a) * a, 1 - a * a)
  end.
Lemma sv_coefs_shape m p : sv_coefs nmR elR m p = let '(g, k, m0, m1, m2) := sv_shape m p in sv_with nmR g k m0 m1 m2.
Proof. destruct m; reflexivity. Qed.
Lemma sv_shape_pos m p : params_ok p -> let '(g, k, _, _, _) := sv_shape m p in 0 < g /\ 0 < k.
Proof.
  intros Hp. pose proof (g_pos p Hp) as Hg. destruct Hp as (_ & Hq & Ha). assert (Hk : 0 < 1 / sp_q p) by (apply Rdiv_lt_0_compat; lra).
  assert (Hs : 0 < sqrt (sp_gain p)) by (apply sqrt_lt_R0; auto). assert (Hss : 0 < sqrt (sqrt (sp_gain p))) by (apply sqrt_lt_R0; auto).
  destruct m; cbn [sv_shape]; split; auto.
  - apply Rdiv_lt_0_compat; [lra|]. apply Rmult_lt_0_compat; auto.
  - apply Rdiv_lt_0_compat; auto.
  - apply Rmult_lt_0_compat; auto.
Qed.
Lemma quotients (a b c d : C) : a = b -> c = d -> (a / c = b / d)%C.
Proof. intros; subst; reflexivity. Qed.
Lemma scaled_quotient c d n : c <> 0 -> d <> RtoC 0 -> (n / d = (RtoC c * n) / (RtoC c * d))%C.
Proof. intros Hc Hd. apply RtoC_neq in Hc. field. auto. Qed.
Lemma sv_mode_response m p z : params_ok p -> Cmod z = 1 -> let '(g, k, m0, m1, m2) := sv_shape m p in
  @eq C (sv_response nmR elR m p z) ((RtoC m0 * sv_den g k z + RtoC m1 * (RtoC g * (z * z - 1)) + RtoC m2 * (RtoC g * RtoC g * (1 + z) * (1 + z))) / sv_den g k z)%C.
Proof.
  intros Hp Hz. pose proof (sv_shape_pos m p Hp) as Hpos. pose proof (g_pos p Hp) as Hg. destruct Hp as (_ & Hq & Ha).
  assert (Hs : 0 < sqrt (sp_gain p)) by (apply sqrt_lt_R0; auto). assert (Hss : 0 < sqrt (sqrt (sp_gain p))) by (apply sqrt_lt_R0; auto).
  assert (Hsq : sqrt (sqrt (sp_gain p)) * sqrt (sqrt (sp_gain p)) = sqrt (sp_gain p)) by (apply sqrt_sqrt; lra).
  destruct (sv_shape m p) as [[[[g k] m0] m1] m2] eqn:E. destruct Hpos as [Pg Pk]. pose proof (sv_den_neq g k Pg Pk z Hz) as Hd.
  unfold sv_response. cbn [e_tan e_pi e_sqrt elR]. change (nmul nmR) with Rmult. change (ndiv nmR) with Rdiv. change (nneg nmR) with Ropp. cplx.
  destruct m; cbn [sv_shape] in E; set (G := tan (PI * sp_cutoff p / sp_sr p)) in *; set (q := sp_q p) in *; set (a := sqrt (sp_gain p)) in *; set (s := sqrt a) in *;
    assert (g = fst (fst (fst (fst (g, k, m0, m1, m2))))) as Eg by reflexivity; assert (k = snd (fst (fst (fst (g, k, m0, m1, m2))))) as Ek by reflexivity;
    assert (m0 = snd (fst (fst (g, k, m0, m1, m2)))) as E0 by reflexivity; assert (m1 = snd (fst (g, k, m0, m1, m2))) as E1 by reflexivity; assert (m2 = snd (g, k, m0, m1, m2)) as E2 by reflexivity;
    rewrite <- E in Eg, Ek, E0, E1, E2; cbn [fst snd] in Eg, Ek, E0, E1, E2; clear E; clearbody G q a s; change (@eq (R * R)) with (@eq C).
  - rewrite Eg, Ek, E0, E1, E2 in *. unfold sv_den in *. field. auto.
  - rewrite Eg, Ek, E0, E1, E2 in *. unfold sv_den in *. rewrite !RtoC_opp. field. auto.
  - rewrite Eg, Ek, E0, E1, E2 in *. unfold sv_den in *. field. auto.
  - rewrite Eg, Ek, E0, E1, E2 in *. unfold sv_den in *. rewrite !RtoC_opp. field. auto.
  - rewrite Eg, Ek, E0, E1, E2 in *. unfold sv_den in *. replace (RtoC (IZR (-2))) with (- (1 + 1))%C by (apply injective_projections; cbn; ring). rewrite !RtoC_opp. field. auto.
  - rewrite Eg, Ek, E0, E1, E2 in *. unfold sv_den in *. rewrite RtoC_mult. replace (RtoC (IZR (-2))) with (- (1 + 1))%C by (apply injective_projections; cbn; ring). field. auto.
  - rewrite Eg, Ek, E0, E1, E2 in *. pose proof (RtoC_neq a ltac:(lra)) as Na. pose proof (RtoC_neq q ltac:(lra)) as Nq.
    rewrite (scaled_quotient a (sv_den G (1 / (q * a)) z)) by (auto; lra). assert (Nqa : q * a <> 0) by nra. apply quotients; unfold sv_den; repeat rewrite ?RtoC_minus, ?RtoC_mult; rewrite ?RtoC_div by (auto; lra); repeat rewrite ?RtoC_mult; field; auto.
  - rewrite Eg, Ek, E0, E1, E2 in *. pose proof (RtoC_neq s ltac:(lra)) as Na. pose proof (RtoC_neq q ltac:(lra)) as Nq.
    rewrite (scaled_quotient (s * s) (sv_den (G / s) (1 / q) z)) by (auto; nra). rewrite <- Hsq. apply quotients; unfold sv_den; repeat rewrite ?RtoC_minus, ?RtoC_mult; rewrite ?RtoC_div by lra; field; auto.
  - rewrite Eg, Ek, E0, E1, E2 in *. pose proof (RtoC_neq s ltac:(lra)) as Na. pose proof (RtoC_neq q ltac:(lra)) as Nq.
    rewrite <- Hsq. apply quotients; unfold sv_den; repeat rewrite ?RtoC_minus, ?RtoC_mult; rewrite ?RtoC_div by lra; field; auto.
Qed.
