(* Oscillators that compute with binary32 numbers. *)
From Coq Require Import Reals Lra Lia Psatz SpecFloat.
From Flocq Require Import Core.Core IEEE754.BinarySingleNaN.
From Verif Require Import HashProofs.
From Verif Require Export OscMore OscFloatSpec EnvStop.
Local Open Scope R_scope.

(* ---- NaN and infinity ---- *)
Notation inf s := (S754_infinity s).
Definition unbounded (x : f32) : Prop := x = S754_nan \/ exists s, x = inf s.
Lemma mul_unbounded s x : unbounded (nmul nm (inf s) x).
Proof. destruct x; [left| right; eexists | left | right; eexists]; reflexivity. Qed.
Lemma add_unbounded x y : unbounded y -> unbounded (nadd nm x y).
Proof. intros [->| [s ->]]; destruct x as [a|a| |a m e]; try (left; reflexivity); try (right; eexists; reflexivity). destruct a, s; try (left; reflexivity); right; eexists; reflexivity. Qed.
Lemma sub_nan x : nsub nm x S754_nan = S754_nan. Proof. destruct x; reflexivity. Qed.
Lemma nan_sub x : nsub nm S754_nan x = S754_nan. Proof. destruct x; reflexivity. Qed.
Lemma mul_nan x : nmul nm x S754_nan = S754_nan. Proof. destruct x; reflexivity. Qed.
Lemma nan_mul x : nmul nm S754_nan x = S754_nan. Proof. destruct x; reflexivity. Qed.
Lemma nan_add x : nadd nm S754_nan x = S754_nan. Proof. destruct x; reflexivity. Qed.
Lemma nan_div x : ndiv nm S754_nan x = S754_nan. Proof. destruct x; reflexivity. Qed.

Lemma dsf_infinite sin_ cos_ pow_ f d r : sin_ S754_nan = S754_nan -> (forall s, sin_ (inf s) = S754_nan) -> dsf nm sin_ cos_ pow_ f d r (inf false) = S754_nan.
Proof.
  intros H1 H2. assert (H : forall x, unbounded x -> sin_ x = S754_nan) by (intros x [->| [s ->]]; auto).
  unfold dsf. change (nadd nm (inf false) (n1 nm)) with (inf false). rewrite (H (nadd nm f (nmul nm (inf false) d))) by (apply add_unbounded, mul_unbounded).
  rewrite nan_sub, mul_nan, sub_nan. apply nan_div.
Qed.
Lemma dsf_nan sin_ cos_ pow_ tau floor_ s rough : sin_ S754_nan = S754_nan -> (forall b, sin_ (inf b) = S754_nan) -> floor_ (inf false) = inf false ->
  (exists m e, ds_spacing s = S754_finite false m e) -> snd (dsf_tick nm sin_ cos_ pow_ tau floor_ s (S754_zero false) rough) = S754_nan.
Proof.
  intros H1 H2 H3 (m & e & Hs). unfold dsf_tick. set (s' := match rough with Some r => set_roughness nm s r | None => s end). replace (ds_spacing s') with (ds_spacing s) by (unfold s'; now destruct rough). rewrite Hs. cbn [snd].
  replace (ndiv nm (ndiv nm (nofZ nm 22050) (S754_zero false)) (S754_finite false m e)) with (inf false) by reflexivity. rewrite H3. now apply dsf_infinite.
Qed.

(* ---- the chaotic oscillators ---- *)
Lemma chaos_run_app tick a b (s : chaos f32) : chaos_run tick s (a ++ b) = chaos_run tick (chaos_run tick s a) b.
Proof. unfold chaos_run. apply fold_left_app. Qed.
Lemma rossler_lost l : forall s, ch_x s = S754_nan -> ch_x (chaos_run (rossler_tick nm) s l) = S754_nan.
Proof. induction l as [|f l IH]; intros s H; [exact H|]. apply IH. unfold rossler_tick, euler. cbn [fst ch_x]. rewrite H. apply nan_add. Qed.
Lemma lorenz_lost l : forall s, ch_x s = S754_nan -> ch_x (chaos_run (lorenz_tick nm) s l) = S754_nan.
Proof. induction l as [|f l IH]; intros s H; [exact H|]. apply IH. unfold lorenz_tick, euler. cbn [fst ch_x]. rewrite H. apply nan_add. Qed.
Lemma rossler_nan l f : snd (rossler_tick nm (chaos_run (rossler_tick nm) rossler_start (repeat (nofZ nm 4000) 24 ++ l)) f) = S754_nan.
Proof.
  rewrite chaos_run_app. set (s := chaos_run _ rossler_start _). assert (E : ch_x s = S754_nan) by (vm_compute; reflexivity).
  pose proof (rossler_lost l s E) as G. generalize dependent (chaos_run (rossler_tick nm) s l). intros t G. unfold rossler_tick, euler. cbn [snd ch_x]. rewrite G, nan_add. apply nan_mul.
Qed.
Lemma lorenz_nan l f : snd (lorenz_tick nm (chaos_run (lorenz_tick nm) rossler_start (repeat (nofZ nm 4000) 24 ++ l)) f) = S754_nan.
Proof.
  rewrite chaos_run_app. set (s := chaos_run _ rossler_start _). assert (E : ch_x s = S754_nan) by (vm_compute; reflexivity).
  pose proof (lorenz_lost l s E) as G. generalize dependent (chaos_run (lorenz_tick nm) s l). intros t G. unfold lorenz_tick, euler. cbn [snd ch_x]. rewrite G, nan_add. apply nan_mul.
Qed.

(* ---- a slow oscillator stands still ---- *)
Lemma is32_fin x : fin32 x -> is32 (real x). Proof. intros H. now exists x. Qed.
Lemma floor_below x : fin32 x -> 0 <= real x < 1 -> nfloor nm x = 0%Z.
Proof.
  intros [F _] [L H]. destruct x as [s|s| |s m e]; try discriminate F; [reflexivity|]. destruct s; [exfalso; unfold real, SF2R, F2R in L; cbn in L; pose proof (bpow_gt_0 radix2 e); pose proof (IZR_lt (Z.neg m) 0 ltac:(lia)); nra|].
  unfold real, SF2R, F2R in H. cbn in H. cbn [nfloor f32_ops sf_ops sf_floor].
  destruct e as [|e|e].
  - exfalso. cbn in H. pose proof (IZR_le 1 (Z.pos m) ltac:(lia)). lra.
  - exfalso. pose proof (IZR_le 1 (Z.pos m) ltac:(lia)). assert (1 <= bpow radix2 (Z.pos e)) by (change 1 with (bpow radix2 0); apply bpow_le; lia). cbn in *. nra.
  - assert (G : IZR (Z.pos m) < IZR (2 ^ Z.pos e)).
    { change (2 ^ Z.pos e)%Z with (Zpower (radix_val radix2) (Z.pos e)). rewrite IZR_Zpower by lia. change (Z.neg e) with (- Z.pos e)%Z in H. rewrite bpow_opp in H. pose proof (bpow_gt_0 radix2 (Z.pos e)).
      apply (Rmult_lt_compat_r (bpow radix2 (Z.pos e))) in H; auto. rewrite Rmult_assoc, Rinv_l in H by lra. lra. }
    apply lt_IZR in G. cbn. try (apply Z.div_small; lia).
Qed.
Lemma add_still p d : fin32 p -> fin32 d -> 1 / 2 <= real p < 1 -> 0 <= real d < / 33554432 -> nadd nm p d = p.
Proof.
  intros Fp Fd Hp Hd. destruct (add32 p d (real p) 2 Fp Fd (is32_fin p Fp) is32_2 ltac:(lra)) as (A1 & A2 & A3).
  apply (real_inj 24 128); auto; [|lra]. apply Rle_antisym; [|lra]. rewrite A2. unfold rnd.
  apply (round_N_le_midp radix2 (SpecFloat.fexp 24 128) (fun z => negb (Z.even z))).
  - apply (real_format 24 128). exact Fp.
  - rewrite succ_eq_pos by lra. assert (U : ulp radix2 (SpecFloat.fexp 24 128) (real p) = / 16777216).
    { rewrite ulp_neq_0 by lra. unfold cexp. rewrite (mag_unique_pos radix2 (real p) 0) by (cbn; lra). reflexivity. }
    rewrite U. lra.
Qed.
Lemma osc_still {V} (tick : osc f32 -> f32 -> osc f32 * V) : (forall s f, fst (tick s f) = advance nm (fun x => x) s f) -> forall l s,
  fin32 (os_phase s) -> 1 / 2 <= real (os_phase s) < 1 -> Forall (slow (os_sd s)) l -> fst (osc_run tick s l) = s.
Proof.
  intros T. induction l as [|f l IH]; intros s Fp Hp Hl; [reflexivity|]. apply Forall_cons_iff in Hl. destruct Hl as [[Ff Hf] Hl].
  cbn [osc_run]. destruct (tick s f) as [s1 y] eqn:E. assert (E1 : s1 = s).
  { replace s1 with (fst (tick s f)) by now rewrite E. rewrite T. unfold advance, osc_at, OscModel.wrap. rewrite add_still by auto. rewrite floor_below by (auto; lra).
    replace (nsub nm (os_phase s) (nofZ nm 0)) with (os_phase s); [destruct s; reflexivity|]. destruct (os_phase s) as [b|b| |b m e]; cbn; auto. unfold real, SF2R in Hp. lra. }
  subst s1. specialize (IH s Fp Hp Hl). destruct (osc_run tick s l). exact IH.
Qed.
