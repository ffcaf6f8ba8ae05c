(* Concrete envelopes, and envelopes that do not do what they should. *)
From Coq Require Import Reals Lra Lia QArith.
From Verif Require Import SeqSamples.
From Verif Require Export AdsrProofs EnvStop.

(* an envelope with the given interval at 44.1 kHz, with the hash 7 *)
Definition env44 {C} (st : C) : env R R C := mkEnv st 0%R 0%R 0%R 7%N [] [] [] [] (1 / 500)%R (1 / 44100)%R 7%N.
Lemma env44_fits {C} (st : C) : fits (env44 st).
Proof. unfold fits, env44. cbn [e_sd e_int e_hash]. split; [lra|]. split; [|reflexivity]. assert (1000 <= IZR (2 ^ 62))%R by (apply IZR_le; discriminate). lra. Qed.
Lemma reset_ok {C} (f : C -> R -> C * list R) s : fits s -> ok (env_reset nmR idR f s).
Proof. intros (H1 & H2 & H3). unfold ok, env_reset. destruct (f _ _). cbn [e_sd e_int e_seed e_t e_t1]. change (n0 nmR) with 0%R. repeat split; auto; lra. Qed.
Lemma in_reset_ok {C} (s : env R R C) : fits s -> ok (envin_reset nmR s).
Proof. intros (H1 & H2 & H3). unfold ok, envin_reset. cbn [e_sd e_int e_seed e_t e_t1]. change (n0 nmR) with 0%R. repeat split; auto; lra. Qed.
Lemma env_blocks {C} (f : C -> R -> C * list R) s bs : fits s ->
  blocks (fun s ins => env_process nmR nmR idR f (length ins) s (length ins)) (env_reset nmR idR f s) bs = Some (snd (ticks (fun s (_ : unit) => env_tick nmR nmR idR f s) (env_reset nmR idR f s) (concat bs))).
Proof. intros H. apply no_blocks; auto using reset_ok. Qed.
Lemma envin_blocks {C} (f : C -> R -> list R -> C * list R) s bs : fits s ->
  blocks (fun s ins => envin_process nmR nmR idR f (length ins) s ins) (envin_reset nmR s) bs = Some (snd (ticks (envin_tick nmR nmR idR f) (envin_reset nmR s) (concat bs))).
Proof. intros H. apply in_blocks; auto using in_reset_ok. Qed.

(* binary32, at ten samples per second, with an interval of one second: E(t) = t *)
Definition ramp32 (_ : unit) (t : f32) : unit * list f32 := (tt, [t]).
Definition slow32 : env f32 f32 unit := env_new f32_ops f32_ops (fun x => x) ramp32 tt 1 (ndiv f32_ops (nofZ f32_ops 1) (nofZ f32_ops 10)) (nofZ f32_ops 1).
Lemma rounding_differs : exists a b,
  nth 13 (snd (ticks (fun s (_ : unit) => env_tick f32_ops f32_ops (fun x => x) ramp32 s) slow32 (repeat tt 64))) [] = [a] /\
  option_map (fun r => nth 13 (snd r) []) (env_process f32_ops f32_ops (fun x => x) ramp32 64 slow32 64) = Some [b] /\ a <> b.
Proof. eexists. eexists. split; [vm_compute; reflexivity|]. split; [vm_compute; reflexivity|]. discriminate. Qed.

(* an interval shorter than a sample, and a function that jumps *)
Definition jump (_ : unit) (t : Q) : unit * list Q := (tt, [if Qle_bool t 1 then 0%Q else 1%Q]).
Definition quick : env Q Q unit := env_new Qnum_ops Qnum_ops (fun x => x) jump tt 1 1%Q (1 # 4).
Lemma short_differs : exists a b,
  nth 2 (snd (ticks (fun s (_ : unit) => env_tick Qnum_ops Qnum_ops (fun x => x) jump s) quick (repeat tt 4))) [] = [a] /\
  option_map (fun r => nth 2 (snd r) []) (env_process Qnum_ops Qnum_ops (fun x => x) jump 32 quick 4) = Some [b] /\ ~ (a == b)%Q.
Proof. eexists. eexists. split; [vm_compute; reflexivity|]. split; [vm_compute; reflexivity|]. vm_compute. discriminate. Qed.

Local Open Scope R_scope.
(* an interval of zero, set at run time: processing does not end *)
Lemma zero_next {C} (f : C -> R -> C * list R) s : e_int s = 0 -> e_t1 s = e_t s -> let s' := env_next nmR nmR idR f s in e_int s' = 0 /\ e_t1 s' = e_t s' /\ e_sd s' = e_sd s.
Proof.
  intros H1 H2 s'. unfold s', env_next, segment_from. destruct (f _ _). cbn [e_int e_t e_t1 e_sd]. rewrite H1, H2. split; auto. split; auto. cbn. ring.
Qed.
Lemma zero_left {C} (s : env R R C) : e_t1 s = e_t s -> samples_left nmR s = 0%Z.
Proof.
  intros H. unfold samples_left, ceil_usize. cbn. rewrite H. replace (- ((e_t s - e_t s) / e_sd s)) with 0 by (unfold Rdiv; ring). rewrite (int_part_spec 0 0) by lra. reflexivity.
Qed.
Lemma zero_loop {C} (f : C -> R -> C * list R) fuel : forall s left, e_int s = 0 -> e_t1 s = e_t s -> left <> 0%nat -> env_loop nmR nmR idR f fuel s left = None.
Proof.
  induction fuel as [|fuel IH]; intros s left H1 H2 H3; destruct left as [|left]; try tauto. cbn [env_loop]. rewrite zero_left by auto.
  rewrite Z.min_r by lia. rewrite Z.eqb_refl. unfold run. cbn [Z.to_nat line]. rewrite IH; [reflexivity|..].
  - apply zero_next; cbn; auto. rewrite H2. ring.
  - apply zero_next; cbn; auto. rewrite H2. ring.
  - lia.
Qed.
Lemma zero_interval_hangs {C} (f : C -> R -> C * list R) s size fuel : size <> 0%nat -> env_process nmR nmR idR f fuel (set_interval (env_reset nmR idR f s) 0) size = None.
Proof.
  intros H. unfold env_process. assert (D : nleb nmR (e_t1 (set_interval (env_reset nmR idR f s) 0)) (e_t (set_interval (env_reset nmR idR f s) 0)) = true).
  { unfold set_interval, env_reset. destruct (f _ _). cbn. destruct (Rle_dec 0 0); [reflexivity|lra]. }
  rewrite D. set (r := set_interval (env_reset nmR idR f s) 0). assert (E1 : e_int r = 0) by reflexivity. assert (E2 : e_t1 r = e_t r) by (unfold r, set_interval, env_reset; destruct (f _ _); reflexivity).
  destruct (zero_next f r E1 E2) as (N1 & N2 & _). now apply zero_loop.
Qed.
(* the sample rate is changed in the middle of a segment: E(t) = t is no longer followed *)
Notation ramp := (pure (fun t : R => [t])).
Lemma rate_change_lags s sd : fits s -> 0 < sd -> e_sd s + sd < 3 / 4 * e_int s ->
  let r := fst (env_tick nmR nmR idR ramp (env_reset nmR idR ramp s)) in let t := fst (env_tick nmR nmR idR ramp (set_duration r sd)) in
  e_t t = e_sd s + sd /\ snd (env_tick nmR nmR idR ramp t) = [e_sd s + e_sd s].
Proof.
  intros (F1 & F2 & F3) Hp Hl r t.
  destruct (start_seg (fun t => [t]) (e_int s) (e_sd s) (e_hash s) F1 F3 (env_reset nmR idR ramp s) eq_refl eq_refl eq_refl eq_refl eq_refl eq_refl 0) as ((k & K) & _ & _).
  change (env_state ramp (env_reset nmR idR ramp s) 1) with r in K. destruct K as (K1 & K2 & K3 & K4 & K5 & K6 & K7 & K8 & K9).
  assert (Et : e_t r = e_sd s). { unfold r. rewrite (proj2 (proj2 (tick_keeps ramp (env_reset nmR idR ramp s)))). cbn. ring. }
  pose proof (point_step (e_int s) (e_hash s) 0 ltac:(lra) F3) as P. change (point (e_int s) (e_hash s) 0) with 0 in P.
  assert (k = 0%nat). { destruct k as [|k]; auto. exfalso. destruct (Nat.eq_dec k 0) as [->|]; [lra|]. pose proof (points_rise (e_int s) (e_hash s) 1 (S k) ltac:(lra) F3 ltac:(lia)). lra. }
  subst k. change (point (e_int s) (e_hash s) 0) with 0 in *. set (b := point (e_int s) (e_hash s) 1) in *.
  assert (Ev : e_v r = [e_sd s]). { rewrite K5, Et. unfold zip2. cbn [map combine fst snd]. f_equal. unfold on_line. change (point (e_int s) (e_hash s) 0) with 0. fold b. clearbody b. field. lra. }
  assert (Ed : e_d r = [e_sd s]). { rewrite K6. unfold zip2. cbn [map combine fst snd]. f_equal. change (point (e_int s) (e_hash s) 0) with 0. fold b. clearbody b. field. lra. }
  clearbody b r. assert (T : t = fst (step nmR nmR (set_duration r sd))) by (unfold t, env_tick; rewrite due_false; [reflexivity|cbn; lra]). rewrite T. split; [cbn; lra|].
  unfold env_tick. rewrite due_false by (cbn; lra). cbn. rewrite Ev, Ed. reflexivity.
Qed.
(* binary32 clocks: an envelope at 44.1 kHz with an interval of 2 ms *)
Definition clock44 {C} (st : C) : env f32 f32 C :=
  mkEnv st (n0 f32_ops) (n0 f32_ops) (n0 f32_ops) 7%N [] [] [] [] (ndiv f32_ops (nofZ f32_ops 1) (nofZ f32_ops 500)) (ndiv f32_ops (nofZ f32_ops 1) (nofZ f32_ops 44100)) 7%N.
Lemma clock44_ok {C} (st : C) : clock (clock44 st).
Proof.
  unfold clock, clock44. cbn [e_t e_t0 e_t1 e_seed e_sd e_int].
  replace (ndiv f32_ops (nofZ f32_ops 1) (nofZ f32_ops 500)) with (SpecFloat.S754_finite false 8589935 (-32)) by (vm_compute; reflexivity).
  replace (ndiv f32_ops (nofZ f32_ops 1) (nofZ f32_ops 44100)) with (SpecFloat.S754_finite false 12466118 (-39)) by (vm_compute; reflexivity).
  assert (F0 : fin32 (n0 f32_ops)) by (split; reflexivity). assert (R0 : real (n0 f32_ops) = 0) by reflexivity. rewrite R0.
  refine (conj F0 (conj F0 (conj F0 (conj _ (conj _ (conj _ (conj (conj _ _) (conj _ _)))))))); try lra; try (split; reflexivity); try reflexivity.
  - unfold real, BinarySingleNaN.SF2R, Defs.F2R. cbn. lra.
  - unfold real, BinarySingleNaN.SF2R, Defs.F2R. cbn. lra.
Qed.
