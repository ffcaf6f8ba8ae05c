(* Claim C70: the update function of a dynamical system is called in time. *)
From Coq Require Import Reals Lra Lia SpecFloat.
From Verif Require Import EnvStop SysBlocks.
From Verif Require Import BufProofs UnitProofs SysSpec.
Local Open Scope R_scope.

(* Any history of ticks, blocks, settings and resets: the node plays as if the function were called before the first sample, and from then on before every tick or block
   at which dt seconds or more have passed since the last call, with the time in seconds since the start and since the last call. *)
Theorem C70_calls {A P S X} (xo : unit_ops A P X) (f : S -> R -> R -> X -> S * X) x_rate sr dt : 0 < sr -> forall x st l,
  let (os, s) := sys_run xo f x_rate (sys_rate x_rate (sys_new Rnum_ops x dt st) sr) l in
  let (os', r) := reference xo f sr dt 0 0 st (x_rate x sr) l in os = os' /\ y_st s = fst r /\ y_x s = snd r.
Proof. intros H x st l. exact (run_reference xo f sr dt x_rate H l 0 0 st (x_rate x sr) _ (start_sample f sr dt x_rate x st)). Qed.
Print Assumptions C70_calls.

(* Sample by sample, the calls come every m samples, where m is the time dt in samples rounded up. *)
Theorem C70_ticks {A P S X} (xo : unit_ops A P X) (f : S -> R -> R -> X -> S * X) x_rate sr dt m : 0 < sr -> period sr dt m -> forall x st l,
  fst (sys_run xo f x_rate (sys_rate x_rate (sys_new Rnum_ops x dt st) sr) (map YTick l)) = map YFrame (every xo f sr m 0 st (x_rate x sr) l).
Proof.
  intros H Hm x st l. pose proof (run_reference xo f sr dt x_rate H (map YTick l) 0 0 st (x_rate x sr) _ (start_sample f sr dt x_rate x st)) as Q. pose proof (reference_every xo f sr dt x_rate m Hm l 0 0 st (x_rate x sr) eq_refl) as E.
  destruct (sys_run xo f x_rate _ (map YTick l)). destruct (reference xo f sr dt 0 0 st (x_rate x sr) (map YTick l)). cbn [fst] in *. rewrite <- E. apply Q.
Qed.
Print Assumptions C70_ticks.
(* 10 milliseconds at 44.1 kHz are 441 samples *)
Example C70_period_case : period 44100 (1 / 100) 441.
Proof.
  split; [lia|]. split; [rewrite INR_IZR_INZ; cbn; lra|]. intros k Hk. assert (INR k <= INR 440) by (apply le_INR; lia). rewrite (INR_IZR_INZ 440) in H. cbn in H. lra.
Qed.

(* In blocks of k samples that divide m the sound is the same. *)
Theorem C70_blocks {A P S X} (xo : unit_ops A P X) zero (f : S -> R -> R -> X -> S * X) x_rate sr dt m k : 0 < sr -> unit_laws zero xo ->
  (forall st t d x, u_ins xo (snd (f st t d x)) = u_ins xo x /\ u_outs xo (snd (f st t d x)) = u_outs xo x) ->
  period sr dt m -> (1 <= k <= MAXB)%nat -> Nat.divide k m -> forall x st bs, Forall (fun b => shaped (u_ins xo (x_rate x sr)) (fst b) /\ shaped (u_outs xo (x_rate x sr)) (snd b)) bs ->
  let s := sys_rate x_rate (sys_new Rnum_ops x dt st) sr in
  map YFrame (flat_map (heard zero k) (fst (sys_run xo f x_rate s (map (fun b => YBlock k (fst b) (snd b)) bs)))) = fst (sys_run xo f x_rate s (map YTick (flat_map (fun b => frames zero (fst b) k) bs))).
Proof.
  intros H Hx Hf Hm Hk Hd x st bs Hb s. unfold s. rewrite (C70_ticks xo f x_rate sr dt m H Hm). f_equal. pose proof (reference_blocks xo zero f sr dt x_rate Hx Hf m k Hm Hk Hd bs 0 0 st (x_rate x sr) Hb) as E. cbv zeta in E. rewrite Nat.mul_0_r in E. rewrite <- (E eq_refl).
  pose proof (run_reference xo f sr dt x_rate H (map (fun b => YBlock k (fst b) (snd b)) bs) 0 0 st (x_rate x sr) _ (start_sample f sr dt x_rate x st)) as Q.
  destruct (sys_run xo f x_rate _ _). destruct (reference xo f sr dt 0 0 st (x_rate x sr) _). cbn [fst]. destruct Q as [-> _]. reflexivity.
Qed.
Print Assumptions C70_blocks.
Example C70_blocks_case : Nat.divide 49 441 /\ (1 <= 49 <= MAXB)%nat /\ unit_laws 0 held_ops.
Proof.
  split; [exists 9%nat; reflexivity|]. split; [unfold MAXB; lia|]. split; [reflexivity|reflexivity|reflexivity|]. intros u. apply (default_process_contract 0 (fun (x : R) (_ : list R) => (x, [x])) 1 0 (fun _ => True)); [|exact I]. intros y i _ H. split; [exact I|reflexivity].
Qed.

(* The calls are at least dt seconds apart, and at most a block more. *)
Theorem C70_intervals sr dt B k sizes : 0 < sr -> 0 <= dt -> Forall (fun k => (1 <= k <= B)%nat) (k :: sizes) ->
  exists l, updates sr dt 0 0 (k :: sizes) = 0%nat :: l /\ spaced (fun g => dt <= INR g / sr <= dt + INR B / sr) 0 l.
Proof. exact (updates_ok sr dt B k sizes). Qed.
Print Assumptions C70_intervals.

(* Processing blocks does not equal ticking otherwise: a system whose function is to be called for every sample (dt = 0) is called once for a block. *)
Theorem C70_block_refuted : let f := fun (st : unit) (t d x : R) => (st, t) in let s := sys_new Rnum_ops 0 0 tt in let run := fun l => fst (sys_run held_ops f (fun x _ => x) s l) in
  run [YTick []; YTick []] = [YFrame [0]; YFrame [1 / 44100]] /\ exists o, run [YBlock 2 [] [repeat 0 64]] = [YBlocks o] /\ frames 0 o 2 = [[0]; [0]].
Proof.
  cbv zeta. assert (E : sys_new Rnum_ops 0 0 tt = sys_rate (fun x _ => x) (sys_new Rnum_ops 0 0 tt) 44100) by reflexivity. rewrite E. pose proof (C70_calls held_ops (fun (st : unit) (t d x : R) => (st, t)) (fun x _ => x) 44100 0 ltac:(lra) 0 tt) as C.
  assert (Z : INR 0 / 44100 = 0) by (cbn; lra). split.
  - specialize (C [YTick []; YTick []]). destruct (sys_run held_ops _ _ _ _) as [os s]. cbn [reference] in C. unfold due in C. rewrite !Z in C. cbn [Nat.sub Nat.add] in C. destruct (Rle_dec 0 (INR 0 / 44100)) as [_|N]; [|rewrite Z in N; lra]. cbn [u_tick held_ops] in C.
    destruct (Rle_dec 0 (INR 1 / 44100)) as [_|N]; [|cbn in N; lra]. cbn [u_tick held_ops] in C. destruct C as [-> _]. reflexivity.
  - specialize (C [YBlock 2 [] [repeat 0 64]]). destruct (sys_run held_ops _ _ _ _) as [os s]. cbn [reference] in C. unfold due in C. rewrite !Z in C. cbn [Nat.sub Nat.add] in C. destruct (Rle_dec 0 (INR 0 / 44100)) as [_|N]; [|rewrite Z in N; lra]. cbn [u_process held_ops] in C.
    destruct C as [-> _]. eexists. split; reflexivity.
Qed.
Print Assumptions C70_block_refuted.

(* Times are binary32 numbers. Ticked at 44.1 kHz, the time that the function is given stops at 512 seconds, so that from then on the node plays as if the function depended on nothing else. *)
Theorem C70_time_stops_refuted {A P S X} (xo : unit_ops A P X) (f : S -> spec_float -> spec_float -> X -> S * X) :
  exists N, forall (s : system spec_float S X) p l g, stepping s -> (N <= length p)%nat -> (forall st d x, f st C512 d x = g st C512 d x) ->
  let s' := fst (BufModel.ticks (sys_tick f32_ops xo f) s p) in y_time s' = C512 /\ BufModel.ticks (sys_tick f32_ops xo f) s' l = BufModel.ticks (sys_tick f32_ops xo g) s' l.
Proof. exact (frozen xo f). Qed.
Print Assumptions C70_time_stops_refuted.
Example C70_time_stops_case : stepping (sys_new f32_ops 0 (S754_zero false) tt) /\ real C512 = 512.
Proof. split; [exact (new_stepping 0 _ tt)|exact real_512]. Qed.
