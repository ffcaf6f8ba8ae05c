(* Meters and declickers. *)
From Coq Require Import Reals Lra Lia Psatz.
From Flocq Require Import Core.Core.
From Coquelicot Require Import Coquelicot.
From Verif Require Export MeterSpec.
Import ListNotations.
Local Open Scope R_scope.

Lemma half_pos x : 0 < half x. Proof. apply exp_pos. Qed.
Lemma half_0 : half 0 = 1. Proof. apply Rpower_O. lra. Qed.
Lemma half_1 : half 1 = 1 / 2. Proof. apply Rpower_1. lra. Qed.
Lemma half_plus x y : half (x + y) = half x * half y. Proof. apply Rpower_plus. Qed.
Lemma half_lt x y : x < y -> half y < half x.
Proof. intros H. unfold half, Rpower. apply exp_increasing. assert (ln (1 / 2) < 0) by (rewrite <- ln_1; apply ln_increasing; lra). nra. Qed.
Lemma half_le x y : x <= y -> half y <= half x.
Proof. intros [H| ->]; [left; now apply half_lt|lra]. Qed.

(* ---- ages ---- *)
Lemma ages_shift l : forall t d, ages (t + d) l = map (fun '(t0, t1, x) => (t0 + d, t1 + d, x)) (ages t l).
Proof. induction l as [|[sr x] l IH]; intros t d; [reflexivity|]. cbn [ages map]. replace (t + d + 1 / sr) with (t + 1 / sr + d) by ring. now rewrite IH. Qed.
Lemma ages_pos l : Forall (fun p => 0 < fst p) l -> forall t, Forall (fun '(t0, t1, x) => t <= t0 /\ t0 < t1) (ages t l).
Proof.
  induction l as [|[sr x] l IH]; intros H t; [constructor|]. apply Forall_cons_iff in H as [H1 H2]. cbn in H1. assert (0 < 1 / sr) by (apply Rdiv_lt_0_compat; lra). cbn [ages]. constructor; [lra|].
  specialize (IH H2 (t + 1 / sr)). eapply Forall_impl; [|exact IH]. intros [[t0 t1] y]. lra.
Qed.
Lemma peak_step T l p sr x : 0 < T -> is_peak T l p -> 0 <= p -> is_peak T ((sr, x) :: l) (Rmax (p * half (1 / (T * sr))) (Rabs x)).
Proof.
  intros HT [A B] P. assert (D : (0 + 1 / sr) / T = 1 / (T * sr) \/ sr = 0). { destruct (Req_dec sr 0); [auto|left; field; lra]. }
  assert (E : half ((0 + 1 / sr) / T) = half (1 / (T * sr))). { destruct D as [D|D]; [now rewrite D|]. subst sr. f_equal. rewrite Rmult_0_r. unfold Rdiv. rewrite !Rmult_1_l, Rplus_0_l.
    replace (/ 0) with 0; [ring|]. symmetry. apply Rinv_0. }
  unfold is_peak. cbn [ages]. rewrite (ages_shift l 0 (1 / sr)). split.
  - intros t0 t1 y [H|H]; [injection H as <- <- <-; replace (0 / T) with 0 by (unfold Rdiv; ring); rewrite half_0, Rmult_1_r; apply Rmax_r|].
    apply in_map_iff in H as ([[u0 u1] z] & H & I). injection H as <- <- <-. apply A in I. eapply Rle_trans; [|apply Rmax_l].
    replace ((u0 + 1 / sr) / T) with (u0 / T + (0 + 1 / sr) / T) by (unfold Rdiv; ring). rewrite half_plus, E. pose proof (half_pos (1 / (T * sr))). nra.
  - right. destruct (Rle_dec (p * half (1 / (T * sr))) (Rabs x)) as [L|L].
    + exists 0, (0 + 1 / sr), x. split; [left; reflexivity|]. replace (0 / T) with 0 by (unfold Rdiv; ring). rewrite half_0, Rmult_1_r. now apply Rmax_right.
    + rewrite Rmax_left by lra. pose proof (Rabs_pos x). pose proof (half_pos (1 / (T * sr))). destruct B as [B|(t0 & t1 & y & I & B)]; [subst p; lra|].
      exists (t0 + 1 / sr), (t1 + 1 / sr), y. split; [right; apply in_map_iff; exists (t0, t1, y); auto|]. rewrite B.
      replace ((t0 + 1 / sr) / T) with (t0 / T + (0 + 1 / sr) / T) by (unfold Rdiv; ring). rewrite half_plus, E. ring.
Qed.
Lemma mean_shift T d l : T <> 0 -> fold_right Rplus 0 (map (fun '(t0, t1, x) => x * x * (half (t0 / T) - half (t1 / T))) (map (fun '(t0, t1, x) => (t0 + d, t1 + d, x)) l))
  = half (d / T) * fold_right Rplus 0 (map (fun '(t0, t1, x) => x * x * (half (t0 / T) - half (t1 / T))) l).
Proof.
  intros HT. induction l as [|[[t0 t1] x] l IH]; cbn [map fold_right]; [ring|]. rewrite IH. replace ((t0 + d) / T) with (t0 / T + d / T) by (field; auto). replace ((t1 + d) / T) with (t1 / T + d / T) by (field; auto). rewrite !half_plus. ring.
Qed.
Lemma mean_step T l sr x : 0 < T -> 0 < sr -> mean_square T ((sr, x) :: l) = mean_square T l * half (1 / (T * sr)) + x * x * (1 - half (1 / (T * sr))).
Proof.
  intros HT HS. unfold mean_square. cbn [ages map fold_right]. rewrite (ages_shift l 0 (1 / sr)), mean_shift by lra. replace (0 / T) with 0 by (unfold Rdiv; ring). rewrite half_0.
  replace ((0 + 1 / sr) / T) with (1 / (T * sr)) by (field; lra). replace (1 / sr / T) with (1 / (T * sr)) by (field; lra). ring.
Qed.
Lemma mean_nonneg T l : 0 < T -> Forall (fun p => 0 < fst p) l -> 0 <= mean_square T l.
Proof.
  intros HT. induction l as [|[sr x] l IH]; intros H; [unfold mean_square; cbn; lra|]. apply Forall_cons_iff in H as [H1 H2]. cbn in H1. rewrite mean_step by auto. specialize (IH H2).
  pose proof (half_pos (1 / (T * sr))). assert (HB : half (1 / (T * sr)) <= half 0). { apply half_le. apply Rlt_le, Rdiv_lt_0_compat; [lra|now apply Rmult_lt_0_compat]. } rewrite half_0 in HB. pose proof (Rle_0_sqr x) as Q. unfold Rsqr in Q. apply Rplus_le_le_0_compat; apply Rmult_le_pos; lra.
Qed.

(* ---- the state of a meter ---- *)
Notation mtick := (meter_tick Rnum_ops). Notation mrate := (meter_rate Rnum_ops (fun x : R => x) half). Notation lev := (level sqrt).
Definition shows (m : meterR) (sr : R) (l : list (R * R)) (s : mstate R) : Prop :=
  match m with
  | Sample => m_state s = match l with [] => 0 | (_, x) :: _ => x end
  | Peak T => m_smoothing s = half (1 / (T * sr)) /\ is_peak T l (m_state s) /\ 0 <= m_state s
  | Rms T => m_smoothing s = half (1 / (T * sr)) /\ m_state s = mean_square T l
  end.
Lemma shows_tick m sr l s x : scale_ok m -> 0 < sr -> shows m sr l s -> shows m sr ((sr, x) :: l) (mtick m s x).
Proof.
  destruct m as [|T|T]; cbn [shows scale_ok meter_tick m_state m_smoothing]; intros K HS H; [reflexivity| |].
  - destruct H as (A & B & C). rewrite A. split; [reflexivity|]. cbn [nmax nmul nabs Rnum_ops]. split; [now apply peak_step|]. eapply Rle_trans; [apply Rabs_pos|apply Rmax_r].
  - destruct H as (A & B). rewrite A, B. split; [reflexivity|]. cbn [nmul nadd nsub Rnum_ops]. rewrite mean_step by auto. reflexivity.
Qed.
Lemma shows_ticks m sr xs : forall l s, scale_ok m -> 0 < sr -> shows m sr l s -> shows m sr (map (fun x => (sr, x)) (rev xs) ++ l) (fold_left (mtick m) xs s).
Proof.
  induction xs as [|x xs IH]; intros l s K HS H; [exact H|]. cbn [fold_left rev]. rewrite map_app, <- app_assoc. cbn [map app]. apply IH; auto. now apply shows_tick.
Qed.
Lemma shows_rate m sr sr' l s : scale_ok m -> shows m sr l s -> shows m sr' l (mrate m sr' s).
Proof. destruct m as [|T|T]; cbn [shows scale_ok meter_rate m_state m_smoothing]; intros K H; [exact H| |]; (split; [reflexivity|tauto]). Qed.
Lemma shows_reset m sr l s : scale_ok m -> shows m sr l s -> shows m sr [] (meter_reset Rnum_ops s).
Proof.
  destruct m as [|T|T]; cbn [shows scale_ok meter_reset m_state m_smoothing]; intros K H; [reflexivity| |]; (split; [tauto|]); [|reflexivity]. change (n0 Rnum_ops) with 0. split; [|lra]. split; [intros ? ? ? []|auto].
Qed.
Lemma shows_new m sr : scale_ok m -> shows m sr [] (meter_new Rnum_ops Rnum_ops (fun x => x) half m sr).
Proof. destruct m as [|T|T]; intros K; cbn; [reflexivity| |]; (split; [reflexivity|]); [|reflexivity]. split; [|lra]. split; [intros ? ? ? []|auto]. Qed.
Lemma shows_reports m sr l s : scale_ok m -> Forall (fun p => 0 < fst p) l -> shows m sr l s -> reports m l (lev m s).
Proof.
  destruct m as [|T|T]; cbn [shows reports level scale_ok]; intros K HL H; [exact H|tauto|]. destruct H as [_ ->]. split; [apply sqrt_pos|]. apply sqrt_sqrt. now apply mean_nonneg.
Qed.
Lemma rate_pos sr h : 0 < sr -> Forall rate_ok h -> 0 < rate_now sr h.
Proof. intros HS. induction h as [|a h IH]; intros H; [exact HS|]. apply Forall_cons_iff in H as [H1 H2]. destruct a; cbn [rate_now]; auto. Qed.
Lemma heard_pos sr h : 0 < sr -> Forall rate_ok h -> Forall (fun p => 0 < fst p) (heard sr h).
Proof.
  intros HS. induction h as [|a h IH]; intros H; [constructor|]. apply Forall_cons_iff in H as [H1 H2]. pose proof (rate_pos sr h HS H2). destruct a; cbn [heard]; auto. apply Forall_app. split; auto.
  apply Forall_forall. intros p Hp. apply in_map_iff in Hp as (x & <- & _). auto.
Qed.

(* ---- monitors ---- *)
Notation mstep := (monitor_step Rnum_ops Rnum_ops (fun x : R => x) half sqrt). Notation mrun := (monitor_run Rnum_ops Rnum_ops (fun x : R => x) half sqrt).
Definition mon_ok (m : meterR) (sr : R) (h : list mopR) (o : monitor R) : Prop := shows m (rate_now sr h) (heard sr h) (mo_state o) /\ (heard sr h <> [] -> mo_shared o = lev m (mo_state o)).
Lemma block_last m sr xs : forall s l d, xs <> [] -> scale_ok m -> latest_only m = true -> shows m sr (map (fun x => (sr, x)) (rev xs) ++ l) (mtick m s (last xs d)).
Proof.
  intros s l d N K L. destruct m; try discriminate L. cbn [shows meter_tick m_state]. destruct (exists_last N) as (ys & y & ->). rewrite last_last, rev_app_distr. reflexivity.
Qed.
Lemma mon_step m sr h a o : 0 < sr -> scale_ok m -> Forall rate_ok (a :: h) -> mon_ok m sr h o -> mon_ok m sr (a :: h) (fst (mstep m o a)) /\ snd (mstep m o a) = inputs_of [a].
Proof.
  intros HS K H [A B]. apply Forall_cons_iff in H as [H1 H2]. pose proof (rate_pos sr h HS H2) as RP. destruct a as [x|xs| |r]; cbn [monitor_step monitor_tick fst snd inputs_of flat_map].
  - split; [|reflexivity]. split; cbn [mo_state mo_shared heard rate_now]; [|reflexivity]. now apply shows_tick.
  - unfold monitor_process. destruct xs as [|x xs]; [split; [split; auto|reflexivity]|]. set (l := x :: xs). assert (N : l <> []) by discriminate. clearbody l. cbn [fst snd]. rewrite app_nil_r. split; [|reflexivity].
    destruct (latest_only m) eqn:L; (split; cbn [mo_state mo_shared heard rate_now]; [|reflexivity]); [now apply block_last|now apply shows_ticks].
  - split; [|reflexivity]. split; cbn [mo_state mo_shared heard rate_now]; [|intros N; now elim N]. eapply shows_reset; eauto.
  - split; [|reflexivity]. split; cbn [mo_state mo_shared heard rate_now].
    + eapply shows_rate; eauto.
    + intros N. rewrite (B N). destruct m; reflexivity.
Qed.
Lemma mon_run_app m l1 l2 : forall o, mrun m o (l1 ++ l2) = (fst (mrun m (fst (mrun m o l1)) l2), snd (mrun m o l1) ++ snd (mrun m (fst (mrun m o l1)) l2)).
Proof.
  induction l1 as [|a l1 IH]; intros o; cbn [app monitor_run]; [cbn [fst snd app]; now destruct (mrun m o l2)|]. destruct (mstep m o a) as [o1 y]. rewrite IH. destruct (mrun m o1 l1) as [o2 ys]. cbn [fst snd]. now rewrite app_assoc.
Qed.
Lemma mon_run m sr v h : 0 < sr -> scale_ok m -> Forall rate_ok h -> mon_ok m sr h (fst (mrun m (new_monitor m sr v) (rev h))) /\ snd (mrun m (new_monitor m sr v) (rev h)) = inputs_of (rev h).
Proof.
  intros HS K. induction h as [|a h IH]; intros H.
  - split; [|reflexivity]. split; [cbn [rev monitor_run fst new_monitor mo_state heard rate_now]; now apply shows_new|intros N; now elim N].
  - pose proof H as H'. apply Forall_cons_iff in H' as [H1 H2]. destruct (IH H2) as [A B]. cbn [rev]. rewrite mon_run_app. set (o := fst (mrun m (new_monitor m sr v) (rev h))) in *. cbn [fst snd monitor_run].
    destruct (mon_step m sr h a o HS K H A) as [C E]. destruct (mstep m o a) as [o' y]. cbn [fst snd] in *. rewrite app_nil_r. split; [exact C|]. rewrite B, E. unfold inputs_of. now rewrite flat_map_app.
Qed.
(* ---- meter nodes: the state is that of a monitor ---- *)
Lemma node_block (m : meterR) xs : forall s ys, fold_left (fun '(s, ys) x => let (s, y) := mnode_tick Rnum_ops sqrt m s x in (s, ys ++ [y])) xs (s, ys) =
  (fold_left (mtick m) xs s, ys ++ map (fun k => lev m (fold_left (mtick m) (firstn (S k) xs) s)) (seq 0 (length xs))).
Proof.
  induction xs as [|x xs IH]; intros s ys; cbn [fold_left]; [cbn; now rewrite app_nil_r|]. cbn [mnode_tick]. rewrite IH. f_equal. rewrite <- app_assoc. f_equal. cbn [length seq map app]. f_equal. rewrite <- seq_shift, map_map. reflexivity.
Qed.

Lemma node_ticks (m : meterR) xs : forall s l, mnode_run m s (map MTick xs ++ l) =
  (fst (mnode_run m (fold_left (mtick m) xs s) l), map (fun k => lev m (fold_left (mtick m) (firstn (S k) xs) s)) (seq 0 (length xs)) ++ snd (mnode_run m (fold_left (mtick m) xs s) l)).
Proof.
  induction xs as [|x xs IH]; intros s l; cbn [map app fold_left length seq]; [now destruct (mnode_run m s l)|]. cbn [mnode_run mnode_tick]. rewrite IH. rewrite <- seq_shift, map_map. reflexivity.
Qed.
Lemma node_blocks (m : meterR) xs s l : mnode_run m s (MBlock xs :: l) = mnode_run m s (map MTick xs ++ l).
Proof. rewrite node_ticks. cbn [mnode_run]. rewrite node_block. cbn [app]. now destruct (mnode_run m (fold_left (mtick m) xs s) l). Qed.
Lemma node_app (m : meterR) l1 l2 : forall s, mnode_run m s (l1 ++ l2) = (fst (mnode_run m (fst (mnode_run m s l1)) l2), snd (mnode_run m s l1) ++ snd (mnode_run m (fst (mnode_run m s l1)) l2)).
Proof.
  induction l1 as [|a l1 IH]; intros s; cbn [app]; [cbn [mnode_run fst snd app]; now destruct (mnode_run m s l2)|]. destruct a as [x|xs| |r].
  - cbn [mnode_run mnode_tick]. rewrite IH. destruct (mnode_run m (mtick m s x) l1). reflexivity.
  - cbn [mnode_run]. destruct (fold_left _ xs (s, [])) as [s1 y]. rewrite IH. destruct (mnode_run m s1 l1). cbn [fst snd]. now rewrite app_assoc.
  - cbn [mnode_run]. apply IH.
  - cbn [mnode_run]. apply IH.
Qed.
Lemma node_run m sr h : 0 < sr -> scale_ok m -> Forall rate_ok h -> shows m (rate_now sr h) (heard sr h) (fst (mnode_run m (new_meter m sr) (rev h))).
Proof.
  intros HS K. induction h as [|a h IH]; intros H; [now apply shows_new|]. apply Forall_cons_iff in H as [H1 H2]. pose proof (rate_pos sr h HS H2) as RP. specialize (IH H2). cbn [rev]. rewrite node_app. cbn [fst].
  set (s := fst (mnode_run m (new_meter m sr) (rev h))) in *. destruct a as [x|xs| |r]; cbn [mnode_run rate_now heard fst].
  - cbn [mnode_tick fst]. now apply shows_tick.
  - rewrite node_block. cbn [fst]. now apply shows_ticks.
  - eapply shows_reset; eauto.
  - eapply shows_rate; eauto.
Qed.

(* ---- what the readings mean ---- *)
(* the mean square of a steady signal of magnitude c after a time *)
Lemma mean_steady T c l : 0 < T -> Forall (fun p => 0 < fst p /\ Rabs (snd p) = c) l -> mean_square T l = c * c * (1 - half (heard_for l / T)).
Proof.
  intros HT. induction l as [|[sr x] l IH]; intros H.
  - unfold mean_square, heard_for. cbn. replace (0 / T) with 0 by (unfold Rdiv; ring). rewrite half_0. ring.
  - apply Forall_cons_iff in H as [[H1 H3] H2]. cbn in H1, H3. rewrite mean_step, IH by auto. replace (x * x) with (c * c) by (rewrite <- H3, <- Rabs_mult; apply Rabs_pos_eq, Rle_0_sqr).
    unfold heard_for. cbn [map fst fold_right]. fold (heard_for l). replace ((1 / sr + heard_for l) / T) with (1 / (T * sr) + heard_for l / T) by (field; lra). rewrite half_plus. ring.
Qed.
Lemma mean_bound T c l : 0 < T -> Forall (fun p => 0 < fst p /\ Rabs (snd p) <= c) l -> mean_square T l <= c * c.
Proof.
  intros HT. induction l as [|[sr x] l IH]; intros H; [unfold mean_square; cbn; apply Rle_0_sqr|]. apply Forall_cons_iff in H as [[H1 H3] H2]. cbn in H1, H3. rewrite mean_step by auto. specialize (IH H2).
  assert (x * x <= c * c). { pose proof (Rabs_pos x). apply Rsqr_le_abs_1. rewrite (Rabs_pos_eq c) by lra. exact H3. }
  pose proof (half_pos (1 / (T * sr))). assert (HB : half (1 / (T * sr)) <= half 0). { apply half_le. apply Rlt_le, Rdiv_lt_0_compat; [lra|now apply Rmult_lt_0_compat]. } rewrite half_0 in HB. nra.
Qed.

(* ---- declickers ---- *)
Notation dtick := (declick_tick Rnum_ops Rnum_ops (fun x : R => x)). Notation dproc := (declick_process Rnum_ops Rnum_ops (fun x : R => x)).
Notation dstep := (declick_step Rnum_ops Rnum_ops (fun x : R => x)). Notation drun := (declick_run Rnum_ops Rnum_ops (fun x : R => x)).
Definition at_time (T t sr : R) (d : declick R) : Prop := dc_duration d = T /\ dc_sd d = 1 / sr /\ (dc_t d = t \/ (T <= dc_t d /\ T <= t)).
Lemma smooth5_R u : FadeModel.smooth5 Rnum_ops u = 6 * u ^ 5 - 15 * u ^ 4 + 10 * u ^ 3.
Proof. unfold FadeModel.smooth5. cbn [nadd nsub nmul nofZ Rnum_ops]. ring. Qed.
Lemma gain_in T t : t < T -> gain T t = FadeModel.smooth5 Rnum_ops (t / T).
Proof. intros H. rewrite smooth5_R. unfold gain. destruct (Rlt_dec t T); [reflexivity|lra]. Qed.
Lemma gain_out T t : T <= t -> gain T t = 1.
Proof. intros H. unfold gain. destruct (Rlt_dec t T); [lra|reflexivity]. Qed.
Lemma gained_after T sr xs : 0 < sr -> forall t, T <= t -> gained T t sr xs = xs.
Proof. intros HS. induction xs as [|x xs IH]; intros t H; [reflexivity|]. cbn [gained]. rewrite gain_out by auto. rewrite IH, Rmult_1_r; [reflexivity|]. assert (0 < 1 / sr) by (apply Rdiv_lt_0_compat; lra). lra. Qed.
Lemma ceil_spec x : IZR (nceil Rnum_ops x) - 1 < x <= IZR (nceil Rnum_ops x).
Proof. unfold nceil. cbn [nneg nfloor Rnum_ops]. rewrite opp_IZR. destruct (base_Int_part (- x)). lra. Qed.
Lemma faded_gained T sr : 0 < sr -> forall xs k t phase, phase = t / T ->
  (forall i, (i < k)%nat -> (i < length xs)%nat -> t + INR i / sr < T) -> (forall i, (k <= i)%nat -> (i < length xs)%nat -> T <= t + INR i / sr) ->
  faded Rnum_ops Rnum_ops (fun x => x) phase (1 / sr / T) k xs = gained T t sr xs.
Proof.
  intros HS. induction xs as [|x xs IH]; intros k t phase HP A B; [destruct k; reflexivity|]. cbn [gained]. destruct k as [|k]; cbn [faded].
  - rewrite gain_out by (specialize (B 0%nat ltac:(lia) ltac:(cbn; lia)); cbn [INR] in B; unfold Rdiv in B; lra). rewrite Rmult_1_r. f_equal. symmetry. apply gained_after; auto.
    assert (0 < 1 / sr) by (apply Rdiv_lt_0_compat; lra). specialize (B 0%nat ltac:(lia) ltac:(cbn; lia)). cbn [INR] in B. unfold Rdiv in *. lra.
  - rewrite gain_in by (specialize (A 0%nat ltac:(lia) ltac:(cbn; lia)); cbn [INR] in A; unfold Rdiv in A; lra). rewrite HP at 1. f_equal. apply IH.
    + rewrite HP. cbn [nadd Rnum_ops]. unfold Rdiv. ring.
    + intros i I L. specialize (A (S i) ltac:(lia) ltac:(cbn; lia)). rewrite S_INR in A. unfold Rdiv in *. lra.
    + intros i I L. specialize (B (S i) ltac:(lia) ltac:(cbn; lia)). rewrite S_INR in B. unfold Rdiv in *. lra.
Qed.
Lemma d_tick T t sr d x : 0 < sr -> at_time T t sr d -> at_time T (t + 1 / sr) sr (fst (dtick d x)) /\ [snd (dtick d x)] = gained T t sr [x].
Proof.
  intros HS (D & SD & A). assert (0 < 1 / sr) by (apply Rdiv_lt_0_compat; lra). unfold declick_tick. cbn [nltb Rnum_ops gained]. rewrite D. destruct (Rlt_dec (dc_t d) T) as [L|L].
  - destruct A as [A|A]; [|lra]. cbn [fst snd]. split; [split; [reflexivity|]; split; [exact SD|]; left; cbn [dc_t nadd Rnum_ops]; now rewrite A, SD|]. rewrite gain_in by lra. cbn [nmul Rnum_ops]. unfold MathModel.delerp. cbn [nsub ndiv Rnum_ops]. change (n0 Rnum_ops) with 0. rewrite !Rminus_0_r, A. reflexivity.
  - cbn [fst snd]. split; [split; [exact D|]; split; [exact SD|]; right; destruct A as [A|A]; lra|]. rewrite gain_out by (destruct A as [A|A]; lra). now rewrite Rmult_1_r.
Qed.
Lemma d_block T t sr d xs : 0 < sr -> (length xs <= 64)%nat -> at_time T t sr d -> exists d', dproc d xs = Some (d', gained T t sr xs) /\ at_time T (t + INR (length xs) / sr) sr d'.
Proof.
  intros HS L64 (D & SD & A). assert (SP : 0 < 1 / sr) by (apply Rdiv_lt_0_compat; lra). pose proof (pos_INR (length xs)) as PL. assert (0 <= INR (length xs) / sr) by (unfold Rdiv in *; apply Rmult_le_pos; lra).
  unfold declick_process. rewrite D. cbn [nltb Rnum_ops]. destruct (Rlt_dec (dc_t d) T) as [L|L].
  - destruct A as [A|A]; [|lra]. rewrite A in *. set (e := end_index Rnum_ops d (length xs)).
    assert (E : (0 <= e <= Z.of_nat (length xs))%Z /\ (forall i, (i < Z.to_nat e)%nat -> t + INR i / sr < T) /\ (forall i, (Z.to_nat e <= i)%nat -> (i < length xs)%nat -> T <= t + INR i / sr)).
    { unfold e, end_index. cbn [nltb nadd nmul nsub ndiv nofZ Rnum_ops]. rewrite <- INR_IZR_INZ, D, SD, A. set (c := (T - t) / (1 / sr)). assert (CE : c * (1 / sr) = T - t) by (unfold c; field; lra). clearbody c.
      assert (C0 : 0 < c) by nra. destruct (Rlt_dec T (t + INR (length xs) * (1 / sr))) as [Q|Q].
      - pose proof (ceil_spec c) as [C1 C2]. set (z := nceil Rnum_ops c) in *. assert (0 <= z)%Z by (apply le_IZR; lra). assert (c < INR (length xs)) by nra. assert (z <= Z.of_nat (length xs))%Z.
        { apply Z.lt_succ_r, lt_IZR. rewrite succ_IZR, <- INR_IZR_INZ. lra. }
        split; [lia|]. split.
        + intros i I. assert (INR i + 1 <= IZR z). { rewrite <- S_INR, INR_IZR_INZ. apply IZR_le. lia. } unfold Rdiv in *. nra.
        + intros i I _. assert (IZR z <= INR i). { rewrite INR_IZR_INZ. apply IZR_le. lia. } unfold Rdiv in *. nra.
      - split; [lia|]. split; [|intros; lia]. intros i I. assert (INR i + 1 <= INR (length xs)) by (rewrite <- S_INR; apply le_INR; lia). unfold Rdiv in *. nra. }
    destruct E as (E1 & E2 & E3). assert (G1 : (0 <=? e)%Z = true) by (apply Z.leb_le; lia). assert (G2 : (e <=? 64)%Z = true) by (apply Z.leb_le; lia). rewrite G1, G2. cbn [andb]. eexists. split; [f_equal; f_equal; rewrite SD; apply faded_gained; auto|].
    + unfold MathModel.delerp. cbn [nsub ndiv Rnum_ops]. change (n0 Rnum_ops) with 0. now rewrite !Rminus_0_r, ?A.
    + split; [reflexivity|]. split; [exact SD|]. left. cbn [dc_t nadd nmul nofZ Rnum_ops]. rewrite <- INR_IZR_INZ, SD, ?A. unfold Rdiv. ring.
  - exists d. rewrite gained_after by (auto; destruct A as [A|A]; lra). split; [reflexivity|]. split; [exact D|]. split; [exact SD|]. right. destruct A as [A|A]; lra.
Qed.
Lemma d_run T : forall l t sr d, 0 < sr -> Forall dop_ok l -> at_time T t sr d -> exists d', drun d l = Some (d', declicked T t sr l).
Proof.
  induction l as [|a l IH]; intros t sr d HS H A; [exists d; reflexivity|]. apply Forall_cons_iff in H as [H1 H2]. destruct a as [x|xs| |r]; cbn [declick_run declick_step declicked].
  - destruct (d_tick T t sr d x HS A) as [B C]. destruct (dtick d x) as [d1 y]. cbn [fst snd] in *. destruct (IH _ _ _ HS H2 B) as (d' & ->). exists d'. now rewrite C.
  - destruct (d_block T t sr d xs HS H1 A) as (d1 & -> & B). destruct (IH _ _ _ HS H2 B) as (d' & ->). exists d'. reflexivity.
  - destruct A as (D & SD & _). destruct (IH 0 sr (declick_reset Rnum_ops d) HS H2) as (d' & ->); [split; [exact D|]; split; [exact SD|]; left; reflexivity|]. exists d'. reflexivity.
  - destruct A as (D & SD & A). destruct (IH t r (declick_rate Rnum_ops r d) H1 H2) as (d' & ->); [split; [exact D|]; split; [reflexivity|exact A]|]. exists d'. reflexivity.
Qed.
Lemma gain_01 T t : 0 <= t -> 0 <= gain T t <= 1.
Proof.
  intros H. unfold gain. destruct (Rlt_dec t T) as [L|L]; [|lra]. assert (U : 0 <= t / T < 1). { assert (0 < T) by lra. split; [apply Rle_mult_inv_pos; auto|]. apply Rmult_lt_reg_r with T; auto. unfold Rdiv. rewrite Rmult_assoc, Rinv_l by lra. lra. }
  set (u := t / T) in *. clearbody u. cbn zeta. split.
  - replace (6 * u ^ 5 - 15 * u ^ 4 + 10 * u ^ 3) with (u ^ 3 * (6 * (u - 5 / 4) * (u - 5 / 4) + 5 / 8)) by (cbn; field). apply Rmult_le_pos; [apply pow_le; lra|]. pose proof (Rle_0_sqr (u - 5 / 4)) as Q. unfold Rsqr in Q. lra.
  - replace (6 * u ^ 5 - 15 * u ^ 4 + 10 * u ^ 3) with (1 - (1 - u) ^ 3 * (6 * u * u + 3 * u + 1)) by (cbn; ring). assert (0 <= (1 - u) ^ 3 * (6 * u * u + 3 * u + 1)); [|lra]. apply Rmult_le_pos; [apply pow_le; lra|nra].
Qed.
Lemma gain_mono T a b : 0 <= a <= b -> gain T a <= gain T b.
Proof.
  intros H. destruct (Rlt_dec b T) as [LB|LB]; [|rewrite (gain_out T b) by lra; apply gain_01; lra]. unfold gain. destruct (Rlt_dec a T); [|lra]. destruct (Rlt_dec b T); [|lra]. assert (TP : 0 < T) by lra.
  assert (UA : 0 <= a / T) by (apply Rle_mult_inv_pos; lra). assert (UB : a / T <= b / T) by (apply Rmult_le_compat_r; [left; now apply Rinv_0_lt_compat|lra]).
  assert (UC : b / T < 1). { apply Rmult_lt_reg_r with T; auto. unfold Rdiv. rewrite Rmult_assoc, Rinv_l by lra. lra. }
  set (u := a / T) in *. set (v := b / T) in *. clearbody u v. cbn zeta.
  set (f := fun u : R => 6 * u ^ 5 - 15 * u ^ 4 + 10 * u ^ 3). change (f u <= f v). destruct UB as [UB| ->]; [|lra].
  destruct (MVT_cor2 f (fun c => 30 * c ^ 2 * (1 - c) ^ 2) u v UB) as (c & E & C).
  { intros c _. apply is_derive_Reals. unfold f. auto_derive; [exact I|]. cbn. ring. }
  assert (0 <= 30 * c ^ 2 * (1 - c) ^ 2) by (pose proof (pow2_ge_0 c); pose proof (pow2_ge_0 (1 - c)); apply Rmult_le_pos; lra). nra.
Qed.

(* ---- in rounding arithmetic the faded part is within the buffer ---- *)
Section Rounded.
  Variables (emin prec : Z) (prec_gt_0_ : Prec_gt_0 prec).
  Hypothesis emin_le : (emin <= 0)%Z.
  Existing Instance prec_gt_0_.
  Notation rd := (round radix2 (FLT_exp emin prec) ZnearestE). Notation fmt := (representable emin prec).
  Let mono a b : a <= b -> rd a <= rd b. Proof. apply round_le; typeclasses eauto. Qed.
  Let idem a : fmt a -> rd a = a. Proof. intros H. apply round_generic; [typeclasses eauto|exact H]. Qed.
  Lemma fmt_64 x : fmt x -> fmt (x * 64).
  Proof.
    intros H. unfold representable in *. apply generic_format_FLT. apply FLT_format_generic in H; [|exact prec_gt_0_]. destruct H as [f H1 H2 H3]. exists (Float radix2 (Fnum f) (Fexp f + 6)); cbn [Fnum Fexp]; auto; [|lia].
    rewrite H1. unfold F2R. cbn [Fnum Fexp]. rewrite bpow_plus. change (bpow radix2 6) with 64. ring.
  Qed.
  Lemma fmt_1 : fmt 1.
  Proof. unfold representable. change 1 with (bpow radix2 0). apply generic_format_bpow. unfold FLT_exp. unfold Prec_gt_0 in prec_gt_0_. lia. Qed.
  Lemma int_part_le x y : x <= y -> (Int_part x <= Int_part y)%Z.
  Proof. intros H. destruct (base_Int_part x), (base_Int_part y). apply Z.lt_succ_r, lt_IZR. rewrite succ_IZR. lra. Qed.
  Lemma rounded_index (d : declick R) size : (size <= 64)%nat -> fmt (dc_t d) -> fmt (dc_duration d) -> fmt (dc_sd d) -> 0 < dc_sd d -> dc_t d < dc_duration d ->
    (0 <= end_index (rounded_ops emin prec) d size <= 64)%Z.
  Proof.
    intros HS FT FD FS SP TD. unfold end_index. cbn [nltb rounded_ops nadd nmul nofZ nsub ndiv Rnum_ops]. destruct (Rlt_dec _ _) as [L|L]; [|lia].
    assert (F64 : fmt 64) by (replace 64 with (1 * 64) by ring; apply fmt_64, fmt_1).
    assert (N : rd (rd (IZR (Z.of_nat size)) * dc_sd d) <= dc_sd d * 64).
    { rewrite <- (idem _ (fmt_64 _ FS)). apply mono. rewrite Rmult_comm. apply Rmult_le_compat_l; [lra|]. rewrite <- (idem _ F64). apply mono. apply IZR_le. lia. }
    assert (M : dc_duration d - dc_t d <= dc_sd d * 64).
    { destruct (Rle_dec (dc_duration d - dc_t d) (dc_sd d * 64)) as [G|G]; [exact G|]. exfalso.
      assert (rd (dc_t d + rd (rd (IZR (Z.of_nat size)) * dc_sd d)) <= dc_duration d); [|lra]. rewrite <- (idem _ FD). apply mono. lra. }
    assert (A : 0 <= rd (dc_duration d - dc_t d)). { rewrite <- (round_0 radix2 (FLT_exp emin prec) ZnearestE). apply mono. lra. }
    assert (B : rd (dc_duration d - dc_t d) <= dc_sd d * 64). { rewrite <- (idem _ (fmt_64 _ FS)). now apply mono. }
    set (w := rd (dc_duration d - dc_t d)) in *. assert (C : 0 <= rd (w / dc_sd d) <= 64).
    { split.
      - rewrite <- (round_0 radix2 (FLT_exp emin prec) ZnearestE). apply mono. apply Rle_mult_inv_pos; auto.
      - rewrite <- (idem _ F64). apply mono. apply Rmult_le_reg_r with (dc_sd d); auto. unfold Rdiv. rewrite Rmult_assoc, Rinv_l by lra. lra. }
    unfold nceil. cbn [nneg nfloor rounded_ops]. set (q := rd (w / dc_sd d)) in *. assert (I0 : Int_part (- q) = (Int_part (- q))%Z) by reflexivity.
    destruct (base_Int_part (- q)) as [P1 P2]. assert (Int_part (- q) <= 0)%Z by (apply le_IZR; lra). assert (-65 < Int_part (- q))%Z by (apply lt_IZR; lra). lia.
  Qed.
End Rounded.
