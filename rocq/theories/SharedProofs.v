(* Shared variables, timers and atomic wavetables: proofs over the reals. *)
From Coq Require Import Reals Lra Lia Psatz SpecFloat.
From Verif Require Export SharedSpec OscProofs.
From Verif Require Import TableProofs MathReals.
Local Open Scope R_scope.

Lemma put_same {A} (f : nat -> A) k a : put f k a k = a. Proof. unfold put. now rewrite Nat.eqb_refl. Qed.
Lemma put_at {A} (f : nat -> A) k a j : put f k a j = if Nat.eqb k j then a else f j. Proof. unfold put. now rewrite Nat.eqb_sym. Qed.

Lemma nth_upd_same {A} (l : list A) i x d : (i < length l)%nat -> nth i (upd l i x) d = x.
Proof. intros H. rewrite nth_upd, Nat.eqb_refl. destruct (Nat.ltb_spec i (length l)); [reflexivity|lia]. Qed.
Lemma nth_upd_other {A} (l : list A) i j x d : j <> i -> nth j (upd l i x) d = nth j l d.
Proof. intros H. rewrite nth_upd. destruct (Nat.eqb_spec i j); [congruence|reflexivity]. Qed.

Section Memory.
  Context {V : Type} (zero : V) (narrow : R -> V).
  Notation act := (act V R).
  Notation stp := (act_stepR zero narrow).
  Notation run := (act_runR zero narrow).
  Notation latest := (latest zero narrow).
  Definition timer_of (k : nat) (h : list act) : option (timer R) := match cell_of k h with Some c => Some (mkTimer c (elapsed k h) (1 / rate_of k h)) | None => None end.
  Definition agrees (m : memory V R) (h : list act) : Prop := (forall c, m_cells m c = latest c h) /\ (forall k, m_timers m k = timer_of k h).
  Lemma step_agrees m h a : agrees m h -> agrees (fst (stp m a)) (a :: h).
  Proof.
    intros [C K]. destruct a; cbn [act_step fst]; try (split; [exact C|exact K]).
    - split; cbn [store m_cells m_timers]; [intros c'; rewrite put_at, C; reflexivity|exact K].
    - split; cbn [timer_new set_timer store m_cells m_timers].
      + intros c'. rewrite put_at, C. reflexivity.
      + intros k'. rewrite put_at, K. unfold timer_of. cbn [cell_of elapsed rate_of]. destruct (Nat.eqb k k'); reflexivity.
    - unfold with_timer. rewrite K. unfold timer_of. destruct (cell_of k h) as [c|] eqn:E; cbn [set_timer m_cells m_timers].
      + split; [exact C|]. intros k'. cbn [m_timers set_timer]. rewrite put_at, K. unfold timer_of. cbn [cell_of elapsed rate_of]. rewrite E. destruct (Nat.eqb j k'); reflexivity.
      + split; [exact C|]. intros k'. rewrite K. unfold timer_of. cbn [cell_of elapsed rate_of]. rewrite E. destruct (Nat.eqb j k'); reflexivity.
    - unfold with_timer. rewrite K. unfold timer_of. destruct (cell_of k h) as [c|] eqn:E.
      + unfold timer_tick, timer_at. cbn [th_cell th_time th_sd nadd Rnum_ops]. split; cbn [store set_timer m_cells m_timers].
        * intros c'. rewrite put_at, C. cbn [SharedSpec.latest elapsed]. unfold shares. rewrite E, Nat.eqb_refl. reflexivity.
        * intros k'. rewrite put_at, K. unfold timer_of. cbn [cell_of elapsed rate_of]. destruct (Nat.eqb_spec k k') as [<-|]; [rewrite E|]; reflexivity.
      + split; [intros c'|intros k']; [rewrite C|rewrite K]; cbn [SharedSpec.latest]; unfold shares, timer_of; cbn [cell_of elapsed rate_of]; [now rewrite E|]. destruct (Nat.eqb_spec k k') as [<-|]; [rewrite E|]; reflexivity.
    - unfold with_timer. rewrite K. unfold timer_of. destruct (cell_of k h) as [c|] eqn:E.
      + unfold timer_process, timer_at. cbn [th_cell th_time th_sd nadd nmul nofZ Rnum_ops]. rewrite <- INR_IZR_INZ.
        replace (INR size * (1 / rate_of k h)) with (INR size / rate_of k h) by (unfold Rdiv; ring). split; cbn [store set_timer m_cells m_timers].
        * intros c'. rewrite put_at, C. cbn [SharedSpec.latest elapsed]. unfold shares. rewrite E, Nat.eqb_refl. reflexivity.
        * intros k'. rewrite put_at, K. unfold timer_of. cbn [cell_of elapsed rate_of]. destruct (Nat.eqb_spec k k') as [<-|]; [rewrite E|]; reflexivity.
      + split; [intros c'|intros k']; [rewrite C|rewrite K]; cbn [SharedSpec.latest]; unfold shares, timer_of; cbn [cell_of elapsed rate_of]; [now rewrite E|]. destruct (Nat.eqb_spec k k') as [<-|]; [rewrite E|]; reflexivity.
    - unfold with_timer. rewrite K. unfold timer_of. destruct (cell_of k h) as [c|] eqn:E.
      + unfold timer_reset. cbn [th_cell th_time th_sd]. split; cbn [store set_timer m_cells m_timers].
        * intros c'. rewrite put_at, C. cbn [SharedSpec.latest elapsed]. unfold shares. rewrite E. reflexivity.
        * intros k'. rewrite put_at, K. unfold timer_of. cbn [cell_of elapsed rate_of]. destruct (Nat.eqb_spec k k') as [<-|]; [rewrite E|]; reflexivity.
      + split; [intros c'|intros k']; [rewrite C|rewrite K]; cbn [SharedSpec.latest]; unfold shares, timer_of; cbn [cell_of elapsed rate_of]; [now rewrite E|]. destruct (Nat.eqb_spec k k') as [<-|]; [rewrite E|]; reflexivity.
    - unfold with_timer. rewrite K. unfold timer_of. destruct (cell_of k h) as [c|] eqn:E.
      + unfold timer_rate. cbn [th_cell th_time th_sd]. split; cbn [store set_timer m_cells m_timers]; [exact C|].
        intros k'. rewrite put_at, K. unfold timer_of. cbn [cell_of elapsed rate_of]. destruct (Nat.eqb_spec k k') as [<-|]; [rewrite E|]; reflexivity.
      + split; [exact C|]. intros k'. rewrite K. unfold timer_of. cbn [cell_of elapsed rate_of]. destruct (Nat.eqb_spec k k') as [<-|]; [rewrite E|]; reflexivity.
  Qed.
  Lemma run_app l : forall m r, fst (run m (l ++ r)) = fst (run (fst (run m l)) r).
  Proof.
    induction l as [|a l IH]; intros m r; [reflexivity|]. cbn [app act_run]. destruct (stp m a) as [m' x]. specialize (IH m' r).
    destruct (run m' (l ++ r)) as [m1 r1]. destruct (run m' l) as [m2 r2]. exact IH.
  Qed.
  Lemma run_agrees h : agrees (fst (run (memory_new zero) (rev h))) h.
  Proof.
    induction h as [|a h IH]; [split; reflexivity|]. cbn [rev]. rewrite run_app. pose proof (step_agrees _ _ a IH) as S. cbn [act_run].
    destruct (stp (fst (run (memory_new zero) (rev h))) a) as [m x]. exact S.
  Qed.
  Lemma write_const size v ch : (size <= MAXB)%nat -> length (write_simd zero size (fun _ => v) ch) = MAXB /\ (forall i, (i < size)%nat -> nth i (write_simd zero size (fun _ => v) ch) zero = v).
  Proof.
    intros Hs. unfold write_simd. split; [now rewrite map_length, seq_length|]. intros i Hi. set (g := fun k => _). rewrite (nth_indep _ zero (g O)) by (rewrite map_length, seq_length; lia).
    rewrite map_nth, seq_nth by lia. unfold g. cbn [plus]. assert (size <= simd_samples size)%nat by (unfold simd_samples; pose proof (Nat.div_mod (size + 7) 8 ltac:(lia)); pose proof (Nat.mod_upper_bound (size + 7) 8 ltac:(lia)); lia).
    destruct (Nat.ltb_spec i (simd_samples size)); [reflexivity|lia].
  Qed.
  (* the channels below k are filled *)
  Lemma fill_channels (fr : list V) size out : (size <= MAXB)%nat -> shaped (length fr) out -> forall k, (k <= length fr)%nat ->
    let o := fold_left (fun out ch => upd out ch (write_simd zero size (fun _ => nth ch fr zero) (nth ch out []))) (seq 0 k) out in
    shaped (length fr) o /\ forall c i, (c < k)%nat -> (i < size)%nat -> nth i (nth c o []) zero = nth c fr zero.
  Proof.
    intros Hs S. induction k as [|k IH]; intros Hk; cbn zeta; [split; [exact S|lia]|]. rewrite seq_S, fold_left_app. cbn [fold_left plus]. destruct (IH ltac:(lia)) as [[L F] N].
    set (o := fold_left _ (seq 0 k) out) in *. destruct (write_const size (nth k fr zero) (nth k o []) Hs) as [WL WN]. split; [split|].
    - now rewrite length_upd.
    - apply Forall_nth. intros i d Hi. rewrite length_upd in Hi. rewrite (nth_indep _ d []) by (now rewrite length_upd). destruct (Nat.eq_dec i k) as [->|D].
      + rewrite nth_upd_same by lia. exact WL.
      + rewrite nth_upd_other by auto. rewrite Forall_nth in F. now apply F.
    - intros c i Hc Hi. destruct (Nat.eq_dec c k) as [->|D]; [rewrite nth_upd_same by lia; now apply WN|]. rewrite nth_upd_other by auto. apply N; lia.
  Qed.
  Lemma frames_const (fr : list V) size o : shaped (length fr) o -> (forall c i, (c < length fr)%nat -> (i < size)%nat -> nth i (nth c o []) zero = nth c fr zero) -> frames zero o size = repeat fr size.
  Proof.
    intros [L F] N. apply (nth_ext _ _ [] []); [unfold frames; now rewrite map_length, seq_length, repeat_length|]. intros i Hi. unfold frames in *. rewrite map_length, seq_length in Hi.
    rewrite (nth_indep _ [] (frame zero o 0)) by (now rewrite map_length, seq_length). rewrite map_nth, seq_nth by auto. cbn [plus].
    rewrite (nth_indep (repeat fr size) [] fr) by (now rewrite repeat_length). rewrite nth_repeat. unfold frame. apply (nth_ext _ _ zero zero); [now rewrite map_length|].
    intros c Hc. rewrite map_length in Hc. set (g := fun ch => nth i ch zero). rewrite (nth_indep _ zero (g [])) by (now rewrite map_length). rewrite map_nth. unfold g. apply N; lia.
  Qed.
  Lemma fn_block (fr : list V) size out : constant_block zero fr size out
    (fold_left (fun out ch => upd out ch (write_simd zero size (fun _ => nth ch fr zero) (nth ch out []))) (seq 0 (length fr)) out).
  Proof.
    intros Hs S. destruct (fill_channels fr size out Hs S (length fr) (le_n _)) as [A B]. split; [exact A|]. now apply frames_const.
  Qed.
  Lemma step_answers m h a : agrees m h -> answer zero narrow h a (snd (stp m a)).
  Proof.
    intros [C K]. destruct a; cbn [act_step snd answer]; unfold var_tick, varfn_tick; rewrite ?C; try reflexivity.
    - eexists. split; [reflexivity|]. unfold var_process. rewrite C. exact (fn_block [latest c h] size out).
    - eexists. split; [reflexivity|]. unfold varfn_process. rewrite C. apply fn_block.
  Qed.
  Lemma answers h a : answer zero narrow (rev h) a (snd (stp (fst (run (memory_new zero) h)) a)).
  Proof. apply step_answers. pose proof (run_agrees (rev h)) as H. now rewrite rev_involutive in H. Qed.

  (* timers *)
  Lemma plain_keeps k (h l : list act) : forallb (plain k) l = true -> cell_of k (l ++ h) = cell_of k h /\ rate_of k (l ++ h) = rate_of k h.
  Proof.
    induction l as [|a l IH]; intros P; [auto|]. cbn [forallb] in P. apply andb_prop in P as [P1 P2]. destruct (IH P2) as [A B].
    destruct a; cbn [app cell_of rate_of plain] in *; auto; apply Bool.negb_true_iff in P1; rewrite P1; auto.
  Qed.
  Lemma plain_elapsed k (h l : list act) : forallb (plain k) l = true -> elapsed k (l ++ h) = elapsed k h + INR (samples_of k l) / rate_of k h.
  Proof.
    induction l as [|a l IH]; intros P; [cbn; unfold Rdiv; ring|]. cbn [forallb] in P. apply andb_prop in P as [P1 P2]. specialize (IH P2). destruct (plain_keeps k h l P2) as [A B].
    destruct a; cbn [app elapsed samples_of plain] in *; auto; try (apply Bool.negb_true_iff in P1; rewrite P1; auto).
    - destruct (Nat.eqb k0 k); [|exact IH]. rewrite IH, B, plus_INR. cbn [INR]. unfold Rdiv. ring.
    - destruct (Nat.eqb k0 k); [|exact IH]. rewrite IH, B, plus_INR. unfold Rdiv. ring.
  Qed.
End Memory.

(* ---- atomic tables ---- *)
Notation mask := SharedModel.mask.
Lemma table_land n i : table_size n -> mask n i = (i mod n)%Z.
Proof.
  intros (k & _ & ->). unfold mask. rewrite Nat2Z.inj_pow. change (Z.of_nat 2) with 2%Z. replace (2 ^ Z.of_nat k - 1)%Z with (Z.ones (Z.of_nat k)) by (rewrite Z.ones_equiv; lia). now rewrite Z.land_ones by lia.
Qed.
Lemma table_pos n : table_size n -> (1 <= n <= 2 ^ 61)%Z.
Proof.
  intros (k & Hk & ->). rewrite Nat2Z.inj_pow. change (Z.of_nat 2) with 2%Z. split; [pose proof (Z.pow_pos_nonneg 2 (Z.of_nat k) ltac:(lia) ltac:(lia)); lia|]. apply Z.pow_le_mono_r; lia.
Qed.
Lemma load_mask n (t : list R) i : table_size n -> Z.of_nat (length t) = n -> load t (mask n i) = Val (cyclic t i).
Proof.
  intros T L. pose proof (table_pos n T). rewrite table_land by auto. unfold load, atomic_at, cyclic. rewrite L. apply index_ok. pose proof (Z.mod_pos_bound i n ltac:(lia)). lia.
Qed.
Lemma mask_mask n i j : table_size n -> mask n (mask n i + j) = mask n (i + j).
Proof. intros T. pose proof (table_pos n T). rewrite !table_land by auto. rewrite Zplus_mod_idemp_l. reflexivity. Qed.
Lemma unchecked_ok n phase : table_size n -> 0 <= phase <= 1 -> unchecked_usize Rnum_ops (IZR n * phase) = Val (Int_part (IZR n * phase)) /\ (0 <= Int_part (IZR n * phase))%Z.
Proof.
  intros T H. pose proof (table_pos n T) as [P1 P2]. apply IZR_le in P1, P2. assert (IZR (2 ^ 61) < IZR (2 ^ 64)) by (apply IZR_lt; reflexivity). unfold unchecked_usize. cbn [nofZ nmul nltb nfloor Rnum_ops].
  set (p := IZR n * phase). assert (0 <= p < IZR (2 ^ 64)) by (unfold p; split; nra). destruct (base_Int_part p). assert (0 <= Int_part p)%Z by (assert (-1 < Int_part p)%Z by (apply lt_IZR; lra); lia).
  destruct (Rlt_dec (-1) p); [|lra]. destruct (Rlt_dec p (IZR (2 ^ 64))); [|lra]. cbn [andb]. now rewrite Z.max_r.
Qed.
Lemma nearest_ok n t0 t1 t2 t3 phase : table_size n -> same_size n (t0, t1, t2, t3) -> 0 <= phase <= 1 -> read_nearest Rnum_ops n t0 phase = Val (reading n Nearest (t0, t1, t2, t3) phase).
Proof.
  intros T (L0 & _) H. unfold read_nearest. cbn [nmul nofZ Rnum_ops]. destruct (unchecked_ok n phase T H) as [-> _]. cbn [bind]. now rewrite load_mask by auto.
Qed.
Lemma linear_ok n t0 t1 t2 t3 phase : table_size n -> same_size n (t0, t1, t2, t3) -> 0 <= phase <= 1 -> read_linear Rnum_ops n t0 t1 phase = Val (reading n Linear (t0, t1, t2, t3) phase).
Proof.
  intros T (L0 & L1 & _) H. unfold read_linear. cbn [nmul nofZ nsub Rnum_ops]. destruct (unchecked_ok n phase T H) as [-> _]. cbn [bind]. rewrite mask_mask by auto. rewrite !load_mask by auto. cbn [bind reading].
  f_equal. unfold lerp, n1. cbn [nmul nofZ nsub nadd Rnum_ops]. ring.
Qed.
Lemma cubic_ok n t0 t1 t2 t3 phase : table_size n -> same_size n (t0, t1, t2, t3) -> 0 <= phase <= 1 -> read_cubic Rnum_ops n t0 t1 t2 t3 phase = Val (reading n Cubic (t0, t1, t2, t3) phase).
Proof.
  intros T (L0 & L1 & L2 & L3) H. unfold read_cubic. cbn [nmul nofZ nsub Rnum_ops]. destruct (unchecked_ok n phase T H) as [-> _]. cbn [bind]. rewrite !mask_mask by auto. rewrite !load_mask by auto. reflexivity.
Qed.
Lemma cyclic_in lo hi (t : list R) i : all_in lo hi t -> (1 <= length t)%nat -> lo <= cyclic t i <= hi.
Proof.
  intros A L. unfold cyclic. unfold all_in in A. rewrite Forall_nth in A. apply A. pose proof (Z.mod_pos_bound i (Z.of_nat (length t)) ltac:(lia)). lia.
Qed.
Lemma reading_in n m t0 t1 t2 t3 phase lo hi : table_size n -> same_size n (t0, t1, t2, t3) -> all_in lo hi t0 -> all_in lo hi t1 -> all_in lo hi t2 -> all_in lo hi t3 ->
  let e := match m with Cubic => (hi - lo) / 8 | _ => 0 end in lo - e <= reading n m (t0, t1, t2, t3) phase <= hi + e.
Proof.
  intros T (L0 & L1 & L2 & L3) A0 A1 A2 A3. pose proof (table_pos n T). cbn zeta. unfold reading. set (p := IZR n * phase). assert (W : 0 <= p - IZR (Int_part p) < 1) by (destruct (base_Int_part p); lra).
  assert (C : forall t i, Z.of_nat (length t) = n -> all_in lo hi t -> lo <= cyclic t i <= hi) by (intros t i L A; apply cyclic_in; [auto|lia]).
  destruct m.
  - pose proof (C t0 (Int_part p) L0 A0). lra.
  - pose proof (C t0 (Int_part p) L0 A0). pose proof (C t1 (Int_part p + 1)%Z L1 A1). nra.
  - apply spline_over; auto. unfold in01. lra.
Qed.
Lemma reading_grid n m t i : table_size n -> Z.of_nat (length t) = n -> (0 <= i <= n)%Z -> reading n m (t, t, t, t) (IZR i / IZR n) = cyclic t i.
Proof.
  intros T L Hi. pose proof (table_pos n T). assert (0 < IZR n) by (apply IZR_lt; lia). unfold reading. replace (IZR n * (IZR i / IZR n)) with (IZR i) by (field; lra).
  rewrite (int_unique (IZR i) i) by lra. replace (IZR i - IZR i) with 0 by ring. destruct m; [reflexivity|ring|]. apply spline_ends.
Qed.

(* ---- the synthesizer ---- *)
Lemma synth_app n (l : list synth_actR) : forall s r, fst (asynth_runR n s (l ++ r)) = fst (asynth_runR n (fst (asynth_runR n s l)) r).
Proof.
  induction l as [|a l IH]; intros s r; [reflexivity|]. cbn [app asynth_run]. destruct (synth_step _ _ n s a) as [s' x]. specialize (IH s' r).
  destruct (asynth_run _ _ n s' (l ++ r)) as [m1 r1]. destruct (asynth_run _ _ n s' l) as [m2 r2]. exact IH.
Qed.
Definition synth_agrees (s : asynth R) (h : list synth_actR) : Prop :=
  frac (as_phase s) = frac (turned h) /\ as_init s = start_phase h /\ as_sd s = 1 / synth_rate h /\ as_mode s = synth_mode h.
Lemma synth_step_agrees n s h a : synth_agrees s h -> synth_agrees (fst (synth_step Rnum_ops real_floor n s a)) (a :: h).
Proof.
  intros (A & B & C & D). destruct a as [f [[[t0 t1] t2] t3]| |sr|p|m]; cbn [synth_step asynth_tick fst]; unfold synth_agrees; cbn [asynth_advance asynth_reset asynth_rate asynth_hash asynth_mode as_phase as_init as_sd as_mode turned start_phase synth_rate synth_mode].
  - split; [|auto]. cbn [nadd nmul nsub Rnum_ops]. unfold real_floor. change (frac (frac (as_phase s + f * as_sd s)) = frac (turned h + f / synth_rate h)).
    rewrite frac_id by apply frac_range. rewrite <- (frac_frac (as_phase s)), A, frac_frac, C. f_equal. unfold Rdiv. ring.
  - rewrite B. auto.
  - auto.
  - auto.
  - auto.
Qed.
Lemma synth_run_agrees n h : synth_agrees (fst (asynth_runR n (asynth_new Rnum_ops 44100) (rev h))) h.
Proof.
  induction h as [|a h IH]; [repeat split; reflexivity|]. cbn [rev]. rewrite synth_app. pose proof (synth_step_agrees n _ _ a IH) as S. cbn [asynth_run].
  destruct (synth_step Rnum_ops real_floor n (fst (asynth_runR n (asynth_new Rnum_ops 44100) (rev h))) a) as [m x]. exact S.
Qed.
Lemma synth_plays n h f ts : table_size n -> same_size n ts ->
  snd (asynth_tick Rnum_ops real_floor n ts (fst (asynth_runR n (asynth_new Rnum_ops 44100) h)) f) = Val (reading n (synth_mode (rev h)) ts (frac (turned (rev h) + f / synth_rate (rev h)))).
Proof.
  intros T S. pose proof (synth_run_agrees n (rev h)) as H. rewrite rev_involutive in H. destruct H as (A & B & C & D). set (s := fst _) in *. destruct ts as [[[t0 t1] t2] t3]. unfold asynth_tick. cbn [snd asynth_advance as_mode as_phase nadd nmul nsub Rnum_ops].
  unfold real_floor. change (as_phase s + f * as_sd s - IZR (Int_part (as_phase s + f * as_sd s))) with (frac (as_phase s + f * as_sd s)).
  rewrite <- (frac_frac (as_phase s)), A, frac_frac, C, D. replace (f * (1 / synth_rate (rev h))) with (f / synth_rate (rev h)) by (unfold Rdiv; ring). set (p := turned (rev h) + _). pose proof (frac_range p).
  destruct (synth_mode (rev h)); [apply nearest_ok|apply linear_ok|apply cubic_ok]; auto; lra.
Qed.

(* ---- timers ---- *)
Lemma timer_shows {V} (zero : V) narrow k c sr (h l : list (act V R)) size : cell_of k (rev h) = Some c -> rate_of k (rev h) = sr -> elapsed k (rev h) = 0 -> forallb (plain k) l = true ->
  m_cells (fst (act_runR zero narrow (memory_new zero) (h ++ l ++ [ATimerBlock k size]))) c = narrow (INR (samples_of k l + size) / sr).
Proof.
  intros C S E P. pose proof (run_agrees zero narrow (rev (h ++ l ++ [ATimerBlock k size]))) as [A _]. rewrite rev_involutive in A. rewrite A. rewrite !rev_app_distr. cbn [rev app SharedSpec.latest elapsed].
  assert (Q : forallb (plain k) (rev l) = true) by (rewrite forallb_forall in *; intros a Ha; apply P; now apply in_rev).
  destruct (plain_keeps k (rev h) (rev l) Q) as [K1 K2]. unfold shares. rewrite K1, C, !Nat.eqb_refl, (plain_elapsed k (rev h) (rev l) Q), K2, S, E.
  assert (G : forall l : list (act V R), samples_of k (rev l) = samples_of k l).
  { clear. assert (F : forall a b : list (act V R), samples_of k (a ++ b) = (samples_of k a + samples_of k b)%nat) by (induction a as [|x a IH]; intros b; [reflexivity|destruct x; cbn [app samples_of]; rewrite ?IH; lia]).
    induction l as [|a l IH]; [reflexivity|]. cbn [rev]. rewrite F, IH. destruct a; cbn [samples_of]; lia. }
  rewrite G, plus_INR. f_equal. unfold Rdiv. ring.
Qed.
(* ---- tables ---- *)
Lemma power_spec n : power_of_two n = true <-> exists k, n = (2 ^ k)%nat.
Proof.
  unfold power_of_two. rewrite Nat.eqb_eq. split; [intros H; eexists; exact H|]. intros [k ->]. now rewrite Nat.log2_pow2 by lia.
Qed.
Lemma set_spec {V} (t : list V) i v : ((length t <= i)%nat -> atomic_set t i v = Panics) /\ ((i < length t)%nat -> exists t', atomic_set t i v = Val t' /\ length t' = length t /\ forall j, atomic_at t' j = if Nat.eqb i j then Val v else atomic_at t j).
Proof.
  unfold atomic_set, atomic_at, index. split; intros H; destruct (Nat.ltb_spec i (length t)); try lia; [reflexivity|]. eexists. split; [reflexivity|]. split; [apply length_upd|].
  intros j. rewrite nth_error_upd. destruct (Nat.eqb i j); [|reflexivity]. destruct (Nat.ltb_spec i (length t)); [reflexivity|lia].
Qed.
