(* C71: shared variables, timers and atomic wavetables. *)
From Coq Require Import Reals Lra Lia SpecFloat.
From Verif Require Import SharedSpec SharedProofs SharedFloat.
Local Open Scope R_scope.

(* Whatever threads do to whatever shared variables, in whatever order: every load, tick and block gives what was last stored,
   and storing, making, ticking and resetting gives nothing. *)
Theorem C71_latest : forall (V : Type) (zero : V) (narrow : R -> V) (h : list (act V R)) a,
  answer zero narrow (rev h) a (snd (act_stepR zero narrow (fst (act_runR zero narrow (memory_new zero) h)) a)).
Proof. intros V zero narrow h a. exact (answers zero narrow h a). Qed.
Print Assumptions C71_latest.
Example C71_latest_case : let h := [AStore 0 1; AStore 1 2; ATimer 0 2; AStore 0 3; ATick 1]%nat in
  latest 0%nat (fun _ : R => 9%nat) 0 (rev h) = 3%nat /\ latest 0%nat (fun _ => 9%nat) 1 (rev h) = 2%nat /\ latest 0%nat (fun _ => 9%nat) 2 (rev (h ++ [ATimerTick 0; AStore 0 4]%nat)) = 9%nat
  /\ shaped 1 [repeat 0%nat 64].
Proof. repeat split; repeat constructor. Qed.

(* After it is made and given a sample rate, or reset, a timer shows the number of samples that went through it, in ticks or in blocks, divided by the rate. *)
Theorem C71_timer : forall (V : Type) (zero : V) (narrow : R -> V) k c sr (h l : list (act V R)) size, forallb (plain k) l = true ->
  let show h := m_cells (fst (act_runR zero narrow (memory_new zero) h)) c in
  show (h ++ [ATimer k c; ARate k sr] ++ l ++ [ATimerBlock k size]) = narrow (INR (samples_of k l + size) / sr)
  /\ (cell_of k (rev h) = Some c -> rate_of k (rev h) = sr -> show (h ++ [AReset k] ++ l ++ [ATimerBlock k size]) = narrow (INR (samples_of k l + size) / sr)).
Proof.
  intros V zero narrow k c sr h l size P show. split; [|intros C S]; unfold show; rewrite app_assoc; apply timer_shows; auto; rewrite rev_app_distr; cbn [rev app cell_of rate_of elapsed]; rewrite ?Nat.eqb_refl; auto.
Qed.
Print Assumptions C71_timer.
Example C71_timer_case : let l : list (act nat R) := [ATimerTick 0; ATimerBlock 0 64; AStore 5 1; ATimerTick 1; ATimerTick 0]%nat in forallb (plain 0) l = true /\ samples_of 0 l = 66%nat.
Proof. split; reflexivity. Qed.

(* Tables are made of powers of two only, and can be read and written within their length only. *)
Theorem C71_tables : forall (V : Type) (t : list V),
  ((exists k, length t = (2 ^ k)%nat) -> atomic_new t = Val t) /\ (~ (exists k, length t = (2 ^ k)%nat) -> atomic_new t = Panics)
  /\ forall i v, ((length t <= i)%nat -> atomic_at t i = Panics /\ atomic_set t i v = Panics)
     /\ ((i < length t)%nat -> is_val (atomic_at t i) /\ exists t', atomic_set t i v = Val t' /\ length t' = length t /\ forall j, atomic_at t' j = if Nat.eqb i j then Val v else atomic_at t j).
Proof.
  intros V t. unfold atomic_new. split; [|split].
  - intros H. apply power_spec in H. now rewrite H.
  - intros H. destruct (power_of_two (length t)) eqn:E; [|reflexivity]. exfalso. now apply H, power_spec.
  - intros i v. destruct (set_spec t i v) as [A B]. split; intros H.
    + split; [|now apply A]. unfold atomic_at, index. now rewrite (proj2 (nth_error_None t i) H).
    + split; [|now apply B]. unfold atomic_at, index. destruct (nth_error t i) as [a|] eqn:E; [now exists a|]. apply nth_error_None in E. lia.
Qed.
Print Assumptions C71_tables.
Example C71_tables_case : atomic_new [1; 2; 3; 4]%nat = Val [1; 2; 3; 4]%nat /\ atomic_new [1; 2; 3]%nat = Panics /\ atomic_new (@nil nat) = Panics.
Proof. repeat split. Qed.

(* A table is read at every phase in 0...1, the ends included, by interpolation between the samples around the phase; at the phase of a sample it gives the sample;
   and whatever other threads store between the loads, results are in the range of the contents, which cubic interpolation exceeds by an eighth at most. *)
Theorem C71_readings : forall n t0 t1 t2 t3 phase, table_size n -> same_size n (t0, t1, t2, t3) -> 0 <= phase <= 1 ->
  let ts := (t0, t1, t2, t3) in
  (read_nearest Rnum_ops n t0 phase = Val (reading n Nearest ts phase) /\ read_linear Rnum_ops n t0 t1 phase = Val (reading n Linear ts phase) /\ read_cubic Rnum_ops n t0 t1 t2 t3 phase = Val (reading n Cubic ts phase))
  /\ (forall lo hi, all_in lo hi t0 -> all_in lo hi t1 -> all_in lo hi t2 -> all_in lo hi t3 ->
      (forall m, m <> Cubic -> lo <= reading n m ts phase <= hi) /\ lo - (hi - lo) / 8 <= reading n Cubic ts phase <= hi + (hi - lo) / 8)
  /\ (forall m i, (0 <= i <= n)%Z -> reading n m (t0, t0, t0, t0) (IZR i / IZR n) = nth (Z.to_nat (i mod n)) t0 0).
Proof.
  intros n t0 t1 t2 t3 phase T L H ts. split; [|split].
  - exact (conj (nearest_ok n t0 t1 t2 t3 phase T L H) (conj (linear_ok n t0 t1 t2 t3 phase T L H) (cubic_ok n t0 t1 t2 t3 phase T L H))).
  - intros lo hi A0 A1 A2 A3. split; [|exact (reading_in n Cubic t0 t1 t2 t3 phase lo hi T L A0 A1 A2 A3)]. intros m N.
    pose proof (reading_in n m t0 t1 t2 t3 phase lo hi T L A0 A1 A2 A3) as K. cbn zeta in K. destruct m; [| |congruence]; unfold ts; lra.
  - intros m i Hi. destruct L as (L0 & _). rewrite (reading_grid n m t0 i T L0 Hi). unfold cyclic. now rewrite L0.
Qed.
Print Assumptions C71_readings.
Example C71_readings_case : table_size 4 /\ same_size 4 ([0; 1; 0; -1], [0; 1; 0; -1], [0; 1; 0; -1], [0; 1; 0; -1]) /\ all_in (-1) 1 [0; 1; 0; -1].
Proof. split; [exists 2%nat; split; [lia|reflexivity]|]. split; [repeat split; reflexivity|]. repeat (apply Forall_cons; [lra|]). apply Forall_nil. Qed.

(* A synthesizer plays the table at the phase that its frequencies have added up to, each at the sample rate of its time, since the last reset or seeding, and in the last mode set. *)
Theorem C71_plays : forall n h f ts, table_size n -> same_size n ts ->
  snd (asynth_tick Rnum_ops real_floor n ts (fst (asynth_runR n (asynth_new Rnum_ops 44100) h)) f) = Val (reading n (synth_mode (rev h)) ts (frac (turned (rev h) + f / synth_rate (rev h)))).
Proof. intros n h f ts T S. exact (synth_plays n h f ts T S). Qed.
Print Assumptions C71_plays.
Example C71_plays_case : let t := [0; 1; 0; -1] in let ts := (t, t, t, t) in let h := [SHash (1 / 2); SRate 100; SMode Cubic; STick 30 ts; SRate 200; STick 10 ts; SReset; STick 7 ts] in
  turned (rev h) = 1 / 2 + 7 / 200 /\ synth_mode (rev h) = Cubic /\ synth_rate (rev h) = 200.
Proof. cbn. repeat split. Qed.

(* In binary32: with finite frequencies, sample rates of 2 Hz or more and any changes of mode, seed, rate and table, no read is out of the table and no conversion is undefined. *)
Theorem C71_safe : forall n l, table_size n -> Forall (sane n) l -> Forall is_val (snd (asynth_run f32_ops sf_floorf n (asynth_new f32_ops (nofZ f32_ops 44100)) l)).
Proof. intros n l T S. exact (proj2 (run_tame n l T S _ new_tame)). Qed.
Print Assumptions C71_safe.
(* Both ends are reached: with a frequency just below zero the phase is exactly 1, which reads the first sample. *)
Example C71_safe_case : let t := map (nofZ f32_ops) [7; 5]%Z in let ts := (t, t, t, t) in let a := STick (S754_finite true 8388608 (-60)) ts in
  sane 2 a /\ asynth_run f32_ops sf_floorf 2 (asynth_new f32_ops (nofZ f32_ops 44100)) [a] = (mkASynth (nofZ f32_ops 1) (nofZ f32_ops 0) (ndiv f32_ops (nofZ f32_ops 1) (nofZ f32_ops 44100)) Nearest, [Val (nofZ f32_ops 7)]).
Proof. split; [repeat split|vm_compute; reflexivity]. Qed.

(* A frequency that is infinite or NaN makes an atomic synthesizer convert NaN to an index with `to_int_unchecked`, which is undefined behaviour in safe code;
   frequencies are audio inputs, so this is in reach of any graph that divides by zero. *)
Theorem C71_nonfinite_refuted : forall n ts s f, (f = S754_nan \/ exists b, f = S754_infinity b) -> fin32 (as_phase s) -> fin32 (as_sd s) -> real (as_sd s) <> 0 ->
  snd (asynth_tick f32_ops sf_floorf n ts s f) = Undefined.
Proof. intros n ts s f H A B C. exact (bad_undefined n ts s f H A B C). Qed.
Print Assumptions C71_nonfinite_refuted.
Example C71_nonfinite_case : let t := map (nofZ f32_ops) [7; 5]%Z in
  snd (asynth_tick f32_ops sf_floorf 2 (t, t, t, t) (asynth_new f32_ops (nofZ f32_ops 44100)) (S754_infinity false)) = Undefined.
Proof. vm_compute. reflexivity. Qed.

(* `AtomicTable::read_nearest` does not read the nearest sample: it reads the sample at or before the phase, however close the next one is. *)
Theorem C71_nearest_refuted :
  (forall n t i w, table_size n -> Z.of_nat (length t) = n -> (0 <= i < n)%Z -> 1 / 2 < w < 1 -> read_nearest Rnum_ops n t ((IZR i + w) / IZR n) = Val (nth (Z.to_nat i) t 0))
  /\ ~ (forall n t phase, table_size n -> Z.of_nat (length t) = n -> 0 <= phase <= 1 -> read_nearest Rnum_ops n t phase = Val (cyclic t (Int_part (IZR n * phase + 1 / 2)))).
Proof.
  assert (G : forall n t i w, table_size n -> Z.of_nat (length t) = n -> (0 <= i < n)%Z -> 1 / 2 < w < 1 -> read_nearest Rnum_ops n t ((IZR i + w) / IZR n) = Val (nth (Z.to_nat i) t 0)).
  { intros n t i w T L Hi Hw. assert (0 < IZR n) by (apply IZR_lt; lia). assert (0 <= IZR i) by (apply IZR_le; lia). assert (IZR i + 1 <= IZR n) by (rewrite <- plus_IZR; apply IZR_le; lia).
    assert (B : 0 <= (IZR i + w) / IZR n <= 1) by (split; [apply Rle_mult_inv_pos; lra|apply Rmult_le_reg_r with (IZR n); auto; unfold Rdiv; rewrite Rmult_assoc, Rinv_l; lra]).
    rewrite (nearest_ok n t t t t _ T (conj L (conj L (conj L L))) B). unfold reading. replace (IZR n * ((IZR i + w) / IZR n)) with (IZR i + w) by (field; lra).
    rewrite (int_unique (IZR i + w) i) by lra. unfold cyclic. rewrite L, Z.mod_small by lia. reflexivity. }
  split; [exact G|]. intros H. assert (T : table_size 2) by (exists 1%nat; split; [lia|reflexivity]). specialize (H 2%Z [0; 1] ((IZR 0 + 3 / 4) / IZR 2) T eq_refl ltac:(lra)).
  rewrite (G 2%Z [0; 1] 0%Z (3 / 4) T eq_refl ltac:(lia) ltac:(lra)) in H. rewrite (int_unique _ 1) in H by lra. injection H as H. change (0 = 1) in H. lra.
Qed.
Print Assumptions C71_nearest_refuted.
