(* Resynthesis: the whole, resets, copies of inputs, long windows, times. *)
From Coq Require Import Reals Lra Lia Psatz.
From Verif Require Export ResynthProofs.
Local Open Scope R_scope.

Lemma accepts e : (e <= 13)%nat -> fft_accepts (4 * 2 ^ e) = true.
Proof. intros H. replace (4 * 2 ^ e)%nat with (2 ^ (e + 2))%nat by (rewrite Nat.pow_add_r; cbn; lia). unfold fft_accepts, is_pow2. rewrite Nat.log2_pow2 by lia. rewrite Nat.eqb_refl. destruct (Nat.leb_spec 1 (e + 2)), (Nat.leb_spec (e + 2) 15); try lia; reflexivity. Qed.
Lemma refuses e : (13 < e)%nat -> fft_accepts (4 * 2 ^ e) = false.
Proof. intros H. replace (4 * 2 ^ e)%nat with (2 ^ (e + 2))%nat by (rewrite Nat.pow_add_r; cbn; lia). unfold fft_accepts, is_pow2. rewrite Nat.log2_pow2 by lia. rewrite Nat.eqb_refl. destruct (Nat.leb_spec (e + 2) 15); [lia|]. apply Bool.andb_false_r. Qed.
Section Whole.
  Context {P : Type} (f : P -> @fwin R -> P * list (nat * nat * (R * R))) (rfft : list R -> list (R * R)) (ifft : list (R * R) -> list (R * R)).
  Variables (inputs outputs e : nat) (sr : R).
  Notation N := (4 * 2 ^ e)%nat.
  Hypothesis dft : is_packed_dft rfft.
  Hypothesis idft : is_inverse_dft ifft.
  Hypothesis ok : obeys f outputs N.
  Notation run r l := (resynth_runR rfft ifft f outputs r l).
  Lemma overlap_add p l : (e <= 13)%nat -> Forall (fun x => length x = inputs) l -> exists r r' o, resynth_newR inputs outputs N p = Val r /\ run (resynth_set_srR r sr) l = Val (r', o) /\ length o = length l /\
    forall n, (n < length l)%nat -> length (nth n o []) = outputs /\ forall c, (c < outputs)%nat -> nth c (nth n o []) 0 = overlapped f inputs outputs N sr l p n c.
  Proof using dft idft ok.
    intros H F. destruct (new_ok f inputs outputs e sr l p) as (r & Er & I). destruct (run_ok f rfft ifft inputs outputs e sr l p dft idft ok F (length l) 0 _ (fun _ => accepts e H) I ltac:(lia)) as (r' & o & E & _ & L & O).
    cbn [skipn] in E. rewrite firstn_all in E. exists r, r', o. auto.
  Qed.
  (* a reset makes it as new, with the processing function as it is *)
  Lemma reset_new p l r r' o : (e <= 13)%nat -> Forall (fun x => length x = inputs) l -> resynth_newR inputs outputs N p = Val r -> run (resynth_set_srR r sr) l = Val (r', o) ->
    exists r0, resynth_newR inputs outputs N (r_state r') = Val r0 /\ resynth_reset Rnum_ops r' = resynth_set_srR r0 sr.
  Proof using dft idft ok.
    intros H F Er Eo. destruct (new_ok f inputs outputs e sr l p) as (r1 & Er1 & I). unfold len in Er1. rewrite Er in Er1. injection Er1 as <-.
    destruct (run_ok f rfft ifft inputs outputs e sr l p dft idft ok F (length l) 0 _ (fun _ => accepts e H) I ltac:(lia)) as (r2 & o2 & E & I2 & _). cbn [skipn] in E. rewrite firstn_all in E. unfold len in E. rewrite Eo in E. injection E as <- <-.
    destruct I2 as (w0 & w1 & w2 & w3 & -> & W0 & W1 & W2 & W3). cbn [rwith r_state]. set (q := state_at _ _ _ _ _ _ _ _). unfold resynth_new. assert (Pw : is_pow2 N = true). { pose proof (N_pow e) as E. unfold len in E. unfold is_pow2. rewrite E, Nat.log2_pow2 by lia. apply Nat.eqb_refl. }
    rewrite Pw. pose proof (Q_pos e) as QP. destruct (Nat.leb_spec 4 (4 * 2 ^ e)); [|lia]. cbn [andb]. eexists. split; [reflexivity|]. pose proof (N_half e) as NH. pose proof (N_quarter e) as NQ. unfold len in NH, NQ.
    unfold resynth_reset, rwith, len. cbn [r_windows combine seq map fst snd r_length r_function r_state r_sr r_samples r_z]. unfold resynth_set_sr. cbn [r_windows map r_length r_function r_state r_sr r_samples r_z]. rewrite NH, NQ.
    assert (W : forall i w k k' sr0, winv f inputs outputs e sr l p (0 + length l) i w -> k = k' -> win_reset Rnum_ops w k = mkwin (w_length (win_new Rnum_ops N k' inputs outputs sr0)) (w_input (win_new Rnum_ops N k' inputs outputs sr0)) (w_output (win_new Rnum_ops N k' inputs outputs sr0)) sr (w_index (win_new Rnum_ops N k' inputs outputs sr0)) (w_samples (win_new Rnum_ops N k' inputs outputs sr0))).
    { intros i w k k' sr0 ([Cl Cs Cn Ci Cin Cins Cout Couts] & _) ->. unfold win_reset, win_new; cbn [w_length w_input w_output w_sr w_index w_samples]. rewrite Cl, Cs. unfold len in *. f_equal.
      - apply map_repeat_eq; [|assumption]. intros a A. rewrite Forall_forall in Cins. now rewrite (Cins a A).
      - apply map_repeat_eq; [|assumption]. intros a A. rewrite Forall_forall in Couts. now rewrite (Couts a A). }
    f_equal. f_equal; [eapply W; [exact W0|lia]|]. f_equal; [eapply W; [exact W1|lia]|]. f_equal; [eapply W; [exact W2|lia]|]. f_equal. eapply W; [exact W3|lia].
  Qed.
  (* long windows *)
  Lemma run_app (r : @resynth R R P) a b : run r (a ++ b) = bind (run r a) (fun ro => bind (run (fst ro) b) (fun so => Val (fst so, snd ro ++ snd so))).
  Proof using.
    revert r. induction a as [|x a IH]; intros r; cbn [app resynth_run bind fst snd].
    - destruct (run r b) as [[s o]| |]; reflexivity.
    - destruct (resynth_tick Rnum_ops rfft ifft f outputs r x) as [[s y]| |]; cbn [bind]; try reflexivity. rewrite IH. destruct (run s a) as [[t o]| |]; cbn [bind fst snd]; try reflexivity. destruct (run t b) as [[u o']| |]; reflexivity.
  Qed.
  Lemma long_panics p l : (13 < e)%nat -> (0 < inputs)%nat -> Forall (fun x => length x = inputs) l -> exists r, resynth_newR inputs outputs N p = Val r /\ ((length l < N)%nat -> exists r' o, run (resynth_set_srR r sr) l = Val (r', o)) /\ ((N <= length l)%nat -> run (resynth_set_srR r sr) l = Panics).
  Proof using dft idft ok.
    intros H I0 F. destruct (new_ok f inputs outputs e sr l p) as (r & Er & I). exists r. split; [exact Er|]. pose proof (Q_pos e) as QP. split; intros L.
    - destruct (run_ok f rfft ifft inputs outputs e sr l p dft idft ok F (length l) 0 _ ltac:(unfold len; lia) I ltac:(lia)) as (r' & o & E & _). cbn [skipn] in E. rewrite firstn_all in E. eauto.
    - destruct (run_ok f rfft ifft inputs outputs e sr l p dft idft ok F (N - 1) 0 _ ltac:(unfold len; lia) I ltac:(lia)) as (r1 & o & E & I1 & _). cbn [skipn] in E. rewrite <- (firstn_skipn (N - 1) l), run_app. unfold len in *. rewrite E. cbn [bind fst snd].
      rewrite skipn_nth by lia. cbn [resynth_run]. assert (T : resynth_tick Rnum_ops rfft ifft f outputs r1 (nth (N - 1) l []) = Panics); [|now rewrite T].
      replace (0 + (N - 1))%nat with (N - 1)%nat in I1 by lia. destruct (wins_tick_ok f inputs outputs e sr l p F (N - 1) r1 ltac:(lia) I1) as (w0 & w1 & w2 & w3 & y & Ew & M0 & _). destruct I1 as (u0 & u1 & u2 & u3 & Er1 & _). unfold resynth_tick. change (n0 Rnum_ops) with 0. rewrite Ew. cbn [bind].
      rewrite Er1. cbn [rwith r_samples r_length r_state]. pose proof (N_quarter e) as NQ. unfold len in *. rewrite NQ, land_mod. replace (N - 1 + 1)%nat with N by lia. rewrite Nat.mod_mul by lia. cbn [Nat.eqb wins_process].
      assert (I2 : idx e N 0 = 0%nat). { unfold idx, pos. rewrite Nat.div_mul, Nat.mod_mul by lia. cbn. lia. } replace (S (N - 1)) with N in M0 by lia. rewrite (fft_time f inputs outputs e sr l p _ _ _ M0). unfold len. rewrite I2, Nat.leb_refl. cbn [Nat.eqb andb].
      unfold win_process. destruct M0 as ([_ _ _ _ Cin Cins _ _] & _). destruct (w_input w0) as [|x xs]; [cbn in Cin; lia|]. cbn [each]. assert (Lx : length x = (N + 2)%nat) by (inversion Cins; assumption). unfold transform. rewrite Lx. replace (N + 2 - 2)%nat with N by lia. rewrite (refuses e H). reflexivity.
  Qed.
End Whole.
(* copies *)
Section Copy.
  Context {P : Type} (f : P -> @fwin R -> P * list (nat * nat * (R * R))).
  Variables (inputs outputs e : nat) (sr : R) (l : list (list R)) (p : P) (i o : nat).
  Notation N := (4 * 2 ^ e)%nat.
  Hypothesis cp : copies f N i o.
  Hypothesis Hi : (i < inputs)%nat.
  Lemma nth_flat (a : list (R * R)) b : (b < length a)%nat -> nth (b * 2) (flat a) 0 = fst (nth b a z2) /\ nth (b * 2 + 1) (flat a) 0 = snd (nth b a z2).
  Proof using. clear. revert b. induction a as [|[u v] a IH]; intros b B; [cbn in B; lia|]. destruct b as [|b]; [auto|]. change (flat ((u, v) :: a)) with (u :: v :: flat a). cbn [Nat.mul Nat.add nth]. apply IH. cbn in B. lia. Qed.
  Lemma copied k j : (j < N)%nat -> piece f inputs outputs N sr l p k o j = nth i (nth (k * 2 ^ e + j) l []) 0 * hann_window N j.
  Proof using cp Hi.
    intros J. pose proof (Q_pos e) as QP. pose proof (N_half e) as NH. pose proof (N_quarter e) as NQ. unfold len in NH, NQ. set (y := windowed N l k i). assert (Ly : length y = N) by (unfold y, windowed; now rewrite map_length, seq_length).
    set (X := fun b => (total N (fun n => nth n y 0 * cos (turn b n N)), - total N (fun n => nth n y 0 * sin (turn b n N)))).
    assert (A : forall b, (b <= N / 2)%nat -> at_bin (view inputs outputs N sr l k) i b = Val (X b)).
    { intros b B. unfold at_bin, view; cbn [w_input]. rewrite (index_ok _ i []) by now rewrite map_length, seq_length. rewrite (nth_indep (map _ _) [] (spectrum (windowed N l k 0))) by (rewrite map_length, seq_length; lia).
      rewrite (map_nth (fun c => spectrum (windowed N l k c))), seq_nth by lia. cbn [Nat.add bind]. fold y. rewrite spectrum_flat, Ly. fold X. set (a := map _ (seq 0 (N / 2 + 1))). assert (La : length a = (N / 2 + 1)%nat) by (unfold a; now rewrite map_length, seq_length).
      destruct (nth_flat a b ltac:(lia)) as [E1 E2]. rewrite !(index_ok _ _ 0) by (rewrite flat_length; lia). cbn [bind]. rewrite E1, E2. assert (E : nth b a z2 = X b).
      { unfold a. rewrite (nth_indep (map _ _) z2 (X 0%nat)) by (rewrite map_length, seq_length; lia). rewrite (map_nth X), seq_nth by lia. reflexivity. } rewrite E. destruct (X b); reflexivity. }
    assert (M : forall b, (b < N)%nat -> mirrored N (values f inputs outputs N sr l p k) o b = X b).
    { intros b B. unfold mirrored. assert (Lt : forall b, (b <= N / 2)%nat -> latest (values f inputs outputs N sr l p k) o b = X b) by (intros b' B'; apply cp; auto). destruct (Nat.leb_spec b (N / 2)); [now apply Lt|]. rewrite Lt by lia. unfold X. apply (dft_mirrored N (fun n => nth n y 0)). lia. }
    unfold piece. rewrite (total_ext N _ (fun b => fst (X b) * cos (turn b j N) - snd (X b) * sin (turn b j N))) by (intros b B; now rewrite M). unfold X; cbn [fst snd]. rewrite (dft_inverse N (fun n => nth n y 0) j J). unfold y, windowed.
    rewrite (nth_indep (map _ _) 0 (nth i (nth (k * (N / 4) + 0) l []) 0 * hann_window N 0)) by (rewrite map_length, seq_length; lia). rewrite (map_nth (fun j => nth i (nth (k * (N / 4) + j) l []) 0 * hann_window N j)), seq_nth by lia. now rewrite NQ.
  Qed.
  Lemma silent n : (n < N)%nat -> overlapped f inputs outputs N sr l p n o = 0.
  Proof using. intros H. apply total_zero. intros k K. cbv zeta. destruct (Nat.leb_spec (k * (N / 4) + N) n) as [G|]; [|reflexivity]. exfalso. exact (Nat.lt_irrefl _ (Nat.lt_le_trans _ _ _ H (Nat.le_trans _ _ _ (Nat.le_add_l N (k * (N / 4))) G))). Qed.
  Lemma reconstructed n : (N + 3 * 2 ^ e <= n)%nat -> overlapped f inputs outputs N sr l p n o = nth i (nth (n - N) l []) 0.
  Proof using cp Hi.
    intros H. pose proof (Q_pos e) as QP. pose proof (overlapped_shares f inputs outputs e sr l p n o) as E. unfold len in E. rewrite E. pose proof (Nat.div_mod n (2 ^ e) ltac:(lia)) as D. pose proof (Nat.mod_upper_bound n (2 ^ e) ltac:(lia)) as B.
    set (m := (n / 2 ^ e)%nat) in *. set (t := (n mod 2 ^ e)%nat) in *. assert (M : (7 <= m)%nat) by nia.
    assert (S : forall d, (d < 4)%nat -> share f inputs outputs e sr l p n o d = nth i (nth (n - N) l []) 0 * (2 / 3 * hann_window N (d * 2 ^ e + t) ^ 2)).
    { intros d Hd. unfold share, len. fold m t. destruct (Nat.leb_spec (d + 4) m); [|lia]. rewrite copied by nia. replace ((m - d - 4) * 2 ^ e + (d * 2 ^ e + t))%nat with (n - N)%nat; [ring|].
      assert (X : ((m - d - 4) * 2 ^ e + d * 2 ^ e + 4 * 2 ^ e = 2 ^ e * m)%nat) by (rewrite <- !Nat.mul_add_distr_r; replace (m - d - 4 + d + 4)%nat with m by lia; lia). lia. }
    rewrite !S by lia. pose proof (hann_overlap N (2 ^ e) t QP eq_refl) as O. replace (0 * 2 ^ e + t)%nat with t by lia. replace (1 * 2 ^ e + t)%nat with (2 ^ e + t)%nat by lia.
    set (a := hann_window N t ^ 2) in *. set (b := hann_window N (2 ^ e + t) ^ 2) in *. set (c := hann_window N (2 * 2 ^ e + t) ^ 2) in *. set (d := hann_window N (3 * 2 ^ e + t) ^ 2) in *. set (v := nth i (nth (n - N) l []) 0).
    replace (v * (2 / 3 * a) + v * (2 / 3 * b) + v * (2 / 3 * c) + v * (2 / 3 * d)) with (v * (2 / 3 * (a + b + c + d))) by ring. rewrite O. lra.
  Qed.
End Copy.
(* FftWindow::forward copies *)
Lemma forward_obeys {P} i o outputs N : (2 <= N)%nat -> (o < outputs)%nat -> obeys (fun (p : P) w => (p, forward Rnum_ops w i o)) outputs N.
Proof.
  intros H O p w W. cbn [snd]. apply Forall_forall. intros s S. unfold forward in S. apply in_map_iff in S. destruct S as (b & <- & B). cbn [fst snd]. apply in_seq in B. unfold bins in B. rewrite W in B. split; [assumption|]. pose proof (Nat.div_mod N 2 ltac:(lia)). lia.
Qed.
Lemma latest_seq (g : nat -> R * R) o b : forall m n x, fold_left (fun x s => if Nat.eqb (fst (fst s)) o && Nat.eqb (snd (fst s)) b then snd s else x) (map (fun b => (o, b, g b)) (seq n m)) x = if Nat.leb n b && Nat.ltb b (n + m) then g b else x.
Proof.
  induction m as [|m IH]; intros n x; cbn [seq map fold_left].
  - destruct (Nat.leb_spec n b), (Nat.ltb_spec b (n + 0)); try lia; reflexivity.
  - rewrite IH. cbn [fst snd]. rewrite Nat.eqb_refl. cbn [andb]. destruct (Nat.eqb_spec n b), (Nat.leb_spec (S n) b), (Nat.leb_spec n b), (Nat.ltb_spec b (S n + m)), (Nat.ltb_spec b (n + S m)); cbn [andb]; try lia; subst; reflexivity.
Qed.
Lemma forward_copies {P} i o N : copies (fun (p : P) w => (p, forward Rnum_ops w i o)) N i o.
Proof.
  intros p w b v W B A. cbn [snd]. unfold latest, forward. rewrite (latest_seq (fun b => match at_bin w i b with Val x => x | _ => (n0 Rnum_ops, n0 Rnum_ops) end)). unfold bins. rewrite W. destruct (Nat.leb_spec 0 b), (Nat.ltb_spec b (0 + (N / 2 + 1))); try lia. cbn [andb]. now rewrite A.
Qed.
(* times *)
Lemma times inputs outputs e sr l k : sr <> 0 -> let N := (4 * 2 ^ e)%nat in let w := view inputs outputs N sr l k in
  (forall j, w_time_at Rnum_ops idR w j = INR (k * 2 ^ e + j) / sr) /\ w_time Rnum_ops idR w = w_time_at Rnum_ops idR w (N / 2) /\ w_latency Rnum_ops idR w = INR N / sr /\
  w_time Rnum_ops idR (view inputs outputs N sr l (S k)) - w_time Rnum_ops idR w = delta_time Rnum_ops idR w /\ delta_time Rnum_ops idR w * windows_per_second Rnum_ops idR w = 1 /\
  w_frequency Rnum_ops w (bins w - 1) = sr / 2.
Proof.
  intros S N w. pose proof (Q_pos e) as QP. pose proof (N_half e) as NH. pose proof (N_quarter e) as NQ. unfold len in NH, NQ. fold N in NH, NQ. assert (N0 : INR N <> 0) by (apply not_0_INR; unfold N; lia). assert (E4 : INR N = 4 * INR (2 ^ e)) by (unfold N; rewrite (mult_INR 4); f_equal; cbn; lra).
  assert (Q0 : INR (2 ^ e) <> 0) by (apply not_0_INR; lia).
  unfold w_time_at, w_time, w_latency, delta_time, windows_per_second, w_frequency, bins, w, view. cbn [w_samples w_length w_sr ndiv nmul nofZ Rnum_ops]. rewrite <- !INR_IZR_INZ. rewrite NQ, NH. refine (conj _ (conj _ (conj _ (conj _ (conj _ _))))).
  - intros j. rewrite Nat.add_sub, <- INR_IZR_INZ. reflexivity.
  - do 2 f_equal. unfold N. generalize (k * 2 ^ e)%nat. intros. lia.
  - reflexivity.
  - replace (Datatypes.S k * 2 ^ e + N - 2 * 2 ^ e)%nat with (k * 2 ^ e + N - 2 * 2 ^ e + 2 ^ e)%nat by (unfold N; cbn [Nat.mul]; generalize (k * 2 ^ e)%nat; intros; lia). rewrite plus_INR, E4. field. assumption.
  - rewrite E4. field. auto.
  - replace (2 * 2 ^ e + 1 - 1)%nat with (2 * 2 ^ e)%nat by lia. rewrite (mult_INR 2), E4. change (INR 2) with 2. field. assumption.
Qed.
(* a transform as required *)
Definition pdft (x : list R) : list (R * R) := let N := length x in
  map (fun k => if Nat.eqb k 0 then (total N (fun n => nth n x 0), total N (fun n => nth n x 0 * cos (PI * INR n))) else (total N (fun n => nth n x 0 * cos (turn k n N)), - total N (fun n => nth n x 0 * sin (turn k n N)))) (seq 0 (N / 2)).
Lemma pdft_ok : is_packed_dft pdft.
Proof.
  intros x N. unfold pdft. fold N. set (f := fun k : nat => if Nat.eqb k 0 then _ else _). split; [now rewrite map_length, seq_length|]. assert (G : forall k, (k < N / 2)%nat -> nth k (map f (seq 0 (N / 2))) (0, 0) = f k).
  { intros k K. rewrite (nth_indep _ (0, 0) (f 0%nat)) by now rewrite map_length, seq_length. now rewrite (map_nth f), seq_nth. } split.
  - intros H. rewrite G; [reflexivity|]. apply Nat.div_str_pos. lia.
  - intros k K. rewrite G by lia. unfold f. destruct (Nat.eqb_spec k 0); [lia|reflexivity].
Qed.
Lemma reconstructs {P} (f : P -> @fwin R -> P * list (nat * nat * (R * R))) rfft ifft inputs outputs e sr p l i o : let N := (4 * 2 ^ e)%nat in
  is_packed_dft rfft -> is_inverse_dft ifft -> obeys f outputs N -> copies f N i o -> (e <= 13)%nat -> Forall (fun x => length x = inputs) l -> (i < inputs)%nat -> (o < outputs)%nat ->
  exists r r' y, resynth_newR inputs outputs N p = Val r /\ resynth_latency r = N /\ resynth_runR rfft ifft f outputs (resynth_set_srR r sr) l = Val (r', y) /\ length y = length l /\
    forall n, (n < length l)%nat -> ((n < N)%nat -> nth o (nth n y []) 0 = 0) /\ ((N + 3 * 2 ^ e <= n)%nat -> nth o (nth n y []) 0 = nth i (nth (n - N) l []) 0).
Proof.
  intros N D I O C E F Hi Ho. destruct (overlap_add f rfft ifft inputs outputs e sr D I O p l E F) as (r & r' & y & En & Er & L & H). exists r, r', y. split; [exact En|]. split.
  { unfold resynth_new in En. match type of En with (if ?b then _ else _) = _ => destruct b end; [|discriminate]. injection En as <-. reflexivity. } split; [exact Er|]. split; [exact L|].
  intros n Hn. destruct (H n Hn) as [_ V]. rewrite (V o Ho). split; intros G; [now apply silent|now apply reconstructed].
Qed.
