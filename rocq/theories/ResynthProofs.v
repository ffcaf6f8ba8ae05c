(* Resynthesis: the state after every number of samples. *)
From Coq Require Import Reals Lra Lia Psatz.
From Verif Require Export ResynthLists.
Local Open Scope R_scope.

Lemma nth_combine_map {A B C} (g : A * B -> C) la lb i da db dc : (i < length la)%nat -> (i < length lb)%nat -> nth i (map g (combine la lb)) dc = g (nth i la da, nth i lb db).
Proof.
  revert lb i. induction la as [|a la IH]; intros lb i Ha Hb; [cbn in Ha; lia|]. destruct lb as [|b lb]; [cbn in Hb; lia|]. destruct i as [|i]; [reflexivity|]. cbn [combine map nth]. apply IH; cbn in *; lia.
Qed.
Lemma forall_nth_len {A} (l : list (list A)) n i : Forall (fun o => length o = n) l -> (i < length l)%nat -> length (nth i l []) = n.
Proof. intros F H. rewrite Forall_forall in F. apply F. now apply nth_In. Qed.
Lemma win_read_ok (out : list (list (R * R))) i v n : (i < n)%nat -> Forall (fun o => length o = n) out -> win_read Rnum_ops out i v = Val (map (fun o => fst (nth i o z2) * v) out).
Proof. intros H F. induction F as [|o out E F IH]; [reflexivity|]. cbn [win_read]. rewrite (index_ok o i z2) by lia. cbn [bind]. rewrite IH. reflexivity. Qed.
Lemma forallb_len (l : list (list R)) n i : (i < n)%nat -> Forall (fun o => length o = n) l -> forallb (fun x => Nat.ltb i (length x)) l = true.
Proof. intros H F. apply forallb_forall. intros x X. rewrite Forall_forall in F. apply Nat.ltb_lt. rewrite (F x X). exact H. Qed.
Lemma hann_eq N j : (0 < N)%nat -> (exists h, N = (2 * h)%nat) -> hann Rnum_ops cos (2 * PI) N j = hann_window N j.
Proof.
  intros P (h & ->). unfold hann, hann_window. unfold n1; cbn [nofZ nadd nmul ndiv Rnum_ops]. replace (2 * h / 2)%nat with h by (rewrite Nat.mul_comm; symmetry; apply Nat.div_mul; lia). rewrite minus_IZR, <- !INR_IZR_INZ.
  assert (N0 : INR h <> 0) by (apply not_0_INR; lia). rewrite mult_INR. change (INR 2) with 2. set (t := PI * (INR j / (2 * INR h))). replace ((INR j - INR h) * (2 * PI) / (2 * INR h)) with (2 * t - PI) by (unfold t; field; assumption).
  rewrite cos_minus, cos_PI, sin_PI, cos_2a_sin. ring_simplify. field.
Qed.

Section Run.
  Context {P : Type} (f : P -> @fwin R -> P * list (nat * nat * (R * R))) (rfft : list R -> list (R * R)) (ifft : list (R * R) -> list (R * R)).
  Variables (inputs outputs e : nat) (sr : R) (l : list (list R)) (p : P).
  Notation Q := (2 ^ e)%nat.
  Definition len : nat := 4 * Q.
  Notation N := len.
  Hypothesis dft : is_packed_dft rfft.
  Hypothesis idft : is_inverse_dft ifft.
  Hypothesis ok : obeys f outputs N.
  Hypothesis frames : Forall (fun x => length x = inputs) l.
  Notation x t c := (nth c (nth t l []) 0).
  Notation pc := (piece f inputs outputs N sr l p).

  Lemma Q_pos : (0 < Q)%nat. Proof using. apply Nat.neq_0_lt_0. now apply Nat.pow_nonzero. Qed.
  Lemma N_quarter : (N / 4 = Q)%nat. Proof using. unfold N. rewrite Nat.mul_comm. now apply Nat.div_mul. Qed.
  Lemma N_half : (N / 2 = 2 * Q)%nat. Proof using. unfold N. replace (4 * Q)%nat with (2 * Q * 2)%nat by lia. now apply Nat.div_mul. Qed.
  Lemma N_pow : N = (2 ^ (e + 2))%nat. Proof using. unfold N. rewrite Nat.pow_add_r. cbn. lia. Qed.

  Record common (n idx : nat) (w : @fwin R) : Prop := { c_len : w_length w = N; c_sr : w_sr w = sr; c_samples : w_samples w = n; c_index : w_index w = idx;
    c_in : length (w_input w) = inputs; c_ins : Forall (fun o => length o = (N + 2)%nat) (w_input w); c_out : length (w_output w) = outputs; c_outs : Forall (fun o => length o = N) (w_output w) }.
  Definition inputs_ok (n top : nat) (w : @fwin R) : Prop := forall c j, (c < inputs)%nat -> (j < top)%nat -> (top <= n + j)%nat -> nth j (nth c (w_input w) []) 0 = x (n + j - top)%nat c * hann_window N j.
  Definition outputs_ok (m d : nat) (w : @fwin R) : Prop := forall c j, (c < outputs)%nat -> (j < N)%nat -> fst (nth j (nth c (w_output w) []) z2) = if Nat.leb (d + 4) m then pc (m - d - 4) c j else 0.
  Definition pos (n i : nat) : nat := ((i + n / Q) mod 4)%nat.
  Definition idx (n i : nat) : nat := (pos n i * Q + n mod Q)%nat.
  Definition winv (n i : nat) (w : @fwin R) : Prop := common n (idx n i) w /\ inputs_ok n (idx n i) w /\ outputs_ok (n / Q) (pos n i) w.
  Definition wmid (n i : nat) (w : @fwin R) : Prop :=
    common n (idx n i) w /\ inputs_ok n (if Nat.eqb (idx n i) 0 then N else idx n i) w /\ (idx n i <> 0%nat \/ (n < N)%nat -> outputs_ok (n / Q) (pos n i) w).

  Lemma idx_lt n i : (idx n i < N)%nat.
  Proof using. unfold idx, pos, N. pose proof Q_pos. pose proof (Nat.mod_upper_bound (i + n / Q) 4 ltac:(lia)). pose proof (Nat.mod_upper_bound n Q ltac:(lia)). nia. Qed.
  (* the next sample *)
  Lemma step n : (S n mod Q = S (n mod Q) /\ S n / Q = n / Q)%nat \/ (S (n mod Q) = Q /\ S n mod Q = 0 /\ S n / Q = S (n / Q))%nat.
  Proof using.
    pose proof Q_pos as H. pose proof (Nat.div_mod n Q ltac:(lia)) as E. pose proof (Nat.mod_upper_bound n Q ltac:(lia)) as B. destruct (Nat.eq_dec (S (n mod Q)) Q) as [F|F].
    - right. split; [assumption|]. assert (E' : S n = (Q * S (n / Q) + 0)%nat) by nia. rewrite E' at 1 2. split; [symmetry; apply (Nat.mod_unique _ _ (S (n / Q))); lia|]. symmetry. apply (Nat.div_unique _ _ _ 0); lia.
    - left. assert (E' : S n = (Q * (n / Q) + S (n mod Q))%nat) by lia. split; [symmetry; apply (Nat.mod_unique _ _ (n / Q)); lia|symmetry; apply (Nat.div_unique _ _ _ (S (n mod Q))); lia].
  Qed.
  Lemma land_mod a k : Nat.land a (2 ^ k - 1) = (a mod 2 ^ k)%nat.
  Proof using. rewrite <- Nat.land_ones. f_equal. rewrite Nat.ones_equiv. lia. Qed.
  Lemma idx_next n i : idx (S n) i = ((idx n i + 1) mod N)%nat /\ (idx (S n) i = 0%nat -> idx n i = (N - 1)%nat /\ pos (S n) i = 0%nat /\ (S n mod Q = 0)%nat).
  Proof using.
    pose proof Q_pos as H. pose proof (Nat.mod_upper_bound n Q ltac:(lia)) as B. unfold idx, pos. pose proof (Nat.mod_upper_bound (i + n / Q) 4 ltac:(lia)) as B4. destruct (step n) as [[E1 E2]|[E0 [E1 E2]]]; rewrite E1, E2.
    - split; [|nia]. symmetry. rewrite Nat.mod_small; [lia|]. unfold N. nia.
    - replace (i + S (n / Q))%nat with (i + n / Q + 1)%nat by lia. assert (C : ((i + n / Q + 1) mod 4 = if Nat.eqb ((i + n / Q) mod 4) 3 then 0 else (i + n / Q) mod 4 + 1)%nat).
      { pose proof (Nat.div_mod (i + n / Q) 4 ltac:(lia)) as E. set (a := ((i + n / Q) mod 4)%nat) in *. set (b := ((i + n / Q) / 4)%nat) in *. rewrite E. destruct (Nat.eqb_spec a 3); symmetry; [apply (Nat.mod_unique _ _ (b + 1))|apply (Nat.mod_unique _ _ b)]; lia. }
      rewrite C. set (a := ((i + n / Q) mod 4)%nat) in *. destruct (Nat.eqb_spec a 3) as [->|A].
      + split; [|intros _; unfold N; lia]. symmetry. replace (3 * Q + n mod Q + 1)%nat with N by (unfold N; lia). rewrite Nat.mod_same by (unfold N; lia). lia.
      + split; [|nia]. symmetry. rewrite Nat.mod_small; [lia|]. unfold N. nia.
  Qed.
  Lemma pos_next n i : idx (S n) i <> 0%nat -> forall c j, (if Nat.leb (pos (S n) i + 4) (S n / Q) then pc (S n / Q - pos (S n) i - 4) c j else 0) = (if Nat.leb (pos n i + 4) (n / Q) then pc (n / Q - pos n i - 4) c j else 0).
  Proof using.
    intros H c j. pose proof Q_pos as QP. unfold idx, pos in *. destruct (step n) as [[E1 E2]|[E0 [E1 E2]]]; rewrite E1, E2 in *; [reflexivity|].
    replace (i + S (n / Q))%nat with (i + n / Q + 1)%nat in * by lia. assert (C : ((i + n / Q + 1) mod 4 = (i + n / Q) mod 4 + 1)%nat).
    { pose proof (Nat.div_mod (i + n / Q) 4 ltac:(lia)) as E. pose proof (Nat.mod_upper_bound (i + n / Q) 4 ltac:(lia)) as B4. set (a := ((i + n / Q) mod 4)%nat) in *. set (b := ((i + n / Q) / 4)%nat) in *. destruct (Nat.eq_dec a 3) as [A|A].
      - exfalso. apply H. replace ((i + n / Q + 1) mod 4)%nat with 0%nat; [lia|]. rewrite E, A. apply (Nat.mod_unique _ _ (b + 1)); lia.
      - rewrite E at 1. symmetry. apply (Nat.mod_unique _ _ b); lia. }
    rewrite C. set (a := ((i + n / Q) mod 4)%nat). replace (a + 1 + 4 <=? S (n / Q))%nat with (a + 4 <=? n / Q)%nat; [|destruct (Nat.leb_spec (a + 4) (n / Q)), (Nat.leb_spec (a + 1 + 4) (S (n / Q))); lia].
    destruct (Nat.leb_spec (a + 4) (n / Q)); [|reflexivity]. f_equal. lia.
  Qed.
  Lemma frame_len n : (n < length l)%nat -> length (nth n l []) = inputs.
  Proof using frames. intros H. rewrite Forall_forall in frames. apply frames. now apply nth_In. Qed.
  Lemma win_tick_ok (r : @resynth R R P) n i w : r_function r = map (hann Rnum_ops cos (2 * PI) N) (seq 0 N) -> r_z r = 2 / 3 -> (n < length l)%nat -> winv n i w ->
    exists w' o, win_tick Rnum_ops r (nth n l []) w = Val (w', o) /\ wmid (S n) i w' /\ length o = outputs /\
      forall c, (c < outputs)%nat -> nth c o 0 = (if Nat.leb (pos n i + 4) (n / Q) then pc (n / Q - pos n i - 4) c (idx n i) else 0) * (hann_window N (idx n i) * (2 / 3)).
  Proof using frames.
    intros Ef Ez Hn ([Cl Cs Cn Ci Cin Cins Cout Couts] & I & O). pose proof (idx_lt n i) as L. pose proof Q_pos as QP. unfold win_tick. rewrite Ef, Ci. set (k := idx n i) in *.
    rewrite (index_ok _ k 0) by now rewrite map_length, seq_length. cbn [bind]. rewrite (nth_indep _ 0 (hann Rnum_ops cos (2 * PI) N 0)) by now rewrite map_length, seq_length.
    rewrite map_nth, seq_nth by assumption. cbn [Nat.add]. rewrite hann_eq by (try (unfold N; lia); exists (2 * Q)%nat; unfold N; lia).
    unfold win_write. rewrite (frame_len n Hn), Cin, Nat.leb_refl. rewrite (firstn_all2 (w_input w)) by lia. rewrite ?Ci. rewrite (forallb_len _ (N + 2)) by (auto; lia). cbn [andb bind w_output w_index].
    rewrite (win_read_ok _ _ _ N) by auto. cbn [bind]. eexists. eexists. split; [reflexivity|]. rewrite ?Ci.
    assert (X : forall c, (c < inputs)%nat -> nth c (map (fun p0 : list R * R => upd (fst p0) k (nmul Rnum_ops (snd p0) (hann_window N k))) (combine (w_input w) (nth n l [])) ++ skipn inputs (w_input w)) [] = upd (nth c (w_input w) []) k (x n c * hann_window N k)).
    { intros c Hc. rewrite app_nth1 by (rewrite map_length, combine_length, Cin, (frame_len n Hn); lia). rewrite (nth_combine_map _ _ _ c [] 0) by (rewrite ?Cin, ?(frame_len n Hn); lia). reflexivity. }
    assert (LX : length (map (fun p0 : list R * R => upd (fst p0) k (nmul Rnum_ops (snd p0) (hann_window N k))) (combine (w_input w) (nth n l [])) ++ skipn inputs (w_input w)) = inputs).
    { rewrite app_length, map_length, combine_length, skipn_length, Cin, (frame_len n Hn). lia. }
    destruct (idx_next n i) as [NX NZ]. fold k in NX, NZ. split; [|split].
    - unfold wmid, advance. cbn [w_length w_input w_output w_sr w_index w_samples]. split; [|split].
      + constructor; cbn [w_length w_input w_output w_sr w_index w_samples]; auto; [lia| |].
        * rewrite Cl. rewrite N_pow at 1. rewrite land_mod, <- N_pow. now rewrite NX.
        * apply Forall_forall. intros y Y. apply (In_nth _ _ []) in Y. destruct Y as (c & Hc & <-). rewrite LX in Hc. rewrite (X c Hc), length_upd. apply forall_nth_len; auto. lia.
      + intros c j Hc Hj Ht. cbn [w_input]. rewrite (X c Hc), nth_upd, (forall_nth_len _ (N + 2)) by (auto; lia). destruct (Nat.ltb_spec k (N + 2)); [|lia].
        assert (T : (if (idx (S n) i =? 0)%nat then N else idx (S n) i) = (k + 1)%nat).
        { destruct (Nat.eqb_spec (idx (S n) i) 0) as [Z|Z]; [destruct (NZ Z); lia|]. rewrite NX in Z |- *. destruct (Nat.eq_dec (k + 1) N) as [W|W]; [rewrite W, Nat.mod_same in Z by lia; lia|]. apply Nat.mod_small. lia. }
        rewrite T in *. rewrite Bool.andb_true_r. destruct (Nat.eqb_spec k j) as [<-|Ne].
        * replace (S n + k - (k + 1))%nat with n by lia. reflexivity.
        * rewrite (I c j Hc) by lia. fold k. replace (S n + j - (k + 1))%nat with (n + j - k)%nat by lia. reflexivity.
      + intros H c j Hc Hj. cbn [w_output]. rewrite (O c j Hc Hj). destruct (Nat.eq_dec (idx (S n) i) 0) as [Z|Z]; [|symmetry; now apply pos_next].
        destruct H as [H|H]; [contradiction|]. assert (M : (S n / Q < 4)%nat) by (apply Nat.div_lt_upper_bound; [lia|unfold N in H; lia]). destruct (NZ Z) as (_ & Z2 & _). rewrite Z2. destruct (Nat.leb_spec (0 + 4) (S n / Q)); [lia|].
        assert (M' : (n / Q <= S n / Q)%nat) by (apply Nat.div_le_mono; lia). destruct (Nat.leb_spec (pos n i + 4) (n / Q)); [lia|reflexivity].
    - now rewrite map_length.
    - intros c Hc. rewrite (nth_indep _ 0 (fst (nth k [] z2) * nmul Rnum_ops (hann_window N k) (r_z r))) by (rewrite map_length; lia). rewrite (map_nth (fun o => fst (nth k o z2) * nmul Rnum_ops (hann_window N k) (r_z r)) (w_output w) [] c).
      rewrite (O c k Hc L), Ez. reflexivity.
  Qed.
  Notation st k := (state_at f inputs outputs N sr l p k).
  Notation vw k := (view inputs outputs N sr l k).
  Notation win_processR := (win_process Rnum_ops rfft ifft f).
  Lemma idx_zero n i : idx n i = 0%nat -> pos n i = 0%nat /\ (n mod Q = 0)%nat.
  Proof using. unfold idx. pose proof Q_pos. nia. Qed.
  Lemma map_repeat_eq {A} (g : list A -> list A) v (o : list (list A)) m : (forall a, In a o -> g a = v) -> length o = m -> map g o = repeat v m.
  Proof using. intros G <-. induction o as [|a o IH]; [reflexivity|]. cbn [map repeat length]. f_equal; [apply G; now left|]. apply IH. intros b B. apply G. now right. Qed.
  Lemma win_process_ok n i w : fft_accepts N = true -> wmid n i w -> idx n i = 0%nat -> (N <= n)%nat -> let k := (n / Q - 4)%nat in
    exists w', win_processR (st k) w = Val (st (S k), w') /\ winv n i w'.
  Proof using dft idft ok frames.
    intros A ([Cl Cs Cn Ci Cin Cins Cout Couts] & I & _) Z Hn k. destruct (idx_zero n i Z) as [Zp Zm]. rewrite Z in I. cbn [Nat.eqb] in I. pose proof Q_pos as QP.
    assert (M : (4 <= n / Q)%nat) by (apply Nat.div_le_lower_bound; [lia|]; unfold N in Hn; lia). assert (En : (n = k * Q + N)%nat) by (pose proof (Nat.div_mod n Q ltac:(lia)); unfold k, N; nia).
    assert (E2 : exists h, (0 < h)%nat /\ N = (2 * h)%nat) by (exists (2 * Q)%nat; unfold N; lia).
    unfold win_process. destruct (each_ok (transform Rnum_ops rfft) [] [] (w_input w) (fun c b => b = spectrum (windowed N l k c))) as (inp & Ei & Li & Hi).
    { intros c Hc. eexists. split; [apply (transform_ok rfft _ N dft A E2); now apply forall_nth_len|]. f_equal. assert (Lc : length (nth c (w_input w) []) = (N + 2)%nat) by now apply forall_nth_len.
      apply (nth_ext _ _ 0 0); [unfold windowed; rewrite map_length, seq_length, firstn_length; lia|]. intros j Hj. rewrite firstn_length in Hj. unfold windowed.
      rewrite (nth_indep (map _ _) 0 (nth c (nth (k * (N / 4) + 0) l []) 0 * hann_window N 0)) by (rewrite map_length, seq_length; lia). rewrite (map_nth (fun j => nth c (nth (k * (N / 4) + j) l []) 0 * hann_window N j)), seq_nth by lia. cbn [Nat.add].
      rewrite N_quarter. assert (J := I c j ltac:(lia) ltac:(lia) ltac:(lia)). replace (n + j - N)%nat with (k * Q + j)%nat in J by lia. rewrite <- J.
      rewrite <- (firstn_skipn N (nth c (w_input w) [])) at 2. rewrite app_nth1 by (rewrite firstn_length; lia). reflexivity. }
    rewrite Ei. cbn [bind]. assert (V : clear_output Rnum_ops (mkwin (w_length w) inp (w_output w) (w_sr w) (w_index w) (w_samples w)) = vw k).
    { unfold clear_output, view. cbn [w_length w_input w_output w_sr w_index w_samples]. rewrite Cl, Cs, Cn, Ci, Z, N_quarter. f_equal; [| |exact En].
      - apply (nth_ext _ _ [] []); [rewrite map_length, seq_length; lia|]. intros c Hc. rewrite Hi by lia. rewrite (nth_indep (map _ _) [] (spectrum (windowed N l k 0))) by (rewrite map_length, seq_length; lia). rewrite (map_nth (fun c => spectrum (windowed N l k c))), seq_nth by lia. reflexivity.
      - apply map_repeat_eq; [|assumption]. intros a Ha. rewrite Forall_forall in Couts. now rewrite (Couts a Ha). }
    rewrite V. pose proof (ok (st k) (vw k) eq_refl) as Ob. cbn [state_at]. destruct (f (st k) (vw k)) as [p' v] eqn:Ev. cbn [fst snd] in *.
    destruct (win_sets_ok N v (w_output (vw k))) as (out & Eo & Lo & So & No).
    { unfold view; cbn [w_output]. apply Forall_forall. intros o Ho. apply repeat_spec in Ho. subst o. apply repeat_length. }
    { unfold view; cbn [w_output]. rewrite repeat_length. exact Ob. }
    rewrite Eo. cbn [bind]. assert (Lv : length (w_output (vw k)) = outputs) by apply repeat_length. rewrite Lv in *.
    destruct (each_ok (untransform Rnum_ops ifft) [] [] out (fun c b => length b = N /\ forall j, (j < N)%nat -> fst (nth j b z2) = pc k c j)) as (out' & Eu & Lu & Hu).
    { intros c Hc. destruct (untransform_ok ifft (nth c out []) N (latest v c) idft A) as (y & Ey & Ly & Hy); [now apply forall_nth_len| |].
      - intros b Hb. rewrite No by lia. unfold latest. f_equal. unfold view; cbn [w_output]. rewrite (nth_indep (repeat _ _) [] (repeat z2 N)), nth_repeat by (rewrite repeat_length; lia). apply nth_repeat.
      - exists y. split; [exact Ey|]. split; [exact Ly|]. intros j Hj. rewrite (Hy j Hj). unfold piece, values. rewrite Ev. reflexivity. }
    rewrite Eu. cbn [bind]. eexists. split; [reflexivity|]. split; [|split].
    - constructor; cbn [w_length w_input w_output w_sr w_index w_samples view]; auto; try lia.
      + rewrite N_quarter. lia.
      + now rewrite map_length, seq_length.
      + apply Forall_forall. intros y Y. apply in_map_iff in Y. destruct Y as (c & <- & _). rewrite spectrum_length. unfold windowed. rewrite map_length, seq_length, N_half. unfold N. lia.
      + apply Forall_forall. intros y Y. apply (In_nth _ _ []) in Y. destruct Y as (c & Hc & <-). apply Hu. lia.
    - intros c j _ Hj. rewrite Z in Hj. lia.
    - intros c j Hc Hj. cbn [w_output]. rewrite Zp. destruct (Nat.leb_spec (0 + 4) (n / Q)); [|lia]. rewrite Nat.sub_0_r. fold k. now apply Hu; try lia.
  Qed.
  Lemma wmid_winv n i w : wmid n i w -> idx n i <> 0%nat \/ (n < N)%nat -> winv n i w.
  Proof using.
    intros (C & I & O) H. split; [assumption|]. split; [|auto]. destruct (Nat.eqb_spec (idx n i) 0) as [Z|Z]; [|assumption]. intros c j _ Hj. lia.
  Qed.
  Lemma fft_time n i w : wmid n i w -> is_fft_time w = Nat.eqb (idx n i) 0 && Nat.leb N n.
  Proof using. intros ([Cl Cs Cn Ci _ _ _ _] & _). unfold is_fft_time. now rewrite Cl, Cn, Ci. Qed.
  (* how often the processing function has been called *)
  Definition calls (n : nat) : nat := (n / Q - 3)%nat.
  Lemma calls_same n : (S n mod Q <> 0)%nat \/ (S n < N)%nat -> calls (S n) = calls n.
  Proof using.
    intros H. unfold calls. destruct (step n) as [[E1 E2]|[E0 [E1 E2]]]; [now rewrite E2|]. destruct H as [H|H]; [contradiction|]. rewrite E2. pose proof Q_pos. assert (S n / Q < 4)%nat by (apply Nat.div_lt_upper_bound; [lia|unfold N in H; lia]). lia.
  Qed.
  Lemma calls_next n : (S n mod Q = 0)%nat -> (N <= S n)%nat -> calls (S n) = S (S n / Q - 4) /\ calls n = (S n / Q - 4)%nat.
  Proof using.
    intros H L. pose proof Q_pos. assert (4 <= S n / Q)%nat by (apply Nat.div_le_lower_bound; [lia|unfold N in L; lia]). unfold calls. split; [lia|].
    destruct (step n) as [[E1 E2]|[E0 [E1 E2]]]; [rewrite E1 in H; lia|]. rewrite E2 in *. lia.
  Qed.
  Lemma wins_process_ok n w0 w1 w2 w3 : ((N <= S n)%nat -> fft_accepts N = true) -> wmid (S n) 0 w0 -> wmid (S n) 1 w1 -> wmid (S n) 2 w2 -> wmid (S n) 3 w3 ->
    exists v0 v1 v2 v3, (if Nat.eqb (Nat.land (S n) (N / 4 - 1)) 0 then wins_process Rnum_ops rfft ifft f (st (calls n)) [w0; w1; w2; w3] else Val (st (calls n), [w0; w1; w2; w3])) = Val (st (calls (S n)), [v0; v1; v2; v3]) /\
      winv (S n) 0 v0 /\ winv (S n) 1 v1 /\ winv (S n) 2 v2 /\ winv (S n) 3 v3.
  Proof using dft idft ok frames.
    intros A W0 W1 W2 W3. rewrite N_quarter, land_mod. pose proof Q_pos as QP. destruct (Nat.eqb_spec (S n mod Q) 0) as [Z|Z].
    - destruct (Nat.ltb_spec (S n) N) as [L|L].
      + rewrite calls_same by now right. cbn [wins_process]. rewrite !(fft_time _ _ _ W0), !(fft_time _ _ _ W1), !(fft_time _ _ _ W2), !(fft_time _ _ _ W3). destruct (Nat.leb_spec N (S n)); [lia|]. rewrite !Bool.andb_false_r. cbn [bind].
        exists w0, w1, w2, w3. split; [reflexivity|]. repeat apply conj; apply wmid_winv; auto.
      + destruct (calls_next n Z L) as [C1 C0]. rewrite C1, C0. set (k := (S n / Q - 4)%nat).
        assert (Ix : forall i, idx (S n) i = (((i + S n / Q) mod 4) * Q)%nat) by (intros i; unfold idx, pos; rewrite Z; lia).
        cbn [wins_process]. rewrite (fft_time _ _ _ W0), (fft_time _ _ _ W1), (fft_time _ _ _ W2), (fft_time _ _ _ W3). destruct (Nat.leb_spec N (S n)); [|lia]. rewrite !Bool.andb_true_r.
        pose proof (Nat.div_mod (S n / Q) 4 ltac:(lia)) as E. pose proof (Nat.mod_upper_bound (S n / Q) 4 ltac:(lia)) as B. set (b := ((S n / Q) mod 4)%nat) in *. set (a := (S n / Q / 4)%nat) in *.
        assert (Ib : forall i d, (i + b = d \/ i + b = 4 + d)%nat -> (d < 4)%nat -> ((i + S n / Q) mod 4 = d)%nat).
        { intros i d [H1|H1] H2; symmetry; [apply (Nat.mod_unique _ _ a)|apply (Nat.mod_unique _ _ (a + 1))]; lia. }
        assert (Cases : b = 0%nat \/ b = 1%nat \/ b = 2%nat \/ b = 3%nat) by lia. destruct Cases as [Eb|[Eb|[Eb|Eb]]].
        * assert (I0 : idx (S n) 0 = 0%nat) by (rewrite Ix, (Ib 0%nat 0%nat); lia). assert (I1 : idx (S n) 1 <> 0%nat) by (rewrite Ix, (Ib 1%nat 1%nat); lia). assert (I2 : idx (S n) 2 <> 0%nat) by (rewrite Ix, (Ib 2%nat 2%nat); lia). assert (I3 : idx (S n) 3 <> 0%nat) by (rewrite Ix, (Ib 3%nat 3%nat); lia).
          rewrite I0, (proj2 (Nat.eqb_neq _ _) I1), (proj2 (Nat.eqb_neq _ _) I2), (proj2 (Nat.eqb_neq _ _) I3). cbn [Nat.eqb]. destruct (win_process_ok (S n) 0 w0 (A L) W0 I0 L) as (v & Ev & Hv). fold k in Ev. rewrite Ev. cbn [bind].
          exists v, w1, w2, w3. split; [reflexivity|]. refine (conj Hv (conj _ (conj _ _))); apply wmid_winv; auto.
        * assert (I0 : idx (S n) 0 <> 0%nat) by (rewrite Ix, (Ib 0%nat 1%nat); lia). assert (I1 : idx (S n) 1 <> 0%nat) by (rewrite Ix, (Ib 1%nat 2%nat); lia). assert (I2 : idx (S n) 2 <> 0%nat) by (rewrite Ix, (Ib 2%nat 3%nat); lia). assert (I3 : idx (S n) 3 = 0%nat) by (rewrite Ix, (Ib 3%nat 0%nat); lia).
          rewrite I3, (proj2 (Nat.eqb_neq _ _) I0), (proj2 (Nat.eqb_neq _ _) I1), (proj2 (Nat.eqb_neq _ _) I2). cbn [Nat.eqb bind]. destruct (win_process_ok (S n) 3 w3 (A L) W3 I3 L) as (v & Ev & Hv). fold k in Ev. rewrite Ev. cbn [bind].
          exists w0, w1, w2, v. split; [reflexivity|]. refine (conj _ (conj _ (conj _ Hv))); apply wmid_winv; auto.
        * assert (I0 : idx (S n) 0 <> 0%nat) by (rewrite Ix, (Ib 0%nat 2%nat); lia). assert (I1 : idx (S n) 1 <> 0%nat) by (rewrite Ix, (Ib 1%nat 3%nat); lia). assert (I2 : idx (S n) 2 = 0%nat) by (rewrite Ix, (Ib 2%nat 0%nat); lia). assert (I3 : idx (S n) 3 <> 0%nat) by (rewrite Ix, (Ib 3%nat 1%nat); lia).
          rewrite I2, (proj2 (Nat.eqb_neq _ _) I0), (proj2 (Nat.eqb_neq _ _) I1), (proj2 (Nat.eqb_neq _ _) I3). cbn [Nat.eqb bind]. destruct (win_process_ok (S n) 2 w2 (A L) W2 I2 L) as (v & Ev & Hv). fold k in Ev. rewrite Ev. cbn [bind].
          exists w0, w1, v, w3. split; [reflexivity|]. refine (conj _ (conj _ (conj Hv _))); apply wmid_winv; auto.
        * assert (I0 : idx (S n) 0 <> 0%nat) by (rewrite Ix, (Ib 0%nat 3%nat); lia). assert (I1 : idx (S n) 1 = 0%nat) by (rewrite Ix, (Ib 1%nat 0%nat); lia). assert (I2 : idx (S n) 2 <> 0%nat) by (rewrite Ix, (Ib 2%nat 1%nat); lia). assert (I3 : idx (S n) 3 <> 0%nat) by (rewrite Ix, (Ib 3%nat 2%nat); lia).
          rewrite I1, (proj2 (Nat.eqb_neq _ _) I0), (proj2 (Nat.eqb_neq _ _) I2), (proj2 (Nat.eqb_neq _ _) I3). cbn [Nat.eqb bind]. destruct (win_process_ok (S n) 1 w1 (A L) W1 I1 L) as (v & Ev & Hv). fold k in Ev. rewrite Ev. cbn [bind].
          exists w0, v, w2, w3. split; [reflexivity|]. refine (conj _ (conj Hv (conj _ _))); apply wmid_winv; auto.
    - rewrite calls_same by now left. exists w0, w1, w2, w3. split; [reflexivity|]. assert (H : forall i, idx (S n) i <> 0%nat) by (intros i I; apply idx_zero in I; tauto). repeat apply conj; apply wmid_winv; auto.
  Qed.
  Notation ov := (overlapped f inputs outputs N sr l p).
  Definition share (n c d : nat) : R := (if Nat.leb (d + 4) (n / Q) then pc (n / Q - d - 4) c (d * Q + n mod Q) else 0) * (hann_window N (d * Q + n mod Q) * (2 / 3)).
  Lemma total_pick n a (g : nat -> R) d m : (m <= n)%nat -> (d < 4)%nat -> a = (if Nat.leb (d + 4) m then g (m - d - 4)%nat else 0) -> total n (fun k => if Nat.eqb (k + d + 4) m then g k else 0) = a.
  Proof using.
    intros L D ->. destruct (Nat.leb_spec (d + 4) m) as [H|H].
    - rewrite (total_one n _ (m - d - 4)%nat) by first [lia | intros j _ J; destruct (Nat.eqb_spec (j + d + 4) m); [lia|reflexivity]]. destruct (Nat.eqb_spec (m - d - 4 + d + 4) m); [reflexivity|lia].
    - apply total_zero. intros k _. destruct (Nat.eqb_spec (k + d + 4) m); [lia|reflexivity].
  Qed.
  Lemma overlapped_shares n c : ov n c = share n c 0 + share n c 1 + share n c 2 + share n c 3.
  Proof using.
    pose proof Q_pos as QP. unfold overlapped. rewrite N_quarter. set (g := fun k => _). set (m := (n / Q)%nat). assert (Mn : (m <= n)%nat) by (apply Nat.div_le_upper_bound; nia).
    pose proof (Nat.div_mod n Q ltac:(lia)) as E. pose proof (Nat.mod_upper_bound n Q ltac:(lia)) as B. fold m in E.
    rewrite (total_ext n g (fun k => (if Nat.eqb (k + 0 + 4) m then g k else 0) + (if Nat.eqb (k + 1 + 4) m then g k else 0) + (if Nat.eqb (k + 2 + 4) m then g k else 0) + (if Nat.eqb (k + 3 + 4) m then g k else 0))).
    - rewrite !total_plus.
      assert (S : forall d, (d < 4)%nat -> share n c d = if Nat.leb (d + 4) m then g (m - d - 4)%nat else 0).
      { intros d D. unfold share. fold m. destruct (Nat.leb_spec (d + 4) m) as [H|H]; [|lra]. unfold g. replace ((m - d - 4) * Q + N)%nat with ((m - d) * Q)%nat by (unfold N; nia).
        assert (X : ((m - d) * Q + d * Q = Q * m)%nat) by (rewrite <- Nat.mul_add_distr_r; replace (m - d + d)%nat with m by lia; lia). assert (Y : (d * Q <= 3 * Q)%nat) by (apply Nat.mul_le_mono_r; lia).
        set (a := ((m - d) * Q)%nat) in *. set (u := (d * Q)%nat) in *. set (v := (Q * m)%nat) in *. set (w := (n mod Q)%nat) in *. clearbody a u v w. unfold N.
        destruct (Nat.leb_spec a n); [|lia]. destruct (Nat.ltb_spec n (a + 4 * Q)); [|lia]. cbn [andb]. replace (n - a)%nat with (u + w)%nat by lia. ring. }
      rewrite (total_pick n (share n c 0) g 0 m) by (try apply S; lia). rewrite (total_pick n (share n c 1) g 1 m) by (try apply S; lia). rewrite (total_pick n (share n c 2) g 2 m) by (try apply S; lia). rewrite (total_pick n (share n c 3) g 3 m) by (try apply S; lia). reflexivity.
    - intros k K. assert (Z : forall d, (k + d + 4 = m)%nat \/ (k + d + 4 <> m)%nat) by (intros; lia). unfold g at 1. destruct (Nat.leb_spec (k * Q + N) n) as [H1|H1].
      + destruct (Nat.ltb_spec n (k * Q + N + N)) as [H2|H2]; cbn [andb].
        * assert (Kd : (k + 4 <= m < k + 8)%nat) by (unfold N in *; nia). change (2 / 3 * (hann_window N (n - (k * Q + N)) * pc k c (n - (k * Q + N)))) with (2 / 3 * (hann_window N (n - (k * Q + N)) * pc k c (n - (k * Q + N)))).
          assert (G : g k = 2 / 3 * (hann_window N (n - (k * Q + N)) * pc k c (n - (k * Q + N)))). { unfold g. destruct (Nat.leb_spec (k * Q + N) n); [|lia]. destruct (Nat.ltb_spec n (k * Q + N + N)); [|lia]. reflexivity. }
          rewrite <- G. destruct (Nat.eqb_spec (k + 0 + 4) m), (Nat.eqb_spec (k + 1 + 4) m), (Nat.eqb_spec (k + 2 + 4) m), (Nat.eqb_spec (k + 3 + 4) m); try lia; lra.
        * destruct (Nat.eqb_spec (k + 0 + 4) m), (Nat.eqb_spec (k + 1 + 4) m), (Nat.eqb_spec (k + 2 + 4) m), (Nat.eqb_spec (k + 3 + 4) m); try lra; exfalso; unfold N in *; nia.
      + cbn [andb]. destruct (Nat.eqb_spec (k + 0 + 4) m), (Nat.eqb_spec (k + 1 + 4) m), (Nat.eqb_spec (k + 2 + 4) m), (Nat.eqb_spec (k + 3 + 4) m); try lra; exfalso; unfold N in *; nia.
  Qed.
  Lemma rotated n (g : nat -> R) : g (pos n 0) + g (pos n 1) + g (pos n 2) + g (pos n 3) = g 0%nat + g 1%nat + g 2%nat + g 3%nat.
  Proof using.
    unfold pos. pose proof (Nat.div_mod (n / Q) 4 ltac:(lia)) as E. pose proof (Nat.mod_upper_bound (n / Q) 4 ltac:(lia)) as B. set (b := ((n / Q) mod 4)%nat) in *. set (a := (n / Q / 4)%nat) in *.
    assert (Ib : forall i d, (i + b = d \/ i + b = 4 + d)%nat -> (d < 4)%nat -> ((i + n / Q) mod 4 = d)%nat). { intros i d [H1|H1] H2; symmetry; [apply (Nat.mod_unique _ _ a)|apply (Nat.mod_unique _ _ (a + 1))]; lia. }
    assert (Cases : b = 0%nat \/ b = 1%nat \/ b = 2%nat \/ b = 3%nat) by lia. destruct Cases as [Eb|[Eb|[Eb|Eb]]].
    - rewrite (Ib 0%nat 0%nat), (Ib 1%nat 1%nat), (Ib 2%nat 2%nat), (Ib 3%nat 3%nat) by lia. lra.
    - rewrite (Ib 0%nat 1%nat), (Ib 1%nat 2%nat), (Ib 2%nat 3%nat), (Ib 3%nat 0%nat) by lia. lra.
    - rewrite (Ib 0%nat 2%nat), (Ib 1%nat 3%nat), (Ib 2%nat 0%nat), (Ib 3%nat 1%nat) by lia. lra.
    - rewrite (Ib 0%nat 3%nat), (Ib 1%nat 0%nat), (Ib 2%nat 1%nat), (Ib 3%nat 2%nat) by lia. lra.
  Qed.
  Definition rwith (ws : list (@fwin R)) (n : nat) : @resynth R R P := mkresynth ws N (map (hann Rnum_ops cos (2 * PI) N) (seq 0 N)) (st (calls n)) sr n (2 / 3).
  Definition rinv (n : nat) (r : @resynth R R P) : Prop := exists w0 w1 w2 w3, r = rwith [w0; w1; w2; w3] n /\ winv n 0 w0 /\ winv n 1 w1 /\ winv n 2 w2 /\ winv n 3 w3.
  Lemma sum_nth (a b : list R) c m : length a = m -> length b = m -> (c < m)%nat -> length (map (fun q => nadd Rnum_ops (fst q) (snd q)) (combine a b)) = m /\ nth c (map (fun q => nadd Rnum_ops (fst q) (snd q)) (combine a b)) 0 = nth c a 0 + nth c b 0.
  Proof using. intros A B C. rewrite map_length, combine_length. split; [lia|]. rewrite (nth_combine_map _ _ _ c 0 0) by lia. reflexivity. Qed.
  (* the windows of a tick, before the transforms *)
  Lemma wins_tick_ok n r : (n < length l)%nat -> rinv n r -> exists w0 w1 w2 w3 o, wins_tick Rnum_ops r (nth n l []) (r_windows r) (repeat 0 outputs) = Val ([w0; w1; w2; w3], o) /\
    wmid (S n) 0 w0 /\ wmid (S n) 1 w1 /\ wmid (S n) 2 w2 /\ wmid (S n) 3 w3 /\ length o = outputs /\ forall c, (c < outputs)%nat -> nth c o 0 = ov n c.
  Proof using frames.
    intros Hn (w0 & w1 & w2 & w3 & -> & W0 & W1 & W2 & W3). set (r := rwith [w0; w1; w2; w3] n).
    destruct (win_tick_ok r n 0 w0 eq_refl eq_refl Hn W0) as (v0 & o0 & E0 & M0 & L0 & O0). destruct (win_tick_ok r n 1 w1 eq_refl eq_refl Hn W1) as (v1 & o1 & E1 & M1 & L1 & O1).
    destruct (win_tick_ok r n 2 w2 eq_refl eq_refl Hn W2) as (v2 & o2 & E2 & M2 & L2 & O2). destruct (win_tick_ok r n 3 w3 eq_refl eq_refl Hn W3) as (v3 & o3 & E3 & M3 & L3 & O3).
    change (r_windows r) with [w0; w1; w2; w3]. cbn [wins_tick]. rewrite E0. cbn [bind]. rewrite E1. cbn [bind]. rewrite E2. cbn [bind]. rewrite E3. cbn [bind]. exists v0, v1, v2, v3. eexists. split; [reflexivity|].
    refine (conj M0 (conj M1 (conj M2 (conj M3 (conj _ _))))); [rewrite !map_length, !combine_length, ?map_length, ?combine_length, ?map_length, ?combine_length, ?map_length, ?combine_length, repeat_length; lia|].
    intros c Hc. destruct (sum_nth (repeat 0 outputs) o0 c outputs) as [A1 B1]; [apply repeat_length|assumption..|]. destruct (sum_nth _ o1 c outputs A1 L1 Hc) as [A2 B2]. destruct (sum_nth _ o2 c outputs A2 L2 Hc) as [A3 B3]. destruct (sum_nth _ o3 c outputs A3 L3 Hc) as [A4 B4].
    rewrite B4, B3, B2, B1, nth_repeat, (O0 c Hc), (O1 c Hc), (O2 c Hc), (O3 c Hc), overlapped_shares, <- (rotated n (share n c)). unfold share, idx. lra.
  Qed.
  Lemma tick_ok n r : ((N <= S n)%nat -> fft_accepts N = true) -> (n < length l)%nat -> rinv n r -> exists r' o, resynth_tick Rnum_ops rfft ifft f outputs r (nth n l []) = Val (r', o) /\ rinv (S n) r' /\ length o = outputs /\ forall c, (c < outputs)%nat -> nth c o 0 = ov n c.
  Proof using dft idft ok frames.
    intros A Hn I. pose proof I as (u0 & u1 & u2 & u3 & Er & _). destruct (wins_tick_ok n r Hn I) as (w0 & w1 & w2 & w3 & o & E & M0 & M1 & M2 & M3 & Lo & Ho).
    unfold resynth_tick. change (n0 Rnum_ops) with 0. rewrite E. cbn [bind]. destruct (wins_process_ok n w0 w1 w2 w3 A M0 M1 M2 M3) as (v0 & v1 & v2 & v3 & Ep & V0 & V1 & V2 & V3).
    rewrite Er. cbn [rwith r_samples r_length r_state r_function r_sr r_z]. replace (n + 1)%nat with (S n) by lia. rewrite Ep. cbn [bind]. eexists. exists o. split; [reflexivity|]. split; [|auto]. exists v0, v1, v2, v3. auto.
  Qed.
  Lemma skipn_nth n : (n < length l)%nat -> skipn n l = nth n l [] :: skipn (S n) l.
  Proof using. clear. revert n. induction l as [|y k IHk]; intros n L; [cbn in L; lia|]. destruct n; [reflexivity|]. cbn [skipn nth]. apply IHk. cbn in L. lia. Qed.
  Lemma run_ok : forall m n r, ((N <= n + m)%nat -> fft_accepts N = true) -> rinv n r -> (n + m <= length l)%nat -> exists r' o, resynth_run Rnum_ops rfft ifft f outputs r (firstn m (skipn n l)) = Val (r', o) /\ rinv (n + m) r' /\ length o = m /\
    forall k, (k < m)%nat -> length (nth k o []) = outputs /\ forall c, (c < outputs)%nat -> nth c (nth k o []) 0 = ov (n + k) c.
  Proof using dft idft ok frames.
    induction m as [|m IH]; intros n r A I L.
    - cbn [firstn]. exists r, []. split; [reflexivity|]. rewrite Nat.add_0_r. split; [assumption|]. split; [reflexivity|]. lia.
    - rewrite (skipn_nth n) by lia. cbn [firstn resynth_run]. destruct (tick_ok n r ltac:(intros; apply A; lia) ltac:(lia) I) as (r1 & y & Et & I1 & Ly & Hy). rewrite Et. cbn [bind]. destruct (IH (1 + n)%nat r1 ltac:(intros; apply A; lia) I1 ltac:(lia)) as (r2 & o & Er & I2 & Lo & Ho). cbn [Nat.add] in Er. rewrite Er. cbn [bind].
      exists r2, (y :: o). split; [reflexivity|]. split; [replace (n + S m)%nat with (1 + n + m)%nat by lia; assumption|]. split; [cbn; lia|]. intros [|k] K; cbn [nth].
      + rewrite Nat.add_0_r. auto.
      + replace (n + S k)%nat with (1 + n + k)%nat by lia. apply Ho. lia.
  Qed.
  Lemma new_ok : (exists r, resynth_newR inputs outputs N p = Val r /\ rinv 0 (resynth_set_srR r sr)).
  Proof using.
    unfold resynth_new. assert (Pw : is_pow2 N = true). { unfold is_pow2. rewrite N_pow, Nat.log2_pow2 by lia. apply Nat.eqb_refl. } rewrite Pw. pose proof Q_pos as QP. destruct (Nat.leb_spec 4 N); [|unfold N in *; lia]. cbn [andb].
    eexists. split; [reflexivity|]. unfold resynth_set_sr. cbn [r_windows map r_length r_function r_state r_sr r_samples r_z]. rewrite N_half, N_quarter. unfold win_new; cbn [w_length w_input w_output w_sr w_index w_samples].
    unfold rinv. eexists. eexists. eexists. eexists. split; [unfold rwith; f_equal; unfold calls; rewrite Nat.div_0_l by lia; reflexivity|].
    assert (W : forall i k, (i < 4)%nat -> k = (i * Q)%nat -> winv 0 i (mkwin N (repeat (repeat (n0 Rnum_ops) (N + 2)) inputs) (repeat (repeat (n0 Rnum_ops, n0 Rnum_ops) N) outputs) sr k 0)).
    { intros i k Hi ->. assert (Ep : pos 0 i = i) by (unfold pos; rewrite Nat.div_0_l by lia; rewrite Nat.add_0_r; now apply Nat.mod_small). assert (Ei : idx 0 i = (i * Q)%nat) by (unfold idx; rewrite Ep, Nat.mod_0_l by lia; lia). split; [|split].
      - rewrite Ei. constructor; cbn [w_length w_input w_output w_sr w_index w_samples]; auto using repeat_length; apply Forall_forall; intros y Y; apply repeat_spec in Y; subst y; apply repeat_length.
      - intros c j Hc Hj Ht. lia.
      - intros c j Hc Hj. cbn [w_output]. rewrite (nth_indep (repeat _ _) [] (repeat (n0 Rnum_ops, n0 Rnum_ops) N)), nth_repeat by (rewrite repeat_length; lia). change (n0 Rnum_ops) with 0. rewrite nth_repeat. rewrite Nat.div_0_l by lia. destruct (Nat.leb_spec (pos 0 i + 4) 0); [lia|reflexivity]. }
    refine (conj _ (conj _ (conj _ _))); apply W; lia.
  Qed.
End Run.
