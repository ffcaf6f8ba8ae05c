(* Resynthesis: the transforms of one channel, and setting bins. *)
From Coq Require Import Reals Lra Lia Psatz.
From Verif Require Export TableProofs ResynthFourier.
Local Open Scope R_scope.
Notation z2 := (0, 0).

Lemma flat_length {A} (l : list (A * A)) : length (flat l) = (2 * length l)%nat.
Proof. induction l as [|[a b] l IH]; cbn [flat flat_map length app fst snd] in *; [reflexivity|]. unfold flat in IH. rewrite IH. lia. Qed.
Lemma flat_app {A} (l k : list (A * A)) : flat (l ++ k) = flat l ++ flat k.
Proof. unfold flat. now rewrite flat_map_app. Qed.
Lemma upd_last {A} (l k : list A) a b i : i = length l -> upd (l ++ a :: k) i b = l ++ b :: k.
Proof. intros ->. induction l as [|x l IH]; cbn [app length upd]; [reflexivity|]. now rewrite IH. Qed.
Lemma fix_nyquist_flat (s n a b : R) t : fix_nyquist Rnum_ops (flat ((s, n) :: t) ++ [a; b]) = flat ((s, 0) :: t ++ [(n, 0)]).
Proof.
  unfold fix_nyquist. rewrite app_length, flat_length. cbn [length]. replace (2 * S (length t) + 2 - 2)%nat with (length (flat ((s, n) :: t))) by (rewrite flat_length; cbn [length]; lia).
  rewrite upd_last by reflexivity. cbn [flat flat_map app fst snd nth]. replace (2 * S (length t) + 2 - 1)%nat with (S (S (length (flat t ++ [n])))) by (rewrite app_length, flat_length; cbn [length]; lia).
  change (flat_map (fun p : R * R => [fst p; snd p]) t) with (flat t). cbn [upd]. f_equal. change (n0 Rnum_ops) with 0. f_equal. replace (flat t ++ [n; b]) with ((flat t ++ [n]) ++ [b]) by now rewrite <- app_assoc.
  rewrite upd_last by reflexivity. rewrite <- app_assoc. change (flat_map (fun p : R * R => [fst p; snd p]) (t ++ [(n, 0)])) with (flat (t ++ [(n, 0)])). rewrite flat_app. reflexivity.
Qed.
Lemma spectrum_flat x : spectrum x = flat (map (fun k => (total (length x) (fun n => nth n x 0 * cos (turn k n (length x))), - total (length x) (fun n => nth n x 0 * sin (turn k n (length x))))) (seq 0 (length x / 2 + 1))).
Proof. unfold spectrum, flat. rewrite flat_map_concat_map, flat_map_concat_map, map_map. reflexivity. Qed.
Lemma spectrum_length x : length (spectrum x) = (2 * (length x / 2 + 1))%nat.
Proof. now rewrite spectrum_flat, flat_length, map_length, seq_length. Qed.
Lemma transform_ok rfft (x : list R) N : is_packed_dft rfft -> fft_accepts N = true -> (exists h, (0 < h)%nat /\ N = (2 * h)%nat) -> length x = (N + 2)%nat -> transform Rnum_ops rfft x = Val (spectrum (firstn N x)).
Proof.
  intros D A (h & H0 & ->) L. unfold transform. rewrite L. replace (2 * h + 2 - 2)%nat with (2 * h)%nat by lia. rewrite A. f_equal. set (y := firstn (2 * h) x). assert (Ly : length y = (2 * h)%nat) by (unfold y; rewrite firstn_length; lia).
  destruct (D y) as (E0 & E1 & E2). rewrite Ly in *. assert (Hh : (2 * h / 2 = h)%nat) by (rewrite Nat.mul_comm; apply Nat.div_mul; lia). rewrite Hh in *.
  assert (S : exists a b, skipn (2 * h) x = [a; b]). { assert (length (skipn (2 * h) x) = 2%nat) by (rewrite skipn_length; lia). destruct (skipn (2 * h) x) as [|a [|b [|]]]; try discriminate. eauto. }
  destruct S as (a & b & ->). destruct (rfft y) as [|[s n] t] eqn:Ef; [cbn in E0; lia|]. rewrite fix_nyquist_flat. cbn [nth] in E1. specialize (E1 ltac:(lia)). injection E1 as -> ->. cbn [length] in E0.
  rewrite spectrum_flat, Ly, Hh. f_equal. apply (nth_ext _ _ z2 z2); [cbn [length]; rewrite app_length, map_length, seq_length; cbn [length]; lia|]. intros k K. cbn [length] in K. rewrite app_length in K. cbn [length] in K.
  erewrite (nth_indep (map _ _)); [|rewrite map_length, seq_length; lia]. rewrite (map_nth (fun k => (total (2 * h) (fun n => nth n y 0 * cos (turn k n (2 * h))), - total (2 * h) (fun n => nth n y 0 * sin (turn k n (2 * h))))) (seq 0 (h + 1)) 0%nat k), seq_nth by lia. cbn [Nat.add].
  assert (N0 : INR (2 * h) <> 0) by (apply not_0_INR; lia). destruct (Nat.eq_dec k 0) as [->|K0].
  - cbn [nth]. f_equal; [|rewrite total_zero; [lra|]]; [apply total_ext|]; intros n _; (replace (turn 0 n (2 * h)) with 0 by (unfold turn; cbn [INR]; field; assumption)); rewrite ?cos_0, ?sin_0; lra.
  - destruct (Nat.eq_dec k h) as [->|Kh].
    + destruct h as [|h']; [lia|]. cbn [nth]. rewrite app_nth2 by lia. replace (h' - length t)%nat with 0%nat by lia. cbn [nth].
      assert (T : forall n, turn (S h') n (2 * S h') = PI * INR n) by (intros n; unfold turn; rewrite (mult_INR 2); change (INR 2) with 2; field; apply not_0_INR; lia).
      f_equal; [apply total_ext; intros n _; now rewrite T|]. rewrite total_zero; [lra|]. intros n _. rewrite T, sin_multiple. lra.
    + specialize (E2 k ltac:(lia)). destruct k as [|k]; [lia|]. cbn [nth] in E2 |- *. rewrite app_nth1 by lia. exact E2.
Qed.
(* fix_negative *)
Lemma fix_negative_nth (x : list (R * R)) : length (fix_negative Rnum_ops x) = length x /\ forall b, (b < length x)%nat ->
  nth b (fix_negative Rnum_ops x) z2 = if Nat.leb b (length x / 2) then nth b x z2 else (fst (nth (length x - b) x z2), - snd (nth (length x - b) x z2)).
Proof.
  unfold fix_negative. set (n := length x). set (g := fun a i => _). assert (G : forall m, (m <= n - (n / 2 + 1))%nat -> let a := fold_left g (seq (n / 2 + 1) m) x in
    length a = n /\ forall b, (b < n)%nat -> nth b a z2 = if Nat.ltb b (n / 2 + 1) || Nat.leb (n / 2 + 1 + m) b then nth b x z2 else (fst (nth (n - b) x z2), - snd (nth (n - b) x z2))).
  { induction m as [|m IH]; intros M.
    - cbn [seq fold_left]. split; [reflexivity|]. intros b B. destruct (Nat.ltb_spec b (n / 2 + 1)); [reflexivity|]. destruct (Nat.leb_spec (n / 2 + 1 + 0) b); [reflexivity|lia].
    - rewrite seq_S, fold_left_app. cbn [fold_left]. destruct IH as [IL IN]; [lia|]. set (a := fold_left g _ x) in *. unfold g at 1 2. change (n0 Rnum_ops, n0 Rnum_ops) with (0, 0). cbn [nneg Rnum_ops]. rewrite length_upd. split; [assumption|]. intros b B.
      rewrite nth_upd. rewrite (IN (n - (n / 2 + 1 + m))%nat) by lia. assert (D : (n <= 2 * (n / 2) + 1)%nat). { pose proof (Nat.div_mod n 2 ltac:(lia)). pose proof (Nat.mod_upper_bound n 2 ltac:(lia)). lia. }
      destruct (Nat.ltb_spec (n - (n / 2 + 1 + m)) (n / 2 + 1)); [|lia]. cbn [orb]. rewrite IL. destruct (Nat.eqb_spec (n / 2 + 1 + m) b) as [E|E].
      + subst b. destruct (Nat.ltb_spec (n / 2 + 1 + m) n); [|lia]. cbn [andb]. destruct (Nat.ltb_spec (n / 2 + 1 + m) (n / 2 + 1)); [lia|]. destruct (Nat.leb_spec (n / 2 + 1 + S m) (n / 2 + 1 + m)); [lia|]. reflexivity.
      + cbn [andb]. rewrite (IN b B). destruct (Nat.ltb_spec b (n / 2 + 1)); [reflexivity|]. cbn [orb]. destruct (Nat.leb_spec (n / 2 + 1 + m) b), (Nat.leb_spec (n / 2 + 1 + S m) b); try lia; reflexivity. }
  destruct (G (n - (n / 2 + 1))%nat ltac:(lia)) as [A B]. split; [exact A|]. intros b Hb. rewrite (B b Hb). destruct (Nat.leb_spec b (n / 2)), (Nat.ltb_spec b (n / 2 + 1)); try lia; [reflexivity|]. cbn [orb].
  destruct (Nat.leb_spec (n / 2 + 1 + (n - (n / 2 + 1))) b); [lia|reflexivity].
Qed.
Lemma untransform_ok ifft (x : list (R * R)) N (v : nat -> R * R) : is_inverse_dft ifft -> fft_accepts N = true -> length x = N -> (forall b, (b < N)%nat -> nth b x z2 = v b) ->
  exists y, untransform Rnum_ops ifft x = Val y /\ length y = N /\ forall j, (j < N)%nat ->
    let m b := if Nat.leb b (N / 2) then v b else (fst (v (N - b)%nat), - snd (v (N - b)%nat)) in fst (nth j y z2) = total N (fun b => fst (m b) * cos (turn b j N) - snd (m b) * sin (turn b j N)) / INR N.
Proof.
  intros D A L V. unfold untransform. rewrite L, A. eexists. split; [reflexivity|]. destruct (fix_negative_nth x) as [FL FN]. rewrite L in *. destruct (D (fix_negative Rnum_ops x)) as [DL DN]. rewrite FL in *. split; [assumption|].
  intros j J. set (m := fun b => if Nat.leb b (N / 2) then v b else (fst (v (N - b)%nat), - snd (v (N - b)%nat))). change (fst (nth j (ifft (fix_negative Rnum_ops x)) z2) = total N (fun b => fst (m b) * cos (turn b j N) - snd (m b) * sin (turn b j N)) / INR N). rewrite (DN j J). cbn [fst]. f_equal. apply total_ext. intros b B. assert (E : nth b (fix_negative Rnum_ops x) z2 = m b); [|now rewrite E]. rewrite (FN b B). unfold m. destruct (Nat.leb_spec b (N / 2)); [now apply V|]. now rewrite (V (N - b)%nat) by lia.
Qed.
(* setting bins *)
Lemma win_sets_ok N : forall l (out : list (list (R * R))), Forall (fun o => length o = N) out -> Forall (fun s => (fst (fst s) < length out)%nat /\ (snd (fst s) < N)%nat) l ->
  exists out', win_sets out l = Val out' /\ length out' = length out /\ Forall (fun o => length o = N) out' /\
    forall c b, (c < length out)%nat -> (b < N)%nat -> nth b (nth c out' []) z2 = fold_left (fun x s => if Nat.eqb (fst (fst s)) c && Nat.eqb (snd (fst s)) b then snd s else x) l (nth b (nth c out []) z2).
Proof.
  induction l as [|[[c i] x] l IH]; intros out S F; cbn [win_sets].
  - exists out. split; [reflexivity|]. auto.
  - inversion F as [|a b [C I] F' E]; subst. cbn [fst snd] in C, I. unfold win_set. rewrite (index_ok out c [] C). cbn [bind]. assert (Lo : length (nth c out []) = N) by (rewrite Forall_forall in S; apply S; now apply nth_In).
    rewrite Lo. destruct (Nat.ltb_spec i N); [|lia]. cbn [bind]. destruct (IH (upd out c (upd (nth c out []) i x))) as (out' & E & L' & S' & N').
    + apply Forall_forall. intros o Ho. apply (In_nth _ _ []) in Ho. destruct Ho as (k & K & <-). rewrite length_upd in K. rewrite nth_upd. destruct (Nat.eqb c k && _); [now rewrite length_upd|]. rewrite Forall_forall in S. apply S. now apply nth_In.
    + rewrite length_upd. exact F'.
    + exists out'. rewrite length_upd in *. split; [exact E|]. split; [exact L'|]. split; [exact S'|]. intros c' b' C' B'. rewrite (N' c' b' C' B'). cbn [fold_left fst snd]. f_equal. rewrite nth_upd.
      destruct (Nat.eqb_spec c c') as [->|]; [|reflexivity]. destruct (Nat.ltb_spec c' (length out)); [|lia]. cbn [andb]. rewrite nth_upd. destruct (Nat.eqb_spec i b') as [->|]; [|reflexivity]. rewrite Lo. destruct (Nat.ltb_spec b' N); [reflexivity|lia].
Qed.
Lemma each_ok {A B} (f : A -> outcome B) (da : A) (db : B) l : forall (Q : nat -> B -> Prop), (forall i, (i < length l)%nat -> exists b, f (nth i l da) = Val b /\ Q i b) ->
  exists r, each f l = Val r /\ length r = length l /\ forall i, (i < length l)%nat -> Q i (nth i r db).
Proof.
  induction l as [|a l IH]; intros Q H; cbn [each].
  - exists []. split; [reflexivity|]. split; [reflexivity|]. cbn. lia.
  - destruct (H 0%nat ltac:(cbn; lia)) as (b & E & Hb). cbn [nth] in E. rewrite E. cbn [bind]. destruct (IH (fun i => Q (S i))) as (r & Er & Lr & Hr). { intros i Hi. apply (H (S i)). cbn. lia. }
    rewrite Er. cbn [bind]. exists (b :: r). split; [reflexivity|]. split; [cbn; lia|]. intros [|i] Hi; cbn [nth]; [assumption|]. apply Hr. cbn in Hi. lia.
Qed.
