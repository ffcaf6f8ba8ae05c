(* Proofs about the live ADSR envelope. *)
From Coq Require Import Reals Lra Lia Psatz.
From Verif Require Export EnvProofs.
Local Open Scope R_scope.

Section Adsr.
  Variables (attack decay sustain release : R).
  Hypothesis Hp : adsr_ok attack decay sustain release.
  Notation f := (adsr_fn nmR attack decay sustain release).
  Notation lev := (ads nmR attack decay sustain).
  Lemma unit_frac a c : 0 <= a -> a < c -> 0 <= a / c < 1.
  Proof.
    intros H1 H2. split; [apply Rmult_le_pos; [lra|left; apply Rinv_0_lt_compat; lra]|]. apply (Rmult_lt_reg_r c); [lra|]. unfold Rdiv. rewrite Rmult_assoc, Rinv_l; lra.
  Qed.
  Lemma lev_eq t : lev t = if Rlt_dec t attack then t / attack else if Rlt_dec (t - attack) decay then 1 + (sustain - 1) * ((t - attack) / decay) else sustain.
  Proof.
    unfold ads, lerp. cbn. destruct (Rlt_dec t attack); [cbn; change (n1 nmR) with 1; ring|]. destruct (Rlt_dec (t - attack) decay); cbn; change (n1 nmR) with 1; ring.
  Qed.
  Lemma lev_range t : 0 <= t -> 0 <= lev t <= 1.
  Proof.
    destruct Hp as (H1 & H2 & H3 & H4). intros Ht. rewrite lev_eq. destruct (Rlt_dec t attack) as [l|l]. { pose proof (unit_frac t attack Ht l). lra. }
    destruct (Rlt_dec (t - attack) decay) as [l'|l']; [|lra]. apply Rnot_lt_le in l. pose proof (unit_frac (t - attack) decay ltac:(lra) l') as U. set (u := (t - attack) / decay) in *. clearbody u. nra.
  Qed.
  Lemma lev_sustain t : attack + decay <= t -> lev t = sustain.
  Proof. destruct Hp as (H1 & H2 & H3 & H4). intros Ht. rewrite lev_eq. destruct (Rlt_dec t attack); [lra|]. destruct (Rlt_dec (t - attack) decay); lra. Qed.
  (* the state after a call, and its value *)
  Definition after (st : R * R) (t c : R) : R * R :=
    if Rle_dec 0 (snd st) then (if Rlt_dec 0 c then (t, -1) else st) else (if Rle_dec c 0 then (fst st, t) else st).
  Definition fade (r t : R) : R := Rmin (Rmax ((t - (r + release)) / (r - (r + release))) 0) 1.
  Definition value (st : R * R) (t : R) : R := if Rlt_dec (snd st) 0 then lev (t - fst st) else lev (t - fst st) * fade (snd st) t.
  Lemma f_eq st t c : f st t [c] = (after st t c, [value (after st t c) t]).
  Proof.
    unfold adsr_fn. cbn [nth]. cbv zeta.
    assert (E : (if nleb nmR (n0 nmR) (snd st) && nltb nmR (n0 nmR) c then (t, nofZ nmR (-1)) else if nltb nmR (snd st) (n0 nmR) && nleb nmR c (n0 nmR) then (fst st, t) else st) = after st t c).
    { unfold after. cbn. destruct (Rle_dec 0 (snd st)); destruct (Rlt_dec 0 c); destruct (Rlt_dec (snd st) 0); destruct (Rle_dec c 0); cbn; try reflexivity; exfalso; lra. }
    rewrite E. f_equal. f_equal. unfold value. cbn. destruct (Rlt_dec (snd (after st t c)) 0); reflexivity.
  Qed.
  Lemma fade_range r t : 0 <= fade r t <= 1.
  Proof. unfold fade, Rmin, Rmax. destruct (Rle_dec _ 0); destruct (Rle_dec _ 1); lra. Qed.
  Lemma fade_done r t : r + release <= t -> fade r t = 0.
  Proof.
    destruct Hp as (H1 & H2 & H3 & H4). intros H. unfold fade. replace ((t - (r + release)) / (r - (r + release))) with (- ((t - (r + release)) / release)) by (field; lra).
    assert (0 <= (t - (r + release)) / release) by (apply Rmult_le_pos; [lra|left; apply Rinv_0_lt_compat; lra]). rewrite Rmax_right by lra. apply Rmin_left. lra.
  Qed.
  Lemma fade_mid r t : r <= t <= r + release -> fade r t = 1 - (t - r) / release.
  Proof.
    destruct Hp as (H1 & H2 & H3 & H4). intros H. unfold fade. replace ((t - (r + release)) / (r - (r + release))) with (1 - (t - r) / release) by (field; lra).
    assert (0 <= (t - r) / release <= 1). { split; [apply Rmult_le_pos; [lra|left; apply Rinv_0_lt_compat; lra]|]. apply (Rmult_le_reg_r release); [lra|]. unfold Rdiv. rewrite Rmult_assoc, Rinv_l; lra. }
    rewrite Rmax_left by lra. apply Rmin_left. lra.
  Qed.
  Lemma value_range st t : fst st <= t -> 0 <= value st t <= 1.
  Proof.
    intros H. unfold value. pose proof (lev_range (t - fst st) ltac:(lra)) as L. destruct (Rlt_dec (snd st) 0); auto. pose proof (fade_range (snd st) t) as F.
    set (a := lev _) in *. set (c := fade _ _) in *. clearbody a c. nra.
  Qed.

  (* the sequence of calls *)
  Variables (x : nat -> R) (st0 : R * R) (interval sd : R) (h : N).
  Hypothesis Hsd : 0 < sd <= 3 / 4 * interval.
  Hypothesis Hh : (h < 2 ^ 64)%N.
  Notation b := (point interval h).
  Notation X := (fun n => [x n]).
  Notation cl := (closure f st0 X interval sd h).
  Notation sm := (sample f st0 X interval sd h).
  Notation inp k := (x (first_sample interval sd h (pred k))).
  Lemma cl_S k : cl (S k) = after (cl k) (b k) (inp k).
  Proof. cbn [closure]. now rewrite f_eq. Qed.
  Lemma sm_eq k : sm k = [value (cl (S k)) (b k)].
  Proof. unfold sample. rewrite f_eq. now rewrite cl_S. Qed.
  Lemma b_up k : b k < b (S k). Proof. apply points_rise; auto; [lra]. Qed.
  Lemma b_mono i j : (i <= j)%nat -> b i <= b j.
  Proof. intros H. destruct (Nat.eq_dec i j) as [->|]; [lra|]. left. apply points_rise; auto; [lra|lia]. Qed.
  Lemma b_nonneg k : 0 <= b k. Proof. change 0 with (b 0). apply b_mono. lia. Qed.
  Lemma cl_attack : 0 <= fst st0 <= 0 -> forall k, 0 <= fst (cl (S k)) <= b k.
  Proof.
    intros H0 k. induction k as [|k IH]; rewrite cl_S; unfold after.
    - change (cl 0) with st0. change (b 0) with 0. destruct (Rle_dec 0 (snd st0)); [destruct (Rlt_dec 0 _)|destruct (Rle_dec _ 0)]; cbn [fst]; lra.
    - pose proof (b_up k). pose proof (b_nonneg (S k)). destruct (Rle_dec 0 (snd (cl (S k)))); [destruct (Rlt_dec 0 _)|destruct (Rle_dec _ 0)]; cbn [fst]; lra.
  Qed.
  Lemma sm_range k : 0 <= fst st0 <= 0 -> exists v, sm k = [v] /\ 0 <= v <= 1.
  Proof. intros H0. exists (value (cl (S k)) (b k)). split; [apply sm_eq|]. apply value_range. apply cl_attack; auto. Qed.
  (* the first sample of segment k is later than the sample before it *)
  Lemma first_after k n : INR n * sd < b k + sd -> (n <= first_sample interval sd h k)%nat.
  Proof.
    intros H. unfold first_sample. set (q := b k / sd). assert (Eq : b k = q * sd) by (unfold q; field; lra). rewrite Eq in H. assert (Q : INR n < q + 1) by nra.
    destruct (base_Int_part (- q)) as [B1 B2]. assert (Z.of_nat n <= - Int_part (- q))%Z. { apply Z.lt_succ_r. apply lt_IZR. rewrite succ_IZR, opp_IZR, <- INR_IZR_INZ. lra. }
    lia.
  Qed.
  (* there is a call that sees only samples from n0 on, not much later *)
  Lemma call_after n0 : exists k, (forall j, (k <= j)%nat -> (n0 <= first_sample interval sd h (pred j))%nat) /\ b k <= INR n0 * sd + 5 / 2 * interval.
  Proof.
    assert (A : forall T, 0 <= T -> exists j, T < b j + sd /\ b j < T + 5 / 4 * interval).
    { intros T HT. destruct (Rlt_dec T sd) as [l|l]. { exists 0%nat. change (b 0) with 0. split; lra. } apply Rnot_lt_le in l.
      assert (G : forall k, b k + sd <= T \/ exists j, T < b j + sd /\ b j < T + 5 / 4 * interval).
      { intros k. induction k as [|k [IH|IH]]; auto. { left. change (b 0) with 0. lra. } pose proof (point_step interval h k ltac:(lra) Hh).
        destruct (Rlt_dec T (b (S k) + sd)); [right; exists (S k); lra|left; lra]. }
      assert (Gr : forall k, INR k * (3 / 4 * interval) <= b k). { intros k. induction k as [|k IH]; [cbn; lra|]. rewrite S_INR. pose proof (point_step interval h k ltac:(lra) Hh). lra. }
      destruct (archimed (T / (3 / 4 * interval))) as [Ar _]. set (k := Z.to_nat (up (T / (3 / 4 * interval)))).
      destruct (G k) as [G1|G1]; auto. exfalso. pose proof (Gr k) as G2. assert (T / (3 / 4 * interval) <= INR k).
      { unfold k. rewrite INR_IZR_INZ. assert (0 <= T / (3 / 4 * interval)) by (apply Rmult_le_pos; [lra|left; apply Rinv_0_lt_compat; lra]). rewrite Z2Nat.id; [lra|]. apply le_IZR. lra. }
      assert (T <= INR k * (3 / 4 * interval)). { apply (Rmult_le_compat_r (3 / 4 * interval)) in H; [|lra]. replace (T / (3 / 4 * interval) * (3 / 4 * interval)) with T in H by (field; lra). exact H. }
      lra. }
    assert (0 <= INR n0 * sd) by (apply Rmult_le_pos; [apply pos_INR|lra]).
    destruct (A (INR n0 * sd) H) as (j & J1 & J2). exists (S j). split.
    - intros i Hi. apply first_after. pose proof (b_mono j (pred i) ltac:(lia)). lra.
    - pose proof (point_step interval h j ltac:(lra) Hh). lra.
  Qed.
  (* held *)
  Lemma held n0 : 0 <= fst st0 <= 0 -> (forall n, (n0 <= n)%nat -> 0 < x n) -> forall k, INR n0 * sd + 5 / 2 * interval + attack + decay <= b k -> sm k = [sustain].
  Proof.
    intros H0 Hx k Hk. destruct (call_after n0) as (c & C1 & C2). destruct Hp as (P1 & P2 & P3 & P4).
    assert (Hck : (c <= k)%nat). { destruct (Nat.le_gt_cases c k); auto. pose proof (points_rise interval h k c ltac:(lra) Hh H). lra. }
    assert (G : forall j, (c <= j)%nat -> snd (cl (S j)) < 0 /\ fst (cl (S j)) <= b c).
    { intros j Hj. induction Hj as [|j Hj IH].
      - rewrite cl_S. unfold after. specialize (Hx _ (C1 c (le_n _))). destruct (Rle_dec 0 (snd (cl c))) as [l|l]; [destruct (Rlt_dec 0 _); [cbn; lra|tauto]|].
        destruct (Rle_dec _ 0); [lra|]. apply Rnot_le_lt in l. split; [lra|]. destruct c; [cbn; change (b 0) with 0; lra|]. pose proof (proj2 (cl_attack H0 c)). pose proof (b_up c). lra.
      - rewrite cl_S. unfold after. specialize (Hx _ (C1 (S j) ltac:(lia))). destruct (Rle_dec 0 (snd (cl (S j)))); [lra|]. destruct (Rle_dec _ 0); [lra|]. exact IH. }
    destruct (G k Hck) as [G1 G2]. rewrite sm_eq. unfold value. destruct (Rlt_dec _ 0); [|tauto]. rewrite lev_sustain; [reflexivity|]. lra.
  Qed.
  (* released *)
  Lemma released n0 : (forall n, (n0 <= n)%nat -> x n <= 0) -> forall k, INR n0 * sd + 5 / 2 * interval + release <= b k -> snd st0 < 0 -> sm k = [0].
  Proof.
    intros Hx k Hk Hr. destruct (call_after n0) as (c & C1 & C2). destruct Hp as (P1 & P2 & P3 & P4).
    assert (Hck : (c <= k)%nat). { destruct (Nat.le_gt_cases c k); auto. pose proof (points_rise interval h k c ltac:(lra) Hh H). lra. }
    assert (B : forall j, snd (cl (S j)) <= b j).
    { intros j. induction j as [|j IH]; rewrite cl_S; unfold after.
      - change (cl 0) with st0. change (b 0) with 0. destruct (Rle_dec 0 (snd st0)); [lra|destruct (Rle_dec _ 0)]; cbn [snd]; lra.
      - pose proof (b_up j). pose proof (b_nonneg (S j)). destruct (Rle_dec 0 (snd (cl (S j)))); [destruct (Rlt_dec 0 _)|destruct (Rle_dec _ 0)]; cbn [snd]; lra. }
    assert (G : forall j, (c <= j)%nat -> 0 <= snd (cl (S j)) <= b c).
    { intros j Hj. induction Hj as [|j Hj IH].
      - split; [|apply B]. rewrite cl_S. unfold after. specialize (Hx _ (C1 c (le_n _))). destruct (Rle_dec 0 (snd (cl c))) as [l|l]; [destruct (Rlt_dec 0 _); lra|].
        destruct (Rle_dec _ 0); [|tauto]. cbn. apply b_nonneg.
      - rewrite cl_S. unfold after. specialize (Hx _ (C1 (S j) ltac:(lia))). destruct (Rle_dec 0 (snd (cl (S j)))); [|lra]. destruct (Rlt_dec 0 _); [lra|]. exact IH. }
    pose proof (G k Hck) as G1. rewrite sm_eq. unfold value. destruct (Rlt_dec _ 0); [lra|]. rewrite fade_done by lra. now rewrite Rmult_0_r.
  Qed.
  (* pressed from the start: the attack *)
  Lemma pressed : st0 = (0, -1) -> (forall n, 0 < x n) -> forall k, sm k = [lev (b k)].
  Proof.
    intros H0 Hx k. assert (G : forall j, cl j = (0, -1)).
    { intros j. induction j as [|j IH]; [exact H0|]. rewrite cl_S, IH. unfold after. cbn [snd fst]. destruct (Rle_dec 0 (-1)); [lra|]. specialize (Hx (first_sample interval sd h (pred j))). destruct (Rle_dec _ 0); [lra|reflexivity]. }
    rewrite sm_eq, G. unfold value. cbn [snd fst]. destruct (Rlt_dec (-1) 0); [|lra]. now rewrite Rminus_0_r.
  Qed.
End Adsr.

Lemma zip1 (g : R -> R -> R) a c : zip2 g [a] [c] = [g a c]. Proof. reflexivity. Qed.
Lemma point_nonneg interval h k : 0 < interval -> (h < 2 ^ 64)%N -> 0 <= point interval h k.
Proof. intros H1 H2. destruct k; [cbn; lra|]. left. apply (points_rise interval h 0 (S k)); auto. lia. Qed.
(* sample n is on the line between the values of two calls *)
Lemma adsr_line attack decay sustain release s x n : adsr_ok attack decay sustain release -> fits s ->
  let v := fun k => value attack decay sustain release (closure (adsr_fn nmR attack decay sustain release) (e_st s) (fun n => [x n]) (e_int s) (e_sd s) (e_hash s) (S k)) (point (e_int s) (e_hash s) k) in
  exists k, in_segment (e_int s) (e_hash s) k (INR n * e_sd s) /\
    adsr_at attack decay sustain release s x n = on_line (point (e_int s) (e_hash s) k) (v k) (point (e_int s) (e_hash s) (S k)) (v (S k)) (INR n * e_sd s).
Proof.
  intros Hp Hf v. destruct (envin_line (adsr_fn nmR attack decay sustain release) s (fun n => [x n]) n Hf) as (k & K1 & K2). exists k. split; auto.
  unfold adsr_at. rewrite K2, !sm_eq. now rewrite zip1.
Qed.
Lemma sm_value attack decay sustain release x st0 interval sd h k v :
  sample (adsr_fn nmR attack decay sustain release) st0 (fun n => [x n]) interval sd h k = [v] ->
  value attack decay sustain release (closure (adsr_fn nmR attack decay sustain release) st0 (fun n => [x n]) interval sd h (S k)) (point interval h k) = v.
Proof. rewrite sm_eq. congruence. Qed.
Lemma adsr_range attack decay sustain release s x n : adsr_ok attack decay sustain release -> fits s -> e_st s = adsr_start nmR ->
  0 <= adsr_at attack decay sustain release s x n <= 1.
Proof.
  intros Hp Hf Hs. destruct (adsr_line attack decay sustain release s x n Hp Hf) as (k & [K1 K2] & ->). destruct Hf as (F1 & F2 & F3).
  rewrite Hs. assert (V : forall k, 0 <= value attack decay sustain release (closure (adsr_fn nmR attack decay sustain release) (adsr_start nmR) (fun n => [x n]) (e_int s) (e_sd s) (e_hash s) (S k)) (point (e_int s) (e_hash s) k) <= 1).
  { intros j. destruct (sm_range attack decay sustain release Hp x (adsr_start nmR) (e_int s) (e_sd s) (e_hash s) F1 F3 j) as (v & V1 & V2); [cbn; lra|]. now rewrite (sm_value _ _ _ _ _ _ _ _ _ _ _ V1). }
  apply on_line_between; auto; lra.
Qed.
(* on a segment both of whose ends have the same value *)
Lemma on_line_flat t0 t1 t y : on_line t0 y t1 y t = y. Proof. unfold on_line. ring. Qed.
Lemma adsr_held attack decay sustain release s x n0 n : adsr_ok attack decay sustain release -> fits s -> e_st s = adsr_start nmR -> (forall m, (n0 <= m)%nat -> 0 < x m) ->
  INR n0 * e_sd s + attack + decay + 15 / 4 * e_int s <= INR n * e_sd s -> adsr_at attack decay sustain release s x n = sustain.
Proof.
  intros Hp Hf Hs Hx Hn. destruct (adsr_line attack decay sustain release s x n Hp Hf) as (k & [K1 K2] & ->). destruct Hf as (F1 & F2 & F3). rewrite Hs.
  pose proof (point_step (e_int s) (e_hash s) k ltac:(lra) F3) as St.
  assert (V : forall j, point (e_int s) (e_hash s) k <= point (e_int s) (e_hash s) j -> value attack decay sustain release (closure (adsr_fn nmR attack decay sustain release) (adsr_start nmR) (fun n => [x n]) (e_int s) (e_sd s) (e_hash s) (S j)) (point (e_int s) (e_hash s) j) = sustain).
  { intros j Hj. apply sm_value. apply (held attack decay sustain release Hp) with (n0 := n0); auto; [cbn; lra|lra]. }
  rewrite (V k), (V (S k)) by lra. apply on_line_flat.
Qed.
Lemma adsr_released attack decay sustain release s x n0 n : adsr_ok attack decay sustain release -> fits s -> e_st s = adsr_start nmR -> (forall m, (n0 <= m)%nat -> x m <= 0) ->
  INR n0 * e_sd s + release + 15 / 4 * e_int s <= INR n * e_sd s -> adsr_at attack decay sustain release s x n = 0.
Proof.
  intros Hp Hf Hs Hx Hn. destruct (adsr_line attack decay sustain release s x n Hp Hf) as (k & [K1 K2] & ->). destruct Hf as (F1 & F2 & F3). rewrite Hs.
  pose proof (point_step (e_int s) (e_hash s) k ltac:(lra) F3) as St.
  assert (V : forall j, point (e_int s) (e_hash s) k <= point (e_int s) (e_hash s) j -> value attack decay sustain release (closure (adsr_fn nmR attack decay sustain release) (adsr_start nmR) (fun n => [x n]) (e_int s) (e_sd s) (e_hash s) (S j)) (point (e_int s) (e_hash s) j) = 0).
  { intros j Hj. apply sm_value. apply (released attack decay sustain release Hp) with (n0 := n0); auto; [lra|cbn; lra]. }
  rewrite (V k), (V (S k)) by lra. apply on_line_flat.
Qed.
Lemma adsr_attack attack decay sustain release s x n : adsr_ok attack decay sustain release -> fits s -> e_st s = adsr_start nmR -> (forall m, 0 < x m) ->
  INR n * e_sd s + 5 / 4 * e_int s <= attack -> adsr_at attack decay sustain release s x n = INR n * e_sd s / attack.
Proof.
  intros Hp Hf Hs Hx Hn. destruct (adsr_line attack decay sustain release s x n Hp Hf) as (k & [K1 K2] & ->). destruct Hf as (F1 & F2 & F3). rewrite Hs.
  pose proof (point_step (e_int s) (e_hash s) k ltac:(lra) F3) as St. pose proof (point_nonneg (e_int s) (e_hash s) k ltac:(lra) F3).
  assert (V : forall j, point (e_int s) (e_hash s) j < attack -> value attack decay sustain release (closure (adsr_fn nmR attack decay sustain release) (adsr_start nmR) (fun n => [x n]) (e_int s) (e_sd s) (e_hash s) (S j)) (point (e_int s) (e_hash s) j) = point (e_int s) (e_hash s) j / attack).
  { intros j Hj. apply sm_value. rewrite (pressed attack decay sustain release); auto. rewrite lev_eq. destruct (Rlt_dec _ attack); [reflexivity|tauto]. }
  rewrite (V k), (V (S k)) by lra. unfold on_line. field. lra.
Qed.
(* the envelope sounds although the control is zero from the start *)
Lemma adsr_sounds attack decay sustain release s : adsr_ok attack decay sustain release -> fits s -> e_st s = adsr_start nmR -> 0 < attack -> 0 < sustain -> 5 / 4 * e_int s <= release -> e_sd s < 3 / 4 * e_int s ->
  adsr_at attack decay sustain release s (fun _ => 0) 0 = 0 /\ 0 < adsr_at attack decay sustain release s (fun _ => 0) 1.
Proof.
  intros Hp Hf Hs Ha Hsu Hr Hd. destruct Hf as (F1 & F2 & F3) eqn:Ef. pose proof (point_step (e_int s) (e_hash s) 0 ltac:(lra) F3) as St. change (point (e_int s) (e_hash s) 0) with 0 in St.
  set (cl := closure (adsr_fn nmR attack decay sustain release) (adsr_start nmR) (fun n => [0]) (e_int s) (e_sd s) (e_hash s)).
  assert (C1 : cl 1%nat = (0, 0)). { unfold cl. rewrite cl_S. change (closure _ _ _ _ _ _ 0) with (adsr_start nmR). unfold after, adsr_start. cbn [fst snd nofZ nmR n0]. destruct (Rle_dec 0 (-1)); [lra|]. destruct (Rle_dec 0 0); [reflexivity|lra]. }
  assert (C2 : cl 2%nat = (0, 0)). { unfold cl in *. rewrite cl_S, C1. unfold after. cbn [fst snd]. destruct (Rle_dec 0 0); [|lra]. destruct (Rlt_dec 0 0); [lra|reflexivity]. }
  assert (V0 : value attack decay sustain release (cl 1%nat) 0 = 0). { rewrite C1. unfold value. cbn [fst snd]. destruct (Rlt_dec 0 0); [lra|]. rewrite lev_eq. rewrite Rminus_0_r. destruct (Rlt_dec 0 attack); [|lra]. unfold Rdiv. ring. }
  assert (V1 : 0 < value attack decay sustain release (cl 2%nat) (point (e_int s) (e_hash s) 1)).
  { rewrite C2. unfold value. cbn [fst snd]. destruct (Rlt_dec 0 0); [lra|]. rewrite fade_mid with (attack := attack) (decay := decay) (sustain := sustain) by (auto; lra). set (b := point (e_int s) (e_hash s) 1) in *. rewrite !Rminus_0_r. apply Rmult_lt_0_compat.
    - rewrite lev_eq. destruct (Rlt_dec b attack); [apply Rmult_lt_0_compat; [lra|apply Rinv_0_lt_compat; lra]|]. destruct (Rlt_dec (b - attack) decay) as [l|l]; [|lra]. pose proof (unit_frac (b - attack) decay ltac:(lra) l) as U. set (u := (b - attack) / decay) in *. clearbody u. destruct Hp as (P1 & P2 & P3 & P4). nra.
    - pose proof (unit_frac b release ltac:(lra) ltac:(lra)). lra. }
  assert (K : forall n, INR n * e_sd s < point (e_int s) (e_hash s) 1 -> adsr_at attack decay sustain release s (fun _ => 0) n = on_line 0 0 (point (e_int s) (e_hash s) 1) (value attack decay sustain release (cl 2%nat) (point (e_int s) (e_hash s) 1)) (INR n * e_sd s)).
  { intros n Hn. destruct (adsr_line attack decay sustain release s (fun _ => 0) n Hp Hf) as (k & K1 & K2). assert (k = 0%nat).
    { apply (segment_unique (e_int s) (e_hash s) k 0 (INR n * e_sd s)); auto; try lra. split; auto. change (point (e_int s) (e_hash s) 0) with 0. apply Rmult_le_pos; [apply pos_INR|lra]. }
    subst k. rewrite K2, Hs. fold cl. change (point (e_int s) (e_hash s) 0) with 0. now rewrite V0. }
  split.
  - rewrite K; cbn [INR]; [|lra]. unfold on_line. unfold Rdiv. ring.
  - rewrite K; cbn [INR]; [|lra]. set (v := value _ _ _ _ (cl 2%nat) _) in *. unfold on_line. set (b := point (e_int s) (e_hash s) 1) in *. replace (0 + (v - 0) * ((1 * e_sd s - 0) / (b - 0))) with (v * (e_sd s / b)) by (field; lra). apply Rmult_lt_0_compat; auto. apply Rmult_lt_0_compat; [lra|apply Rinv_0_lt_compat; lra].
Qed.
(* reset does not return the control function to its start *)
Lemma adsr_reset_low attack decay sustain release s x : adsr_ok attack decay sustain release -> fits s -> 0 < fst (e_st s) -> snd (e_st s) < 0 -> 0 < attack -> 0 < x 0%nat ->
  adsr_at attack decay sustain release s x 0 = - (fst (e_st s) / attack).
Proof.
  intros Hp Hf H1 H2 Ha Hx. destruct (adsr_line attack decay sustain release s x 0 Hp Hf) as (k & K1 & K2). destruct Hf as (F1 & F2 & F3).
  pose proof (point_step (e_int s) (e_hash s) 0 ltac:(lra) F3) as St. change (point (e_int s) (e_hash s) 0) with 0 in St.
  assert (k = 0%nat). { apply (segment_unique (e_int s) (e_hash s) k 0 (INR 0 * e_sd s)); auto; try lra. split; change (point (e_int s) (e_hash s) 0) with 0; cbn [INR]; lra. }
  subst k. rewrite K2. change (point (e_int s) (e_hash s) 0) with 0. cbn [INR]. rewrite cl_S. change (closure _ (e_st s) _ _ _ _ 0) with (e_st s).
  assert (Ef : first_sample (e_int s) (e_sd s) (e_hash s) (pred 0) = 0%nat) by (apply first_eq; [lra|]; cbn; lra). rewrite Ef.
  assert (Ea : after (e_st s) (point (e_int s) (e_hash s) 0) (x 0%nat) = e_st s). { unfold after. destruct (Rle_dec 0 (snd (e_st s))); [lra|]. destruct (Rle_dec (x 0%nat) 0); [lra|reflexivity]. }
  rewrite Ea. unfold value at 1. destruct (Rlt_dec (snd (e_st s)) 0); [|lra]. rewrite lev_eq. destruct (Rlt_dec (0 - fst (e_st s)) attack); [|lra].
  unfold on_line. rewrite Rmult_0_l. unfold Rdiv. ring.
Qed.
Lemma in_hash {C} (f : C -> R -> list R -> C * list R) s i : e_hash (fst (envin_tick nmR nmR idR f s i)) = e_hash s.
Proof.
  unfold envin_tick. destruct (nleb _ _ _); cbn [fst step e_hash]; auto. unfold envin_next, segment_from. destruct (_ && _); [destruct (f _ _ _)|]; cbn [e_st]; destruct (f _ _ _); reflexivity.
Qed.
Lemma adsr_rekeyed attack decay sustain release s : adsr_ok attack decay sustain release -> fits s -> e_st s = adsr_start nmR ->
  let x := fun n => match n with 0%nat => 0 | _ => 1 end in let f := adsr_fn nmR attack decay sustain release in
  exists n, let r := envin_state f (envin_reset nmR s) (fun n => [x n]) n in fits r /\ 0 < fst (e_st r) /\ snd (e_st r) < 0.
Proof.
  intros Hp Hf Hs x f. destruct Hf as (F1 & F2 & F3). set (h := e_hash s) in *. set (int := e_int s) in *. set (sd := e_sd s) in *.
  pose proof (point_step int h 0 ltac:(lra) F3) as S0. change (point int h 0) with 0 in S0. pose proof (point_step int h 1 ltac:(lra) F3) as S1.
  set (n := first_sample int sd h 1).
  destruct (iline f (fun n => [x n]) (adsr_start nmR) int sd h F1 F3 (envin_reset nmR s) eq_refl eq_refl eq_refl eq_refl Hs eq_refl eq_refl n) as (k & K1 & K2 & K3).
  assert (N : point int h 1 <= INR n * sd < point int h 1 + sd).
  { unfold n, first_sample. set (q := point int h 1 / sd). assert (Eq : point int h 1 = q * sd) by (unfold q; field; lra). rewrite Eq. assert (0 < q) by (apply Rmult_lt_0_compat; [lra|apply Rinv_0_lt_compat; lra]).
    destruct (base_Int_part (- q)) as [B1 B2]. rewrite INR_IZR_INZ, Z2Nat.id, opp_IZR; [split; nra|]. enough (Int_part (- q) < 1)%Z by lia. apply lt_IZR. lra. }
  assert (Ek : k = 1%nat). { apply (segment_unique int h k 1 (INR n * sd)); auto; try lra. split; lra. }
  subst k. exists (S n). set (r := envin_state _ _ _ (S n)) in *. destruct K3 as (_ & I1 & I2 & I3 & I4 & I5 & I6 & I7 & I8 & I9 & I10).
  assert (Hn : (1 <= n)%nat). { destruct n as [|n']; [|lia]. cbn [INR] in N. lra. }
  assert (C3 : closure f (adsr_start nmR) (fun n => [x n]) int sd h 3 = (point int h 2, -1)).
  { unfold f. rewrite !cl_S. change (closure _ _ _ _ _ _ 0) with (adsr_start nmR). cbn [pred]. fold n. assert (E0 : first_sample int sd h 0 = 0%nat) by (apply first_eq; [lra|]; cbn; lra). rewrite E0. cbn [x].
    assert (Ex : x n = 1) by (destruct n; [lia|reflexivity]). rewrite Ex. change (point int h 0) with 0. unfold after, adsr_start. cbn [fst snd nofZ nmR n0].
    destruct (Rle_dec 0 (-1)); [lra|]. destruct (Rle_dec 0 0); [|lra]. cbn [fst snd]. destruct (Rle_dec 0 0); [|lra]. destruct (Rlt_dec 0 0); [lra|]. cbn [fst snd]. destruct (Rle_dec 0 0); [|lra]. destruct (Rlt_dec 0 1); [reflexivity|lra]. }
  assert (Eh : e_hash r = h). { unfold r. clear. generalize (S n). intros m. induction m as [|m IH]; [reflexivity|]. cbn [envin_state]. rewrite in_hash. exact IH. }
  cbv zeta. fold r. rewrite I4, C3. cbn [fst snd]. split; [|lra]. unfold fits. rewrite I8, I9, Eh. auto.
Qed.

Lemma adsr_reset_negative attack decay sustain release s : adsr_ok attack decay sustain release -> fits s -> e_st s = adsr_start nmR -> 0 < attack ->
  let key := fun n => match n with 0%nat => 0 | _ => 1 end in
  exists n, let r := envin_state (adsr_fn nmR attack decay sustain release) (envin_reset nmR s) (fun n => [key n]) n in adsr_at attack decay sustain release r (fun _ => 1) 0 < 0.
Proof.
  intros Hp Hf Hs Ha key. destruct (adsr_rekeyed attack decay sustain release s Hp Hf Hs) as (n & R1 & R2 & R3). exists n. intros r.
  pose proof (adsr_reset_low attack decay sustain release r (fun _ => 1) Hp R1 R2 R3 Ha Rlt_0_1) as E. rewrite E. apply Ropp_lt_gt_0_contravar. apply Rdiv_lt_0_compat; assumption.
Qed.
