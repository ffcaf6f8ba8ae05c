(* The energy that a linear tap gives while its delay moves. *)
From Coq Require Import Reals Lra Lia.
From Verif Require Import Base BufProofs HadamardProofs DelaySpec DelayProofs DelayReals RevSpec RevProofs.
Local Open Scope R_scope.

(* sum of c j times the square of the sample j samples ago *)
Fixpoint wsum (c : nat -> R) (h : list R) : R := match h with [] => 0 | x :: t => c O * (x * x) + wsum (fun j => c (S j)) t end.
Lemma wsum_le c d h : forall (H : forall j, c j <= d j), wsum c h <= wsum d h.
Proof.
  revert c d. induction h as [|x h IH]; intros c d H; cbn [wsum]; [lra|]. pose proof (IH (fun j => c (S j)) (fun j => d (S j)) (fun j => H (S j))). pose proof (sq_nonneg x). pose proof (H O).
  assert (c O * (x * x) <= d O * (x * x)) by (apply Rmult_le_compat_r; assumption). lra.
Qed.
Lemma wsum_plus c d h : wsum (fun j => c j + d j) h = wsum c h + wsum d h.
Proof. revert c d. induction h as [|x h IH]; intros c d; cbn [wsum]; [ring|]. rewrite (IH (fun j => c (S j)) (fun j => d (S j))). ring. Qed.
Lemma wsum_nonneg c h : (forall j, 0 <= c j) -> 0 <= wsum c h.
Proof. revert c. induction h as [|x h IH]; intros c H; cbn [wsum]; [lra|]. pose proof (IH (fun j => c (S j)) (fun j => H (S j))). pose proof (sq_nonneg x). pose proof (H O). assert (0 <= c O * (x * x)) by (now apply Rmult_le_pos). lra. Qed.
Lemma wsum_one c h k : (forall j, 0 <= c j) -> c k * (nth k h 0 * nth k h 0) <= wsum c h.
Proof.
  revert c k. induction h as [|x h IH]; intros c k H; [destruct k; cbn; lra|]. cbn [wsum]. pose proof (sq_nonneg x). destruct k as [|k]; cbn [nth].
  - pose proof (wsum_nonneg (fun j => c (S j)) h (fun j => H (S j))). lra.
  - pose proof (IH (fun j => c (S j)) k (fun j => H (S j))). pose proof (H O). assert (0 <= c O * (x * x)) by (now apply Rmult_le_pos). lra.
Qed.
Lemma wsum_two c h k : (forall j, 0 <= c j) -> c k * (nth k h 0 * nth k h 0) + c (S k) * (nth (S k) h 0 * nth (S k) h 0) <= wsum c h.
Proof.
  revert c k. induction h as [|x h IH]; intros c k H; [destruct k; cbn; lra|]. cbn [wsum]. pose proof (sq_nonneg x). destruct k as [|k].
  - cbn [nth]. pose proof (wsum_one (fun j => c (S j)) h 0 (fun j => H (S j))) as W. cbn [nth] in W. destruct h; cbn [nth] in *; lra.
  - pose proof (IH (fun j => c (S j)) k (fun j => H (S j))) as W. pose proof (H O). assert (0 <= c O * (x * x)) by (now apply Rmult_le_pos). change (nth (S k) (x :: h) 0) with (nth k h 0). change (nth (S (S k)) (x :: h) 0) with (nth (S k) h 0). lra.
Qed.

(* the weight of a sample at distance q from the point that is read *)
Definition hat (q : R) : R := Rmax 0 (1 - Rabs q).
Lemma hat_nonneg q : 0 <= hat q. Proof. apply Rmax_l. Qed.
Section Slow.
  Variable s : R.
  Hypothesis Hs : 2 / 3 <= s <= 1.
  (* at most what the weights of a sample will add up to, from distance q on, if the distance grows by s or more in each step *)
  Definition ahead (q : R) : R := Rmax 0 (Rmax (Rmin 1 (1 - q)) (Rmax (Rmin (2 - s) (2 - s - 2 * q)) (Rmin (3 - 2 * s) (3 - 3 * s - q)))).
  Lemma ahead_le q c : 0 <= c -> (1 <= c \/ 1 - q <= c) -> (2 - s <= c \/ 2 - s - 2 * q <= c) -> (3 - 2 * s <= c \/ 3 - 3 * s - q <= c) -> ahead q <= c.
  Proof.
    assert (M : forall a b, a <= c \/ b <= c -> Rmin a b <= c) by (intros a b [H|H]; [eapply Rle_trans; [apply Rmin_l|exact H]|eapply Rle_trans; [apply Rmin_r|exact H]]).
    intros H0 H1 H2 H3. unfold ahead. apply Rmax_lub; [exact H0|]. apply Rmax_lub; [now apply M|]. apply Rmax_lub; now apply M.
  Qed.
  Lemma ahead_ge q c : c <= 0 \/ (c <= 1 /\ c <= 1 - q) \/ (c <= 2 - s /\ c <= 2 - s - 2 * q) \/ (c <= 3 - 2 * s /\ c <= 3 - 3 * s - q) -> c <= ahead q.
  Proof.
    intros [H|[[H1 H2]|[[H1 H2]|[H1 H2]]]]; unfold ahead.
    - eapply Rle_trans; [exact H|apply Rmax_l].
    - eapply Rle_trans; [|apply Rmax_r]. eapply Rle_trans; [|apply Rmax_l]. now apply Rmin_glb.
    - eapply Rle_trans; [|apply Rmax_r]. eapply Rle_trans; [|apply Rmax_r]. eapply Rle_trans; [|apply Rmax_l]. now apply Rmin_glb.
    - eapply Rle_trans; [|apply Rmax_r]. eapply Rle_trans; [|apply Rmax_r]. eapply Rle_trans; [|apply Rmax_r]. now apply Rmin_glb.
  Qed.
  Lemma ahead_nonneg q : 0 <= ahead q. Proof. apply Rmax_l. Qed.
  Lemma ahead_max q : ahead q <= 3 - 2 * s. Proof. apply ahead_le; lra. Qed.
  Lemma ahead_step q q' : q + s <= q' -> hat q + ahead q' <= ahead q.
  Proof.
    intros H. assert (C : forall h, hat q = h -> ahead q' <= ahead q - h -> hat q + ahead q' <= ahead q) by (intros; lra).
    assert (A : (q <= -1 /\ hat q = 0) \/ (-1 < q <= 0 /\ hat q = 1 + q) \/ (0 < q < 1 /\ hat q = 1 - q) \/ (1 <= q /\ hat q = 0)).
    { unfold hat. destruct (Rle_lt_dec q 0); [rewrite Rabs_left1 by lra|rewrite Rabs_right by lra]; unfold Rmax; destruct (Rle_dec _ _); lra. }
    destruct A as [[Q ->]|[[Q ->]|[[Q ->]|[Q ->]]]].
    - apply Rle_trans with (3 - 2 * s); [rewrite Rplus_0_l; apply ahead_max|]. apply ahead_ge. right. right. right. lra.
    - destruct (Rle_lt_dec q (- s)) as [B|B].
      + pose proof (ahead_ge q (3 - 2 * s) ltac:(lra)) as G. enough (ahead q' <= 2 - s) by lra. apply ahead_le; lra.
      + destruct (Rle_lt_dec (1 - 2 * s) q) as [B2|B2].
        * pose proof (ahead_ge q (2 - s) ltac:(lra)) as G. enough (ahead q' <= 1 - s - q) by lra. apply ahead_le; lra.
        * pose proof (ahead_ge q (3 - 3 * s - q) ltac:(lra)) as G. enough (ahead q' <= 2 - 3 * s - 2 * q) by lra. apply ahead_le; lra.
    - destruct (Rle_lt_dec (1 - s) q) as [B|B].
      + pose proof (ahead_ge q (1 - q) ltac:(lra)) as G. enough (ahead q' <= 0) by lra. apply ahead_le; lra.
      + pose proof (ahead_ge q (2 - s - 2 * q) ltac:(lra)) as G. enough (ahead q' <= 1 - s - q) by lra. apply ahead_le; lra.
    - pose proof (ahead_nonneg q) as G. enough (ahead q' <= 0) by lra. apply ahead_le; lra.
  Qed.

  (* what the tap may still give of what it holds, when it is about to read D samples back *)
  Definition owed (h : list R) (D : R) : R := wsum (fun j => ahead (INR j + 1 - D)) h.
  Lemma owed_nonneg h D : 0 <= owed h D. Proof. apply wsum_nonneg. intros j. apply ahead_nonneg. Qed.
  Lemma lerp_square a b d : 0 <= d <= 1 -> lerp Rnum_ops a b d * lerp Rnum_ops a b d <= (1 - d) * (a * a) + d * (b * b).
  Proof. intros H. pose proof (sq_nonneg (a - b)). assert (0 <= d * (1 - d) * ((a - b) * (a - b))) by (apply Rmult_le_pos; [apply Rmult_le_pos; lra|assumption]).
    replace (lerp Rnum_ops a b d) with (a * (1 - d) + b * d) by (unfold lerp; cbn; ring).
    replace ((1 - d) * (a * a) + d * (b * b)) with ((a * (1 - d) + b * d) * (a * (1 - d) + b * d) + d * (1 - d) * ((a - b) * (a - b))) by ring. lra.
  Qed.
  Lemma tap_step h x D D' y : 0 <= D -> D' <= D + (1 - s) -> y = lerp Rnum_ops (nth (Z.to_nat (Int_part D)) (x :: h) 0) (nth (Z.to_nat (Int_part D) + 1) (x :: h) 0) (D - IZR (Int_part D)) ->
    y * y + owed (x :: h) D' <= owed h D + (3 - 2 * s) * (x * x).
  Proof.
    intros HD HD' ->. set (k := Z.to_nat (Int_part D)). assert (K : IZR (Int_part D) = INR k /\ INR k <= D < INR k + 1).
    { pose proof (base_Int_part D) as [B1 B2]. assert (0 <= Int_part D)%Z by (apply le_IZR; enough (-1 < Int_part D)%Z by (apply IZR_le; lia); apply lt_IZR; lra). unfold k. rewrite INR_IZR_INZ, Z2Nat.id by assumption. split; [reflexivity|]. lra. }
    destruct K as [-> K]. set (d := D - INR k). assert (Hd : 0 <= d < 1) by (unfold d; lra). clearbody k.
    eapply Rle_trans; [apply Rplus_le_compat_r, lerp_square; lra|].
    replace (k + 1)%nat with (S k) by lia. pose proof (wsum_two (fun j => hat (INR j - D)) (x :: h) k (fun j => hat_nonneg _)) as W. cbv beta in W.
    replace (hat (INR k - D)) with (1 - d) in W by (unfold hat; rewrite Rabs_left1 by lra; rewrite Rmax_right by lra; unfold d; ring).
    replace (hat (INR (S k) - D)) with d in W by (rewrite S_INR; unfold hat; rewrite Rabs_right by lra; rewrite Rmax_right by lra; unfold d; ring).
    apply Rle_trans with (wsum (fun j => hat (INR j - D)) (x :: h) + owed (x :: h) D'); [lra|]. unfold owed. rewrite <- wsum_plus.
    apply Rle_trans with (wsum (fun j => ahead (INR j - D)) (x :: h)).
    { apply wsum_le. intros j. apply ahead_step. lra. }
    cbn [wsum]. pose proof (ahead_max (INR 0 - D)) as M. pose proof (sq_nonneg x). assert (ahead (INR 0 - D) * (x * x) <= (3 - 2 * s) * (x * x)) by (apply Rmult_le_compat_r; assumption).
    enough (wsum (fun j => ahead (INR (S j) - D)) h <= wsum (fun j => ahead (INR j + 1 - D)) h) by lra. apply wsum_le. intros j. rewrite S_INR. lra.
  Qed.
End Slow.
