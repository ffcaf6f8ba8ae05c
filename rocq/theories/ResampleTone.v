(* Proofs about tones that are resampled. *)
From Coq Require Import Reals Lra Lia.
From Verif Require Import TapToneSpec ResampleSpec ResampleProofs.
From Verif Require TapToneProofs.
Local Open Scope R_scope.

Lemma interp_tone {S} (gen_tick : S -> S * list R) x k A w p t : 1 <= t -> (forall n, nth k (gen_frame gen_tick x n) 0 = tone A w p (INR n)) ->
  Rabs (gen_interp gen_tick x k t - tone A w p t) <= 3 / 32 * (Rabs A * Rabs w ^ 3).
Proof.
  intros T G. unfold gen_interp. destruct (TapToneProofs.whole t ltac:(lra)) as (f & E & F1 & F2). rewrite E, Nat2Z.id, <- INR_IZR_INZ. assert (F0 : (1 <= f)%nat) by (destruct f; [cbn in F2; lra|lia]).
  rewrite !G, !plus_INR, minus_INR by lia. change (INR 1) with 1. change (INR 2) with 2. unfold tone. set (y := t - INR f). set (a := w * t + p).
  replace (w * (INR f - 1) + p) with (a + - w * (y + 1)) by (unfold a, y; ring). replace (w * INR f + p) with (a + - w * y) by (unfold a, y; ring). replace (w * (INR f + 1) + p) with (a + - w * (y - 1)) by (unfold a, y; ring). replace (w * (INR f + 2) + p) with (a + - w * (y - 2)) by (unfold a, y; ring).
  pose proof (TapToneProofs.spline_tone a (- w) y ltac:(unfold y; lra)) as Q. rewrite Rabs_Ropp in Q. apply Rmult_le_compat_l with (r := Rabs A) in Q; [|apply Rabs_pos]. rewrite <- Rabs_mult in Q.
  match type of Q with Rabs ?u <= _ => match goal with |- Rabs ?v <= _ => replace v with u end end; [lra|]. unfold spline. cbn [nadd nsub nmul ndiv nofZ Rnum_ops]. ring.
Qed.
Lemma steady_position v n : 0 <= v -> position (repeat v n) = 1 + INR n * v.
Proof. intros V. induction n as [|n IH]; [cbn; ring|]. rewrite S_INR. cbn [repeat position]. rewrite IH, Rmax_right by exact V. ring. Qed.
Lemma resampled_tone {S} (gen_tick : S -> S * list R) (gen_reset : S -> S) (r : resampler S R R) A w p v m :
  let x := gen_reset (r_x r) in res_shape r 1 -> (forall n, gen_frame gen_tick x n = [tone A w p (INR n)]) -> 0 <= v ->
  exists r' os, res_run Rnum_ops Rnum_ops idR idR gen_tick (res_reset Rnum_ops gen_reset r) (repeat v m) = Some (r', os) /\ length os = m /\
  forall n, (n < m)%nat -> exists y, nth n os [] = [y] /\ Rabs (y - tone A (v * w) (p + w) (INR n + 1)) <= 3 / 32 * (Rabs A * Rabs w ^ 3).
Proof.
  intros x Sh G V. destruct (@resampled S gen_tick gen_reset r 1%nat (repeat v m) Sh ltac:(intros n; fold x; now rewrite G)) as (r' & os & E & L & H & _). rewrite repeat_length in L, H.
  exists r', os. split; [exact E|]. split; [exact L|]. intros n Hn. destruct (H n 0%nat Hn ltac:(lia)) as [H1 H2]. fold x in H2. destruct (nth n os []) as [|y [|z q]]; try discriminate. exists y. split; [reflexivity|]. cbn [nth] in H2.
  assert (P : position (firstn (Datatypes.S n) (repeat v m)) = 1 + (INR n + 1) * v).
  { rewrite <- S_INR, <- steady_position by exact V. f_equal. replace m with (Datatypes.S n + (m - Datatypes.S n))%nat by lia. rewrite repeat_app, firstn_app, repeat_length, Nat.sub_diag, firstn_O, app_nil_r. apply firstn_all2. rewrite repeat_length. lia. }
  rewrite P in H2. rewrite H2. pose proof (pos_INR n) as N. assert (T : 1 <= 1 + (INR n + 1) * v) by (assert (0 <= (INR n + 1) * v) by (apply Rmult_le_pos; lra); lra).
  pose proof (interp_tone gen_tick x 0 A w p _ T ltac:(intros q; rewrite G; reflexivity)) as Q. replace (tone A (v * w) (p + w) (INR n + 1)) with (tone A w p (1 + (INR n + 1) * v)); [exact Q|]. unfold tone. do 2 f_equal. ring.
Qed.
