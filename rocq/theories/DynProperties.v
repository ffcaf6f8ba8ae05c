(* C27, C28 (followers, limiter), C39, C51. Arithmetic over the reals. *)
From Verif Require Import Base Num ReduceModel DynModel DynSpec DynProofs.
From Coq Require Import Reals Lra.
Open Scope R_scope.

(* C27, freshly created limiter: zeros for the look-ahead, then the input delayed by exactly L frames times a gain in (0,1]. *)
Theorem C27_limiter_fresh_gain_partial :
  forall (L : nat) (a r : R) (xs : list (list R)), (1 <= L)%nat -> 0 <= a <= 1 -> 0 <= r <= 1 ->
  exists l ys, li_run Rnum_ops (li_new Rnum_ops L a r) xs = Some (l, ys) /\ length ys = length xs /\
    forall i, (i < length xs)%nat ->
      ((i < L)%nat -> nth i ys [] = map (fun _ => 0) (nth i xs [])) /\
      ((L <= i)%nat -> exists g, 0 < g <= 1 /\ nth i ys [] = map (fun y => y * g) (nth (i - L) xs [])).
Proof. exact limiter_fresh. Qed.
Print Assumptions C27_limiter_fresh_gain_partial.
Example C27_limiter_fresh_gain_case : exists l ys, li_run Rnum_ops (li_new Rnum_ops 2 (1 / 2) (1 / 4)) [[1; 0]; [0; 1]; [2; 0]] = Some (l, ys) /\ nth 1 ys [] = [0; 0] /\ exists g, 0 < g <= 1 /\ nth 2 ys [] = [1 * g; 0 * g].
Proof.
  destruct (C27_limiter_fresh_gain_partial 2 (1 / 2) (1 / 4) [[1; 0]; [0; 1]; [2; 0]] ltac:(auto) ltac:(lra) ltac:(lra)) as (l & ys & E & _ & H). exists l, ys. split; [exact E|].
  split; [exact (proj1 (H 1%nat ltac:(cbn; auto)) ltac:(auto))|]. destruct (proj2 (H 2%nat ltac:(cbn; auto)) ltac:(auto)) as (g & G & Y). exists g. split; [exact G|]. rewrite Y. reflexivity.
Qed.

(* C27, the gain exactly: one over the asymmetric follower driven by max(1, 1.1 * peak of the last L frames). *)
Theorem C27_limiter_fresh_exact :
  forall (L : nat) (a r : R) (xs : list (list R)), (1 <= L)%nat ->
  exists l ys, li_run Rnum_ops (li_new Rnum_ops L a r) xs = Some (l, ys) /\ length ys = length xs /\
    forall i, (L <= i)%nat -> (i < length xs)%nat ->
      nth i ys [] =
      map (fun y => y * (1 / af_v3 (fold_left (af_tick Rnum_ops) (map (target L xs) (seq L (S i - L))) (af_new Rnum_ops a r))))
          (nth (i - L) xs []).
Proof. exact limiter_exact. Qed.
Print Assumptions C27_limiter_fresh_exact.

(* C27 / C28 fail after reset(): for every look-ahead and every coefficient a limiter can have (see C39_coefficient_range),
   a signal of constant level 1/2 is amplified after a reset. *)
Theorem C27_limiter_amplifies_after_reset_refuted :
  forall (L : nat) (a r : R), (1 <= L)%nat -> 0 < a < 1 -> 0 <= r <= 1 ->
  exists l1 ys1 l2 ys2 g,
    li_run Rnum_ops (li_new Rnum_ops L a r) (repeat [1/2] (S L)) = Some (l1, ys1) /\
    li_run Rnum_ops (li_reset Rnum_ops l1) (repeat [1/2] (S L)) = Some (l2, ys2) /\
    nth L ys2 [] = [1/2 * g] /\ 1 < g.
Proof. exact limiter_reset_amplifies. Qed.
Print Assumptions C27_limiter_amplifies_after_reset_refuted.

(* C51 ("signal limited to -1...1") fails: an initial peak of any height M passes undamped through any limiter. *)
Theorem C51_limiter_passes_first_peak_refuted :
  forall (L : nat) (a r M : R), (1 <= L)%nat -> 1 < M ->
  exists l ys, li_run Rnum_ops (li_new Rnum_ops L a r) ([M] :: repeat [0] L) = Some (l, ys) /\ nth L ys [] = [M].
Proof. exact limiter_first_peak. Qed.
Print Assumptions C51_limiter_passes_first_peak_refuted.

(* C39: coefficients computed from any number of response samples are in (0,1). *)
Theorem C39_coefficient_range : forall samples : R, 0 < halfway_coeff samples < 1.
Proof. exact halfway_coeff_range. Qed.
Print Assumptions C39_coefficient_range.

(* C39: followers never leave the range of the inputs seen. *)
Theorem C39_follow_bounds :
  forall (lo hi c : R) (xs : list R), 0 <= c <= 1 -> xs <> [] -> Forall (fun x => lo <= x <= hi) xs ->
  lo <= fo_v3 (fold_left (fo_tick Rnum_ops) xs (fo_new Rnum_ops c)) <= hi.
Proof. exact follow_bounds. Qed.
Print Assumptions C39_follow_bounds.

Theorem C39_afollow_bounds :
  forall (lo hi a r : R) (xs : list R), 0 <= a <= 1 -> 0 <= r <= 1 -> xs <> [] -> Forall (fun x => lo <= x <= hi) xs ->
  lo <= af_v3 (fold_left (af_tick Rnum_ops) xs (af_new Rnum_ops a r)) <= hi.
Proof. exact afollow_bounds. Qed.
Print Assumptions C39_afollow_bounds.

(* C39: a follower that jumps to a value puts it out, and later never leaves the range of that value and the inputs seen since, whatever it heard before. *)
Theorem C39_follow_jump :
  forall (lo hi c : R) (hs : list R) (x : R) (xs : list R), 0 <= c <= 1 -> lo <= x <= hi -> Forall (fun y => lo <= y <= hi) xs ->
  let f := fo_set_value (fold_left (fo_tick Rnum_ops) hs (fo_new Rnum_ops c)) x in fo_v3 f = x /\ lo <= fo_v3 (fold_left (fo_tick Rnum_ops) xs f) <= hi.
Proof. exact follow_jump. Qed.
Print Assumptions C39_follow_jump.
Example C39_follow_jump_case : fo_v3 (fo_tick Rnum_ops (fo_set_value (fold_left (fo_tick Rnum_ops) [100] (fo_new Rnum_ops (1 / 2))) 8) 0) = 7.
Proof. cbn. lra. Qed.
(* REFUTED: a follower moves smoothly from the value it was told to jump to. If it has not heard a sample since it was made or reset, the value is forgotten:
   the first output is the first input, however far it is from the value. *)
Theorem C39_follow_jump_refuted : forall c x y : R, fo_v3 (fo_set_value (fo_new Rnum_ops c) x) = x /\ fo_v3 (fo_tick Rnum_ops (fo_set_value (fo_new Rnum_ops c) x) y) = y.
Proof. intros c x y. split; [reflexivity|exact (follow_jump_lost c x y)]. Qed.
Print Assumptions C39_follow_jump_refuted.

(* C28 for the followers: reset gives the state of a fresh follower with the current coefficients, whatever happened before. *)
Theorem C28_follow_reset : forall f : follow, fo_reset Rnum_ops f = fo_new Rnum_ops (fo_coeff f).
Proof. exact fo_reset_fresh. Qed.
Print Assumptions C28_follow_reset.
Theorem C28_afollow_reset : forall f : afollow, af_reset Rnum_ops f = af_new Rnum_ops (af_a f) (af_r f).
Proof. exact af_reset_fresh. Qed.
Print Assumptions C28_afollow_reset.

(* Non-vacuity: a stereo limiter of two samples look-ahead run on rationals with a loud third frame. *)
From Coq Require Import QArith.
Example C27_example :
  match li_run Qnum_ops (li_new Qnum_ops 2 (1#2) (1#4)) [[1;0];[0;1];[2;0];[0;0];[0;0]]%Q with
  | Some (_, ys) => map (map Qred) ys = [[0;0];[0;0];[5#11;0];[0;5#11];[320#349;0]]%Q
  | None => False
  end.
Proof. vm_compute. reflexivity. Qed.
Example C39_example : (0 <= 1/2 <= 1)%R /\ [1; -3; 5]%R <> [] /\ Forall (fun x => -3 <= x <= 5)%R [1; -3; 5]%R.
Proof. repeat split; try lra; try discriminate. repeat constructor; lra. Qed.
