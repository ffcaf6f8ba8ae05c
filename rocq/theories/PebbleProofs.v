(* Proofs about the pitches of pebbles. *)
From Coq Require Import Reals Lra Lia Psatz.
From Verif Require Import PebbleModel SoundProofs SoundSpec.
Import ListNotations.
Local Open Scope R_scope.
Local Notation nR := Rnum_ops.

Lemma rounded x : 1 <= x -> let g := Rmax 1 (round_up nR x) in Rabs (x - g) <= 1 / 2 /\ 1 <= g /\ exists z, g = IZR z.
Proof.
  intros H. unfold round_up. cbn [nadd ndiv nofZ nfloor Rnum_ops]. change (n1 nR) with 1. set (z := Int_part (x + 1 / 2)). pose proof (base_Int_part (x + 1 / 2)) as [A B]. fold z in A, B.
  assert (Z : (1 <= z)%Z). { assert (0 < z)%Z; [|lia]. apply lt_IZR. lra. } apply IZR_le in Z. cbv zeta. rewrite Rmax_right by lra. split; [apply Rabs_le; lra|]. split; [exact Z|]. now exists z.
Qed.
Lemma upd_eq {A} (l : list A) i x d : (i < length l)%nat -> nth i (upd l i x) d = x.
Proof. intros H. rewrite nth_upd, Nat.eqb_refl. destruct (Nat.ltb_spec i (length l)); [reflexivity|lia]. Qed.
Lemma upd_ne {A} (l : list A) i j x d : j <> i -> nth j (upd l i x) d = nth j l d.
Proof. intros H. rewrite nth_upd. destruct (Nat.eqb_spec i j); [congruence|reflexivity]. Qed.
Lemma upd_twice {A} (l : list A) i x y : upd (upd l i x) i y = upd l i y.
Proof. revert i. induction l as [|a l IH]; intros [|i]; cbn [upd]; auto. now rewrite IH. Qed.
Definition positive (d : list R) : Prop := Forall (fun f => 0 < f) d.
Lemma positive_at d i : positive d -> (i < length d)%nat -> 0 < nth i d 0.
Proof. intros P H. unfold positive in P. rewrite Forall_forall in P. apply P. now apply nth_In. Qed.
Lemma positive_upd d i x : positive d -> 0 < x -> positive (upd d i x).
Proof. intros P X. revert i. induction P as [|f d F P IH]; intros i; [constructor|]. destruct i as [|i]; cbn [upd]; constructor; auto. apply IH. Qed.

(* what one pull does to a pair *)
Definition pulled (c : R) (d : list R) (i j : nat) (s : R) : list R :=
  let d' := upd d i (nth i d 0 * (1 + s)) in upd d' j (nth j d' 0 * (1 - s)).
Lemma pull_cases c d i j : 0 <= c -> (i < length d)%nat -> (j < length d)%nat -> positive d ->
  (nth i d 0 < nth j d 0 /\ pull nR c d i j = d) \/
  (nth j d 0 <= nth i d 0 /\ exists z, let ratio := nth i d 0 / nth j d 0 in Rabs (ratio - IZR z) <= 1 / 2 /\ 1 <= IZR z /\
    exists s, pull nR c d i j = pulled c d i j s /\ (s = c * (1 / 10 + (IZR z - ratio)) /\ ratio <= IZR z \/ s = - (c * (1 / 10 + (ratio - IZR z))) /\ IZR z < ratio)).
Proof.
  intros C I J P. unfold pull. change (n0 nR) with 0. change (n1 nR) with 1. cbn [nltb nadd nsub nmul ndiv nmax nofZ Rnum_ops]. destruct (Rlt_dec (nth i d 0) (nth j d 0)) as [L|L]; [now left|]. right. split; [lra|].
  pose proof (positive_at d i P I) as Pi. pose proof (positive_at d j P J) as Pj. assert (R1 : 1 <= nth i d 0 / nth j d 0). { apply Rmult_le_reg_r with (nth j d 0); [exact Pj|]. unfold Rdiv. rewrite Rmult_assoc, Rinv_l by lra. lra. }
  destruct (rounded _ R1) as (A & B & z & E). set (ratio := nth i d 0 / nth j d 0) in *. set (g := Rmax 1 (round_up nR ratio)) in *. exists z. cbv zeta. rewrite <- E. split; [exact A|]. split; [exact B|].
  unfold pulled. destruct (Rlt_dec (g - ratio) 0) as [Q|Q].
  - exists (- (c * (1 / 10 + (ratio - g)))). split; [|right; split; [reflexivity|lra]].
    replace (nth i d 0 - nth i d 0 * c * (1 / 10 + ratio - g)) with (nth i d 0 * (1 + - (c * (1 / 10 + (ratio - g))))) by ring. f_equal. ring.
  - exists (c * (1 / 10 + (g - ratio))). split; [|left; split; [reflexivity|lra]].
    replace (nth i d 0 + nth i d 0 * c * (1 / 10 + g - ratio)) with (nth i d 0 * (1 + c * (1 / 10 + (g - ratio)))) by ring. f_equal. ring.
Qed.
Lemma step_range c d i j z s : 0 <= c <= 1 -> let ratio := nth i d 0 / nth j d 0 in Rabs (ratio - IZR z) <= 1 / 2 ->
  (s = c * (1 / 10 + (IZR z - ratio)) /\ ratio <= IZR z \/ s = - (c * (1 / 10 + (ratio - IZR z))) /\ IZR z < ratio) -> - (6 / 10 * c) <= s <= 6 / 10 * c.
Proof.
  intros C ratio A B. assert (A' : - (1 / 2) <= ratio - IZR z <= 1 / 2) by (unfold Rabs in A; destruct (Rcase_abs _) in A; lra). set (e := ratio - IZR z) in *.
  destruct B as [[-> L]|[-> L]]; [replace (IZR z - ratio) with (- e) by (unfold e; ring); assert (e <= 0) by (unfold e; lra)|fold e; assert (0 < e) by (unfold e; lra)]; clearbody e; nra.
Qed.
Lemma pull_positive c d i j : 0 <= c <= 1 -> (i < length d)%nat -> (j < length d)%nat -> positive d -> positive (pull nR c d i j) /\ length (pull nR c d i j) = length d.
Proof.
  intros C I J P. destruct (pull_cases c d i j ltac:(lra) I J P) as [[_ ->]|(_ & z & A & _ & s & -> & B)]; [now split|]. pose proof (step_range c d i j z s C A B) as S. unfold pulled. split; [|now rewrite !length_upd].
  assert (P' : positive (upd d i (nth i d 0 * (1 + s)))). { apply positive_upd; [exact P|]. pose proof (positive_at d i P I). apply Rmult_lt_0_compat; nra. }
  apply positive_upd; [exact P'|]. apply Rmult_lt_0_compat; [apply positive_at; [exact P'|rewrite length_upd; exact J]|nra].
Qed.
Lemma gravity_positive c d : 0 <= c <= 1 -> positive d -> positive (gravity nR c d) /\ length (gravity nR c d) = length d.
Proof.
  intros C P. unfold gravity. assert (I1 : forall k i l e, Forall (fun j => (j < k)%nat) l -> (i < k)%nat -> positive e /\ length e = k -> let e' := fold_left (fun d j => pull nR c d i j) l e in positive e' /\ length e' = k).
  { intros k i l. induction l as [|j l IH]; intros e Hl Hi He; cbn [fold_left]; [exact He|]. inversion Hl as [|? ? Hj Hl']; subst. destruct He as [Pe Le]. apply IH; [assumption|assumption|].
    rewrite <- Le in Hi, Hj. destruct (pull_positive c e i j C Hi Hj Pe) as [Q W]. split; [exact Q|congruence]. }
  assert (I2 : forall l e, Forall (fun i => (i < length d)%nat) l -> positive e /\ length e = length d -> let e' := fold_left (fun d i => fold_left (fun d j => pull nR c d i j) (seq 0 (length d)) d) l e in positive e' /\ length e' = length d).
  { intros l. induction l as [|i l IH]; intros e Hl He; cbn [fold_left]; [exact He|]. inversion Hl as [|? ? Hi Hl']; subst. apply IH; [assumption|]. destruct He as [Pe Le]. rewrite Le. apply I1; [|assumption|now split].
    apply Forall_forall. intros j Hj. apply in_seq in Hj. lia. }
  apply I2; [|now split]. apply Forall_forall. intros j Hj. apply in_seq in Hj. lia.
Qed.
Lemma run_positive cs : Forall (fun c => 0 <= c <= 1) cs -> forall d n w, d <> [] -> positive d -> nth_error (pebbles_run nR d cs) n = Some w -> positive w /\ length w = length d /\ nth 0 w 0 = 110.
Proof.
  induction 1 as [|c cs C _ IH]; intros d n w D P E; cbn [pebbles_run] in E; [destruct n; discriminate|]. unfold pebbles_update in E.
  assert (P1 : positive (upd d 0 110)) by (apply positive_upd; [exact P|lra]). destruct (gravity_positive c (upd d 0 110) C P1) as [Q L]. rewrite length_upd in L. destruct n as [|n]; cbn [nth_error] in E.
  - injection E as <-. split; [exact P1|]. split; [apply length_upd|]. destruct d; [congruence|reflexivity].
  - change (nofZ nR 110) with 110 in E. destruct (IH (gravity nR c (upd d 0 110)) n w) as (A & B & F); [|exact Q|exact E|].
    + intros Z. rewrite Z in L. destruct d; [congruence|discriminate].
    + split; [exact A|]. split; [congruence|exact F].
Qed.
Lemma first_range seed i : (seed < 2 ^ 64)%N -> (i < 100)%nat -> 50 <= first_pitch nR exp ln seed i <= 5000.
Proof.
  intros S I. unfold first_pitch. rewrite xerp_R by (cbn; lra). cbn [nofZ Rnum_ops]. assert (H : (N.lxor (N.of_nat i) seed < 2 ^ 64)%N).
  { destruct (N.eq_dec (N.lxor (N.of_nat i) seed) 0) as [->|Nz]; [reflexivity|]. apply N.log2_lt_pow2; [lia|]. eapply N.le_lt_trans; [apply N.log2_lxor|]. assert (H1 : (N.log2 (N.of_nat i) < 64)%N).
    { destruct (N.eq_dec (N.of_nat i) 0) as [->|Z]; [reflexivity|]. apply N.log2_lt_pow2; [lia|]. eapply N.lt_le_trans with 100%N; [lia|]. discriminate. }
    assert (H2 : (N.log2 seed < 64)%N) by (destruct (N.eq_dec seed 0) as [->|Z]; [reflexivity|apply N.log2_lt_pow2; [lia|exact S]]). lia. }
  pose proof (rnd1_unit _ H) as U. set (u := EnvModel.rnd1 nR _) in *. clearbody u. destruct (Rpower_between (5000 / 50) u ltac:(lra) ltac:(lra)) as [A B]. rewrite Rmin_left in A by lra. rewrite Rmax_right in B by lra. lra.
Qed.
Lemma pebbles_pitches seed cs n w : (seed < 2 ^ 64)%N -> Forall (fun c => 0 <= c <= 1) cs -> nth_error (pebbles nR exp ln seed cs) n = Some w -> Forall (fun f => 0 < f) w /\ length w = 100%nat /\ nth 0 w 0 = 110.
Proof.
  intros S C E. unfold pebbles in E. destruct (run_positive cs C (map (first_pitch nR exp ln seed) (seq 0 100)) n w) as (A & B & D); [discriminate| |exact E|].
  - apply Forall_forall. intros f Hf. apply in_map_iff in Hf. destruct Hf as (i & <- & Hi). apply in_seq in Hi. pose proof (first_range seed i S ltac:(lia)). lra.
  - split; [exact A|]. split; [rewrite B, map_length, seq_length; reflexivity|exact D].
Qed.
(* two different pitches *)
Lemma pull_pair c d i j : 0 < c <= 1 -> (i < length d)%nat -> (j < length d)%nat -> i <> j -> positive d -> nth j d 0 <= nth i d 0 ->
  let d' := pull nR c d i j in let ratio := nth i d 0 / nth j d 0 in let ratio' := nth i d' 0 / nth j d' 0 in exists z, 1 <= IZR z /\ Rabs (ratio - IZR z) <= 1 / 2 /\
  (ratio <= IZR z -> ratio < ratio') /\ (IZR z < ratio -> ratio' < ratio) /\
  nth i d' 0 * nth j d' 0 < nth i d 0 * nth j d 0 /\ (forall k, k <> i -> k <> j -> nth k d' 0 = nth k d 0) /\ Rabs (nth i d' 0 - nth i d 0) <= 6 / 10 * c * nth i d 0 /\ Rabs (nth j d' 0 - nth j d 0) <= 6 / 10 * c * nth j d 0.
Proof.
  intros C I J Ne P L d' ratio ratio'. destruct (pull_cases c d i j ltac:(lra) I J P) as [[Q _]|(_ & z & A & B & s & E & S)]; [lra|]. exists z. split; [exact B|]. split; [exact A|]. pose proof (step_range c d i j z s ltac:(lra) A S) as SR.
  pose proof (positive_at d i P I) as Pi. pose proof (positive_at d j P J) as Pj.
  assert (Ei : nth i d' 0 = nth i d 0 * (1 + s)) by (unfold d'; rewrite E; unfold pulled; cbv zeta; rewrite upd_ne by congruence; now apply upd_eq).
  assert (Ej : nth j d' 0 = nth j d 0 * (1 - s)) by (unfold d'; rewrite E; unfold pulled; cbv zeta; rewrite upd_eq by (rewrite length_upd; exact J); now rewrite upd_ne by congruence).
  assert (Er : ratio' = ratio * ((1 + s) / (1 - s))) by (unfold ratio', ratio; rewrite Ei, Ej; field; lra). assert (R0 : 0 < ratio) by (apply Rdiv_lt_0_compat; assumption).
  assert (Q : forall u, 0 < u < 1 -> 1 < (1 + u) / (1 - u) /\ (1 + - u) / (1 - - u) < 1).
  { intros u U. split; [apply Rmult_lt_reg_r with (1 - u); [lra|]; unfold Rdiv; rewrite Rmult_assoc, Rinv_l by lra; lra|apply Rmult_lt_reg_r with (1 - - u); [lra|]; unfold Rdiv; rewrite Rmult_assoc, Rinv_l by lra; lra]. }
  fold ratio in S.
  assert (Sg : (ratio <= IZR z -> 0 < s) /\ (IZR z < ratio -> s < 0) /\ s <> 0).
  { destruct S as [[-> Z]|[-> Z]]; (split; [intros|split; [intros|]]); try lra; nra. }
  destruct Sg as (S1 & S2 & S3). split; [|split; [|split; [|split; [|split]]]].
  - intros Z. specialize (S1 Z). rewrite Er. destruct (Q s ltac:(lra)) as [Q1 _]. nra.
  - intros Z. specialize (S2 Z). rewrite Er. destruct (Q (- s) ltac:(lra)) as [_ Q2]. rewrite Ropp_involutive in Q2. nra.
  - rewrite Ei, Ej. replace (nth i d 0 * (1 + s) * (nth j d 0 * (1 - s))) with (nth i d 0 * nth j d 0 * (1 - s * s)) by ring. assert (0 < nth i d 0 * nth j d 0) by (apply Rmult_lt_0_compat; assumption). assert (0 < s * s) by nra. nra.
  - intros k K1 K2. unfold d'. rewrite E. unfold pulled. cbv zeta. now rewrite !upd_ne by congruence.
  - rewrite Ei. replace (nth i d 0 * (1 + s) - nth i d 0) with (s * nth i d 0) by ring. rewrite Rabs_mult, (Rabs_pos_eq (nth i d 0)) by lra. apply Rmult_le_compat_r; [lra|]. apply Rabs_le. lra.
  - rewrite Ej. replace (nth j d 0 * (1 - s) - nth j d 0) with (- s * nth j d 0) by ring. rewrite Rabs_mult, (Rabs_pos_eq (nth j d 0)) by lra. apply Rmult_le_compat_r; [lra|]. apply Rabs_le. lra.
Qed.
(* a pitch and itself *)
Lemma pull_self c d i : (i < length d)%nat -> positive d -> pull nR c d i i = upd d i (nth i d 0 * (1 - (c / 10) * (c / 10))).
Proof.
  intros I P. pose proof (positive_at d i P I) as Pi. unfold pull. change (n0 nR) with 0. change (n1 nR) with 1. cbn [nltb nadd nsub nmul ndiv nmax nofZ Rnum_ops]. destruct (Rlt_dec (nth i d 0) (nth i d 0)); [lra|].
  replace (nth i d 0 / nth i d 0) with 1 by (field; lra). assert (R : round_up nR 1 = 1).
  { unfold round_up. cbn [nadd ndiv nofZ nfloor Rnum_ops]. change (n1 nR) with 1. assert (E : Int_part (1 + 1 / 2) = 1%Z). { symmetry. unfold Int_part. assert (2%Z = up (1 + 1 / 2)) by (apply tech_up; lra). lia. } now rewrite E. }
  rewrite R, Rmax_left by lra. destruct (Rlt_dec (1 - 1) 0); [lra|]. rewrite upd_eq by exact I. rewrite upd_twice. f_equal. field.
Qed.
