From Verif Require Import Base Num ReduceModel ReduceProofs DynModel DynSpec.
From Coq Require Import Reals Lra.
Open Scope R_scope.
Notation rn := Rnum_ops.

(* ---- followers ---- *)
Lemma convex_bound lo hi c x v : 0 <= c <= 1 -> lo <= x <= hi -> lo <= v <= hi -> lo <= c * x + (1 - c) * v <= hi.
Proof. intros; split; nra. Qed.

Lemma pole_bound lo hi x v a r : 0 <= a <= 1 -> 0 <= r <= 1 -> lo <= x <= hi -> lo <= v <= hi ->
  lo <= filter_pole rn x v a r <= hi.
Proof.
  intros Ha Hr Hx Hv. unfold filter_pole, n0; cbn.
  destruct (Rle_lt_dec v x).
  - rewrite (Rmax_right 0 (x - v)), (Rmax_left 0 (v - x)) by lra. split; nra.
  - rewrite (Rmax_left 0 (x - v)), (Rmax_right 0 (v - x)) by lra. split; nra.
Qed.

Lemma pole_one x v : filter_pole rn x v 1 1 = x.
Proof.
  unfold filter_pole, n0; cbn. destruct (Rle_lt_dec v x).
  - rewrite (Rmax_right 0 (x - v)), (Rmax_left 0 (v - x)) by lra. lra.
  - rewrite (Rmax_left 0 (x - v)), (Rmax_right 0 (v - x)) by lra. lra.
Qed.

Definition fo_in lo hi (f : follow) := lo <= fo_v1 f <= hi /\ lo <= fo_v2 f <= hi /\ lo <= fo_v3 f <= hi.
Lemma fo_tick_in lo hi f x : fo_in lo hi f -> 0 <= fo_coeff_now f <= 1 -> lo <= x <= hi -> fo_in lo hi (fo_tick rn f x).
Proof.
  intros (H1 & H2 & H3) Hc Hx. unfold fo_in, fo_tick, n1; cbn.
  assert (A := convex_bound lo hi _ _ _ Hc Hx H1).
  assert (B := convex_bound lo hi _ _ _ Hc A H2).
  assert (C := convex_bound lo hi _ _ _ Hc B H3). auto.
Qed.

Lemma fo_run_in lo hi : forall xs f, fo_in lo hi f -> 0 <= fo_coeff_now f <= 1 -> 0 <= fo_coeff f <= 1 ->
  Forall (fun x => lo <= x <= hi) xs -> fo_in lo hi (fold_left (fo_tick rn) xs f).
Proof.
  induction xs as [|x xs IH]; intros f Hf Hc Hc' Hxs; cbn [fold_left]; auto.
  inversion Hxs; subst. apply IH; auto using fo_tick_in.
Qed.

Lemma fo_new_state c : fo_new rn c = mkFollow 0 0 0 c 1.
Proof. unfold fo_new, fo_set_coeff, fo_reset, n0, n1; cbn. destruct (Rlt_dec 1 1); [lra|reflexivity]. Qed.

Lemma fo_first c x : fo_tick rn (fo_new rn c) x = mkFollow x x x c c.
Proof. rewrite fo_new_state. unfold fo_tick, n1; cbn. f_equal; ring. Qed.

Lemma follow_bounds lo hi c xs : 0 <= c <= 1 -> xs <> [] -> Forall (fun x => lo <= x <= hi) xs ->
  lo <= fo_v3 (fold_left (fo_tick rn) xs (fo_new rn c)) <= hi.
Proof.
  intros Hc Hne Hxs. destruct xs as [|x xs]; [congruence|]. inversion Hxs; subst. cbn [fold_left]. rewrite fo_first.
  refine (proj2 (proj2 (fo_run_in lo hi xs _ _ _ _ _))); cbn; auto. unfold fo_in; cbn; auto.
Qed.

Definition af_in lo hi (f : afollow) := lo <= af_v1 f <= hi /\ lo <= af_v2 f <= hi /\ lo <= af_v3 f <= hi.
Lemma af_tick_in lo hi f x : af_in lo hi f -> 0 <= af_a_now f <= 1 -> 0 <= af_r_now f <= 1 -> lo <= x <= hi ->
  af_in lo hi (af_tick rn f x).
Proof.
  intros (H1 & H2 & H3) Ha Hr Hx. unfold af_in, af_tick; cbn.
  assert (A := pole_bound lo hi _ _ _ _ Ha Hr Hx H1).
  assert (B := pole_bound lo hi _ _ _ _ Ha Hr A H2).
  assert (C := pole_bound lo hi _ _ _ _ Ha Hr B H3). auto.
Qed.
Lemma af_run_in lo hi : forall xs f, af_in lo hi f -> 0 <= af_a_now f <= 1 -> 0 <= af_r_now f <= 1 ->
  0 <= af_a f <= 1 -> 0 <= af_r f <= 1 ->
  Forall (fun x => lo <= x <= hi) xs -> af_in lo hi (fold_left (af_tick rn) xs f).
Proof.
  induction xs as [|x xs IH]; intros f Hf Ha Hr Ha' Hr' Hxs; cbn [fold_left]; auto.
  inversion Hxs; subst. apply IH; auto using af_tick_in.
Qed.
Lemma af_new_state a r : af_new rn a r = mkAF 0 0 0 a r 1 1.
Proof. unfold af_new, af_set_coeffs, af_reset, n0, n1; cbn. destruct (Rlt_dec 1 1); [lra|reflexivity]. Qed.
Lemma af_first v1 v2 v3 a r x : af_tick rn (mkAF v1 v2 v3 a r 1 1) x = mkAF x x x a r a r.
Proof. unfold af_tick; cbn [af_v1 af_v2 af_v3 af_a af_r af_a_now af_r_now]. rewrite !pole_one. reflexivity. Qed.
Lemma afollow_bounds lo hi a r xs : 0 <= a <= 1 -> 0 <= r <= 1 -> xs <> [] -> Forall (fun x => lo <= x <= hi) xs ->
  lo <= af_v3 (fold_left (af_tick rn) xs (af_new rn a r)) <= hi.
Proof.
  intros Ha Hr Hne Hxs. destruct xs as [|x xs]; [congruence|]. inversion Hxs; subst. cbn [fold_left].
  rewrite af_new_state, af_first.
  refine (proj2 (proj2 (af_run_in lo hi xs _ _ _ _ _ _ _))); cbn; auto. unfold af_in; cbn; auto.
Qed.

(* after any use, reset() gives the state of a fresh follower with the same coefficient(s) *)
(* the coefficients of a follower stay in range whatever it hears *)
Lemma fo_coeffs : forall hs f, 0 <= fo_coeff f <= 1 -> 0 <= fo_coeff_now f <= 1 -> let g := fold_left (fo_tick rn) hs f in 0 <= fo_coeff g <= 1 /\ 0 <= fo_coeff_now g <= 1.
Proof. induction hs as [|h hs IH]; intros f A B; [cbn; auto|]. apply IH; cbn; assumption. Qed.
Lemma follow_jump lo hi c hs x xs : 0 <= c <= 1 -> lo <= x <= hi -> Forall (fun y => lo <= y <= hi) xs ->
  let f := fo_set_value (fold_left (fo_tick rn) hs (fo_new rn c)) x in fo_v3 f = x /\ lo <= fo_v3 (fold_left (fo_tick rn) xs f) <= hi.
Proof.
  intros C X H f. split; [reflexivity|]. destruct (fo_coeffs hs (fo_new rn c)) as [A B]; [rewrite fo_new_state; cbn; assumption|rewrite fo_new_state; cbn; lra|].
  refine (proj2 (proj2 (fo_run_in lo hi xs f _ _ _ H))); [unfold fo_in; cbn; auto|exact B|exact A].
Qed.
Lemma follow_jump_lost c x y : fo_v3 (fo_tick rn (fo_set_value (fo_new rn c) x) y) = y.
Proof. rewrite fo_new_state. cbn. ring. Qed.
Lemma fo_reset_fresh f : fo_reset rn f = fo_new rn (fo_coeff f).
Proof. rewrite fo_new_state. reflexivity. Qed.
Lemma af_reset_fresh f : af_reset rn f = af_new rn (af_a f) (af_r f).
Proof. rewrite af_new_state. reflexivity. Qed.

Lemma exp_1_lt_3' : exp 1 <= 3.
Proof. exact exp_le_3. Qed.

Lemma halfway_coeff_range s : 0 < halfway_coeff s < 1.
Proof.
  unfold halfway_coeff, logistic.
  set (r0 := ln (Rmax 1 s) - 0.861624594696583).
  assert (H0 : -0.861624594696583 <= r0).
  { unfold r0. assert (0 <= ln (Rmax 1 s)); [|lra]. rewrite <- ln_1.
    destruct (Req_dec 1 (Rmax 1 s)) as [E|Hne]; [rewrite <- E; lra|].
    apply Rlt_le, ln_increasing; [lra|]. pose proof (Rmax_l 1 s). lra. }
  set (e := exp (0 - r0)). assert (He : 0 < e) by apply exp_pos.
  assert (He3 : e < 3).
  { unfold e. apply Rlt_le_trans with (exp 1); [apply exp_increasing; lra|apply exp_le_3]. }
  set (r1 := 1 / (1 + e)).
  assert (1 / 4 < r1). { unfold r1. apply Rmult_lt_reg_r with (1 + e); [lra|]. field_simplify; lra. }
  assert (Hr1 : r1 < 1). { unfold r1. apply Rmult_lt_reg_r with (1 + e); [lra|]. field_simplify; lra. }
  unfold Rmin. destruct (Rle_dec _ _); lra.
Qed.

(* ---- peaks ---- *)
Lemma amplitude_peak x : amplitude rn x = frame_peak x.
Proof.
  unfold amplitude, n0; cbn.
  assert (G : forall l m, 0 <= m -> fold_left (fun amp v => Rmax amp (Rabs v)) l m = Rmax m (frame_peak l)).
  { induction l as [|v l IH]; intros m Hm; cbn.
    - rewrite Rmax_left; lra.
    - rewrite IH.
      + rewrite Rmax_assoc. reflexivity.
      + eapply Rle_trans; [exact Hm|apply Rmax_l]. }
  rewrite G by lra. apply Rmax_right.
  induction x; cbn; [lra|]. eapply Rle_trans; [exact IHx|apply Rmax_r].
Qed.
Lemma frame_peak_nonneg x : 0 <= frame_peak x.
Proof. induction x; cbn; [lra|]. eapply Rle_trans; [exact IHx|apply Rmax_r]. Qed.
Lemma peak_nonneg xs : 0 <= peak xs.
Proof. induction xs; cbn; [lra|]. eapply Rle_trans; [exact IHxs|apply Rmax_r]. Qed.

Lemma fold_max_le l m : fold_right Rmax 0 l <= m <-> 0 <= m /\ Forall (fun v => v <= m) l.
Proof.
  induction l as [|v l IH]; cbn; [split; [intros; split; [lra|constructor]|tauto]|].
  rewrite Forall_cons_iff. unfold Rmax at 1. destruct (Rle_dec v (fold_right Rmax 0 l)); split.
  - intros H. apply IH in H as [H1 H2]. repeat split; auto. eapply Rle_trans; [eassumption|]. apply IH; auto.
  - intros (H1 & H2 & H3). apply IH; auto.
  - intros H. assert (H4 : fold_right Rmax 0 l <= m) by lra. apply IH in H4. tauto.
  - tauto.
Qed.
Lemma peak_fold xs : peak xs = fold_right Rmax 0 (map frame_peak xs).
Proof. induction xs as [|x xs IH]; cbn; [reflexivity|]. fold (peak xs). now rewrite IH. Qed.

Lemma fold_max_same l1 l2 : (forall v, In v l1 <-> In v l2) -> fold_right Rmax 0 l1 = fold_right Rmax 0 l2.
Proof.
  intros H. apply Rle_antisym; apply fold_max_le.
  - split; [apply (proj1 (proj1 (fold_max_le l2 _) (Rle_refl _)))|].
    apply Forall_forall. intros v Hv. apply H in Hv.
    exact (proj1 (Forall_forall _ _) (proj2 (proj1 (fold_max_le l2 _) (Rle_refl _))) v Hv).
  - split; [apply (proj1 (proj1 (fold_max_le l1 _) (Rle_refl _)))|].
    apply Forall_forall. intros v Hv. apply H in Hv.
    exact (proj1 (Forall_forall _ _) (proj2 (proj1 (fold_max_le l1 _) (Rle_refl _))) v Hv).
Qed.

(* ---- limiter ---- *)
Definition rrepr := repr (T := R) 0 Rmax (fun x => 0 <= x).
Lemma rP0 : 0 <= 0. Proof. lra. Qed.
Lemma rPop a b : 0 <= a -> 0 <= b -> 0 <= Rmax a b.
Proof. intros. eapply Rle_trans; [exact H|apply Rmax_l]. Qed.
Lemma rcomm a b : 0 <= a -> 0 <= b -> Rmax a b = Rmax b a.
Proof. intros; apply Rmax_comm. Qed.
Lemma rassoc a b c : 0 <= a -> 0 <= b -> 0 <= c -> Rmax a (Rmax b c) = Rmax (Rmax a b) c.
Proof. intros. symmetry. apply Rmax_assoc || (rewrite Rmax_assoc; reflexivity). Qed.
Lemma rid a : 0 <= a -> Rmax 0 a = a.
Proof. intros; apply Rmax_right; auto. Qed.

(* most recent time t < k with t = j mod len (for j < len), as an offset from the ring *)
Definition ring_ok {A} (len : nat) (hist : list A) (ring : list A) (d : A) :=
  forall t, (t < length hist)%nat -> (length hist <= t + len)%nat -> nth (t mod len) ring d = nth t hist d.

Lemma ring_step {A} len (hist ring : list A) x d : (1 <= len)%nat -> length ring = len ->
  ring_ok len hist ring d -> ring_ok len (hist ++ [x]) (upd ring (length hist mod len) x) d.
Proof.
  intros Hl Hr H t Ht Hw. rewrite app_length in *. cbn [length] in *.
  rewrite nth_upd, Hr. pose proof (Nat.mod_upper_bound (length hist) len ltac:(lia)).
  destruct (Nat.ltb_spec (length hist mod len) len); [|lia]. rewrite andb_true_r.
  destruct (Nat.eq_dec t (length hist)) as [->|Hne].
  - rewrite Nat.eqb_refl, app_nth2, Nat.sub_diag by lia. reflexivity.
  - rewrite app_nth1 by lia. destruct (Nat.eqb_spec (length hist mod len) (t mod len)) as [E|_]; [|apply H; lia].
    exfalso. pose proof (Nat.div_mod_eq (length hist) len) as D1. pose proof (Nat.div_mod_eq t len) as D2.
    rewrite E in D1. assert (length hist / len <> t / len)%nat by (intros E'; rewrite E' in D1; lia).
    assert (Hd : (t / len < length hist / len)%nat) by nia. nia.
Qed.

Definition lim_follower L (f0 : afollow) (hist : list (list R)) : afollow :=
  if Nat.ltb (length hist) L then f0
  else fold_left (af_tick rn) (map (target L hist) (seq L (length hist - L))) (af_set_value f0 (peak (firstn L hist))).

Definition lim_out L f0 (hist : list (list R)) (x : list R) : list R :=
  if Nat.ltb (length hist) L then map (fun _ => 0) x
  else map (fun y => y * (1 / af_v3 (lim_follower L f0 (hist ++ [x])))) (nth (length hist - L) hist []).

Record Inv (L : nat) (f0 : afollow) (hist : list (list R)) (l : limiter) : Prop := {
  i_red : exists slots, rrepr (li_reducer l) slots /\ length slots = L /\
            ring_ok L (map frame_peak hist) slots 0 /\ (forall j, (length hist <= j < L)%nat -> nth j slots 0 = 0);
  i_fol : li_follower l = lim_follower L f0 hist;
  i_idx : li_index l = (length hist mod L)%nat;
  i_len : length (li_buffer l) = Nat.min (length hist) L;
  i_buf : ring_ok L hist (li_buffer l) [] }.

Lemma li_advance_mod L k : (1 <= L)%nat -> li_advance L (k mod L) = ((k + 1) mod L)%nat.
Proof.
  intros H. unfold li_advance. pose proof (Nat.mod_upper_bound k L ltac:(lia)).
  pose proof (Nat.div_mod_eq k L).
  destruct (Nat.leb_spec L (k mod L + 1)).
  - apply (Nat.mod_unique _ _ (k / L + 1)); nia.
  - apply (Nat.mod_unique _ _ (k / L)); nia.
Qed.

Lemma window_nth L (xs : list (list R)) i j : (i < length xs)%nat -> (L <= S i)%nat -> (j < L)%nat ->
  nth j (window L xs i) [] = nth (S i - L + j) xs [].
Proof. intros. unfold window. rewrite nth_firstn_lt by lia. rewrite nth_skipn_add. reflexivity. Qed.
Lemma window_length L (xs : list (list R)) i : (i < length xs)%nat -> (L <= S i)%nat -> length (window L xs i) = L.
Proof. intros. unfold window. rewrite firstn_length, skipn_length. lia. Qed.

Lemma window_app L xs ys i : (S i <= length xs)%nat -> (L <= S i)%nat -> window L (xs ++ ys) i = window L xs i.
Proof.
  intros. unfold window. rewrite skipn_app, firstn_app, skipn_length.
  replace (L - (length xs - (S i - L)))%nat with 0%nat by lia. cbn. apply app_nil_r.
Qed.

(* the maximum over the ring is the peak of the last L frames *)
Lemma ring_peak L hist slots : (1 <= L)%nat -> length slots = L -> (L <= length hist)%nat ->
  ring_ok L (map frame_peak hist) slots 0 -> fold_right Rmax 0 slots = peak (window L hist (length hist - 1)).
Proof.
  intros HL Hs Hh Hr. rewrite peak_fold. apply fold_max_same. unfold ring_ok in Hr. rewrite map_length in Hr.
  intros v; split; intros Hv.
  - apply (In_nth _ _ 0) in Hv as (j & Hj & <-). rewrite Hs in Hj.
    (* find t in the window with t mod L = j *)
    set (k := length hist) in *.
    assert (exists t, (t < k)%nat /\ (k <= t + L)%nat /\ (t mod L = j)%nat) as (t & Ht1 & Ht2 & <-).
    { pose proof (Nat.div_mod_eq (k - 1) L) as D. pose proof (Nat.mod_upper_bound (k - 1) L ltac:(lia)) as B.
      destruct (Nat.le_gt_cases j ((k - 1) mod L)).
      - exists (L * ((k - 1) / L) + j)%nat. repeat split; try lia.
        symmetry. apply (Nat.mod_unique _ _ ((k - 1) / L)); lia.
      - assert (1 <= (k - 1) / L)%nat by (destruct ((k - 1) / L)%nat; [lia|lia]).
        exists (L * ((k - 1) / L - 1) + j)%nat. repeat split; try nia.
        symmetry. apply (Nat.mod_unique _ _ ((k - 1) / L - 1)); lia. }
    rewrite Hr by lia. change 0 with (frame_peak []). rewrite map_nth. apply in_map.
    replace t with (S (k - 1) - L + (t - (k - L)))%nat by lia. rewrite <- window_nth by lia.
    apply nth_In. rewrite window_length; lia.
  - apply in_map_iff in Hv as (x & <- & Hx). apply (In_nth _ _ []) in Hx as (j & Hj & <-).
    rewrite window_length in Hj by lia. rewrite window_nth by lia.
    set (t := (S (length hist - 1) - L + j)%nat).
    rewrite <- (map_nth frame_peak). change (frame_peak []) with 0. rewrite <- Hr by lia.
    apply nth_In. pose proof (Nat.mod_upper_bound t L ltac:(lia)). lia.
Qed.

Lemma fill_peak L hist slots : (1 <= L)%nat -> length slots = L -> length hist = L ->
  ring_ok L (map frame_peak hist) slots 0 -> fold_right Rmax 0 slots = peak (firstn L hist).
Proof.
  intros. rewrite (ring_peak L hist slots) by (auto; lia). unfold window.
  replace (S (length hist - 1) - L)%nat with 0%nat by lia. reflexivity.
Qed.

Lemma lim_follower_step L f0 hist x : (1 <= L)%nat -> (L <= length hist)%nat ->
  lim_follower L f0 (hist ++ [x]) = af_tick rn (lim_follower L f0 hist) (target L (hist ++ [x]) (length hist)).
Proof.
  intros HL Hh. unfold lim_follower. rewrite app_length; cbn [length].
  destruct (Nat.ltb_spec (length hist + 1) L); [lia|]. destruct (Nat.ltb_spec (length hist) L); [lia|].
  replace (length hist + 1 - L)%nat with (length hist - L + 1)%nat by lia.
  rewrite seq_app, map_app, fold_left_app. cbn [seq map fold_left].
  replace (L + (length hist - L))%nat with (length hist) by lia.
  rewrite firstn_app. replace (L - length hist)%nat with 0%nat by lia. cbn [firstn]. rewrite app_nil_r.
  do 2 f_equal. apply map_ext_in. intros i Hi. apply in_seq in Hi. unfold target. rewrite window_app by lia. reflexivity.
Qed.

Lemma li_tick_spec L f0 hist l x : (1 <= L)%nat -> Inv L f0 hist l ->
  exists l', li_tick rn l x = Some (l', lim_out L f0 hist x) /\ Inv L f0 (hist ++ [x]) l'.
Proof.
  intros HL [ (slots & Hrep & Hsl & Hring & Hz) Hf Hi Hbl Hb ].
  pose proof (Nat.mod_upper_bound (length hist) L ltac:(lia)) as Hmod.
  destruct (repr_set 0 Rmax (fun x => 0 <= x) rP0 rPop rcomm rassoc rid (li_reducer l) slots (li_index l) (amplitude rn x) Hrep)
    as (red & Ered & Hrep').
  { lia. } { rewrite amplitude_peak. apply frame_peak_nonneg. }
  unfold li_tick. change (nmax rn) with Rmax. rewrite Ered.
  pose proof (repr_total 0 Rmax (fun x => 0 <= x) rP0 rPop rcomm rassoc rid red _ Hrep') as Htot. rewrite Htot.
  assert (Hlen : rb_length red = L).
  { destruct Hrep' as (h & _ & E & _). rewrite E, length_upd; auto. }
  rewrite Hlen. unfold reduce_list in *.
  rewrite amplitude_peak in *. rewrite Hi in *.
  set (slots' := upd slots (length hist mod L) (frame_peak x)) in *.
  assert (Hsl' : length slots' = L) by (unfold slots'; rewrite length_upd; auto).
  assert (Hring' : ring_ok L (map frame_peak (hist ++ [x])) slots' 0).
  { rewrite map_app. unfold slots'. rewrite <- (map_length frame_peak hist). apply ring_step; auto. }
  assert (Hz' : forall j, (length (hist ++ [x]) <= j < L)%nat -> nth j slots' 0 = 0).
  { intros j Hj. rewrite app_length in Hj; cbn in Hj. unfold slots'. rewrite nth_upd.
    rewrite Nat.mod_small by lia. destruct (Nat.eqb_spec (length hist) j); [lia|]. apply Hz; lia. }
  rewrite Hbl. destruct (Nat.ltb_spec (Nat.min (length hist) L) L) as [Hlt|Hge].
  - (* filling *)
    assert (Hh : (length hist < L)%nat) by lia.
    rewrite app_length, Hbl. cbn [length]. rewrite Nat.min_l by lia.
    assert (Hout : lim_out L f0 hist x = map (fun _ => n0 rn) x).
    { unfold lim_out. destruct (Nat.ltb_spec (length hist) L); [reflexivity|lia]. }
    rewrite Hout. eexists; split; [reflexivity|]. constructor; cbn [li_reducer li_follower li_buffer li_index].
    + exists slots'. auto.
    + rewrite Hf. unfold lim_follower. destruct (Nat.ltb_spec (length hist) L); [|lia].
      rewrite app_length; cbn [length]. destruct (Nat.eqb_spec (length hist + 1) L) as [E|Hne].
      * destruct (Nat.ltb_spec (length hist + 1) L); [lia|].
        replace (length hist + 1 - L)%nat with 0%nat by lia. cbn [seq map fold_left]. f_equal.
        apply fill_peak; auto. rewrite app_length; cbn; lia.
      * destruct (Nat.ltb_spec (length hist + 1) L); [reflexivity|lia].
    + rewrite li_advance_mod by auto. rewrite app_length. reflexivity.
    + rewrite !app_length, Hbl. cbn [length]. lia.
    + assert (El : li_buffer l = hist).
      { apply (nth_ext_len _ _ []); [lia|]. intros t Ht. rewrite <- (Hb t) by lia. rewrite Nat.mod_small by lia. reflexivity. }
      rewrite El. intros t Ht _. rewrite app_length in Ht. cbn in Ht. rewrite Nat.mod_small by lia. reflexivity.
  - assert (Hh : (L <= length hist)%nat) by lia. rewrite Nat.min_r in Hbl by lia.
    rewrite (nth_error_nth' (li_buffer l) (length hist mod L) []) by lia.
    assert (Efol : af_tick rn (li_follower l) (Rmax (n1 rn) (nmul rn (fold_right Rmax 0 slots') (headroom rn)))
                   = lim_follower L f0 (hist ++ [x])).
    { rewrite lim_follower_step, Hf by auto. f_equal. unfold target, headroom, n1; cbn [nmax nmul ndiv nofZ rn].
      rewrite (ring_peak L (hist ++ [x]) slots'); auto.
      - rewrite app_length; cbn [length]. replace (length hist + 1 - 1)%nat with (length hist) by lia. reflexivity.
      - rewrite app_length; cbn; lia. }
    rewrite Efol.
    assert (Eout : nth (length hist mod L) (li_buffer l) [] = nth (length hist - L) hist []).
    { rewrite <- (Hb (length hist - L)%nat) by lia. f_equal.
      replace (length hist) with ((length hist - L) + 1 * L)%nat at 1 by lia. rewrite Nat.mod_add; lia. }
    rewrite Eout. eexists; split.
    + unfold lim_out. destruct (Nat.ltb_spec (length hist) L); [lia|]. reflexivity.
    + constructor; cbn [li_reducer li_follower li_buffer li_index]; auto.
      * exists slots'. auto.
      * rewrite li_advance_mod by auto. rewrite app_length. reflexivity.
      * rewrite length_upd, app_length. cbn; lia.
      * apply ring_step; auto.
Qed.

Fixpoint lim_outs L f0 hist xs : list (list R) :=
  match xs with [] => [] | x :: r => lim_out L f0 hist x :: lim_outs L f0 (hist ++ [x]) r end.

Lemma li_run_spec L f0 : (1 <= L)%nat -> forall xs hist l, Inv L f0 hist l ->
  exists l', li_run rn l xs = Some (l', lim_outs L f0 hist xs) /\ Inv L f0 (hist ++ xs) l'.
Proof.
  intros HL. induction xs as [|x xs IH]; intros hist l H; cbn [li_run lim_outs].
  - exists l. rewrite app_nil_r. auto.
  - destruct (li_tick_spec L f0 hist l x HL H) as (l' & -> & H').
    destruct (IH _ _ H') as (l'' & -> & H''). exists l''. rewrite <- app_assoc in H''. auto.
Qed.

Lemma lim_outs_length L f0 : forall xs hist, length (lim_outs L f0 hist xs) = length xs.
Proof. induction xs; intros; cbn; auto. Qed.

Lemma nth_lim_outs L f0 : forall xs hist i, (i < length xs)%nat ->
  nth i (lim_outs L f0 hist xs) [] = lim_out L f0 (hist ++ firstn i xs) (nth i xs []).
Proof.
  induction xs as [|x xs IH]; intros hist i Hi; [cbn in Hi; lia|]. destruct i as [|i]; cbn [nth lim_outs firstn].
  - now rewrite app_nil_r.
  - cbn in Hi. rewrite IH by lia. rewrite <- app_assoc. reflexivity.
Qed.

(* start states: fresh, and after reset or set_sample_rate *)
Lemma Inv_start L f0 red : (1 <= L)%nat -> rrepr red (repeat 0 L) -> Inv L f0 [] (mkLim red f0 [] 0).
Proof.
  intros HL Hr. constructor; cbn [li_reducer li_follower li_buffer li_index length]; auto.
  - exists (repeat 0 L). rewrite repeat_length. repeat split; auto.
    + intros t Ht; cbn in Ht; lia.
    + intros j Hj. apply nth_repeat.
  - unfold lim_follower. cbn [length]. destruct (Nat.ltb_spec 0 L); [reflexivity|lia].
  - rewrite Nat.mod_0_l by lia. reflexivity.
  - intros t Ht; cbn in Ht; lia.
Qed.

Lemma li_new_eq L a r : li_new rn L a r = mkLim (rb_new 0 L) (mkAF 0 0 0 a r 1 1) [] 0.
Proof. unfold li_new. rewrite af_new_state. unfold af_set_coeffs, n0, n1; cbn. destruct (Rlt_dec 1 1); [lra|reflexivity]. Qed.

Lemma Inv_new L a r : (1 <= L)%nat -> Inv L (mkAF 0 0 0 a r 1 1) [] (li_new rn L a r).
Proof.
  intros HL. rewrite li_new_eq. apply Inv_start; auto. apply repr_new; auto using rP0, rPop, rcomm, rassoc, rid.
Qed.

Lemma Inv_reset L f0 hist l : (1 <= L)%nat -> Inv L f0 hist l ->
  Inv L (af_set_coeffs rn (li_follower l) (af_a (li_follower l)) (af_r (li_follower l))) [] (li_reset rn l).
Proof.
  intros HL [ (slots & Hrep & Hsl & _) _ _ _ _ ]. unfold li_reset, li_set_sample_rate.
  rewrite Nat.eqb_refl. apply Inv_start; auto. rewrite <- Hsl. apply repr_clear; auto using rP0, rPop, rcomm, rassoc, rid.
Qed.

(* gain on a fresh limiter *)
Lemma target_ge1 L xs i : 1 <= target L xs i.
Proof. apply Rmax_l. Qed.

Lemma af_run_ge1 : forall ts f, 1 <= af_v1 f -> 1 <= af_v2 f -> 1 <= af_v3 f ->
  0 <= af_a_now f <= 1 -> 0 <= af_r_now f <= 1 -> 0 <= af_a f <= 1 -> 0 <= af_r f <= 1 -> Forall (fun t => 1 <= t) ts ->
  1 <= af_v3 (fold_left (af_tick rn) ts f).
Proof.
  intros ts f H1 H2 H3 Ha Hr Ha' Hr' Ht.
  (* choose an upper bound above everything *)
  set (hi := fold_right Rmax (Rmax (af_v1 f) (Rmax (af_v2 f) (af_v3 f))) ts).
  assert (B : forall l m, m <= fold_right Rmax m l /\ Forall (fun t => t <= fold_right Rmax m l) l).
  { induction l as [|t l IH]; intros m; cbn; [split; [lra|constructor]|]. destruct (IH m) as [I1 I2]. split.
    - eapply Rle_trans; [exact I1|apply Rmax_r].
    - constructor; [apply Rmax_l|]. eapply Forall_impl; [|exact I2]. cbn. intros u Hu. eapply Rle_trans; [exact Hu|apply Rmax_r]. }
  destruct (B ts (Rmax (af_v1 f) (Rmax (af_v2 f) (af_v3 f)))) as [B1 B2]. fold hi in B1, B2.
  pose proof (Rmax_l (af_v1 f) (Rmax (af_v2 f) (af_v3 f))). pose proof (Rmax_r (af_v1 f) (Rmax (af_v2 f) (af_v3 f))).
  pose proof (Rmax_l (af_v2 f) (af_v3 f)). pose proof (Rmax_r (af_v2 f) (af_v3 f)).
  refine (proj1 (proj2 (proj2 (af_run_in 1 hi ts f _ Ha Hr Ha' Hr' _)))).
  - unfold af_in. repeat split; lra.
  - rewrite Forall_forall in *. intros t Hin. split; auto.
Qed.

Lemma fresh_limit_ge1 L a r hist : 0 <= a <= 1 -> 0 <= r <= 1 -> (1 <= L)%nat -> (L < length hist)%nat ->
  1 <= af_v3 (lim_follower L (mkAF 0 0 0 a r 1 1) hist).
Proof.
  intros Ha Hr HL Hh. unfold lim_follower. destruct (Nat.ltb_spec (length hist) L); [lia|].
  destruct (length hist - L)%nat as [|m] eqn:E; [lia|]. cbn [seq map fold_left].
  unfold af_set_value at 1; cbn [af_a af_r af_a_now af_r_now]. rewrite af_first.
  apply af_run_ge1; cbn; auto using target_ge1.
  apply Forall_forall. intros t Hin. apply in_map_iff in Hin as (? & <- & _). apply target_ge1.
Qed.

Lemma inv_gain v : 1 <= v -> 0 < 1 / v <= 1.
Proof.
  intros H. split.
  - apply Rdiv_lt_0_compat; lra.
  - apply Rmult_le_reg_r with v; [lra|]. field_simplify; lra.
Qed.

Lemma limiter_fresh L a r xs : (1 <= L)%nat -> 0 <= a <= 1 -> 0 <= r <= 1 ->
  exists l ys, li_run rn (li_new rn L a r) xs = Some (l, ys) /\ length ys = length xs /\
    forall i, (i < length xs)%nat ->
      ((i < L)%nat -> nth i ys [] = map (fun _ => 0) (nth i xs [])) /\
      ((L <= i)%nat -> exists g, 0 < g <= 1 /\ nth i ys [] = map (fun y => y * g) (nth (i - L) xs [])).
Proof.
  intros HL Ha Hr. destruct (li_run_spec L _ HL xs [] _ (Inv_new L a r HL)) as (l & E & _).
  exists l. eexists. split; [exact E|]. split; [apply lim_outs_length|]. intros i Hi. rewrite nth_lim_outs by auto.
  cbn [app]. unfold lim_out. rewrite firstn_length, Nat.min_l by lia. split; intros HiL.
  - destruct (Nat.ltb_spec i L); [reflexivity|lia].
  - destruct (Nat.ltb_spec i L); [lia|]. eexists; split; [|rewrite nth_firstn_lt by lia; reflexivity].
    apply inv_gain, fresh_limit_ge1; auto. rewrite app_length, firstn_length; cbn; lia.
Qed.

(* exact divisor *)
Lemma firstn_snoc {A} (xs : list A) i d : (i < length xs)%nat -> firstn i xs ++ [nth i xs d] = firstn (S i) xs.
Proof.
  revert i; induction xs as [|x xs IH]; intros [|i] H; cbn in *; try lia; auto. f_equal. apply IH. lia.
Qed.

Lemma limiter_exact L a r xs : (1 <= L)%nat ->
  exists l ys, li_run rn (li_new rn L a r) xs = Some (l, ys) /\ length ys = length xs /\
    forall i, (L <= i)%nat -> (i < length xs)%nat ->
      nth i ys [] = map (fun y => y * (1 / af_v3 (fold_left (af_tick rn) (map (target L xs) (seq L (S i - L))) (af_new rn a r))))
                        (nth (i - L) xs []).
Proof.
  intros HL. destruct (li_run_spec L _ HL xs [] _ (Inv_new L a r HL)) as (l & E & _).
  exists l. eexists. split; [exact E|]. split; [apply lim_outs_length|]. intros i HiL Hi. rewrite nth_lim_outs by auto.
  cbn [app]. unfold lim_out. rewrite firstn_length, Nat.min_l by lia.
  destruct (Nat.ltb_spec i L); [lia|]. rewrite nth_firstn_lt by lia. apply map_ext. intros y. do 3 f_equal.
  rewrite firstn_snoc by auto. unfold lim_follower. rewrite firstn_length, Nat.min_l by lia.
  destruct (Nat.ltb_spec (S i) L); [lia|].
  assert (EM : map (target L (firstn (S i) xs)) (seq L (S i - L)) = map (target L xs) (seq L (S i - L))).
  { apply map_ext_in. intros k Hk. apply in_seq in Hk. unfold target. do 3 f_equal.
    rewrite <- (firstn_skipn (S i) xs) at 2. rewrite window_app; auto; try lia. rewrite firstn_length; lia. }
  rewrite EM. replace (S i - L)%nat with (S (i - L)) by lia. cbn [seq map fold_left].
  unfold af_set_value; cbn [af_a af_r af_a_now af_r_now]. rewrite af_new_state, !af_first. reflexivity.
Qed.

(* the very first frame is passed through undamped *)
Lemma limiter_first_peak L a r M : (1 <= L)%nat -> 1 < M ->
  exists l ys, li_run rn (li_new rn L a r) ([M] :: repeat [0] L) = Some (l, ys) /\ nth L ys [] = [M].
Proof.
  intros HL HM. destruct (limiter_exact L a r ([M] :: repeat [0] L) HL) as (l & ys & E & Hlen & H).
  exists l, ys. split; auto. rewrite H; auto; [|cbn; rewrite repeat_length; lia].
  rewrite Nat.sub_diag. cbn [nth map]. replace (S L - L)%nat with 1%nat by lia. cbn [seq map fold_left].
  rewrite af_new_state, af_first. cbn [af_v3].
  assert (E1 : target L ([M] :: repeat [0] L) L = 1).
  { unfold target, window. replace (S L - L)%nat with 1%nat by lia. cbn [skipn].
    rewrite firstn_all2 by (rewrite repeat_length; lia).
    assert (Ep : peak (repeat [0] L) = 0).
    { clear. induction L; cbn; auto. fold (peak (repeat [0] L)). rewrite IHL. rewrite Rabs_R0. rewrite !(Rmax_left 0 0) by lra. reflexivity. }
    rewrite Ep, Rmax_left; lra. }
  rewrite E1. f_equal. field.
Qed.

Lemma peak_const L c : (1 <= L)%nat -> 0 <= c -> peak (repeat [c] L) = c.
Proof.
  intros HL Hc. destruct L; [lia|]. clear HL. induction L as [|L IH].
  - cbn. rewrite Rabs_pos_eq by lra. rewrite (Rmax_left c 0), Rmax_left; lra.
  - change (peak (repeat [c] (S (S L)))) with (Rmax (Rmax (Rabs c) 0) (peak (repeat [c] (S L)))).
    rewrite IH, Rabs_pos_eq, (Rmax_left c 0), Rmax_left; lra.
Qed.

Lemma skipn_repeat {A} (x : A) n k : skipn k (repeat x n) = repeat x (n - k).
Proof. revert k; induction n; intros [|k]; cbn; auto. Qed.
Lemma firstn_repeat {A} (x : A) n k : (k <= n)%nat -> firstn k (repeat x n) = repeat x k.
Proof. revert k; induction n; intros [|k] H; cbn; auto; try lia. f_equal. apply IHn; lia. Qed.

(* after reset() a quiet signal is amplified, for every look-ahead and every attack coefficient below one *)
Lemma limiter_reset_amplifies L a r : (1 <= L)%nat -> 0 < a < 1 -> 0 <= r <= 1 ->
  exists l1 ys1 l2 ys2 g,
    li_run rn (li_new rn L a r) (repeat [1/2] (S L)) = Some (l1, ys1) /\
    li_run rn (li_reset rn l1) (repeat [1/2] (S L)) = Some (l2, ys2) /\
    nth L ys2 [] = [1/2 * g] /\ 1 < g.
Proof.
  intros HL Ha Hr. set (xs := repeat [1/2] (S L)).
  destruct (li_run_spec L _ HL xs [] _ (Inv_new L a r HL)) as (l1 & E1 & I1). cbn [app] in I1.
  pose proof (Inv_reset L _ xs l1 HL I1) as I2. destruct (li_run_spec L _ HL xs [] _ I2) as (l2 & E2 & _).
  exists l1. eexists. exists l2. eexists. exists (1 / (1/2 + a * a * a / 2)).
  split; [exact E1|]. split; [exact E2|].
  assert (Hx : length xs = S L) by (unfold xs; apply repeat_length).
  assert (Hf1 : li_follower l1 = mkAF 1 1 1 a r a r).
  { rewrite (i_fol _ _ _ _ I1). unfold lim_follower. rewrite Hx.
    destruct (Nat.ltb_spec (S L) L); [lia|]. replace (S L - L)%nat with 1%nat by lia. cbn [seq map fold_left].
    unfold af_set_value; cbn [af_a af_r af_a_now af_r_now]. rewrite af_first.
    assert (target L xs L = 1) as ->; [|reflexivity].
    unfold target, window, xs. rewrite skipn_repeat, firstn_repeat, peak_const, Rmax_left; try lra; try lia. }
  rewrite Hf1. unfold af_set_coeffs, n1; cbn [af_v1 af_v2 af_v3 af_a af_r af_a_now af_r_now nltb nofZ rn].
  destruct (Rlt_dec a 1) as [_|]; [|lra].
  rewrite nth_lim_outs by lia. cbn [app]. unfold lim_out. rewrite firstn_length, Hx, Nat.min_l by lia.
  destruct (Nat.ltb_spec L L); [lia|]. rewrite Nat.sub_diag.
  rewrite firstn_snoc, <- Hx, firstn_all by lia.
  unfold lim_follower. rewrite Hx. destruct (Nat.ltb_spec (S L) L); [lia|].
  replace (S L - L)%nat with 1%nat by lia. cbn [seq map fold_left].
  assert (Et : target L xs L = 1).
  { unfold target, window, xs. rewrite skipn_repeat, firstn_repeat, peak_const, Rmax_left; try lra; try lia. }
  assert (Ep : peak (firstn L xs) = 1/2).
  { unfold xs. rewrite firstn_repeat, peak_const; try lra; try lia. }
  rewrite Et, Ep. unfold af_set_value, af_tick, filter_pole, n0; cbn [af_v1 af_v2 af_v3 af_a af_r af_a_now af_r_now nadd nsub nmul nmax nofZ rn].
  set (v1 := 1/2 + Rmax 0 (1 - 1/2) * a - Rmax 0 (1/2 - 1) * r).
  assert (E3 : v1 = 1/2 + a / 2). { unfold v1. rewrite (Rmax_right 0 (1 - 1/2)), (Rmax_left 0 (1/2 - 1)) by lra. lra. }
  set (v2 := 1/2 + Rmax 0 (v1 - 1/2) * a - Rmax 0 (1/2 - v1) * r).
  assert (E4 : v2 = 1/2 + a * a / 2).
  { unfold v2. rewrite E3. rewrite (Rmax_right 0 (1/2 + a/2 - 1/2)), (Rmax_left 0 (1/2 - (1/2 + a / 2))) by lra. lra. }
  assert (E5 : 1/2 + Rmax 0 (v2 - 1/2) * a - Rmax 0 (1/2 - v2) * r = 1/2 + a * a * a / 2).
  { rewrite E4. assert (0 < a * a) by nra.
    rewrite (Rmax_right 0 (1/2 + a * a/2 - 1/2)), (Rmax_left 0 (1/2 - (1/2 + a * a/ 2))) by lra. lra. }
  rewrite E5. split.
  - destruct L; [lia|]. reflexivity.
  - assert (0 < a * a < 1) by (split; nra). assert (0 < a * a * a < 1) by (split; nra).
    apply Rmult_lt_reg_r with (1/2 + a * a * a / 2); [lra|]. field_simplify; lra.
Qed.
