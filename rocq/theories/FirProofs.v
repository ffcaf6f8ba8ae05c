(* Proofs about FIR filters, mixing matrices and panners. *)
From Coq Require Import Reals Lra SpecFloat.
From Verif Require Export FirModel FirSpec UnitProofs.

Section Generic.
  Context {F : Type}.
  Variable nm : num F.
  Notation zero := (n0 nm).
  Notation ticks_fir := (ticks (fir_tick nm)).

  (* the shift register after the samples xs *)
  Definition lastk (xs : list F) (k : nat) : F := if Nat.ltb k (length xs) then nth (length xs - 1 - k) xs zero else zero.
  Definition hist (n : nat) (xs : list F) : list F := map (fun i => lastk xs (n - 1 - i)) (seq 0 n).

  Lemma fir_step w xs x : fir_tick nm (mkFir w (hist (length w) xs)) [x] =
    (mkFir w (hist (length w) (xs ++ [x])), [dot nm w (hist (length w) (xs ++ [x]))]).
  Proof.
    unfold fir_tick. cbn [f_w f_v]. cbv zeta.
    assert (E : map (fun i => if i + 1 <? length w then nth (i + 1) (hist (length w) xs) zero else nth 0 [x] zero) (seq 0 (length w)) =
      hist (length w) (xs ++ [x])); [|now rewrite E].
    unfold hist at 2. apply map_ext_in. intros i Hi. apply in_seq in Hi. unfold lastk. rewrite app_length. cbn [length].
    destruct (i + 1 <? length w) eqn:E.
    - apply Nat.ltb_lt in E. unfold hist. rewrite nth_map_seq by lia. unfold lastk.
      destruct (length w - 1 - (i + 1) <? length xs) eqn:E1.
      + apply Nat.ltb_lt in E1. rewrite (proj2 (Nat.ltb_lt _ _)) by lia. rewrite app_nth1 by lia. f_equal. lia.
      + apply Nat.ltb_ge in E1. now rewrite (proj2 (Nat.ltb_ge _ _)) by lia.
    - apply Nat.ltb_ge in E. rewrite (proj2 (Nat.ltb_lt _ _)) by lia. rewrite app_nth2 by lia.
      replace (length xs + 1 - 1 - (length w - 1 - i) - length xs) with 0 by lia. reflexivity.
  Qed.
  Lemma fir_run w xs : forall pre,
    ticks_fir (mkFir w (hist (length w) pre)) (map (fun x => [x]) xs) =
    (mkFir w (hist (length w) (pre ++ xs)), map (fun t => [dot nm w (hist (length w) (pre ++ firstn (S t) xs))]) (seq 0 (length xs))).
  Proof.
    induction xs as [|x xs IH]; intros pre; [cbn; now rewrite app_nil_r|].
    cbn [map ticks]. rewrite fir_step, IH. rewrite <- app_assoc. cbn [app]. f_equal.
    cbn [length seq map]. rewrite <- seq_shift, map_map. cbn [firstn]. f_equal. apply map_ext. intros t.
    now rewrite <- app_assoc.
  Qed.
  Lemma hist_nil n : hist n [] = repeat zero n.
  Proof.
    unfold hist, lastk. cbn [length]. apply nth_ext with (d := zero) (d' := zero); [now rewrite map_length, seq_length, repeat_length|].
    intros i Hi. rewrite map_length, seq_length in Hi. rewrite nth_map_seq, nth_repeat by lia. reflexivity.
  Qed.
  Lemma lastk_ago xs t k : t < length xs -> lastk (firstn (S t) xs) k = ago zero xs t k.
  Proof.
    intros H. unfold lastk, ago. rewrite firstn_length_le by lia.
    destruct (k <? S t) eqn:E.
    - apply Nat.ltb_lt in E. rewrite (proj2 (Nat.leb_le _ _)) by lia. rewrite nth_firstn_lt by lia. f_equal. lia.
    - apply Nat.ltb_ge in E. now rewrite (proj2 (Nat.leb_gt _ _)) by lia.
  Qed.
  Lemma combine_map_seq {B C} (w : list B) (f : nat -> C) (d : B) :
    combine w (map f (seq 0 (length w))) = map (fun i => (nth i w d, f i)) (seq 0 (length w)).
  Proof.
    revert f. induction w as [|a w IH]; intros f; [reflexivity|].
    cbn [length seq map combine]. rewrite <- seq_shift, !map_map. f_equal. rewrite (IH (fun i => f (S i))). reflexivity.
  Qed.
  Lemma fold_left_map {B C D} (f : D -> C -> D) (g : B -> C) l : forall a, fold_left f (map g l) a = fold_left (fun x y => f x (g y)) l a.
  Proof. induction l; intros; cbn; auto. Qed.
  (* the output at every time, in the order of summation of the code *)
  Lemma fir_output w xs t : t < length xs ->
    nth t (snd (ticks_fir (fir_new nm w) (map (fun x => [x]) xs))) [] =
    [fold_left (fun acc i => nadd nm acc (nmul nm (nth i w zero) (ago zero xs t (length w - 1 - i)))) (seq 0 (length w)) zero].
  Proof.
    intros H. unfold fir_new. rewrite <- hist_nil, fir_run. cbn [snd app]. rewrite nth_map_seq by exact H. f_equal.
    unfold dot, hist. rewrite combine_map_seq with (d := zero). rewrite fold_left_map. cbn [fst snd].
    assert (E : forall l a,
      fold_left (fun x y => nadd nm x (nmul nm (nth y w zero) (lastk (firstn (S t) xs) (length w - 1 - y)))) l a =
      fold_left (fun acc i => nadd nm acc (nmul nm (nth i w zero) (ago zero xs t (length w - 1 - i)))) l a).
    { induction l; intros a'; cbn [fold_left]; [reflexivity|]. rewrite IHl. now rewrite lastk_ago. }
    apply E.
  Qed.
  Lemma fir_block w : block_contract zero (fir_tick nm) (fir_process nm) 1 1 w.
  Proof. apply (default_process_contract zero (fir_tick nm) 1 1 (fun _ => True)); auto. Qed.
  Lemma mixer_block (m : list (list F)) n : block_contract zero (mixer_tick nm) (mixer_process nm) n (length m) m.
  Proof.
    apply (default_process_contract zero (mixer_tick nm) (length m) n (fun x => x = m)); [|reflexivity].
    intros y i -> _. cbn. split; [reflexivity|]. apply map_length.
  Qed.

  Section Pan.
    Variable cos_ sin_ : F -> F.
    Variable quarter_pi : F.
    Notation ptick := (panner_tick nm cos_ sin_ quarter_pi).
    Notation pprocess := (panner_process nm cos_ sin_ quarter_pi).
    Hypothesis mul_comm : forall a b, nmul nm a b = nmul nm b a.
    Lemma panner_keeps s i : p_n (fst (ptick s i)) = p_n s.
    Proof. unfold panner_tick. cbn [fst]. destruct (1 <? p_n s); [|reflexivity]. unfold set_pan. now destruct (pan_weights _ _ _ _ _). Qed.
    Lemma panner_loop_eq : forall n i s inb out, 1 < p_n s -> 
      panner_loop nm cos_ sin_ quarter_pi n i s inb out = process_ticks zero ptick n i s inb out.
    Proof.
      induction n as [|n IH]; intros i s inb out Hn; [reflexivity|]. cbn [panner_loop process_ticks].
      unfold panner_tick at 1. rewrite (proj2 (Nat.ltb_lt _ _) Hn).
      rewrite (mul_comm (nth 0 _ _)), (mul_comm (nth 0 _ _)). apply IH.
      unfold set_pan. destruct (pan_weights _ _ _ _ _). exact Hn.
    Qed.
    Lemma still_ticks s : p_n s = 1 -> forall l,
      ticks ptick s l = (s, map (fun f => [nmul nm (p_left s) (nth 0 f zero); nmul nm (p_right s) (nth 0 f zero)]) l).
    Proof.
      intros Hn. induction l as [|f l IH]; [reflexivity|]. cbn [ticks map].
      unfold panner_tick at 1. rewrite Hn. cbn [Nat.ltb Nat.leb]. rewrite IH. reflexivity.
    Qed.
    Lemma panner_block s : 1 <= p_n s -> block_contract zero ptick pprocess (p_n s) 2 s.
    Proof.
      intros Hn size inb out Hs Hi Ho. unfold panner_process. destruct (Nat.eqb (p_n s) 1) eqn:E.
      - apply Nat.eqb_eq in E. cbv zeta. split.
        + rewrite still_ticks by exact E. f_equal. unfold frames. rewrite map_map. apply map_ext_in. intros k Hk. apply in_seq in Hk.
          unfold frame. cbn [map]. rewrite !nth_write_simd by lia. rewrite E in Hi. destruct Hi as [Hi _].
          destruct inb as [|ch [|]]; try discriminate Hi. cbn [nth map]. now rewrite (mul_comm _ (p_left s)), (mul_comm _ (p_right s)).
        + split; [reflexivity|]. repeat constructor; apply write_simd_length.
      - apply Nat.eqb_neq in E. rewrite panner_loop_eq by lia.
        pose proof (default_process_contract zero ptick 2 (p_n s) (fun _ => True) s) as H. unfold default_process in H.
        apply (H ltac:(intros; split; [exact I|reflexivity]) I size inb out Hs Hi Ho).
    Qed.
  End Pan.
End Generic.

(* multiplication of floats commutes *)
Lemma sf_mul_comm prec emax a b : SFmul prec emax a b = SFmul prec emax b a.
Proof.
  destruct a as [sa|sa| |sa ma ea], b as [sb|sb| |sb mb eb]; cbn; try reflexivity; try (now rewrite xorb_comm).
  now rewrite xorb_comm, Pos.mul_comm, Z.add_comm.
Qed.

Local Open Scope R_scope.
Lemma sigma_ext n f g : (forall k, (k < n)%nat -> f k = g k) -> sigma n f = sigma n g.
Proof. induction n; intros H; cbn; [reflexivity|]. rewrite IHn by (intros; apply H; lia). now rewrite H by lia. Qed.
Lemma fold_sigma f n : forall a, fold_left (fun acc i => acc + f i) (seq 0 n) a = a + sigma n f.
Proof.
  induction n; intros a; cbn [sigma]; [cbn; lra|]. rewrite seq_S, fold_left_app, IHn. cbn. lra.
Qed.
Lemma sigma_shift n f : sigma (S n) f = f 0%nat + sigma n (fun k => f (S k)).
Proof. induction n; [cbn; lra|]. rewrite (eq_refl : sigma (S (S n)) f = sigma (S n) f + f (S n)), IHn. cbn [sigma]. lra. Qed.
Lemma sigma_rev n f : sigma n (fun k => f (n - 1 - k)%nat) = sigma n f.
Proof.
  induction n; [reflexivity|]. rewrite sigma_shift. cbn [sigma]. replace (S n - 1 - 0)%nat with n by lia.
  rewrite <- IHn. rewrite (sigma_ext n _ (fun k => f (n - 1 - k)%nat)) by (intros; f_equal; lia). lra.
Qed.
Lemma sigma_scale n c f : c * sigma n f = sigma n (fun k => c * f k).
Proof. induction n; cbn; [lra|]. rewrite <- IHn. lra. Qed.
Lemma sigma_plus n f g : sigma n f + sigma n g = sigma n (fun k => f k + g k).
Proof. induction n; cbn; [lra|]. rewrite <- IHn. lra. Qed.
Lemma sigma_0 n : sigma n (fun _ => 0) = 0.
Proof. induction n; cbn; [|rewrite IHn]; lra. Qed.
Lemma sigma_swap n m f : sigma n (fun i => sigma m (fun j => f i j)) = sigma m (fun j => sigma n (fun i => f i j)).
Proof. induction n; cbn; [now rewrite sigma_0|]. rewrite IHn. now rewrite sigma_plus. Qed.
Lemma sigma_one n f j : (j < n)%nat -> (forall k, (k < n)%nat -> k <> j -> f k = 0) -> sigma n f = f j.
Proof.
  induction n; intros Hj H; [lia|]. cbn. destruct (Nat.eq_dec j n) as [->|].
  - rewrite (sigma_ext n f (fun _ => 0)), sigma_0; [lra|]. intros; apply H; lia.
  - rewrite IHn; [rewrite (H n) by lia; lra|lia|]. intros; apply H; lia.
Qed.

Lemma fir_convolution w xs t : (t < length xs)%nat ->
  nth t (snd (ticks (fir_tick Rnum_ops) (fir_new Rnum_ops w) (map (fun x => [x]) xs))) [] = [convolution (rev w) xs t].
Proof.
  intros H. rewrite fir_output by exact H. f_equal. cbn [nadd nmul n0 nofZ Rnum_ops]. change (nofZ Rnum_ops 0) with 0. cbn [Rnum_ops nadd nmul].
  rewrite fold_sigma. rewrite Rplus_0_l. unfold convolution. rewrite rev_length.
  rewrite <- (sigma_rev (length w)). apply sigma_ext. intros k Hk. change (n0 Rnum_ops) with 0. rewrite rev_nth by lia.
  replace (length w - S k)%nat with (length w - 1 - k)%nat by lia.
  replace (length w - 1 - (length w - 1 - k))%nat with k by lia. reflexivity.
Qed.
Lemma impulse_convolution h n t : (t < n)%nat -> convolution h (impulse n) t = nth t h 0.
Proof.
  intros Hn. unfold convolution, impulse.
  assert (E : forall k, ago 0 (1 :: repeat 0 (n - 1)) t k = if Nat.eqb k t then 1 else 0).
  { intros k. unfold ago. destruct (Nat.leb k t) eqn:E; destruct (Nat.eqb k t) eqn:E2; auto.
    - apply Nat.eqb_eq in E2. subst. now rewrite Nat.sub_diag.
    - apply Nat.leb_le in E. apply Nat.eqb_neq in E2. destruct (t - k)%nat as [|d] eqn:D; [lia|]. cbn.
      destruct (Nat.lt_ge_cases d (n - 1)); [now rewrite nth_repeat|]. now rewrite nth_overflow by (rewrite repeat_length; lia).
    - apply Nat.eqb_eq in E2. apply Nat.leb_gt in E. lia. }
  destruct (Nat.lt_ge_cases t (length h)) as [Ht|Ht].
  - rewrite (sigma_one _ _ t Ht).
    + rewrite E, Nat.eqb_refl. lra.
    + intros k Hk Hkt. rewrite E. apply Nat.eqb_neq in Hkt. rewrite Hkt. lra.
  - rewrite nth_overflow by lia. rewrite (sigma_ext _ _ (fun _ => 0)); [apply sigma_0|]. intros k Hk. rewrite E.
    rewrite (proj2 (Nat.eqb_neq k t)) by lia. lra.
Qed.

Lemma dot_sigma a b : dot Rnum_ops a b = sigma (Nat.min (length a) (length b)) (fun j => nth j a 0 * nth j b 0).
Proof.
  unfold dot. change (n0 Rnum_ops) with 0. cbn [nadd nmul Rnum_ops].
  assert (E : combine a b = map (fun j => (nth j a 0, nth j b 0)) (seq 0 (Nat.min (length a) (length b)))).
  { revert b. induction a as [|x a IH]; intros [|y b]; cbn; try reflexivity. rewrite IH, <- seq_shift, map_map. reflexivity. }
  rewrite E, fold_left_map. cbn [fst snd]. rewrite (fold_sigma (fun j => nth j a 0 * nth j b 0)). lra.
Qed.
Lemma mixer_product m cols v : is_matrix (length m) cols m -> length v = cols ->
  snd (mixer_tick Rnum_ops m v) = apply_matrix m cols v.
Proof.
  intros [_ Hm] Hv. cbn. unfold apply_matrix.
  apply nth_ext with (d := 0) (d' := 0); [now rewrite !map_length, seq_length|]. intros i Hi. rewrite map_length in Hi.
  rewrite nth_map_seq by exact Hi. rewrite (nth_indep _ 0 (dot Rnum_ops v [])) by (now rewrite map_length).
  rewrite (map_nth (fun row => dot Rnum_ops v row)). rewrite dot_sigma.
  assert (L : length (nth i m []) = cols) by (rewrite Forall_forall in Hm; apply Hm; now apply nth_In).
  rewrite L, Hv, Nat.min_id. apply sigma_ext. intros. unfold entry. lra.
Qed.
Lemma entry_product a b inner cols i j : (i < length a)%nat -> (j < cols)%nat ->
  entry (matrix_product a b inner cols) i j = sigma inner (fun k => entry a i k * entry b k j).
Proof. intros Hi Hj. unfold entry at 1, matrix_product. rewrite nth_map_seq by lia. now rewrite nth_map_seq by lia. Qed.
Lemma mixer_compose a b inner cols v : is_matrix (length a) inner a -> is_matrix inner cols b -> length v = cols ->
  snd (mixer_tick Rnum_ops a (snd (mixer_tick Rnum_ops b v))) = snd (mixer_tick Rnum_ops (matrix_product a b inner cols) v).
Proof.
  intros Ha Hb Hv. assert (Lb : length b = inner) by apply Hb.
  rewrite (mixer_product b cols v) by (rewrite ?Lb; assumption).
  rewrite (mixer_product a inner) by (auto; unfold apply_matrix; now rewrite map_length, seq_length).
  assert (Lp : length (matrix_product a b inner cols) = length a) by (unfold matrix_product; now rewrite map_length, seq_length).
  rewrite (mixer_product _ cols v).
  - unfold apply_matrix at 1. rewrite <- Lp at 1. unfold apply_matrix. rewrite Lp. apply map_ext_in. intros i Hi. apply in_seq in Hi.
    rewrite (sigma_ext inner _ (fun k => sigma cols (fun j => entry a i k * (entry b k j * nth j v 0)))).
    + rewrite sigma_swap. apply sigma_ext. intros j Hj. rewrite entry_product by lia.
      rewrite Rmult_comm, sigma_scale. apply sigma_ext. intros. lra.
    + intros k Hk. rewrite nth_map_seq by lia. now rewrite sigma_scale.
  - split; [reflexivity|]. rewrite Forall_forall. intros r Hr. unfold matrix_product in Hr. apply in_map_iff in Hr.
    destruct Hr as (i & <- & _). now rewrite map_length, seq_length.
  - exact Hv.
Qed.

Definition R_pan := panner_tick Rnum_ops cos sin (PI / 4).
Definition R_clamped (v : R) : R := Rmin (Rmax v (-1)) 1.
Lemma R_weights v : pan_weights Rnum_ops cos sin (PI / 4) v = (cos ((R_clamped v + 1) * (PI / 4)), sin ((R_clamped v + 1) * (PI / 4))).
Proof. unfold pan_weights, clamp11, R_clamped, n1. cbn. now replace (- 1) with (-1) by lra. Qed.
Lemma R_clamped_range v : -1 <= R_clamped v <= 1.
Proof. unfold R_clamped, Rmin, Rmax. repeat destruct Rle_dec; lra. Qed.
Lemma weights_power v : let (l, r) := pan_weights Rnum_ops cos sin (PI / 4) v in l * l + r * r = 1.
Proof. rewrite R_weights. pose proof (sin2_cos2 ((R_clamped v + 1) * (PI / 4))) as H. unfold Rsqr in H. lra. Qed.
Lemma weights_positive v : let (l, r) := pan_weights Rnum_ops cos sin (PI / 4) v in 0 <= l <= 1 /\ 0 <= r <= 1.
Proof.
  rewrite R_weights. pose proof (R_clamped_range v). pose proof PI_RGT_0.
  set (a := (R_clamped v + 1) * (PI / 4)).
  assert (0 <= a <= PI / 2) by (unfold a; nra).
  repeat split; try apply COS_bound; try apply SIN_bound.
  - apply cos_ge_0; lra.
  - apply sin_ge_0; lra.
Qed.

Section PanRun.
  Context {F : Type}.
  Variable nm : num F.
  Variable cos_ sin_ : F -> F.
  Variable qp : F.
  Definition pan_step (s : panner F) (e : pan_event F) : panner F :=
    match e with PanTick f => fst (panner_tick nm cos_ sin_ qp s f) | PanSet p => panner_set nm cos_ sin_ qp s p end.
  Definition pan_run (s : panner F) (es : list (pan_event F)) : panner F := fold_left pan_step es s.
  Lemma set_pan_new n v w : set_pan nm cos_ sin_ qp (panner_new nm cos_ sin_ qp n v) w = panner_new nm cos_ sin_ qp n w.
  Proof. unfold set_pan, panner_new. destruct (pan_weights nm cos_ sin_ qp v), (pan_weights nm cos_ sin_ qp w). reflexivity. Qed.
  Lemma new_inputs n v : p_n (panner_new nm cos_ sin_ qp n v) = n.
  Proof. unfold panner_new. now destruct pan_weights. Qed.
  Lemma pan_run_ok n (Hn : (1 <= n)%nat) : forall es v, pan_run (panner_new nm cos_ sin_ qp n v) es = panner_new nm cos_ sin_ qp n (pan_in_force (n0 nm) n v es).
  Proof.
    induction es as [|[f|p] es IH]; intros v; [reflexivity| |].
    - cbn [pan_run fold_left pan_in_force]. unfold pan_step at 2, panner_tick. cbn [fst]. rewrite new_inputs.
      destruct (Nat.ltb 1 n) eqn:E.
      + rewrite set_pan_new. rewrite (proj2 (Nat.eqb_neq n 1)) by (apply Nat.ltb_lt in E; lia). apply IH.
      + rewrite (proj2 (Nat.eqb_eq n 1)) by (apply Nat.ltb_ge in E; lia). apply IH.
    - cbn [pan_run fold_left pan_in_force]. unfold pan_step at 2. destruct p as [w|]; cbn [panner_set]; [rewrite set_pan_new|]; apply IH.
  Qed.
End PanRun.

Lemma gains v : pan_weights Rnum_ops cos sin (PI / 4) v = (left_gain v, right_gain v).
Proof. rewrite R_weights. reflexivity. Qed.
Lemma pan_output n v es f : (1 <= n)%nat ->
  snd (panner_tick Rnum_ops cos sin (PI / 4) (pan_run Rnum_ops cos sin (PI / 4) (panner_new Rnum_ops cos sin (PI / 4) n v) es) f) =
  let w := pan_in_force 0 n v (es ++ [PanTick f]) in [left_gain w * nth 0 f 0; right_gain w * nth 0 f 0].
Proof.
  intros Hn. pose proof (pan_run_ok Rnum_ops cos sin (PI / 4) n Hn (es ++ [PanTick f]) v) as H.
  unfold pan_run in *. rewrite fold_left_app in H. cbn [fold_left] in H. unfold pan_step at 1 in H.
  unfold panner_tick in *. cbn [fst snd] in *. rewrite H. unfold panner_new at 1 2. rewrite gains. reflexivity.
Qed.
Lemma gains_power v : left_gain v * left_gain v + right_gain v * right_gain v = 1.
Proof. pose proof (weights_power v) as H. now rewrite gains in H. Qed.
Lemma pan_power n v es f : (1 <= n)%nat ->
  let o := snd (panner_tick Rnum_ops cos sin (PI / 4) (pan_run Rnum_ops cos sin (PI / 4) (panner_new Rnum_ops cos sin (PI / 4) n v) es) f) in
  nth 0 o 0 * nth 0 o 0 + nth 1 o 0 * nth 1 o 0 = nth 0 f 0 * nth 0 f 0.
Proof.
  intros Hn. rewrite pan_output by exact Hn. cbv zeta. cbn [nth]. set (w := pan_in_force _ _ _ _).
  pose proof (gains_power w). set (x := nth 0 f 0). replace (left_gain w * x * (left_gain w * x) + right_gain w * x * (right_gain w * x)) with ((left_gain w * left_gain w + right_gain w * right_gain w) * (x * x)) by lra. rewrite H. lra.
Qed.
Lemma pan_position_id v : -1 <= v <= 1 -> pan_position v = v.
Proof. intros H. unfold pan_position, Rmin, Rmax. repeat destruct Rle_dec; lra. Qed.
Lemma pan_ends : (forall v, v <= -1 -> left_gain v = 1 /\ right_gain v = 0) /\ (forall v, 1 <= v -> left_gain v = 0 /\ right_gain v = 1) /\ left_gain 0 = right_gain 0.
Proof.
  unfold left_gain, right_gain. split; [|split].
  - intros v Hv. replace (pan_position v) with (-1) by (unfold pan_position, Rmin, Rmax; repeat destruct Rle_dec; lra).
    replace ((-1 + 1) * (PI / 4)) with 0 by lra. split; [apply cos_0|apply sin_0].
  - intros v Hv. replace (pan_position v) with 1 by (unfold pan_position, Rmin, Rmax; repeat destruct Rle_dec; lra).
    replace ((1 + 1) * (PI / 4)) with (PI / 2) by lra. split; [apply cos_PI2|apply sin_PI2].
  - rewrite pan_position_id by lra. replace ((0 + 1) * (PI / 4)) with (PI / 4) by lra. now rewrite cos_PI4, sin_PI4.
Qed.
Lemma pan_monotone v w : -1 <= v -> v < w -> w <= 1 -> left_gain w < left_gain v /\ right_gain v < right_gain w.
Proof.
  intros. unfold left_gain, right_gain. rewrite !pan_position_id by lra. pose proof PI_RGT_0. split.
  - apply cos_decreasing_1; nra.
  - apply sin_increasing_1; nra.
Qed.
Lemma fir_reset_new {F} (nm : num F) w xs : fir_reset nm (fst (ticks (fir_tick nm) (fir_new nm w) xs)) = fir_new nm w.
Proof.
  assert (E : forall s, f_w (fst (ticks (fir_tick nm) s xs)) = f_w s).
  { induction xs as [|x xs IH]; intros s; [reflexivity|]. cbn [ticks]. unfold fir_tick at 1. cbv zeta.
    specialize (IH (mkFir (f_w s) (map (fun i => if i + 1 <? length (f_w s) then nth (i + 1) (f_v s) (n0 nm) else nth 0 x (n0 nm)) (seq 0 (length (f_w s)))))).
    destruct (ticks (fir_tick nm) _ xs). exact IH. }
  unfold fir_reset. rewrite E. reflexivity.
Qed.
(* the history does not depend on the weights *)
Lemma fir_set_later {F} (nm : num F) w' xs : forall s, length w' = length (f_w s) -> fir_set_weights (fst (ticks (fir_tick nm) s xs)) w' = fst (ticks (fir_tick nm) (fir_set_weights s w') xs).
Proof.
  induction xs as [|x xs IH]; intros s H; [reflexivity|]. specialize (IH (fst (fir_tick nm s x)) H). cbn [ticks].
  assert (E : fst (fir_tick nm (fir_set_weights s w') x) = fir_set_weights (fst (fir_tick nm s x)) w') by (unfold fir_tick, fir_set_weights; cbn [f_w f_v fst]; rewrite H; reflexivity).
  rewrite <- E in IH. destruct (fir_tick nm s x) as [s1 o1]. destruct (fir_tick nm (fir_set_weights s w') x) as [s2 o2]. cbn [fst] in IH.
  destruct (ticks (fir_tick nm) s1 xs). destruct (ticks (fir_tick nm) s2 xs). exact IH.
Qed.
Lemma fir_reweighted {F} (nm : num F) w w' before after : length w' = length w ->
  snd (ticks (fir_tick nm) (fir_set_weights (fst (ticks (fir_tick nm) (fir_new nm w) before)) w') after) = skipn (length before) (snd (ticks (fir_tick nm) (fir_new nm w') (before ++ after))).
Proof.
  intros H. rewrite fir_set_later by exact H. assert (E : fir_set_weights (fir_new nm w) w' = fir_new nm w') by (unfold fir_set_weights, fir_new; cbn [f_v]; now rewrite H). rewrite E, ticks_app.
  pose proof (ticks_length (fir_tick nm) (fir_new nm w') before) as L. destruct (ticks (fir_tick nm) (fir_new nm w') before) as [s o]. cbn [fst snd] in *. destruct (ticks (fir_tick nm) s after) as [s' o']. cbn [snd].
  rewrite <- L, skipn_app, skipn_all, Nat.sub_diag. reflexivity.
Qed.
