(* Proofs about energy in networks of delays. *)
From Coq Require Import Reals Lra.
From Verif Require Export RevSpec NodeProofs.
From Verif Require Import Base HadamardProofs.
From Verif Require HadamardProperties.
Local Open Scope R_scope.

Lemma sq_nonneg x : 0 <= x * x. Proof. pose proof (Rle_0_sqr x) as H. unfold Rsqr in H. exact H. Qed.
Lemma weighted_nonneg r l : 0 <= weighted r l.
Proof. induction l as [|f l IH]; cbn; [lra|]. pose proof (energy_pos f). pose proof (sq_nonneg r). nra. Qed.
Lemma weighted_map r c (f : list R -> list R) l n : (forall i, length i = n -> energy (f i) <= c * energy i) -> stream n l -> weighted r (map f l) <= c * weighted r l.
Proof.
  intros H. induction l as [|i l IH]; intros L; cbn; [lra|]. apply Forall_cons_iff in L as [L1 L2]. specialize (IH L2). specialize (H i L1). pose proof (sq_nonneg r). nra.
Qed.
Lemma weighted_zip_app r a : forall b, length a = length b -> weighted r (zipw (@app R) a b) = weighted r a + weighted r b.
Proof. induction a as [|x a IH]; intros [|y b] L; try discriminate; cbn; [lra|]. injection L as L. rewrite energy_app, IH by auto. ring. Qed.
Lemma energy_zeros n : energy (repeat 0 n) = 0. Proof. induction n; cbn; lra. Qed.
Lemma weighted_zeros r n m : weighted r (repeat (repeat 0 n) m) = 0.
Proof. induction m; cbn; [lra|]. rewrite IHm, energy_zeros. ring. Qed.
Lemma weighted_app r a b : weighted r (a ++ b) = weighted r a + r ^ (2 * length a) * weighted r b.
Proof.
  induction a as [|x a IH]; cbn [app weighted length]; [rewrite Nat.mul_0_r; cbn; ring|]. rewrite IH.
  replace (2 * S (length a))%nat with (S (S (2 * length a))) by lia. cbn [pow]. ring.
Qed.
Lemma weighted_le_total r l : 1 <= r -> weighted r l <= r ^ (2 * length l) * total l /\ total l <= weighted r l.
Proof.
  intros Hr. unfold total. induction l as [|f l [I1 I2]]; [cbn; lra|]. cbn [weighted length]. pose proof (energy_pos f) as Ef.
  replace (2 * S (length l))%nat with (S (S (2 * length l))) by lia. cbn [pow].
  assert (P : 1 <= r ^ (2 * length l)) by (apply pow_R1_Rle; auto). pose proof (weighted_nonneg 1 l) as T. set (p := r ^ (2 * length l)) in *. set (w1 := weighted 1 l) in *. set (w := weighted r l) in *.
  assert (Q : 1 <= r * r) by nra. set (q := r * r) in *. replace (r * (r * p)) with (q * p) by (subst q; ring). split.
  - assert (q * w <= q * (p * w1)) by (apply Rmult_le_compat_l; lra). assert (energy f <= q * p * energy f) by (rewrite <- (Rmult_1_l (energy f)) at 1; apply Rmult_le_compat_r; nra). lra.
  - assert (w1 <= q * w) by nra. lra.
Qed.

Section Gains.
  Context {P U : Type}.
  Variable ops : unit_ops R P U.
  Variable Hu : unit_laws 0 ops.
  Notation tick := (tick R_arith ops).
  Notation outputs := (outputs R_arith ops).
  Notation ins := (ins ops).
  Notation outs := (outs ops).
  Notation wf := (wf ops).
  Notation gain := (energy_gain ops).
  Let Hu' : unit_laws (a_zero R_arith) ops := Hu.

  Lemma outputs_cons x i l : outputs x (i :: l) = snd (tick x i) :: outputs (fst (tick x i)) l.
  Proof. unfold NodeSpec.outputs. cbn [ticks]. destruct (tick x i) as [x' o]. cbn [fst snd]. destruct (ticks tick x' l); reflexivity. Qed.
  Lemma outputs_length x l : length (outputs x l) = length l.
  Proof. revert x. induction l as [|i l IH]; intros x; [reflexivity|]. rewrite outputs_cons. cbn. now rewrite IH. Qed.
  Lemma outputs_stream x l : wf x -> stream (ins x) l -> stream (outs x) (outputs x l).
  Proof. intros W L. exact (proj2 (proj2 (proj2 (ticks_wf R_arith ops Hu' l x W L)))). Qed.

  Lemma gain_pipe r g h x y : 0 <= h -> wf x -> outs x = ins y -> gain r g x -> gain r h y -> gain r (h * g) (Pipe x y).
  Proof.
    intros Hh W E Gx Gy l L. unfold NodeSpec.outputs. rewrite ticks_Pipe. cbn [snd]. fold (outputs x l) (outputs y (outputs x l)).
    specialize (Gx l L). specialize (Gy (outputs x l)). rewrite <- E in Gy. specialize (Gy (outputs_stream x l W L)).
    apply Rle_trans with (h * weighted r (outputs x l)); [exact Gy|]. rewrite Rmult_assoc. now apply Rmult_le_compat_l.
  Qed.
  Lemma gain_stateless r g x f : (forall i, tick x i = (x, f i)) -> (forall i, length i = ins x -> energy (f i) <= g * energy i) -> gain r g x.
  Proof. intros T H l L. unfold NodeSpec.outputs. rewrite (ticks_stateless R_arith ops x f T). cbn [snd]. now apply (weighted_map r g f l (ins x)). Qed.
  Lemma gain_le r g h x : g <= h -> gain r g x -> gain r h x.
  Proof. intros Hg G l L. specialize (G l L). pose proof (weighted_nonneg r l). nra. Qed.

  (* ---- stacks ---- *)
  Definition gline (r g : R) (x : node R U) : Prop := wf x /\ ins x = 1%nat /\ outs x = 1%nat /\ gain r g x.
  Lemma concat_zip (A : list (list R)) : forall B : list (list (list R)), map (@concat R) (zipw cons A B) = zipw (@app R) A (map (@concat R) B).
  Proof. induction A as [|a A IH]; intros [|b B]; cbn; auto. now rewrite IH. Qed.
  Lemma concat_hd_tl (L : list (list (list R))) : Forall (fun is => is <> []) L -> map (@concat R) L = zipw (@app R) (map (hd []) L) (map (@concat R) (map (@tl _) L)).
  Proof. induction L as [|[|i is] L IH]; intros H; cbn; auto; apply Forall_cons_iff in H as [H1 H2]; [congruence|]. now rewrite IH. Qed.
  Lemma mall_gain r g xs : Forall (gline r g) xs -> forall L, Forall (fun is => length is = length xs /\ Forall (fun i : list R => length i = 1%nat) is) L ->
    weighted r (map (@concat R) (snd (mticks (tick_all tick) xs L))) <= g * weighted r (map (@concat R) L).
  Proof.
    induction 1 as [|x xs (W & I & O & G) _ IH]; intros L HL.
    - rewrite mall_nil. cbn [snd]. rewrite map_map. assert (E : forall (l : list (list (list R))) (f : list (list R) -> list R), (forall i, In i l -> f i = []) -> weighted r (map f l) = 0).
      { clear. induction l as [|i l IH]; intros f H; cbn; auto. rewrite (H i), IH by (cbn; auto; intros; apply H; cbn; auto). cbn. ring. }
      rewrite E by reflexivity. rewrite E; [lra|]. rewrite Forall_forall in HL. intros i Hi. destruct (HL i Hi) as [Hl _]. destruct i; [reflexivity|discriminate].
    - assert (N : Forall (fun is : list (list R) => is <> []) L) by (eapply Forall_impl; [|exact HL]; intros [|i is] [Hl _]; [discriminate|congruence]).
      rewrite (mall_cons R_arith ops x xs L N). cbn [snd]. rewrite concat_zip, (concat_hd_tl L N). fold (outputs x (map (hd []) L)).
      assert (Lm : length (snd (mticks (tick_all tick) xs (map (@tl _) L))) = length L) by (rewrite mticks_length; apply map_length).
      rewrite !weighted_zip_app; [|now rewrite !map_length|now rewrite outputs_length, !map_length, Lm].
      specialize (IH (map (@tl _) L)). specialize (G (map (hd []) L)). rewrite Rmult_plus_distr_l. apply Rplus_le_compat.
      + apply G. unfold stream. apply Forall_map. eapply Forall_impl; [|exact HL]. intros [|i is] [Hl Hi]; [discriminate|]. rewrite I. cbn. now apply Forall_cons_iff in Hi.
      + apply IH. apply Forall_map. eapply Forall_impl; [|exact HL]. intros [|i is] [Hl Hi]; [discriminate|]. cbn. injection Hl as Hl. apply Forall_cons_iff in Hi. tauto.
  Qed.
  Lemma lines_ins r g xs : Forall (gline r g) xs -> xs <> [] -> hd_ins ops xs = 1%nat /\ hd_outs ops xs = 1%nat.
  Proof. intros H N. destruct xs as [|x xs]; [congruence|]. apply Forall_cons_iff in H as [(W & I & O & G) _]. cbn. auto. Qed.
  Lemma lines_wf r g xs : Forall (gline r g) xs -> xs <> [] -> wf (MultiStack xs).
  Proof.
    intros H N. cbn [NodeModel.wf]. split.
    - apply all_Forall. eapply Forall_impl; [|exact H]. intros x L. apply L.
    - destruct xs as [|x xs]; [congruence|]. unfold uniform. pose proof H as H0. apply Forall_cons_iff in H0 as [(W & Ix & O & G) _]. rewrite Ix, O. eapply Forall_impl; [|exact H]. intros y L. split; apply L.
  Qed.
  Lemma gain_stack r g xs : Forall (gline r g) xs -> xs <> [] -> gain r g (MultiStack xs) /\ ins (MultiStack xs) = length xs /\ outs (MultiStack xs) = length xs.
  Proof.
    intros H N. destruct (lines_ins r g xs H N) as [H1 H2]. assert (E : ins (MultiStack xs) = length xs) by (rewrite ins_MultiStack, H1; lia).
    split; [|split; [exact E|rewrite outs_MultiStack, H2; lia]]. intros l L. rewrite E in L. unfold NodeSpec.outputs. rewrite (ticks_MultiStack R_arith ops Hu'). cbv zeta. cbn [snd]. rewrite H1.
    replace (weighted r l) with (weighted r (map (@concat R) (map (slices (length xs) 1) l))).
    - apply mall_gain; [exact H|]. apply Forall_map. eapply Forall_impl; [|exact L]. intros i Hi. split; [apply slices_length|]. apply slices_each. cbv beta in Hi. rewrite Hi. lia.
    - f_equal. rewrite map_map. rewrite <- map_id. apply map_ext_in. intros i Hi. apply concat_slices. unfold stream in L. rewrite Forall_forall in L. rewrite (L i Hi). lia.
  Qed.

  (* ---- feedback ---- *)
  (* what the enclosed node of a feedback loop is given *)
  Fixpoint inner (x : node R U) (v : list R) (f : list R -> list R) (l : list (list R)) : list (list R) :=
    match l with [] => [] | i :: l => let u := zipw Rplus i v in u :: inner (fst (tick x u)) (f (snd (tick x u))) f l end.
  Lemma outputs_feedback f l : forall x v, outputs (Feedback x v f) l = outputs x (inner x v f l).
  Proof.
    induction l as [|i l IH]; intros x v; [reflexivity|]. cbn [inner]. rewrite !outputs_cons, tick_Feedback. cbv zeta. cbn [fst snd]. now rewrite IH.
  Qed.
  Lemma energy_sum t a : 0 < t -> forall b, energy (zipw Rplus a b) <= (1 + 1 / t) * energy a + (1 + t) * energy b.
  Proof.
    intros Ht. assert (Ti : 0 < 1 / t) by (apply Rdiv_lt_0_compat; lra). induction a as [|x a IH]; intros [|y b]; cbn; [lra| | |].
    - pose proof (energy_pos b). pose proof (sq_nonneg y). nra.
    - pose proof (energy_pos a). pose proof (sq_nonneg x). nra.
    - specialize (IH b). assert (Q : 2 * (x * y) <= 1 / t * (x * x) + t * (y * y)).
      { assert (E : 1 / t * (x * x) + t * (y * y) - 2 * (x * y) = 1 / t * ((x - t * y) * (x - t * y))) by (field; lra). pose proof (sq_nonneg (x - t * y)). nra. }
      lra.
  Qed.
  Lemma inner_energy r t f n l : 0 < t -> (forall o, length o = n -> length (f o) = n /\ energy (f o) <= energy o) -> stream n l -> forall x v, wf x -> ins x = n -> outs x = n -> length v = n ->
    stream n (inner x v f l) /\ weighted r (inner x v f l) <= (1 + 1 / t) * weighted r l + (1 + t) * (energy v + r * r * weighted r (outputs x (inner x v f l))).
  Proof.
    intros Ht Hf. induction l as [|i l IH]; intros L x v W I O V.
    - cbn. pose proof (energy_pos v). split; [constructor|]. nra.
    - cbn [inner weighted]. apply Forall_cons_iff in L as [L1 L2]. set (u := zipw Rplus i v). assert (Lu : length u = n) by (unfold u; rewrite zipw_length; lia).
      destruct (tick_wf R_arith ops Hu' x u W ltac:(congruence)) as [W' Lo]. specialize (IH L2 (fst (tick x u)) (f (snd (tick x u)))).
      rewrite (ins_tick R_arith ops Hu'), (outs_tick R_arith ops Hu') in IH. rewrite O in Lo. destruct (Hf _ Lo) as [Lf Ef]. specialize (IH W' I O Lf). destruct IH as [S IH]. split; [constructor; assumption|].
      rewrite outputs_cons. cbn [weighted]. pose proof (energy_sum t i Ht v) as E. fold u in E.
      set (wi := weighted r (inner _ _ _ _)) in *. set (wo := weighted r (outputs _ _)) in *. set (q := r * r) in *. assert (Q : 0 <= q) by apply sq_nonneg. clearbody wi wo q.
      assert (M : q * wi <= q * ((1 + 1 / t) * weighted r l + (1 + t) * (energy (f (snd (tick x u))) + q * wo))) by (now apply Rmult_le_compat_l).
      assert (M2 : (1 + t) * energy (f (snd (tick x u))) <= (1 + t) * energy (snd (tick x u))) by (apply Rmult_le_compat_l; lra).
      assert (M3 : q * ((1 + t) * energy (f (snd (tick x u)))) <= q * ((1 + t) * energy (snd (tick x u)))) by (now apply Rmult_le_compat_l). lra.
  Qed.
  Lemma gain_feedback r g x n f : 0 < g -> 0 < r -> g * r < 1 -> wf x -> ins x = n -> outs x = n -> (forall o, length o = n -> length (f o) = n /\ energy (f o) <= energy o) ->
    gain r (g * g) x -> gain r ((g / (1 - g * r)) * (g / (1 - g * r))) (Feedback x (repeat 0 n) f).
  Proof.
    intros Hg Hr Hgr W I O Hf G l L. cbn [NodeModel.ins] in L. rewrite outputs_feedback. assert (Gr : 0 < g * r) by nra. set (t := 1 / (g * r) - 1).
    assert (Ht : 0 < t). { unfold t. assert (1 < 1 / (g * r)); [|lra]. apply Rmult_lt_reg_r with (g * r); [lra|]. unfold Rdiv. rewrite Rmult_assoc, Rinv_l by lra. lra. }
    rewrite I in L. destruct (inner_energy r t f n l Ht Hf L x (repeat 0 n) W I O (repeat_length _ _)) as [S E]. rewrite energy_zeros in E. specialize (G (inner x (repeat 0 n) f l)). rewrite I in G. specialize (G S).
    set (y := weighted r (outputs x _)) in *. set (u := weighted r (inner _ _ _ _)) in *. pose proof (weighted_nonneg r l) as Wl. set (w := weighted r l) in *.
    assert (T1 : 1 + t = 1 / (g * r)) by (unfold t; ring). assert (T2 : 1 + 1 / t = 1 / (1 - g * r)) by (unfold t; field; repeat split; lra).
    rewrite T1, T2 in E. set (d := 1 - g * r) in *. assert (D : 0 < d) by (unfold d; lra).
    (* y <= g^2 u <= g^2 w / d + g r y *)
    assert (H : y <= g * g * (1 / d * w + 1 / (g * r) * (0 + r * r * y))) by (apply Rle_trans with (g * g * u); [exact G|apply Rmult_le_compat_l; nra]).
    replace (g * g * (1 / d * w + 1 / (g * r) * (0 + r * r * y))) with (g * g * w / d + g * r * y) in H by (field; split; lra).
    assert (H2 : d * y <= g * g * w / d) by (unfold d at 1; lra).
    apply Rmult_le_reg_l with d; [exact D|]. replace (d * (g / d * (g / d) * w)) with (g * g * w / d) by (field; lra). exact H2.
  Qed.
  Lemma hadamard_passive k o : length o = (2 ^ k)%nat -> let y := match hadamard Rnum_ops (f32_scale k) o with Some y => y | None => o end in length y = (2 ^ k)%nat /\ energy y <= energy o.
  Proof.
    intros L. destruct (HadamardProperties.C44_rounded_scale k o L) as (y & E & H & _). cbv zeta. rewrite E. split; [|exact H].
    rewrite (hadamard_ok _ k o L) in E. injection E as <-. now rewrite map_length, sylvester_length.
  Qed.
  Lemma gain_fdn r g k xs : 0 < g -> 0 < r -> g * r < 1 -> length xs = (2 ^ k)%nat -> Forall (gline r (g * g)) xs ->
    let x := fdn Rnum_ops (f32_scale k) xs in gain r ((g / (1 - g * r)) * (g / (1 - g * r))) x /\ wf x /\ ins x = length xs /\ outs x = length xs.
  Proof.
    intros Hg Hr Hgr L H x. assert (N : xs <> []) by (intros ->; cbn in L; pose proof (Nat.pow_nonzero 2 k); lia). destruct (gain_stack r (g * g) xs H N) as (G & I & O).
    assert (W : wf (MultiStack xs)) by (eapply lines_wf; eauto). unfold x, fdn. change (n0 Rnum_ops) with 0. split; [|split; [|split; [exact I|exact O]]].
    - apply gain_feedback; auto. intros o Lo. rewrite L in *. now apply hadamard_passive.
    - cbn [NodeModel.wf]. rewrite I, O, repeat_length. repeat split; auto; try apply W. intros o Lo. destruct (hadamard_passive k o) as [H1 _]; congruence.
  Qed.

  (* ---- tails ---- *)
  Lemma tail_energy r g x l n m : 1 <= r -> gain r g x -> stream (ins x) l -> r ^ (2 * n) * total (tail_after ops x l n m) <= g * total l.
  Proof.
    intros Hr G L. set (z := repeat (repeat 0 (ins x)) (n + m)). assert (Lz : stream (ins x) (l ++ z)).
    { apply Forall_app. split; [exact L|]. apply Forall_forall. intros i Hi. apply repeat_spec in Hi. subst i. apply repeat_length. }
    specialize (G (l ++ z) Lz). unfold tail_after. fold z. set (o := outputs x (l ++ z)) in *. assert (Lo : length o = (length l + (n + m))%nat) by (unfold o; rewrite outputs_length, app_length; unfold z; now rewrite repeat_length).
    rewrite <- (firstn_skipn (length l + n) o) in G. rewrite !weighted_app in G. rewrite firstn_length, Lo, Nat.min_l in G by lia. unfold z in G. rewrite weighted_zeros, Rmult_0_r, Rplus_0_r in G.
    pose proof (weighted_nonneg r (firstn (length l + n) o)) as F. destruct (weighted_le_total r l Hr) as [A _]. destruct (weighted_le_total r (skipn (length l + n) o) Hr) as [_ B].
    set (T := total (skipn _ o)) in *. set (w := weighted r (skipn _ o)) in *. pose proof (weighted_nonneg r l) as Wl. pose proof (weighted_nonneg r (skipn (length l + n) o)) as Wo. fold w in Wo.
    assert (Hg : 0 <= g \/ weighted r l = 0). { destruct (Rle_dec 0 g); [now left|right]. pose proof (pow_lt r (2 * (length l + n)) ltac:(lra)). nra. }
    replace (2 * (length l + n))%nat with (2 * length l + 2 * n)%nat in G by lia. rewrite pow_add in G. pose proof (pow_lt r (2 * length l) ltac:(lra)) as P1. pose proof (pow_lt r (2 * n) ltac:(lra)) as P2.
    set (p := r ^ (2 * length l)) in *. set (s := r ^ (2 * n)) in *. apply Rmult_le_reg_l with p; [exact P1|].
    assert (X : p * (s * T) <= p * s * w) by (rewrite <- Rmult_assoc; apply Rmult_le_compat_l; nra).
    destruct Hg as [Hg|Hg].
    - assert (g * weighted r l <= g * (p * total l)) by (now apply Rmult_le_compat_l). lra.
    - rewrite Hg in G. assert (T0 : total l = 0) by (pose proof (weighted_nonneg 1 l); destruct (weighted_le_total r l Hr); unfold total in *; lra). rewrite T0. lra.
  Qed.
End Gains.
