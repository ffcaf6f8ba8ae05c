From Verif Require Import ReduceModel.

Lemma npot_ge n : n <= next_power_of_two n.
Proof.
  unfold next_power_of_two. destruct (Nat.le_gt_cases n 1) as [H|H].
  - destruct n as [|[|n]]; cbn; lia.
  - apply Nat.log2_up_spec; auto.
Qed.
Lemma npot_pow n : exists h, next_power_of_two n = 2 ^ h.
Proof. eexists; reflexivity. Qed.
Lemma npot_pos n : 1 <= next_power_of_two n.
Proof. unfold next_power_of_two. assert (2 ^ Nat.log2_up n <> 0) by (apply Nat.pow_nonzero; lia). lia. Qed.


Lemma lxor1_cases i : (Nat.even i = true /\ Nat.lxor i 1 = S i) \/ (Nat.even i = false /\ S (Nat.lxor i 1) = i).
Proof.
  destruct (Nat.even i) eqn:E; [left|right]; split; auto.
  - apply Nat.even_spec in E as [k ->]. apply Nat.bits_inj; intros [|b].
    + rewrite Nat.lxor_spec, Nat.testbit_even_0. replace (S (2 * k)) with (2 * k + 1) by lia.
      now rewrite Nat.testbit_odd_0.
    + rewrite Nat.lxor_spec. replace (S (2 * k)) with (2 * k + 1) by lia.
      rewrite Nat.testbit_odd_succ, Nat.testbit_even_succ by lia.
      assert (Nat.testbit 1 (S b) = false) as -> by (cbn [Nat.testbit Nat.div2]; apply Nat.bits_0). apply xorb_false_r.
  - assert (O : Nat.odd i = true) by (unfold Nat.odd; now rewrite E).
    apply Nat.odd_spec in O as [k ->].
    assert (Nat.lxor (2 * k + 1) 1 = 2 * k) as ->; [|lia]. apply Nat.bits_inj; intros [|b].
    + rewrite Nat.lxor_spec, Nat.testbit_even_0, Nat.testbit_odd_0. reflexivity.
    + rewrite Nat.lxor_spec, Nat.testbit_odd_succ, Nat.testbit_even_succ by lia.
      assert (Nat.testbit 1 (S b) = false) as -> by (cbn [Nat.testbit Nat.div2]; apply Nat.bits_0). apply xorb_false_r.
Qed.

(* i and its sibling are 2j and 2j+1 in some order, where j = i/2 *)
Lemma sibling i : exists j, Nat.div2 i = j /\ ((i = 2 * j /\ Nat.lxor i 1 = 2 * j + 1) \/ (i = 2 * j + 1 /\ Nat.lxor i 1 = 2 * j)).
Proof.
  exists (Nat.div2 i). split; auto. destruct (lxor1_cases i) as [[E H]|[E H]].
  - left. pose proof (Nat.div2_odd i) as D. unfold Nat.odd in D. rewrite E in D. cbn [negb Nat.b2n] in D. lia.
  - right. pose proof (Nat.div2_odd i) as D. unfold Nat.odd in D. rewrite E in D. cbn [negb Nat.b2n] in D. lia.
Qed.

Section Proofs.
  Context {T : Type}.
  Variable zero : T.
  Variable op : T -> T -> T.
  Variable P : T -> Prop.
  Hypothesis P0 : P zero.
  Hypothesis Pop : forall a b, P a -> P b -> P (op a b).
  Hypothesis op_comm : forall a b, P a -> P b -> op a b = op b a.
  Hypothesis op_assoc : forall a b c, P a -> P b -> P c -> op a (op b c) = op (op a b) c.
  Hypothesis op_0_l : forall a, P a -> op zero a = a.

  Notation get buf i := (nth i buf zero).
  Definition node_ok (buf : list T) (j : nat) := get buf j = op (get buf (2 * j)) (get buf (2 * j + 1)).

  (* shape of a buffer for [len] slots with leaf offset L = 2^h *)
  Record shape (buf : list T) (len h : nat) : Prop := {
    sh_len : length buf = 2 ^ h + len + Nat.land len 1;
    sh_le : 1 <= len <= 2 ^ h;
    sh_P : Forall P buf }.

  Lemma land1 n : Nat.land n 1 = n mod 2.
  Proof. change 1 with (Nat.ones 1) at 1. rewrite Nat.land_ones. reflexivity. Qed.

  Lemma P_get buf i : Forall P buf -> P (get buf i).
  Proof.
    intros H. destruct (Nat.lt_ge_cases i (length buf)) as [Hi|Hi].
    - rewrite Forall_forall in H. apply H, nth_In; auto.
    - rewrite nth_overflow; auto.
  Qed.

  Lemma Forall_upd buf i v : Forall P buf -> P v -> Forall P (upd buf i v).
  Proof.
    intros H Hv. revert i; induction H as [|a l Ha Hl IH]; intros [|i]; cbn; constructor; auto.
  Qed.

  Lemma pow2_even h : 1 <= h -> exists k, 2 ^ h = 2 * k.
  Proof. destruct h; [lia|]. intros _. exists (2 ^ h). cbn; lia. Qed.

  (* loop invariant: all internal nodes are correct except possibly the parent of i *)
  Lemma rb_up_spec len h : forall fuel buf i, i < fuel -> shape buf len h -> 1 <= i -> i < 2 ^ h + len ->
    (forall j, 1 <= j < 2 ^ h -> j <> Nat.div2 i -> node_ok buf j) ->
    exists buf', rb_up op fuel buf i = Some buf' /\ shape buf' len h /\
      (forall j, 1 <= j < 2 ^ h -> node_ok buf' j) /\
      (forall k, 2 ^ h <= k -> get buf' k = get buf k).
  Proof.
    induction fuel as [|fuel IH]; intros buf i Hf Hs Hi1 Hi Hok; [lia|]. cbn [rb_up].
    destruct (Nat.ltb_spec 1 i) as [H1|H1].
    2: { exists buf. split; auto. split; auto. split; auto. intros j Hj. apply Hok; auto.
         assert (i = 1) by lia. subst. cbn. lia. }
    destruct Hs as [HL Hle HP].
    destruct (sibling i) as (j & Ej & Hsib). rewrite Ej in *.
    assert (Hj : 1 <= j) by lia.
    assert (Hjh : j < 2 ^ h) by lia.
    assert (Hsb : 2 * j < length buf /\ 2 * j + 1 < length buf).
    { rewrite HL, land1. pose proof (Nat.mod_upper_bound len 2 ltac:(lia)).
      pose proof (Nat.div_mod_eq len 2).
      assert (1 <= h) by (destruct h; [cbn in Hjh; lia|lia]).
      destruct (pow2_even h) as [k Hk]; auto. rewrite Hk in *.
      assert (i / 2 = j) by (rewrite <- Nat.div2_div; auto).
      lia. }
    rewrite (nth_error_nth' buf i zero), (nth_error_nth' buf (Nat.lxor i 1) zero) by lia.
    destruct (Nat.ltb_spec j (length buf)); [|lia].
    set (r := op (get buf i) (get buf (Nat.lxor i 1))).
    assert (Er : r = op (get buf (2 * j)) (get buf (2 * j + 1))).
    { unfold r. destruct Hsib as [[-> ->]|[-> ->]]; auto. apply op_comm; apply P_get; auto. }
    assert (HPr : P r) by (unfold r; apply Pop; apply P_get; auto).
    destruct (IH (upd buf j r) j) as (buf' & E & Hs' & Hok' & Hleaf); try lia.
    - constructor; [rewrite length_upd; auto|auto|apply Forall_upd; auto].
    - intros j' Hj' Hne. unfold node_ok. rewrite !nth_upd.
      destruct (Nat.ltb_spec j (length buf)); [|lia]. rewrite !andb_true_r.
      assert (Hd : forall x, Nat.eqb j x = true -> x = j) by (intros x Hx; apply Nat.eqb_eq in Hx; auto).
      assert (Nat.eqb j (2 * j') = false) as ->.
      { apply Nat.eqb_neq. intros E. apply Hne. rewrite E, Nat.div2_double. auto. }
      assert (Nat.eqb j (2 * j' + 1) = false) as ->.
      { apply Nat.eqb_neq. intros E. apply Hne. rewrite E. replace (2 * j' + 1) with (S (2 * j')) by lia.
        now rewrite Nat.div2_succ_double. }
      destruct (Nat.eqb_spec j j') as [<-|Hjj].
      + exact Er.
      + apply Hok; auto.
    - exists buf'. split; auto. split; auto. split; auto.
      intros k Hk. rewrite Hleaf by auto. rewrite nth_upd.
      destruct (Nat.eqb_spec j k); [lia|]. reflexivity.
  Qed.

  Definition reduce_list (l : list T) : T := fold_right op zero l.

  Lemma fold_P l : Forall P l -> P (reduce_list l).
  Proof. intros H; induction H; cbn; auto. Qed.

  (* halving: reducing a level equals reducing the level below *)
  Lemma reduce_level buf : Forall P buf -> forall n a,
    (forall j, a <= j < a + n -> node_ok buf j) ->
    reduce_list (map (fun i => get buf i) (seq a n)) = reduce_list (map (fun i => get buf i) (seq (2 * a) (2 * n))).
  Proof.
    intros HP. induction n as [|n IH]; intros a H; auto.
    replace (2 * S n) with (S (S (2 * n))) by lia. cbn [seq map reduce_list fold_right].
    fold (reduce_list (map (fun i => get buf i) (seq (S a) n))).
    replace (S (S (2 * a))) with (2 * S a) by lia.
    fold (reduce_list (map (fun i => get buf i) (seq (2 * S a) (2 * n)))).
    rewrite <- IH by (intros; apply H; lia).
    rewrite (H a) by lia. replace (S (2 * a)) with (2 * a + 1) by lia.
    symmetry. apply op_assoc; try apply P_get; auto.
    apply fold_P. apply Forall_forall. intros x Hx. apply in_map_iff in Hx as (k & <- & _). apply P_get; auto.
  Qed.

  Lemma reduce_root buf h : Forall P buf -> (forall j, 1 <= j < 2 ^ h -> node_ok buf j) ->
    forall d, d <= h -> get buf 1 = reduce_list (map (fun i => get buf i) (seq (2 ^ d) (2 ^ d))).
  Proof.
    intros HP Hok. induction d as [|d IH]; intros Hd.
    - cbn. symmetry. rewrite op_comm; auto using P_get.
    - rewrite IH by lia. rewrite reduce_level; auto.
      intros j Hj. apply Hok. assert (2 ^ S d <= 2 ^ h) by (apply Nat.pow_le_mono_r; lia). cbn [Nat.pow] in *.
        assert (2 ^ d <> 0) by (apply Nat.pow_nonzero; lia). lia.
  Qed.

  Lemma reduce_zeros n : reduce_list (repeat zero n) = zero.
  Proof. induction n; cbn; auto. fold (reduce_list (repeat zero n)). rewrite IHn. apply op_0_l; auto. Qed.

  Lemma reduce_app l1 l2 : Forall P l1 -> Forall P l2 -> reduce_list (l1 ++ l2) = op (reduce_list l1) (reduce_list l2).
  Proof.
    intros H1 H2. induction H1 as [|a l Ha Hl IH]; cbn.
    - symmetry. apply op_0_l. apply fold_P; auto.
    - fold (reduce_list (l ++ l2)) (reduce_list l). rewrite IH. apply op_assoc; auto using fold_P.
  Qed.

  (* the abstract state: the array of slots *)
  Definition repr (b : reduce_buffer T) (slots : list T) : Prop :=
    exists h, rb_leaf_offset b = 2 ^ h /\ rb_length b = length slots /\ shape (rb_buffer b) (length slots) h /\
      (forall j, 1 <= j < 2 ^ h -> node_ok (rb_buffer b) j) /\
      (forall k, k < length slots -> get (rb_buffer b) (2 ^ h + k) = get slots k) /\
      (forall k, length slots <= k -> get (rb_buffer b) (2 ^ h + k) = zero).

  Lemma repr_new n : 1 <= n -> repr (rb_new zero n) (repeat zero n).
  Proof.
    intros Hn. exists (Nat.log2_up n). unfold rb_new; cbn [rb_buffer rb_length rb_leaf_offset].
    rewrite repeat_length. fold (next_power_of_two n).
    assert (G : forall i m, get (repeat zero m) i = zero).
    { intros i m. revert i; induction m; intros [|i]; cbn; auto. }
    repeat split; auto.
    - rewrite repeat_length; auto.
    - apply npot_ge.
    - apply Forall_forall. intros x Hx. apply repeat_spec in Hx. subst; auto.
    - intros j Hj. unfold node_ok. rewrite !G. symmetry. apply op_0_l; auto.
    - intros k Hk. now rewrite !G.
  Qed.

  Lemma repr_P b slots : repr b slots -> Forall P slots.
  Proof.
    intros (h & _ & _ & [HL Hle HP] & _ & Hk & _). apply Forall_forall. intros x Hx.
    apply (In_nth _ _ zero) in Hx as (k & Hk1 & <-). rewrite <- Hk by auto. apply P_get; auto.
  Qed.

  Lemma repr_total b slots : repr b slots -> rb_total b = Some (reduce_list slots).
  Proof.
    intros H. pose proof (repr_P _ _ H) as HPs. destruct H as (h & E1 & E2 & [HL Hle HP] & Hok & Hk & Hz).
    unfold rb_total. rewrite (nth_error_nth' _ _ zero).
    2: { rewrite HL. assert (2 ^ h <> 0) by (apply Nat.pow_nonzero; lia). lia. }
    f_equal. rewrite (reduce_root _ h HP Hok h) by lia.
    set (n := length slots) in *.
    replace (2 ^ h) with (n + (2 ^ h - n)) at 2 by lia. rewrite seq_app, map_app.
    assert (Ea : map (fun i => get (rb_buffer b) i) (seq (2 ^ h) n) = slots).
    { apply (nth_ext_len _ _ zero); rewrite map_length, seq_length; auto.
      intros i Hi. rewrite nth_indep with (d' := get (rb_buffer b) 0) by (rewrite map_length, seq_length; auto).
      rewrite (map_nth (fun i => get (rb_buffer b) i)). rewrite seq_nth by auto. apply Hk; auto. }
    assert (Eb : map (fun i => get (rb_buffer b) i) (seq (2 ^ h + n) (2 ^ h - n)) = repeat zero (2 ^ h - n)).
    { apply (nth_ext_len _ _ zero); rewrite map_length, seq_length, ?repeat_length; auto.
      intros i Hi. rewrite nth_indep with (d' := get (rb_buffer b) 0) by (rewrite map_length, seq_length; auto).
      rewrite (map_nth (fun i => get (rb_buffer b) i)). rewrite seq_nth by auto.
      rewrite nth_repeat. replace (2 ^ h + n + i) with (2 ^ h + (n + i)) by lia. apply Hz. lia. }
    rewrite Ea, Eb, reduce_app; auto.
    - rewrite reduce_zeros. rewrite op_comm; auto using fold_P.
    - apply Forall_forall. intros x Hx. apply repeat_spec in Hx. rewrite Hx; auto.
  Qed.

  Lemma repr_set b slots i v : repr b slots -> i < length slots -> P v ->
    exists b', rb_set op b i v = Some b' /\ repr b' (upd slots i v).
  Proof.
    intros (h & E1 & E2 & [HL Hle HP] & Hok & Hk & Hz) Hi Hv. unfold rb_set. rewrite E1.
    set (p := 2 ^ h + i) in *. assert (Hp : p < length (rb_buffer b)) by lia.
    destruct (Nat.ltb_spec p (length (rb_buffer b))); [|lia].
    destruct (rb_up_spec (length slots) h (S p) (upd (rb_buffer b) p v) p) as (buf' & E & Hs' & Hok' & Hleaf); try lia.
    - constructor; [rewrite length_upd; auto|auto|apply Forall_upd; auto].
    - intros j Hj Hne. unfold node_ok. rewrite !nth_upd.
      destruct (Nat.ltb_spec p (length (rb_buffer b))); [|lia]. rewrite !andb_true_r.
      destruct (Nat.eqb_spec p j); [lia|].
      destruct (Nat.eqb_spec p (2 * j)) as [E|]; [exfalso; apply Hne; rewrite E, Nat.div2_double; auto|].
      destruct (Nat.eqb_spec p (2 * j + 1)) as [E|].
      { exfalso; apply Hne; rewrite E. replace (2 * j + 1) with (S (2 * j)) by lia. now rewrite Nat.div2_succ_double. }
      apply Hok; auto.
    - rewrite E. eexists; split; [reflexivity|]. exists h. cbn [rb_buffer rb_length rb_leaf_offset].
      rewrite length_upd. split; auto. split; auto. split; auto. split; auto. split.
      + intros k Hkk. rewrite Hleaf by lia. rewrite !nth_upd.
        destruct (Nat.ltb_spec p (length (rb_buffer b))); [|lia].
        destruct (Nat.ltb_spec i (length slots)); [|lia]. rewrite !andb_true_r.
        destruct (Nat.eqb_spec p (2 ^ h + k)), (Nat.eqb_spec i k); try lia; auto.
      + intros k Hkk. rewrite Hleaf by lia. rewrite !nth_upd.
        destruct (Nat.eqb_spec p (2 ^ h + k)); [lia|]. cbn [andb]. apply Hz; auto.
  Qed.

  Lemma repr_clear b slots : repr b slots -> repr (rb_clear zero b) (repeat zero (length slots)).
  Proof.
    intros (h & E1 & E2 & [HL Hle HP] & Hok & Hk & Hz). exists h. unfold rb_clear; cbn [rb_buffer rb_length rb_leaf_offset].
    rewrite repeat_length.
    assert (G : forall (l : list T) i, get (map (fun _ => zero) l) i = zero).
    { induction l; intros [|i]; cbn; auto. }
    assert (G2 : forall i m, get (repeat zero m) i = zero).
    { intros i m. revert i; induction m; intros [|i]; cbn; auto. }
    repeat split; auto; try lia.
    - rewrite map_length; auto.
    - apply Forall_forall. intros x Hx. apply in_map_iff in Hx as (? & <- & _); auto.
    - intros j Hj. unfold node_ok. rewrite !G. symmetry. apply op_0_l; auto.
    - intros k Hkk. now rewrite G, G2.
  Qed.

  Lemma repr_sets ops : forall b slots, repr b slots ->
    Forall (fun iv => fst iv < length slots /\ P (snd iv)) ops ->
    exists b', rb_sets op b ops = Some b' /\ repr b' (fold_left (fun s iv => upd s (fst iv) (snd iv)) ops slots).
  Proof.
    induction ops as [|[i v] ops IH]; intros b slots Hr Ho; cbn [rb_sets fold_left fst snd]; [eauto|].
    inversion Ho as [|? ? [Hi Hv] Hrest]; subst. cbn [fst snd] in *.
    destruct (repr_set b slots i v Hr Hi Hv) as (b' & -> & Hr').
    apply IH; auto. rewrite length_upd. auto.
  Qed.

  Lemma reduce_buffer_total n ops : 1 <= n -> Forall (fun iv => fst iv < n /\ P (snd iv)) ops ->
    exists b, rb_sets op (rb_new zero n) ops = Some b /\
      rb_total b = Some (fold_right op zero (fold_left (fun s iv => upd s (fst iv) (snd iv)) ops (repeat zero n))).
  Proof.
    intros Hn Ho. destruct (repr_sets ops _ _ (repr_new n Hn)) as (b & E & Hr).
    { rewrite repeat_length. auto. }
    exists b. split; auto. apply repr_total in Hr. exact Hr.
  Qed.
End Proofs.
