(* Proofs about the oversampler. *)
From Coq Require Import Reals Lra Lia.
From Verif Require Export OverSpec ResampleProofs.
Local Open Scope R_scope.
Notation nmR := Rnum_ops.

Lemma acc_total n f : acc nmR n f = total n f.
Proof.
  unfold acc. change (n0 nmR) with 0. change (nadd nmR) with Rplus. induction n as [|n IH]; [reflexivity|]. rewrite seq_S, fold_left_app, IH. cbn [fold_left total Nat.add]. reflexivity.
Qed.
Lemma total_ext n f g : (forall i, (i < n)%nat -> f i = g i) -> total n f = total n g.
Proof. induction n as [|n IH]; intros H; [reflexivity|]. cbn [total]. rewrite IH, H by (auto; intros; apply H; lia). reflexivity. Qed.
Lemma total_first n f : total (S n) f = f 0%nat + total n (fun i => f (S i)).
Proof. induction n as [|n IH]; [cbn; ring|]. change (total (S (S n)) f) with (total (S n) f + f (S n)). rewrite IH. cbn [total]. ring. Qed.
Lemma total_rev n f : total n f = total n (fun i => f (n - 1 - i)%nat).
Proof.
  revert f. induction n as [|n IH]; intros f; [reflexivity|]. rewrite total_first. cbn [total]. rewrite (IH (fun i => f (S i))). replace (S n - 1 - n)%nat with 0%nat by lia. rewrite Rplus_comm. f_equal.
  apply total_ext. intros i Hi. f_equal. lia.
Qed.
Lemma total_split n f : total (2 * n + 1) f = total (n + 1) (fun i => f (i * 2)%nat) + total n (fun i => f (i * 2 + 1)%nat).
Proof.
  induction n as [|n IH]; [cbn; ring|]. replace (2 * S n + 1)%nat with (S (S (2 * n + 1))) by lia. cbn [total]. rewrite IH. replace (S n + 1)%nat with (S (n + 1)) by lia. cbn [total].
  replace (2 * n + 1)%nat with (n * 2 + 1)%nat by lia. replace (S (n * 2 + 1)) with ((n + 1) * 2)%nat by lia. ring.
Qed.
Lemma total_zero n f : (forall i, (i < n)%nat -> f i = 0) -> total n f = 0.
Proof. induction n as [|n IH]; intros H; [reflexivity|]. cbn [total]. rewrite IH, H by (auto; intros; apply H; lia). ring. Qed.
Lemma total_scale n f a : total n (fun i => a * f i) = a * total n f.
Proof. induction n as [|n IH]; [cbn; ring|]. cbn [total]. rewrite IH. ring. Qed.

(* a signal that is zero before time 0 *)
Definition ext (y : nat -> R) (i : Z) : R := if (i <? 0)%Z then 0 else y (Z.to_nat i).
Definition pos (j0 : nat) (i : Z) : nat := Z.to_nat ((Z.of_nat j0 + i) mod 128).
(* ring v holds the 128 samples of y before time m *)
Definition ring_of (j0 : nat) (v : list R) (y : nat -> R) (m : nat) : Prop :=
  length v = 128%nat /\ forall i, (Z.of_nat m - 128 <= i < Z.of_nat m)%Z -> nth (pos j0 i) v 0 = ext y i.
Lemma pos_mask j0 i n : (Z.of_nat n mod 128 = (Z.of_nat j0 + i) mod 128)%Z -> mask n = pos j0 i.
Proof. intros H. rewrite mask_mod. unfold pos. rewrite <- H. apply Nat2Z.inj. rewrite Nat2Z.inj_mod. rewrite Z2Nat.id; [reflexivity|]. apply Z.mod_pos_bound. lia. Qed.
Lemma pos_lt j0 i : (pos j0 i < 128)%nat.
Proof. unfold pos. pose proof (Z.mod_pos_bound (Z.of_nat j0 + i) 128 ltac:(lia)). lia. Qed.
Lemma pos_ne j0 i i' : (i < i' < i + 128)%Z -> pos j0 i <> pos j0 i'.
Proof.
  intros H E. unfold pos in E. pose proof (Z.mod_pos_bound (Z.of_nat j0 + i) 128 ltac:(lia)). pose proof (Z.mod_pos_bound (Z.of_nat j0 + i') 128 ltac:(lia)).
  assert (E' : ((Z.of_nat j0 + i) mod 128 = (Z.of_nat j0 + i') mod 128)%Z) by lia. pose proof (Z.div_mod (Z.of_nat j0 + i) 128 ltac:(lia)). pose proof (Z.div_mod (Z.of_nat j0 + i') 128 ltac:(lia)).
  assert ((Z.of_nat j0 + i) / 128 < (Z.of_nat j0 + i') / 128)%Z by lia. lia.
Qed.
Lemma ext_nat y m : ext y (Z.of_nat m) = y m.
Proof. unfold ext. destruct (Z.ltb_spec (Z.of_nat m) 0); [lia|]. now rewrite Nat2Z.id. Qed.
Lemma ring_put j0 v y m a : ring_of j0 v y m -> y m = a -> ring_of j0 (upd v (pos j0 (Z.of_nat m)) a) y (S m).
Proof.
  intros [H1 H2] Ha. split; [now rewrite length_upd|]. intros i Hi. rewrite nth_upd, H1. rewrite (proj2 (Nat.ltb_lt _ _) (pos_lt j0 (Z.of_nat m))). destruct (Nat.eqb_spec (pos j0 (Z.of_nat m)) (pos j0 i)) as [E|E]; cbn [andb].
  - assert (i = Z.of_nat m). { destruct (Z.eq_dec i (Z.of_nat m)); auto. exfalso. apply (pos_ne j0 i (Z.of_nat m)); [lia|auto]. } subst i. now rewrite ext_nat.
  - apply H2. destruct (Z.eq_dec i (Z.of_nat m)); [subst i; tauto|lia].
Qed.
Lemma ring_zero j0 y : ring_of j0 (repeat 0 128) y 0.
Proof.
  split; [reflexivity|]. intros i Hi. unfold ext. destruct (Z.ltb_spec i 0); [|lia]. destruct (nth_in_or_default (pos j0 i) (repeat 0 128) 0) as [K|K]; auto. now apply repeat_spec in K.
Qed.
(* reading e - 43 + i *)
Lemma ring_read j0 v y m j e i : ring_of j0 v y m -> (Z.of_nat j mod 128 = (Z.of_nat j0 + e) mod 128)%Z -> (i < 43)%nat -> (e <= Z.of_nat m)%Z -> (Z.of_nat m - 85 <= e)%Z ->
  nth (mask (j + 128 - HALFBAND_MIN_LEN + i)) v 0 = ext y (e - 43 + Z.of_nat i).
Proof.
  intros [H1 H2] Hj Hi He Hm. rewrite (pos_mask j0 (e - 43 + Z.of_nat i)).
  - apply H2. lia.
  - unfold HALFBAND_MIN_LEN. replace (Z.of_nat (j + 128 - 43 + i)) with (Z.of_nat j + (85 + Z.of_nat i))%Z by lia. rewrite <- Z.add_mod_idemp_l, Hj, Z.add_mod_idemp_l by lia.
    replace (Z.of_nat j0 + e + (85 + Z.of_nat i))%Z with (Z.of_nat j0 + (e - 43 + Z.of_nat i) + 1 * 128)%Z by ring. now rewrite Z.mod_add by lia.
Qed.
Lemma conv_sum w y m : conv 43 (halfband w) y m = total 43 (fun i => ext y (Z.of_nat m - 42 + Z.of_nat i) * nth i w 0).
Proof.
  unfold conv. rewrite (total_rev 43). apply total_ext. intros i Hi. unfold halfband, ext. replace (42 - (43 - 1 - i))%nat with i by lia.
  destruct (Nat.leb_spec (43 - 1 - i) m); destruct (Z.ltb_spec (Z.of_nat m - 42 + Z.of_nat i) 0); try lia; [|ring].
  replace (Z.to_nat (Z.of_nat m - 42 + Z.of_nat i)) with (m - (43 - 1 - i))%nat by lia. ring.
Qed.
Lemma full_conv w j0 v y m j e : ring_of j0 v y m -> (Z.of_nat j mod 128 = (Z.of_nat j0 + (Z.of_nat e + 1)) mod 128)%Z -> (e < m)%nat -> (m - 60 <= e)%nat ->
  tick_full nmR w v j = conv 43 (halfband w) y e.
Proof.
  intros H Hj He Hm. unfold tick_full. rewrite acc_total, conv_sum. unfold HALFBAND_MIN_LEN at 1. apply total_ext. intros i Hi. change (n0 nmR) with 0. rewrite (ring_read j0 v y m j (Z.of_nat e + 1) i) by (auto; lia).
  change (nmul nmR) with Rmult. do 2 f_equal. lia.
Qed.
Lemma even_conv w j0 v y m j : ring_of j0 v y (S m) -> (forall i, Nat.odd i = true -> y i = 0) -> Nat.even m = true -> (Z.of_nat j mod 128 = (Z.of_nat j0 + (Z.of_nat m + 1)) mod 128)%Z ->
  tick_even nmR w v j = 2 * conv 43 (halfband w) y m.
Proof.
  intros H Hy Hm Hj. unfold tick_even. rewrite acc_total, conv_sum. change (nmul nmR) with Rmult. change (nofZ nmR 2) with 2. rewrite Rmult_comm. f_equal. change 43%nat with (2 * 21 + 1)%nat at 2. rewrite total_split.
  rewrite (total_zero 21). { rewrite Rplus_0_r. change (HALFBAND_MIN_LEN / 2 + 1)%nat with (21 + 1)%nat. apply total_ext. intros i Hi. change (n0 nmR) with 0. rewrite (ring_read j0 v y (S m) j (Z.of_nat m + 1) (i * 2)) by (auto; lia). do 2 f_equal. lia. }
  intros i Hi. unfold ext. destruct (Z.ltb_spec (Z.of_nat m - 42 + Z.of_nat (i * 2 + 1)) 0); [ring|]. rewrite Hy; [ring|]. apply Nat.odd_spec. apply Nat.even_spec in Hm. destruct Hm as [q ->]. exists (q + i - 21)%nat. lia.
Qed.
Lemma odd_conv w j0 v y m j : ring_of j0 v y (S m) -> (forall i, Nat.odd i = true -> y i = 0) -> Nat.odd m = true -> (Z.of_nat j mod 128 = (Z.of_nat j0 + (Z.of_nat m + 1)) mod 128)%Z ->
  tick_odd nmR w v j = 2 * conv 43 (halfband w) y m.
Proof.
  intros H Hy Hm Hj. unfold tick_odd. rewrite acc_total, conv_sum. change (nmul nmR) with Rmult. change (nofZ nmR 2) with 2. rewrite Rmult_comm. f_equal. change 43%nat with (2 * 21 + 1)%nat at 2. rewrite total_split.
  rewrite (total_zero (21 + 1)). { rewrite Rplus_0_l. change (HALFBAND_MIN_LEN / 2)%nat with 21%nat. apply total_ext. intros i Hi. change (n0 nmR) with 0.
    replace (j + 128 - HALFBAND_MIN_LEN + i * 2 + 1)%nat with (j + 128 - HALFBAND_MIN_LEN + (i * 2 + 1))%nat by (unfold HALFBAND_MIN_LEN; lia). rewrite (ring_read j0 v y (S m) j (Z.of_nat m + 1) (i * 2 + 1)) by (auto; lia). do 2 f_equal. lia. }
  intros i Hi. unfold ext. destruct (Z.ltb_spec (Z.of_nat m - 42 + Z.of_nat (i * 2)) 0); [ring|]. rewrite Hy; [ring|]. apply Nat.odd_spec. apply Nat.odd_spec in Hm. destruct Hm as [q ->]. exists (q + i - 21)%nat. lia.
Qed.
Lemma stuffed_odd input c i : Nat.odd i = true -> stuffed input c i = 0.
Proof. unfold stuffed. intros H. rewrite <- Nat.negb_odd, H. reflexivity. Qed.
Lemma even_double t : Nat.even (2 * t) = true. Proof. apply Nat.even_spec. now exists t. Qed.
Lemma odd_double t : Nat.odd (S (2 * t)) = true. Proof. apply Nat.odd_spec. exists t. lia. Qed.
Lemma stuffed_even input c t : stuffed input c (2 * t) = nth c (input t) 0.
Proof. unfold stuffed. rewrite even_double. replace (2 * t / 2)%nat with t; [reflexivity|]. rewrite Nat.mul_comm. now rewrite Nat.div_mul by lia. Qed.
Lemma pos_next j0 i : mask (pos j0 i + 1) = pos j0 (i + 1).
Proof.
  apply pos_mask. unfold pos. pose proof (Z.mod_pos_bound (Z.of_nat j0 + i) 128 ltac:(lia)). rewrite Nat2Z.inj_add, Z2Nat.id by lia. change (Z.of_nat 1) with 1%Z. rewrite Z.add_mod_idemp_l by lia. f_equal. ring.
Qed.
Lemma pos_id j0 i : (Z.of_nat (pos j0 i) mod 128 = (Z.of_nat j0 + i) mod 128)%Z.
Proof. unfold pos. pose proof (Z.mod_pos_bound (Z.of_nat j0 + i) 128 ltac:(lia)). rewrite Z2Nat.id by lia. apply Z.mod_mod. lia. Qed.
Lemma pos_succ j0 i : (Z.of_nat (pos j0 i + 1) mod 128 = (Z.of_nat j0 + (i + 1)) mod 128)%Z.
Proof. rewrite Nat2Z.inj_add, <- Z.add_mod_idemp_l, pos_id, Z.add_mod_idemp_l by lia. f_equal. change (Z.of_nat 1) with 1%Z. ring. Qed.
Section Run.
  Context {X : Type} (w : list R) (x_tick : X -> list R -> X * list R) (nin nout : nat).
  Context (x_len : forall s i, length i = nin -> length (snd (x_tick s i)) = nout).
  Definition rings (j0 : nat) (b : list (list R)) (n : nat) (y : nat -> nat -> R) (m : nat) : Prop := length b = n /\ forall c, (c < n)%nat -> ring_of j0 (nth c b []) (y c) m.
  Lemma rings_put j0 b n y m f : rings j0 b n y m -> length f = n -> (forall c, (c < n)%nat -> y c m = nth c f 0) -> rings j0 (put_frame b (pos j0 (Z.of_nat m)) f) n y (S m).
  Proof.
    intros [H1 H2] Hf Hy. split; [rewrite put_length; lia|]. intros c Hc. rewrite (put_nth b _ f c 0) by lia. apply ring_put; auto.
  Qed.
  Lemma map_rings {B} (b : list (list R)) n (f : list R -> B) g : length b = n -> (forall c, (c < n)%nat -> f (nth c b []) = g c) -> map f b = map g (seq 0 n).
  Proof.
    intros Hb H. destruct n as [|n']; [destruct b; [reflexivity|discriminate]|]. apply nth_ext with (d := f []) (d' := g 0%nat); [now rewrite !map_length, seq_length|]. intros c Hc. rewrite map_length in Hc. rewrite !map_nth. rewrite seq_nth by lia. apply H. lia.
  Qed.
  Variable x0 : X.
  Variable input : nat -> list R.
  Notation node_input := (node_input w nin input).
  Notation node_at := (node_at w x_tick x0 nin input).
  Notation node_output := (node_output w x_tick x0 nin input).
  Lemma node_input_length m : length (node_input m) = nin.
  Proof. unfold OverSpec.node_input. now rewrite map_length, seq_length. Qed.
  Lemma tick_pair m : x_tick (node_at m) (node_input m) = (node_at (S m), node_output m).
  Proof. cbn [OverSpec.node_at]. unfold OverSpec.node_output. apply surjective_pairing. Qed.
  Record holding (j0 t : nat) (o : over X R) : Prop := mkHolding {
    h_in : rings j0 (o_in o) nin (stuffed input) (2 * t); h_out : rings j0 (o_out o) nout (fun c m => nth c (node_output m) 0) (2 * t);
    h_j : o_j o = pos j0 (Z.of_nat (2 * t)); h_x : o_x o = node_at (2 * t) }.
  Lemma tick_holding j0 t o : holding j0 t o -> length (input t) = nin ->
    exists o', over_tick nmR w x_tick o (input t) = (o', over_output w x_tick x0 nin nout input t) /\ holding j0 (S t) o'.
  Proof.
    intros [Hi Ho Hj Hx] Hl. unfold over_tick. rewrite Hj, Hx. pose proof (even_double t) as Ev. pose proof (odd_double t) as Od. set (m := (2 * t)%nat) in *.
    assert (Hi1 : rings j0 (put_frame (o_in o) (pos j0 (Z.of_nat m)) (input t)) nin (stuffed input) (S m)).
    { apply rings_put; auto. intros c Hc. apply stuffed_even. }
    set (i1 := put_frame _ _ (input t)) in *. rewrite (map_rings i1 nin _ (fun c => 2 * conv 43 (halfband w) (stuffed input c) m)).
    2: apply Hi1. 2:{ intros c Hc. destruct Hi1 as [_ Hi1]. apply (even_conv w j0 _ _ _ _ (Hi1 c Hc)); auto. { intros i. apply stuffed_odd. } apply pos_succ. }
    change (map _ (seq 0 nin)) with (node_input m). rewrite tick_pair. assert (Ln : forall q, length (node_output q) = nout) by (intros q; apply x_len, node_input_length).
    assert (Ho1 : rings j0 (put_frame (o_out o) (pos j0 (Z.of_nat m)) (node_output m)) nout (fun c q => nth c (node_output q) 0) (S m)) by (apply rings_put; auto).
    set (o1 := put_frame _ _ (node_output m)) in *. rewrite pos_next. replace (Z.of_nat m + 1)%Z with (Z.of_nat (S m)) by lia. cbv zeta.
    assert (Hi2 : rings j0 (put_frame i1 (pos j0 (Z.of_nat (S m))) (repeat 0 (length i1))) nin (stuffed input) (S (S m))).
    { apply rings_put; auto. { rewrite repeat_length. apply Hi1. } intros c Hc. rewrite stuffed_odd by auto. symmetry. destruct (nth_in_or_default c (repeat 0 (length i1)) 0) as [K|K]; auto. now apply repeat_spec in K. }
    change (n0 nmR) with 0. set (i2 := put_frame _ _ (repeat 0 _)) in *. rewrite (map_rings i2 nin _ (fun c => 2 * conv 43 (halfband w) (stuffed input c) (S m))).
    2: apply Hi2. 2:{ intros c Hc. destruct Hi2 as [_ Hi2]. apply (odd_conv w j0 _ _ _ _ (Hi2 c Hc)); auto. { intros i. apply stuffed_odd. } apply pos_succ. }
    change (map _ (seq 0 nin)) with (node_input (S m)). rewrite tick_pair.
    assert (Ho2 : rings j0 (put_frame o1 (pos j0 (Z.of_nat (S m))) (node_output (S m))) nout (fun c q => nth c (node_output q) 0) (S (S m))) by (apply rings_put; auto).
    set (o2 := put_frame _ _ (node_output (S m))) in *. rewrite pos_next. rewrite (map_rings o2 nout _ (fun c => conv 43 (halfband w) (fun q => nth c (node_output q) 0) m)).
    2: apply Ho2. 2:{ intros c Hc. destruct Ho2 as [_ Ho2]. apply (full_conv w j0 _ _ _ _ _ (Ho2 c Hc)); [|lia|lia]. rewrite pos_id. f_equal. lia. }
    eexists. split; [reflexivity|]. replace (Z.of_nat (S m) + 1)%Z with (Z.of_nat (2 * S t)) by lia. replace (S (S m)) with (2 * S t)%nat in * by lia. constructor; auto.
  Qed.
  Lemma run_holding : forall n j0 t o, holding j0 t o -> (forall i, (i < t + n)%nat -> length (input i) = nin) ->
    exists o', over_run nmR w x_tick o (map input (seq t n)) = (o', map (over_output w x_tick x0 nin nout input) (seq t n)) /\ holding j0 (t + n) o'.
  Proof.
    induction n as [|n IH]; intros j0 t o H Hl. { exists o. cbn. now rewrite Nat.add_0_r. }
    cbn [seq map over_run]. destruct (tick_holding j0 t o H (Hl t ltac:(lia))) as (o' & E & H'). rewrite E. destruct (IH j0 (S t) o' H') as (o2 & E2 & H2). { intros i Hi. apply Hl. lia. }
    rewrite E2. exists o2. split; [reflexivity|]. now replace (t + S n)%nat with (S t + n)%nat by lia.
  Qed.
End Run.
Lemma zero_rings j0 n y : rings j0 (repeat (repeat 0 128) n) n y 0.
Proof. split; [apply repeat_length|]. intros c Hc. rewrite (nth_indep _ [] (repeat 0 128)) by now rewrite repeat_length. rewrite nth_repeat. apply ring_zero. Qed.
Lemma map_nth_seq {B} (l : list B) d : map (fun t => nth t l d) (seq 0 (length l)) = l.
Proof. apply nth_ext with (d := d) (d' := d). { now rewrite map_length, seq_length. } intros n Hn. rewrite map_length, seq_length in Hn. rewrite (nth_map_in _ _ 0%nat) by now rewrite seq_length. now rewrite seq_nth. Qed.
Lemma start_runs {X} w (x_tick : X -> list R -> X * list R) x nin nout j0 inv outv l :
  (forall s i, length i = nin -> length (snd (x_tick s i)) = nout) -> (j0 < 128)%nat -> inv = repeat (repeat 0 128) nin -> outv = repeat (repeat 0 128) nout -> Forall (fun f => length f = nin) l ->
  exists o', over_run nmR w x_tick (mkOver x inv outv j0) l = (o', map (over_output w x_tick x nin nout (fun t => nth t l [])) (seq 0 (length l))) /\
    o_x o' = node_at w x_tick x nin (fun t => nth t l []) (2 * length l).
Proof.
  intros Hx Hj -> -> Hl. destruct (run_holding w x_tick nin nout Hx x (fun t => nth t l []) (length l) j0 0 (mkOver x (repeat (repeat 0 128) nin) (repeat (repeat 0 128) nout) j0)) as (o' & E & H).
  - constructor; cbn [o_in o_out o_j o_x]; [apply zero_rings|apply zero_rings| |reflexivity]. unfold pos. cbn [Nat.mul Z.of_nat]. rewrite Z.add_0_r, Z.mod_small by lia. now rewrite Nat2Z.id.
  - intros i Hi. rewrite Forall_forall in Hl. apply Hl, nth_In. lia.
  - rewrite map_nth_seq in E. exists o'. split; [exact E|]. rewrite (h_x _ _ _ _ _ _ _ _ _ H). reflexivity.
Qed.
Lemma oversampled {X} w (x_tick : X -> list R -> X * list R) (x_reset : X -> X) o nin nout l :
  over_shape o nin nout -> (forall s i, length i = nin -> length (snd (x_tick s i)) = nout) -> Forall (fun f => length f = nin) l ->
  let r := over_run nmR w x_tick (over_reset nmR x_reset o) l in
  snd r = map (over_output w x_tick (x_reset (o_x o)) nin nout (fun t => nth t l [])) (seq 0 (length l)) /\
  o_x (fst r) = node_at w x_tick (x_reset (o_x o)) nin (fun t => nth t l []) (2 * length l).
Proof.
  intros (Hi & Ho & Hj) Hx Hl r. subst r. unfold over_reset. rewrite Hi, Ho. destruct (start_runs w x_tick (x_reset (o_x o)) nin nout (o_j o) _ _ l Hx Hj eq_refl eq_refl Hl) as (o' & E & H).
  change (n0 nmR) with 0. rewrite E. now split.
Qed.
Lemma oversampled_new {X} w (x_tick : X -> list R -> X * list R) x nin nout l :
  (forall s i, length i = nin -> length (snd (x_tick s i)) = nout) -> Forall (fun f => length f = nin) l ->
  let r := over_run nmR w x_tick (over_new nmR x nin nout) l in
  snd r = map (over_output w x_tick x nin nout (fun t => nth t l [])) (seq 0 (length l)) /\ o_x (fst r) = node_at w x_tick x nin (fun t => nth t l []) (2 * length l).
Proof.
  intros Hx Hl r. subst r. unfold over_new. destruct (start_runs w x_tick x nin nout 0 _ _ l Hx ltac:(lia) eq_refl eq_refl Hl) as (o' & E & H). change (n0 nmR) with 0. rewrite E. now split.
Qed.
(* shape is kept *)
Lemma over_tick_shape {X} w (x_tick : X -> list R -> X * list R) o nin nout f :
  over_shape o nin nout -> (forall s i, length i = nin -> length (snd (x_tick s i)) = nout) -> length f = nin -> over_shape (fst (over_tick nmR w x_tick o f)) nin nout.
Proof.
  intros (Hi & Ho & Hj) Hx Hf. unfold over_tick. assert (L1 : length (put_frame (o_in o) (o_j o) f) = nin) by (rewrite put_length; lia).
  match goal with |- context[x_tick (o_x o) ?a] => pose proof (Hx (o_x o) a) as H1; destruct (x_tick (o_x o) a) as [s1 y1] end. cbn [snd] in H1. rewrite map_length in H1. specialize (H1 L1).
  match goal with |- context[x_tick s1 ?a] => pose proof (Hx s1 a) as H2; destruct (x_tick s1 a) as [s2 y2] end. cbn [snd] in H2. rewrite map_length in H2.
  assert (L2 : length (put_frame (put_frame (o_in o) (o_j o) f) (mask (o_j o + 1)) (repeat (n0 nmR) (length (put_frame (o_in o) (o_j o) f)))) = nin) by (rewrite put_length; rewrite ?repeat_length; lia).
  specialize (H2 L2). unfold over_shape. cbn [fst o_in o_out o_j]. refine (conj L2 (conj _ (mask_lt _))). rewrite put_length; rewrite put_length; lia.
Qed.

(* the node that passes its one input *)
Definition pass_tick (s : unit) (i : list R) : unit * list R := (s, i).
Definition even_sum (w : list R) : R := total 22 (fun i => nth (i * 2) w 0).
Definition odd_sum (w : list R) : R := total 21 (fun i => nth (i * 2 + 1) w 0).
Lemma conv_alternating w y m a b : (42 <= m)%nat -> (forall i, (i <= m)%nat -> (m <= i + 42)%nat -> y i = if Bool.eqb (Nat.even i) (Nat.even m) then a else b) ->
  conv 43 (halfband w) y m = a * even_sum w + b * odd_sum w.
Proof.
  intros Hm H. rewrite conv_sum. change 43%nat with (2 * 21 + 1)%nat. rewrite total_split. unfold even_sum, odd_sum. rewrite <- !total_scale. f_equal; apply total_ext; intros i Hi.
  - unfold ext. destruct (Z.ltb_spec (Z.of_nat m - 42 + Z.of_nat (i * 2)) 0); [lia|]. rewrite H by lia. f_equal. replace (Z.to_nat (Z.of_nat m - 42 + Z.of_nat (i * 2))) with (m - 42 + 2 * i)%nat by lia.
    rewrite Nat.even_add_mul_2. rewrite Nat.even_sub by lia. change (Nat.even 42) with true. now destruct (Nat.even m).
  - unfold ext. destruct (Z.ltb_spec (Z.of_nat m - 42 + Z.of_nat (i * 2 + 1)) 0); [lia|]. rewrite H by lia. f_equal. replace (Z.to_nat (Z.of_nat m - 42 + Z.of_nat (i * 2 + 1))) with (m - 42 + 1 + 2 * i)%nat by lia.
    rewrite Nat.even_add_mul_2. rewrite Nat.even_add, Nat.even_sub by lia. change (Nat.even 42) with true. change (Nat.even 1) with false. now destruct (Nat.even m).
Qed.
Lemma pass_input w c input m t : (forall i, (i <= t)%nat -> input i = [c]) -> (42 <= m)%nat -> (m <= 2 * t)%nat -> node_input w 1 input m = [2 * (c * if Nat.even m then even_sum w else odd_sum w)].
Proof.
  intros Hc Hm Ht. unfold node_input. cbn [seq map]. f_equal. f_equal. rewrite (conv_alternating w _ m (if Nat.even m then c else 0) (if Nat.even m then 0 else c)); auto.
  - destruct (Nat.even m); ring.
  - intros i Hi _. unfold stuffed. rewrite Hc by (apply Nat.div_le_upper_bound; lia). cbn [nth]. now destruct (Nat.even i), (Nat.even m).
Qed.
Lemma pass_constant w c input t : (forall i, (i <= t)%nat -> input i = [c]) -> (42 <= t)%nat -> over_output w pass_tick tt 1 1 input t = [2 * (even_sum w * even_sum w + odd_sum w * odd_sum w) * c].
Proof.
  intros Hc Ht. unfold over_output. cbn [seq map]. f_equal. rewrite (conv_alternating w _ (2 * t) (2 * (c * even_sum w)) (2 * (c * odd_sum w))); [ring|lia|].
  intros i Hi1 Hi2. unfold node_output, pass_tick. cbn [snd]. rewrite (pass_input w c input i t) by (auto; lia). cbn [nth]. rewrite even_double. now destruct (Nat.even i).
Qed.
Lemma sums_values : even_sum halfband_min = 500663188494 / 10 ^ 12 /\ odd_sum halfband_min = 498786515805 / 10 ^ 12.
Proof. split; unfold even_sum, odd_sum, halfband_min, HALFBAND_MIN_12; cbn [map total nth Nat.mul Nat.add]; replace (IZR (10 ^ 12)) with (10 ^ 12) by (rewrite pow_IZR; reflexivity); lra. Qed.

Lemma pass_first w l x : nth 0 l [] = [x] -> over_output w pass_tick tt 1 1 (fun t => nth t l []) 0 = [2 * (nth 42 w 0 * nth 42 w 0) * x].
Proof.
  intros Hx. unfold over_output, node_output, node_input, pass_tick. cbn [seq map snd]. f_equal. change (2 * 0)%nat with 0%nat. unfold conv at 1. rewrite total_first. rewrite (total_zero 42) by (intros i Hi; reflexivity).
  cbn [Nat.leb Nat.sub nth]. unfold conv. rewrite total_first. rewrite (total_zero 42) by (intros i Hi; reflexivity). cbn [Nat.leb Nat.sub]. unfold stuffed, halfband. change (0 / 2)%nat with 0%nat. rewrite Hx. cbn [nth Nat.even Nat.sub]. ring.
Qed.
Lemma kernel_first w l x : nth 0 l [] = [x] -> node_input w 1 (fun t => nth t l []) 0 = [2 * nth 42 w 0 * x].
Proof.
  intros Hx. unfold node_input. cbn [seq map]. f_equal. unfold conv. rewrite total_first. rewrite (total_zero 42) by (intros i Hi; reflexivity).
  cbn [Nat.leb Nat.sub]. unfold stuffed, halfband. change (0 / 2)%nat with 0%nat. rewrite Hx. cbn [nth Nat.even Nat.sub]. ring.
Qed.
Lemma last_weight : nth 42 halfband_min 0 = - 941945265 / 10 ^ 12.
Proof. unfold halfband_min, HALFBAND_MIN_12. cbn [map nth]. replace (IZR (10 ^ 12)) with (10 ^ 12) by (rewrite pow_IZR; reflexivity). lra. Qed.
Lemma first_weight : nth 0 halfband_min 0 = 47355233900 / 10 ^ 12.
Proof. unfold halfband_min, HALFBAND_MIN_12. cbn [map nth]. replace (IZR (10 ^ 12)) with (10 ^ 12) by (rewrite pow_IZR; reflexivity). lra. Qed.
Lemma constant_close c n t : (42 <= t < n)%nat ->
  exists y, nth t (snd (over_run nmR halfband_min pass_tick (over_new nmR tt 1 1) (repeat [c] n))) [] = [y] /\ Rabs (y - c) <= 11 / 10000 * Rabs c.
Proof.
  intros Ht. destruct (oversampled_new halfband_min pass_tick tt 1 1 (repeat [c] n)) as [-> _]. { auto. } { apply Forall_forall. intros f Hf. apply repeat_spec in Hf. now subst f. }
  rewrite repeat_length, (nth_map_in _ _ 0%nat) by (rewrite seq_length; lia). rewrite seq_nth by lia. cbn [Nat.add].
  eexists. split. { apply (pass_constant _ c); [|lia]. intros i Hi. rewrite (nth_indep _ [] [c]) by (rewrite repeat_length; lia). apply nth_repeat. }
  destruct sums_values as [-> ->].
  match goal with |- Rabs (?g * c - c) <= _ => replace (g * c - c) with ((g - 1) * c) by ring; rewrite Rabs_mult; apply Rmult_le_compat_r; [apply Rabs_pos|]; apply Rabs_le; lra end.
Qed.
Lemma impulse_first l : Forall (fun f => length f = 1%nat) l -> nth 0 l [] = [1] ->
  exists y, nth 0 (snd (over_run nmR halfband_min pass_tick (over_new nmR tt 1 1) l)) [] = [y] /\ Rabs y <= 2 / 10 ^ 6.
Proof.
  intros Hl H. destruct (oversampled_new halfband_min pass_tick tt 1 1 l) as [-> _]; auto. destruct l as [|f l]; [discriminate|]. cbn [length seq map].
  rewrite (pass_first _ (f :: l) 1 H). eexists. split; [reflexivity|]. rewrite last_weight. apply Rabs_le. lra.
Qed.
