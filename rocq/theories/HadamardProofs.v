From Coq Require Import Reals Lra.
From Verif Require Export HadamardModel HadamardSpec BufProofs.
Close Scope R_scope. Open Scope nat_scope.
Notation plus := (zipw Rplus).
Notation minus := (zipw Rminus).

Lemma nth_mid {X} (a : list X) v b d : nth (length a) (a ++ v :: b) d = v.
Proof. rewrite app_nth2 by lia. now rewrite Nat.sub_diag. Qed.
Lemma upd_mid {X} (a : list X) v w b : upd (a ++ v :: b) (length a) w = a ++ w :: b.
Proof. induction a; cbn; congruence. Qed.
(* the inner loop *)
Lemma inner a2 : forall b2 pre a1 b1 post, length b1 = length a1 -> length b2 = length a2 ->
  fold_left (butterfly Rnum_ops (length a1 + length a2)) (seq (length pre + length a1) (length a2)) (Some (pre ++ a1 ++ a2 ++ b1 ++ b2 ++ post)) =
  Some (pre ++ a1 ++ plus a2 b2 ++ b1 ++ minus a2 b2 ++ post).
Proof.
  induction a2 as [|x a2 IH]; intros [|y b2] pre a1 b1 post L1 L2; try discriminate; [reflexivity|]. injection L2 as L2. cbn [length seq fold_left zipw].
  set (h := length a1 + S (length a2)). set (v := pre ++ a1 ++ (x :: a2) ++ b1 ++ (y :: b2) ++ post).
  assert (E1 : v = (pre ++ a1) ++ x :: (a2 ++ b1 ++ y :: b2 ++ post)) by (unfold v; now rewrite <- !app_assoc).
  assert (E2 : forall w, (pre ++ a1) ++ w :: (a2 ++ b1 ++ y :: b2 ++ post) = (pre ++ a1 ++ w :: a2 ++ b1) ++ y :: (b2 ++ post)) by (intros w; rewrite <- !app_assoc; cbn; now rewrite <- !app_assoc).
  assert (P1 : length pre + length a1 = length (pre ++ a1)) by now rewrite app_length.
  assert (P2 : forall w : R, length pre + length a1 + h = length (pre ++ a1 ++ w :: a2 ++ b1)) by (intros w; rewrite !app_length; cbn; rewrite app_length; unfold h; lia).
  unfold butterfly at 2. assert (LT : Nat.ltb (length pre + length a1 + h) (length v) = true). { apply Nat.ltb_lt. rewrite E1, E2, (P2 x), !app_length. cbn. lia. }
  rewrite LT. assert (X1 : nth (length pre + length a1) v (n0 Rnum_ops) = x) by (rewrite E1, P1; apply nth_mid).
  assert (X2 : nth (length pre + length a1 + h) v (n0 Rnum_ops) = y) by (rewrite E1, E2, (P2 x); apply nth_mid).
  rewrite X1, X2. change (nadd Rnum_ops x y) with (x + y)%R. change (nsub Rnum_ops x y) with (x - y)%R. 
  assert (U : upd (upd v (length pre + length a1) (x + y)%R) (length pre + length a1 + h) (x - y)%R = (pre ++ a1 ++ (x + y)%R :: a2 ++ b1) ++ (x - y)%R :: b2 ++ post).
  { rewrite (P2 (x + y)%R), P1, E1, upd_mid, E2. apply upd_mid. } rewrite U.
  replace ((pre ++ a1 ++ (x + y)%R :: a2 ++ b1) ++ (x - y)%R :: b2 ++ post) with (pre ++ (a1 ++ [(x + y)%R]) ++ a2 ++ (b1 ++ [(x - y)%R]) ++ b2 ++ post).
  2: { rewrite <- !app_assoc. cbn. rewrite <- !app_assoc. reflexivity. }
  replace h with (length (a1 ++ [(x + y)%R]) + length a2) by (rewrite app_length; cbn; unfold h; lia). replace (S (length pre + length a1)) with (length pre + length (a1 ++ [(x + y)%R])) by (rewrite app_length; cbn; lia).
  rewrite IH by (rewrite ?app_length; cbn; lia). f_equal. rewrite <- !app_assoc. cbn. rewrite <- ?app_assoc. reflexivity.
Qed.
(* neighbouring blocks are merged *)
Fixpoint merge (bs : list (list R)) : list (list R) := match bs with a :: b :: r => (plus a b ++ minus a b) :: merge r | _ => [] end.
Fixpoint pairup (bs : list (list R)) : list (list R) := match bs with a :: b :: r => (a ++ b) :: pairup r | _ => [] end.
Lemma span_ok h : 1 <= h -> forall m fuel bs pre, length bs = 2 * m -> Forall (fun b => length b = h) bs -> m < fuel ->
  span Rnum_ops fuel (length pre + 2 * m * h) h (length pre) (Some (pre ++ concat bs)) = Some (pre ++ concat (merge bs)).
Proof.
  intros H1. induction m as [|m IH]; intros fuel bs pre L B Fu; (destruct fuel as [|f]; [lia|]); cbn [span].
  - destruct bs; [|discriminate]. replace (length pre + 2 * 0 * h) with (length pre) by lia. rewrite Nat.ltb_irrefl. reflexivity.
  - destruct bs as [|a [|b bs]]; cbn in L; try lia. apply Forall_cons_iff in B as [La B]. apply Forall_cons_iff in B as [Lb B]. rewrite (proj2 (Nat.ltb_lt _ _)) by nia.
    cbn [concat merge]. pose proof (inner a b pre [] [] (concat bs) eq_refl ltac:(lia)) as I. cbn [length app] in I. rewrite Nat.add_0_r in I. cbn [Nat.add] in I. rewrite La in I. rewrite I. clear I.
    replace (length pre + h * 2) with (length (pre ++ plus a b ++ minus a b)) by (rewrite !app_length, !zipw_length; lia).
    replace (pre ++ plus a b ++ minus a b ++ concat bs) with ((pre ++ plus a b ++ minus a b) ++ concat bs) by (now rewrite <- !app_assoc).
    replace (length pre + 2 * S m * h) with (length (pre ++ plus a b ++ minus a b) + 2 * m * h) by (rewrite !app_length, !zipw_length; nia).
    rewrite IH by (auto; lia). now rewrite <- !app_assoc.
Qed.
Lemma sylvester_length k : forall x, length x = 2 ^ k -> length (sylvester k x) = 2 ^ k.
Proof.
  induction k as [|k IH]; intros x L; cbn [sylvester]; auto. cbn [Nat.pow] in L. rewrite app_length, !zipw_length, !IH by (rewrite ?firstn_length, ?skipn_length; lia). cbn [Nat.pow]. lia.
Qed.
Lemma sylvester_app k a b : length a = 2 ^ k -> length b = 2 ^ k -> sylvester (S k) (a ++ b) = plus (sylvester k a) (sylvester k b) ++ minus (sylvester k a) (sylvester k b).
Proof. intros La Lb. cbn [sylvester]. rewrite firstn_app, skipn_app, La, Nat.sub_diag. rewrite firstn_all2, skipn_all2 by lia. cbn [firstn skipn app]. now rewrite app_nil_r. Qed.
Lemma merge_sylvester k m : forall bs, length bs = 2 * m -> Forall (fun b => length b = 2 ^ k) bs -> merge (map (sylvester k) bs) = map (sylvester (S k)) (pairup bs).
Proof.
  induction m as [|m IH]; intros bs L B; [destruct bs; [reflexivity|discriminate]|]. destruct bs as [|a [|b bs]]; cbn in L; try lia. apply Forall_cons_iff in B as [La B]. apply Forall_cons_iff in B as [Lb B].
  cbn [map merge pairup]. rewrite sylvester_app by auto. f_equal. apply IH; auto. lia.
Qed.
Lemma pairup_ok k m : forall bs, length bs = 2 * m -> Forall (fun b : list R => length b = 2 ^ k) bs -> length (pairup bs) = m /\ Forall (fun b => length b = 2 ^ S k) (pairup bs) /\ concat (pairup bs) = concat bs.
Proof.
  induction m as [|m IH]; intros bs L B; [destruct bs; [repeat split; constructor|discriminate]|]. destruct bs as [|a [|b bs]]; cbn in L; try lia. apply Forall_cons_iff in B as [La B]. apply Forall_cons_iff in B as [Lb B].
  destruct (IH bs) as (I1 & I2 & I3); auto; [lia|]. cbn [pairup length concat]. rewrite I1, I3. split; auto. split; [|now rewrite <- app_assoc]. constructor; auto. rewrite app_length. cbn [Nat.pow]. lia.
Qed.
Lemma levels_ok j : forall k bs fuel, length bs = 2 ^ j -> Forall (fun b => length b = 2 ^ k) bs -> j < fuel ->
  levels Rnum_ops fuel (2 ^ (k + j)) (2 ^ k) (Some (concat (map (sylvester k) bs))) = Some (sylvester (k + j) (concat bs)).
Proof.
  induction j as [|j IH]; intros k bs fuel L B Fu; (destruct fuel as [|f]; [lia|]); cbn [levels].
  - rewrite Nat.add_0_r, Nat.ltb_irrefl. cbn in L. destruct bs as [|b [|]]; try discriminate. cbn. now rewrite !app_nil_r.
  - assert (P : 1 <= 2 ^ k) by (clear; induction k; cbn; lia). assert (PJ : 1 <= 2 ^ j) by (clear; induction j; cbn; lia).
    assert (PW : 2 ^ (k + S j) = 2 * 2 ^ j * 2 ^ k) by (rewrite Nat.pow_add_r; cbn [Nat.pow]; lia).
    rewrite (proj2 (Nat.ltb_lt _ _)) by (rewrite PW; nia). assert (L2 : length bs = 2 * 2 ^ j) by (cbn [Nat.pow] in L; lia).
    assert (Bm : Forall (fun b => length b = 2 ^ k) (map (sylvester k) bs)). { apply Forall_forall. intros x Hx. apply in_map_iff in Hx as (y & <- & Hy). rewrite Forall_forall in B. apply sylvester_length. auto. }
    pose proof (span_ok (2 ^ k) P (2 ^ j) (S (2 ^ (k + S j))) (map (sylvester k) bs) [] ltac:(now rewrite map_length) Bm ltac:(rewrite PW; nia)) as SP. cbn [length app Nat.add] in SP. rewrite <- PW in SP. rewrite SP. clear SP.
    rewrite (merge_sylvester k (2 ^ j)) by auto. destruct (pairup_ok k (2 ^ j) bs L2 B) as (I1 & I2 & I3). replace (2 ^ k * 2) with (2 ^ S k) by (cbn; lia). replace (k + S j) with (S k + j) by lia. rewrite IH by (auto; lia). now rewrite I3.
Qed.
Lemma pow_gt k : k < 2 ^ k. Proof. apply Nat.pow_gt_lin_r. lia. Qed.
Lemma hadamard_ok scale k x : length x = 2 ^ k -> hadamard Rnum_ops scale x = Some (map (fun v => (v * scale)%R) (sylvester k x)).
Proof.
  intros L. unfold hadamard. rewrite L. pose proof (levels_ok k 0 (map (fun v => [v]) x) (S (2 ^ k))) as H. cbn [Nat.add Nat.pow] in H. rewrite map_length, L in H.
  assert (C : concat (map (fun v => [v]) x) = x) by (clear; induction x; cbn; congruence). 
  assert (M : map (sylvester 0) (map (fun v => [v]) x) = map (fun v => [v]) x) by (rewrite map_map; reflexivity). rewrite M, C in H. rewrite H; [reflexivity|reflexivity| |pose proof (pow_gt k); lia].
  apply Forall_forall. intros y Hy. apply in_map_iff in Hy as (v & <- & _). reflexivity.
Qed.
(* energy *)
Lemma energy_app a b : energy (a ++ b) = (energy a + energy b)%R.
Proof. induction a; cbn; lra. Qed.
Lemma energy_pair a : forall b, length a = length b -> (energy (plus a b) + energy (minus a b) = 2 * (energy a + energy b))%R.
Proof. induction a as [|x a IH]; intros [|y b] L; try discriminate; cbn; [lra|]. injection L as L. specialize (IH b L). cbn in IH. lra. Qed.
Lemma sylvester_energy k : forall x, length x = 2 ^ k -> energy (sylvester k x) = (2 ^ k * energy x)%R.
Proof.
  induction k as [|k IH]; intros x L; cbn [sylvester]; [cbn; lra|]. cbn [Nat.pow] in L. set (a := firstn (2 ^ k) x). set (b := skipn (2 ^ k) x).
  assert (La : length a = 2 ^ k) by (unfold a; rewrite firstn_length; lia). assert (Lb : length b = 2 ^ k) by (unfold b; rewrite skipn_length; lia).
  rewrite energy_app, energy_pair by now rewrite !sylvester_length. rewrite !IH by auto. replace (energy x) with (energy a + energy b)%R by (rewrite <- energy_app; unfold a, b; now rewrite firstn_skipn). cbn [pow]. ring.
Qed.
Lemma energy_scale s x : energy (map (fun v => (v * s)%R) x) = (s * s * energy x)%R.
Proof. induction x as [|v x IH]; cbn; [ring|]. rewrite IH. ring. Qed.
Lemma energy_pos x : (0 <= energy x)%R. Proof. induction x as [|v x IH]; cbn; [lra|]. pose proof (Rle_0_sqr v) as H. unfold Rsqr in H. lra. Qed.
(* linearity *)
Lemma zip_swap (f g : R -> R -> R) a : forall b c d, (forall p q r s, f (g p q) (g r s) = g (f p r) (f q s)) -> zipw f (zipw g a b) (zipw g c d) = zipw g (zipw f a c) (zipw f b d).
Proof. intros b c d H. revert b c d. induction a as [|x a IH]; intros [|y b] [|z c] [|w d]; cbn; auto. now rewrite H, IH. Qed.
Lemma firstn_zipw {X Y Z} (f : X -> Y -> Z) n l m : firstn n (zipw f l m) = zipw f (firstn n l) (firstn n m).
Proof. revert l m. induction n as [|n IH]; intros [|x l] [|y m]; cbn; auto. now rewrite IH. Qed.
Lemma skipn_zipw {X Y Z} (f : X -> Y -> Z) n l m : skipn n (zipw f l m) = zipw f (skipn n l) (skipn n m).
Proof. revert l m. induction n as [|n IH]; intros [|x l] [|y m]; cbn; auto. now destruct (skipn n l). Qed.
Lemma sylvester_plus k : forall x y, length x = 2 ^ k -> length y = 2 ^ k -> sylvester k (plus x y) = plus (sylvester k x) (sylvester k y).
Proof.
  induction k as [|k IH]; intros x y Lx Ly; [reflexivity|]. cbn [sylvester Nat.pow] in *. rewrite firstn_zipw, skipn_zipw, !IH by (rewrite ?firstn_length, ?skipn_length; lia).
  rewrite zipw_app by (rewrite !zipw_length, !sylvester_length by (rewrite ?firstn_length, ?skipn_length; lia); lia). f_equal; apply zip_swap; intros; lra.
Qed.
Lemma sylvester_minus k : forall x y, length x = 2 ^ k -> length y = 2 ^ k -> sylvester k (minus x y) = minus (sylvester k x) (sylvester k y).
Proof.
  induction k as [|k IH]; intros x y Lx Ly; [reflexivity|]. cbn [sylvester Nat.pow] in *. rewrite firstn_zipw, skipn_zipw, !IH by (rewrite ?firstn_length, ?skipn_length; lia).
  rewrite zipw_app by (rewrite !zipw_length, !sylvester_length by (rewrite ?firstn_length, ?skipn_length; lia); lia). f_equal; apply zip_swap; intros; lra.
Qed.
Lemma sylvester_scale k s : forall x, sylvester k (map (fun v => (v * s)%R) x) = map (fun v => (v * s)%R) (sylvester k x).
Proof.
  induction k as [|k IH]; intros x; [reflexivity|]. cbn [sylvester]. rewrite firstn_map, skipn_map, !IH, map_app, !zipw_map_l, !zipw_map_r, !map_zipw. f_equal; apply zipw_ext_Forall; intros; ring.
Qed.
Lemma sylvester_twice k : forall x, length x = 2 ^ k -> sylvester k (sylvester k x) = map (fun v => (v * 2 ^ k)%R) x.
Proof.
  induction k as [|k IH]; intros x L; [cbn [sylvester pow]; clear L; induction x as [|v x I]; cbn [map]; [reflexivity|]; rewrite <- I; f_equal; ring|]. cbn [Nat.pow] in L. set (a := firstn (2 ^ k) x). set (b := skipn (2 ^ k) x).
  assert (La : length a = 2 ^ k) by (unfold a; rewrite firstn_length; lia). assert (Lb : length b = 2 ^ k) by (unfold b; rewrite skipn_length; lia).
  cbn [sylvester]. fold a b. fold (sylvester (S k) (plus (sylvester k a) (sylvester k b) ++ minus (sylvester k a) (sylvester k b))). pose proof (sylvester_length k a La) as Ha. pose proof (sylvester_length k b Lb) as Hb.
  change (sylvester (S k) (plus (sylvester k a) (sylvester k b) ++ minus (sylvester k a) (sylvester k b)) = map (fun v => (v * 2 ^ S k)%R) x).
  rewrite sylvester_app by (rewrite zipw_length, Ha, Hb; lia). rewrite sylvester_plus, sylvester_minus, !IH by auto.
  replace x with (a ++ b) by (unfold a, b; apply firstn_skipn). rewrite map_app. clearbody a b. assert (LL : length a = length b) by congruence. clear - LL. cbn [pow]. generalize (2 ^ k)%R as p; intros p.
  f_equal; revert b LL; induction a as [|u a IH]; intros [|w b] L; try discriminate; cbn [map zipw]; auto; injection L as L; (f_equal; [ring|apply (IH b L)]).
Qed.
Lemma rsum_app f m p : rsum (m + p) f = (rsum m f + rsum p (fun j => f (m + j)%nat))%R.
Proof.
  unfold rsum. rewrite seq_app, fold_right_app. cbn [Nat.add]. assert (S0 : forall l z, fold_right (fun j acc => (f j + acc)%R) z l = (fold_right (fun j acc => (f j + acc)%R) 0%R l + z)%R) by (induction l; intros z; cbn; [lra|rewrite IHl; lra]).
  rewrite S0. f_equal. assert (S1 : forall p m, fold_right (fun j acc => (f j + acc)%R) 0%R (seq m p) = fold_right (fun j acc => (f (m + j)%nat + acc)%R) 0%R (seq 0 p)).
  { clear. induction p as [|p IH]; intros m; [reflexivity|]. cbn [seq fold_right]. rewrite IH, Nat.add_0_r. f_equal. rewrite <- seq_shift. clear. generalize (seq 0 p). induction l as [|u l IHl]; cbn [map fold_right]; [reflexivity|]. f_equal; [f_equal; lia|exact IHl]. }
  apply S1.
Qed.
Lemma rsum_ext f g m : (forall j, j < m -> f j = g j) -> rsum m f = rsum m g.
Proof. intros H. unfold rsum. assert (G : forall l, (forall j, In j l -> f j = g j) -> fold_right (fun j acc => (f j + acc)%R) 0%R l = fold_right (fun j acc => (g j + acc)%R) 0%R l) by (induction l; cbn; intros K; auto; rewrite K, IHl; auto). apply G. intros j Hj. apply in_seq in Hj. apply H. lia. Qed.
Lemma rsum_scale c f m : (rsum m (fun j => c * f j) = c * rsum m f)%R.
Proof. unfold rsum. induction (seq 0 m); cbn; lra. Qed.
Lemma low_bits k i m : m < k -> Nat.testbit (2 ^ k + i) m = Nat.testbit i m.
Proof.
  intros H. rewrite <- (Nat.mod_pow2_bits_low (2 ^ k + i) k m H), <- (Nat.mod_pow2_bits_low i k m H). f_equal.
  rewrite Nat.add_comm. replace (i + 2 ^ k) with (i + 1 * 2 ^ k) by lia. apply Nat.mod_add. pose proof (pow_gt k). lia.
Qed.
Lemma top_bit k i : i < 2 ^ k -> Nat.testbit i k = false /\ Nat.testbit (2 ^ k + i) k = true.
Proof.
  intros H. rewrite !Nat.testbit_eqb. rewrite (Nat.div_small i) by auto. split; [reflexivity|].
  replace ((2 ^ k + i) / 2 ^ k) with 1 by (apply Nat.div_unique with i; lia). reflexivity.
Qed.
Lemma bits_low k m i j : m <= k -> bits m (2 ^ k + i) j = bits m i j /\ bits m i (2 ^ k + j) = bits m i j.
Proof. induction m as [|m IH]; intros H; cbn [bits]; [auto|]. destruct IH as [-> ->]; [lia|]. now rewrite !low_bits by lia. Qed.
Lemma sign_next k i j : i < 2 ^ k -> j < 2 ^ k -> sign (S k) i j = sign k i j /\ sign (S k) (2 ^ k + i) j = sign k i j /\ sign (S k) i (2 ^ k + j) = sign k i j /\ sign (S k) (2 ^ k + i) (2 ^ k + j) = (- sign k i j)%R.
Proof.
  intros Hi Hj. unfold sign. cbn [bits]. destruct (top_bit k i Hi) as [-> ->], (top_bit k j Hj) as [-> ->]. cbn [andb Nat.add].
  rewrite (proj1 (bits_low k k i j (le_n _))), (proj2 (bits_low k k i j (le_n _))). rewrite (proj1 (bits_low k k i (2 ^ k + j) (le_n _))), (proj2 (bits_low k k i j (le_n _))).
  repeat split. rewrite Nat.even_succ, <- Nat.negb_even. destruct (Nat.even (bits k i j)); cbn; lra.
Qed.
Lemma nth_zip f a : forall b i, f 0%R 0%R = 0%R -> length a = length b -> nth i (zipw f a b) 0%R = f (nth i a 0%R) (nth i b 0%R).
Proof. induction a as [|x a IH]; intros [|y b] [|i] F0 L; try discriminate; cbn; auto. Qed.
Lemma sylvester_entry k : forall x i, length x = 2 ^ k -> i < 2 ^ k -> nth i (sylvester k x) 0%R = rsum (2 ^ k) (fun j => sign k i j * nth j x 0)%R.
Proof.
  induction k as [|k IH]; intros x i L Hi.
  - cbn in Hi. assert (i = 0) by lia. subst i. unfold rsum, sign. cbn. ring.
  - cbn [Nat.pow] in *. set (a := firstn (2 ^ k) x). set (b := skipn (2 ^ k) x).
    assert (La : length a = 2 ^ k) by (unfold a; rewrite firstn_length; lia). assert (Lb : length b = 2 ^ k) by (unfold b; rewrite skipn_length; lia).
    cbn [sylvester]. fold a b. pose proof (sylvester_length k a La) as Ha. pose proof (sylvester_length k b Lb) as Hb. replace (2 * 2 ^ k) with (2 ^ k + 2 ^ k) by lia. rewrite rsum_app.
    assert (Na : forall j, j < 2 ^ k -> nth j x 0%R = nth j a 0%R) by (intros j Hj; unfold a; now rewrite nth_firstn_lt).
    assert (Nb : forall j, nth (2 ^ k + j) x 0%R = nth j b 0%R) by (intros j; unfold b; now rewrite nth_skipn_add).
    destruct (le_lt_dec (2 ^ k) i) as [G|G].
    + rewrite app_nth2 by (rewrite zipw_length; lia). rewrite zipw_length, Ha, Hb, Nat.min_id. assert (Gi : i - 2 ^ k < 2 ^ k) by lia. rewrite nth_zip by (lra || lia). rewrite !IH by auto.
      rewrite (rsum_ext (fun j => sign (S k) i j * nth j x 0)%R (fun j => sign k (i - 2 ^ k) j * nth j a 0)%R).
      2: { intros j Hj. rewrite Na by auto. f_equal. replace i with (2 ^ k + (i - 2 ^ k)) at 1 by lia. now apply sign_next. }
      rewrite (rsum_ext (fun j => sign (S k) i (2 ^ k + j) * nth (2 ^ k + j) x 0)%R (fun j => (-1) * (sign k (i - 2 ^ k) j * nth j b 0))%R).
      2: { intros j Hj. rewrite Nb. replace i with (2 ^ k + (i - 2 ^ k)) at 1 by lia. destruct (sign_next k (i - 2 ^ k) j Gi Hj) as (_ & _ & _ & ->). ring. }
      rewrite rsum_scale. ring.
    + rewrite app_nth1 by (rewrite zipw_length; lia). rewrite nth_zip by (lra || lia). rewrite !IH by auto. f_equal; apply rsum_ext; intros j Hj; [rewrite Na by auto|rewrite Nb]; f_equal; symmetry; now apply sign_next.
Qed.
