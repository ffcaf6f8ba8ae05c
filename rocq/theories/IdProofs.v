(* Uniqueness of the ids of IdModel.v. *)
From Verif Require Export IdSpec.
Open Scope N_scope.

(* ids *)
Lemma low_of l h : l < 2 ^ 32 -> N.land (id_of l h) (N.ones 32) = l.
Proof.
  intros H. unfold id_of. rewrite N.land_lor_distr_l. rewrite !N.land_ones. rewrite (N.mod_small l) by auto.
  rewrite N.shiftl_mul_pow2, N.mod_mul by (intro E; discriminate E). apply N.lor_0_r.
Qed.
Lemma high_of l h : l < 2 ^ 32 -> N.shiftr (id_of l h) 32 = h.
Proof.
  intros H. unfold id_of. rewrite N.shiftr_lor, N.shiftr_shiftl_l, N.sub_diag, N.shiftl_0_r by reflexivity. rewrite N.shiftr_div_pow2, (N.div_small l) by auto. apply N.lor_0_l.
Qed.
Lemma id_inj l h l' h' : l < 2 ^ 32 -> l' < 2 ^ 32 -> id_of l h = id_of l' h' -> l = l' /\ h = h'.
Proof. intros A B E. split; [rewrite <- (low_of l h A), <- (low_of l' h' B)|rewrite <- (high_of l h A), <- (high_of l' h' B)]; now rewrite E. Qed.

(* an id that was returned: the start of its attempt and its words *)
Record ret := mkRet { r_start : N; r_low : N; r_high : N }.
Definition ret_id (r : ret) : N := id_of (r_low r) (r_high r).

(* b is the number of attempts begun at the last rewind and hb the high word then *)
Definition tok (b hb begun high : N) (rets : list ret) (t : thread) : Prop :=
  match t with
  | Idle => True
  | Low a l => a < begun /\ l < DANGER /\ (b <= a -> l = a - b) /\ (a < b -> DANGER <= l + (b - a))
  | High a l h => a < begun /\ l < DANGER /\ (b <= a -> l = a - b) /\ (a < b -> DANGER <= l + (b - a)) /\ h <= high /\ (b <= a -> hb <= h)
  | Zone a l => a < begun /\ DANGER <= l < 2 ^ 32 /\ (b <= a -> l = a - b)
  | Bumped a l h => a < begun /\ DANGER <= l < 2 ^ 32 /\ (b <= a -> l = a - b) /\ h < high /\
      (b <= a -> forall r, In r rets -> r_low r < DANGER -> b <= r_start r -> r_high r <= h)
  end.
Definition rok (b hb begun high : N) (r : ret) : Prop :=
  r_start r < begun /\ r_low r < 2 ^ 32 /\ r_high r <= high /\
  (r_low r < DANGER -> (b <= r_start r -> r_low r = r_start r - b /\ hb <= r_high r) /\ (r_start r < b -> r_high r < hb)) /\
  (DANGER <= r_low r -> r_high r < high).
Definition bumped (t : thread) : option N := match t with Bumped _ _ h => Some h | _ => None end.
Definition zoned (t : thread) : Prop := match t with Zone _ _ | Bumped _ _ _ => True | _ => False end.
Record inv (s : gen) (b hb : N) (rets : list ret) : Prop := {
  i_low : g_low s = g_begun s - b; i_base : b <= g_begun s; i_word : g_low s < 2 ^ 32;
  i_high : hb <= g_high s; i_bumps : g_high s = g_bumps s;
  i_threads : forall i t, nth_error (g_threads s) i = Some t -> tok b hb (g_begun s) (g_high s) rets t;
  i_starts : forall i j t u a, nth_error (g_threads s) i = Some t -> nth_error (g_threads s) j = Some u -> started t = Some a -> started u = Some a -> i = j;
  i_fresh : forall i t r, nth_error (g_threads s) i = Some t -> In r rets -> started t <> Some (r_start r);
  i_ids : g_ids s = map ret_id rets;
  i_rets : forall r, In r rets -> rok b hb (g_begun s) (g_high s) r;
  i_nodup : NoDup (map ret_id rets);
  i_zone : forall i t h r, nth_error (g_threads s) i = Some t -> bumped t = Some h -> In r rets -> DANGER <= r_low r -> r_high r <> h;
  i_zones : forall i j t u h, nth_error (g_threads s) i = Some t -> nth_error (g_threads s) j = Some u -> bumped t = Some h -> bumped u = Some h -> i = j;
  i_guard : DANGER < g_begun s - b -> exists i t, nth_error (g_threads s) i = Some t /\ started t = Some (b + DANGER) /\ zoned t }.

Lemma inv_new n : inv (gen_new n) 0 0 [].
Proof.
  assert (E : forall i t, nth_error (repeat Idle n) i = Some t -> t = Idle). { intros i t H. apply nth_error_In in H. now apply repeat_spec in H. }
  split; cbn; try reflexivity; try tauto; try (intros; lia).
  - intros i t H. rewrite (E i t H). exact I.
  - intros i j t u a H _ X. rewrite (E i t H) in X. discriminate.
  - constructor.
  - intros i j t u h H _ X. rewrite (E i t H) in X. discriminate.
Qed.

Lemma upd_cases {A} (l : list A) i x j t : nth_error (upd l i x) j = Some t -> (j = i /\ t = x /\ (i < length l)%nat) \/ (j <> i /\ nth_error l j = Some t).
Proof.
  rewrite nth_error_upd. destruct (Nat.eqb_spec i j) as [->|N]; [|right; split; congruence]. destruct (Nat.ltb_spec j (length l)); [|discriminate]. intros [= <-]. left. auto.
Qed.
Lemma zonelo : 2 ^ 32 = DANGER + 2 ^ 20. Proof. reflexivity. Qed.
Lemma zonehi : 2 ^ 20 < DANGER. Proof. reflexivity. Qed.
Lemma dangerpos : 0 < DANGER. Proof. reflexivity. Qed.
Lemma wordpos : 0 < 2 ^ 32. Proof. reflexivity. Qed.
Global Opaque DANGER.

Section Step.
  Variables (s : gen) (i : nat) (b hb : N) (rets : list ret).
  Hypothesis I : inv s b hb rets.
  Hypothesis P : prompt s.
  Notation begun := (g_begun s).
  Lemma recent t a : nth_error (g_threads s) i = Some t -> started t = Some a -> begun - a < 2 ^ 20.
  Proof. intros H S0. exact (proj1 P t a (nth_error_In _ _ H) S0). Qed.
  Lemma at_upd x j t : nth_error (g_threads s) i <> None -> nth_error (upd (g_threads s) i x) j = Some t -> (j = i /\ t = x) \/ (j <> i /\ nth_error (g_threads s) j = Some t).
  Proof. intros _ H. apply upd_cases in H. tauto. Qed.
  (* the thread reads the high word *)
  Lemma step_low a l : nth_error (g_threads s) i = Some (Low a l) ->
    inv (mkGen (g_low s) (g_high s) (upd (g_threads s) i (High a l (g_high s))) (g_ids s) begun (g_bumps s)) b hb rets.
  Proof.
    intros H. destruct I as [A1 A2 A3 A4 A5 A6 A7 A8 A9 A10 A11 A12 A13 A14]. pose proof (A6 i _ H) as T. cbn in T.
    split; cbn [g_low g_high g_threads g_ids g_begun g_bumps]; auto.
    - intros j t Hj. apply upd_cases in Hj as [(-> & -> & _)|(N & Hj)]; [|now apply (A6 j)]. cbn. repeat split; try tauto; try lia.
    - intros j k t u x Hj Hk Sj Sk. apply upd_cases in Hj as [(-> & -> & _)|(N & Hj)]; apply upd_cases in Hk as [(-> & -> & _)|(M & Hk)]; auto.
      + exfalso. apply M. symmetry. exact (A7 i k _ _ x H Hk Sj Sk).
      + exfalso. apply N. exact (A7 j i _ _ x Hj H Sj Sk).
      + exact (A7 j k _ _ x Hj Hk Sj Sk).
    - intros j t r Hj Hr. apply upd_cases in Hj as [(-> & -> & _)|(N & Hj)]; [exact (A8 i _ r H Hr)|exact (A8 j t r Hj Hr)].
    - intros j t h r Hj B. apply upd_cases in Hj as [(-> & -> & _)|(N & Hj)]; [discriminate|exact (A12 j t h r Hj B)].
    - intros j k t u h Hj Hk Bj Bk. apply upd_cases in Hj as [(-> & -> & _)|(N & Hj)]; [discriminate|]. apply upd_cases in Hk as [(-> & -> & _)|(M & Hk)]; [discriminate|]. exact (A13 j k _ _ h Hj Hk Bj Bk).
    - intros G. destruct (A14 G) as (j & t & Hj & Sj & Zj). exists j, t. rewrite nth_error_upd. destruct (Nat.eqb_spec i j) as [E|N]; [|auto]. rewrite <- E, H in Hj. injection Hj as <-. contradiction.
  Qed.
  (* the thread gives up *)
  Lemma step_again a l h : nth_error (g_threads s) i = Some (High a l h) ->
    inv (mkGen (g_low s) (g_high s) (upd (g_threads s) i Idle) (g_ids s) begun (g_bumps s)) b hb rets.
  Proof.
    intros H. destruct I as [A1 A2 A3 A4 A5 A6 A7 A8 A9 A10 A11 A12 A13 A14].
    split; cbn [g_low g_high g_threads g_ids g_begun g_bumps]; auto.
    - intros j t Hj. apply upd_cases in Hj as [(-> & -> & _)|(N & Hj)]; [exact Logic.I|now apply (A6 j)].
    - intros j k t u x Hj Hk Sj Sk. apply upd_cases in Hj as [(-> & -> & _)|(N & Hj)]; [discriminate|]. apply upd_cases in Hk as [(-> & -> & _)|(M & Hk)]; [discriminate|]. exact (A7 j k _ _ x Hj Hk Sj Sk).
    - intros j t r Hj Hr. apply upd_cases in Hj as [(-> & -> & _)|(N & Hj)]; [discriminate|exact (A8 j t r Hj Hr)].
    - intros j t x r Hj B. apply upd_cases in Hj as [(-> & -> & _)|(N & Hj)]; [discriminate|exact (A12 j t x r Hj B)].
    - intros j k t u x Hj Hk Bj Bk. apply upd_cases in Hj as [(-> & -> & _)|(N & Hj)]; [discriminate|]. apply upd_cases in Hk as [(-> & -> & _)|(M & Hk)]; [discriminate|]. exact (A13 j k _ _ x Hj Hk Bj Bk).
    - intros G. destruct (A14 G) as (j & t & Hj & Sj & Zj). exists j, t. rewrite nth_error_upd. destruct (Nat.eqb_spec i j) as [E|N]; [|auto]. rewrite <- E, H in Hj. injection Hj as <-. contradiction.
  Qed.
  (* the thread returns an id below the danger zone *)
  Lemma step_return a l h : nth_error (g_threads s) i = Some (High a l h) -> l <= g_low s -> g_low s < DANGER ->
    inv (mkGen (g_low s) (g_high s) (upd (g_threads s) i Idle) (id_of l h :: g_ids s) begun (g_bumps s)) b hb (mkRet a l h :: rets).
  Proof.
    intros H L D. destruct I as [A1 A2 A3 A4 A5 A6 A7 A8 A9 A10 A11 A12 A13 A14]. pose proof (A6 i _ H) as T. cbn in T. destruct T as (T1 & T2 & T3 & T4 & T5 & T6).
    pose proof zonelo. pose proof zonehi. pose proof (recent _ a H eq_refl) as R. cbn in R.
    assert (NS : b <= a). { destruct (N.le_gt_cases b a) as [|S0]; auto. exfalso. specialize (T4 S0). lia. }
    split; cbn [g_low g_high g_threads g_ids g_begun g_bumps]; auto.
    - intros j t Hj. apply upd_cases in Hj as [(-> & -> & _)|(N & Hj)]; [exact Logic.I|]. pose proof (A6 j t Hj) as Tj. destruct t; cbn in *; auto.
      destruct Tj as (U1 & U2 & U3 & U4 & U5). repeat split; try tauto. intros B. exfalso. specialize (U3 B). lia.
    - intros j k t u x Hj Hk Sj Sk. apply upd_cases in Hj as [(-> & -> & _)|(N & Hj)]; [discriminate|]. apply upd_cases in Hk as [(-> & -> & _)|(M & Hk)]; [discriminate|]. exact (A7 j k _ _ x Hj Hk Sj Sk).
    - intros j t r Hj [<-|Hr]; (apply upd_cases in Hj as [(-> & -> & _)|(N & Hj)]; [discriminate|]); [|exact (A8 j t r Hj Hr)].
      intros Sj. apply N. exact (A7 j i _ _ a Hj H Sj eq_refl).
    - cbn [map]. now rewrite A9.
    - intros r [<-|Hr]; [|exact (A10 r Hr)]. unfold rok. cbn [r_start r_low r_high]. repeat split; try lia; auto.
    - cbn [map]. constructor; auto. intros X. apply in_map_iff in X as (r & E & Hr). destruct (A10 r Hr) as (B1 & B2 & B3 & B4 & B5).
      apply id_inj in E as [E1 E2]; cbn [r_low r_high] in *; try lia. rewrite E1 in B4. specialize (B4 T2). destruct B4 as [B6 B7].
      destruct (N.le_gt_cases b (r_start r)) as [C|C].
      + specialize (B6 C). apply (A8 i _ r H Hr). cbn. f_equal. lia.
      + specialize (B7 C). specialize (T6 NS). lia.
    - intros j t x r Hj B [<-|Hr]; (apply upd_cases in Hj as [(-> & -> & _)|(N & Hj)]; [discriminate|]); [cbn [r_low]; lia|exact (A12 j t x r Hj B Hr)].
    - intros j k t u x Hj Hk Bj Bk. apply upd_cases in Hj as [(-> & -> & _)|(N & Hj)]; [discriminate|]. apply upd_cases in Hk as [(-> & -> & _)|(M & Hk)]; [discriminate|]. exact (A13 j k _ _ x Hj Hk Bj Bk).
    - intros G. lia.
  Qed.
  (* the thread increments the high word *)
  Lemma step_zone a l : nth_error (g_threads s) i = Some (Zone a l) -> g_bumps s + 1 < 2 ^ 32 ->
    inv (mkGen (g_low s) (wadd 32 (g_high s) 1) (upd (g_threads s) i (Bumped a l (g_high s))) (g_ids s) begun (g_bumps s + 1)) b hb rets.
  Proof.
    intros H Q. destruct I as [A1 A2 A3 A4 A5 A6 A7 A8 A9 A10 A11 A12 A13 A14]. pose proof (A6 i _ H) as T. cbn in T. destruct T as (T1 & T2 & T3).
    assert (HW : wadd 32 (g_high s) 1 = g_high s + 1). { unfold wadd. apply N.mod_small. lia. } rewrite HW.
    split; cbn [g_low g_high g_threads g_ids g_begun g_bumps]; auto; try lia.
    - intros j t Hj. apply upd_cases in Hj as [(-> & -> & _)|(N & Hj)].
      + cbn. repeat split; try tauto; try lia. intros _ r Hr _ _. exact (proj1 (proj2 (proj2 (A10 r Hr)))).
      + pose proof (A6 j t Hj) as Tj. destruct t; cbn in *; auto; destruct Tj as (U1 & U2 & U3 & U4 & U5); repeat split; try tauto; try lia.
    - intros j k t u x Hj Hk Sj Sk. apply upd_cases in Hj as [(-> & -> & _)|(N & Hj)]; apply upd_cases in Hk as [(-> & -> & _)|(M & Hk)]; auto.
      + exfalso. apply M. symmetry. exact (A7 i k _ _ x H Hk Sj Sk).
      + exfalso. apply N. exact (A7 j i _ _ x Hj H Sj Sk).
      + exact (A7 j k _ _ x Hj Hk Sj Sk).
    - intros j t r Hj Hr. apply upd_cases in Hj as [(-> & -> & _)|(N & Hj)]; [exact (A8 i _ r H Hr)|exact (A8 j t r Hj Hr)].
    - intros r Hr. destruct (A10 r Hr) as (B1 & B2 & B3 & B4 & B5). unfold rok. repeat split; try tauto; try lia; intros X; try (apply B4; auto); specialize (B5 X); lia.
    - intros j t h r Hj B Hr D. apply upd_cases in Hj as [(-> & -> & _)|(N & Hj)]; [|exact (A12 j t h r Hj B Hr D)]. injection B as <-. pose proof (proj2 (proj2 (proj2 (proj2 (A10 r Hr)))) D). lia.
    - intros j k t u h Hj Hk Bj Bk. apply upd_cases in Hj as [(-> & -> & _)|(N & Hj)]; apply upd_cases in Hk as [(-> & -> & _)|(M & Hk)]; auto.
      + exfalso. injection Bj as <-. destruct u; try discriminate. injection Bk as ->. pose proof (A6 k _ Hk) as Tk. cbn in Tk. lia.
      + exfalso. injection Bk as <-. destruct t; try discriminate. injection Bj as ->. pose proof (A6 j _ Hj) as Tk. cbn in Tk. lia.
      + exact (A13 j k _ _ h Hj Hk Bj Bk).
    - intros G. destruct (A14 G) as (j & t & Hj & Sj & Zj). destruct (Nat.eq_dec i j) as [E|N].
      + exists i, (Bumped a l (g_high s)). rewrite nth_error_upd_eq by (apply nth_error_Some; congruence). rewrite <- E, H in Hj. injection Hj as <-. auto.
      + exists j, t. rewrite nth_error_upd_ne by auto. auto.
  Qed.
  (* the thread returns an id of the danger zone, and may rewind *)
  Lemma step_bumped a l h : nth_error (g_threads s) i = Some (Bumped a l h) -> exists b' hb',
    inv (mkGen (if g_low s <? DANGER then g_low s else 0) (g_high s) (upd (g_threads s) i Idle) (id_of l h :: g_ids s) begun (g_bumps s)) b' hb' (mkRet a l h :: rets).
  Proof.
    intros H. destruct I as [A1 A2 A3 A4 A5 A6 A7 A8 A9 A10 A11 A12 A13 A14]. pose proof (A6 i _ H) as T. cbn in T. destruct T as (T1 & T2 & T3 & T4 & T5).
    pose proof zonelo. pose proof zonehi. pose proof dangerpos. pose proof (recent _ a H eq_refl) as R. cbn in R.
    assert (ND : NoDup (map ret_id (mkRet a l h :: rets))).
    { cbn [map]. constructor; auto. intros X. apply in_map_iff in X as (r & E & Hr). destruct (A10 r Hr) as (B1 & B2 & B3 & B4 & B5).
      apply id_inj in E as [E1 E2]; cbn [r_low r_high] in *; try lia. apply (A12 i _ h r H eq_refl Hr); lia. }
    assert (F : forall j t r, nth_error (upd (g_threads s) i Idle) j = Some t -> In r (mkRet a l h :: rets) -> started t <> Some (r_start r)).
    { intros j t r Hj [<-|Hr]; (apply upd_cases in Hj as [(-> & -> & _)|(N & Hj)]; [discriminate|]); [|exact (A8 j t r Hj Hr)].
      intros Sj. apply N. exact (A7 j i _ _ a Hj H Sj eq_refl). }
    assert (F7 : forall j k t u x, nth_error (upd (g_threads s) i Idle) j = Some t -> nth_error (upd (g_threads s) i Idle) k = Some u -> started t = Some x -> started u = Some x -> j = k).
    { intros j k t u x Hj Hk Sj Sk. apply upd_cases in Hj as [(-> & -> & _)|(N & Hj)]; [discriminate|]. apply upd_cases in Hk as [(-> & -> & _)|(M & Hk)]; [discriminate|]. exact (A7 j k _ _ x Hj Hk Sj Sk). }
    assert (F12 : forall j t x r, nth_error (upd (g_threads s) i Idle) j = Some t -> bumped t = Some x -> In r (mkRet a l h :: rets) -> DANGER <= r_low r -> r_high r <> x).
    { intros j t x r Hj B [<-|Hr] D; (apply upd_cases in Hj as [(-> & -> & _)|(N & Hj)]; [discriminate|]); [|exact (A12 j t x r Hj B Hr D)].
      cbn [r_high]. intros ->. apply N. exact (A13 j i _ _ x Hj H B eq_refl). }
    assert (F13 : forall j k t u x, nth_error (upd (g_threads s) i Idle) j = Some t -> nth_error (upd (g_threads s) i Idle) k = Some u -> bumped t = Some x -> bumped u = Some x -> j = k).
    { intros j k t u x Hj Hk Bj Bk. apply upd_cases in Hj as [(-> & -> & _)|(N & Hj)]; [discriminate|]. apply upd_cases in Hk as [(-> & -> & _)|(M & Hk)]; [discriminate|]. exact (A13 j k _ _ x Hj Hk Bj Bk). }
    destruct (N.ltb_spec (g_low s) DANGER) as [D|D].
    - (* already rewound *)
      exists b, hb. split; cbn [g_low g_high g_threads g_ids g_begun g_bumps]; auto.
      + intros j t Hj. apply upd_cases in Hj as [(-> & -> & _)|(N & Hj)]; [exact Logic.I|]. pose proof (A6 j t Hj) as Tj. destruct t; cbn in *; auto.
        destruct Tj as (U1 & U2 & U3 & U4 & U5). repeat split; try tauto. intros B. exfalso. specialize (U3 B). lia.
      + cbn [map]. now rewrite A9.
      + intros r [<-|Hr]; [|exact (A10 r Hr)]. unfold rok. cbn [r_start r_low r_high]. repeat split; lia.
      + intros G. lia.
    - (* the low word is rewound *)
      assert (NS : b <= a). { destruct (N.le_gt_cases b a) as [|S0]; auto. exfalso. lia. }
      specialize (T5 NS). specialize (T3 NS).
      exists begun, (g_high s). split; cbn [g_low g_high g_threads g_ids g_begun g_bumps]; auto; try lia.
      + intros j t Hj. apply upd_cases in Hj as [(-> & -> & _)|(N & Hj)]; [exact Logic.I|]. pose proof (A6 j t Hj) as Tj. destruct t as [|x y|x y z|x y|x y z]; cbn in *; auto.
        * repeat split; try tauto; try lia.
        * repeat split; try tauto; try lia.
        * repeat split; try tauto; try lia.
        * repeat split; try tauto; try lia.
      + cbn [map]. now rewrite A9.
      + intros r [<-|Hr]; [unfold rok; cbn [r_start r_low r_high]; repeat split; lia|]. destruct (A10 r Hr) as (B1 & B2 & B3 & B4 & B5). unfold rok. split; auto. split; auto. split; auto. split; auto.
        intros X. specialize (B4 X). destruct B4 as [B6 B7]. split; [lia|]. intros _. destruct (N.le_gt_cases b (r_start r)) as [C|C]; [pose proof (T5 r Hr X C); lia|specialize (B7 C); lia].
  Qed.
  (* the thread begins an attempt *)
  Lemma step_idle : nth_error (g_threads s) i = Some Idle -> prompt (gen_step s i) -> inv (gen_step s i) b hb rets.
  Proof.
    intros H Q. unfold gen_step in *. rewrite H in *. destruct I as [A1 A2 A3 A4 A5 A6 A7 A8 A9 A10 A11 A12 A13 A14].
    pose proof zonelo. pose proof zonehi. pose proof dangerpos. set (t' := if g_low s <? DANGER then Low begun (g_low s) else Zone begun (g_low s)) in *.
    assert (ST : started t' = Some begun) by (unfold t'; destruct (g_low s <? DANGER); reflexivity).
    assert (BT : bumped t' = None) by (unfold t'; destruct (g_low s <? DANGER); reflexivity).
    assert (LI : (i < length (g_threads s))%nat) by (apply nth_error_Some; congruence).
    assert (G : DANGER < begun + 1 - b -> exists j t, nth_error (upd (g_threads s) i t') j = Some t /\ started t = Some (b + DANGER) /\ zoned t).
    { intros G. destruct (N.eq_dec (begun - b) DANGER) as [E|E].
      - exists i, t'. rewrite nth_error_upd_eq by auto. split; auto. split; [rewrite ST; f_equal; lia|]. unfold t'. destruct (N.ltb_spec (g_low s) DANGER); [lia|exact Logic.I].
      - destruct (A14 ltac:(lia)) as (j & t & Hj & Sj & Zj). exists j, t. rewrite nth_error_upd_ne; auto. intros E2. rewrite E2 in H. rewrite H in Hj. injection Hj as <-. contradiction. }
    assert (NW : g_low s + 1 < 2 ^ 32).
    { destruct (N.lt_ge_cases (g_low s + 1) (2 ^ 32)) as [|Big]; auto. exfalso. destruct G as (j & t & Hj & Sj & Zj); [lia|].
      destruct Q as [Q _]. cbn [g_threads g_begun] in Q. specialize (Q t _ (nth_error_In _ _ Hj) Sj). lia. }
    assert (LW : wadd 32 (g_low s) 1 = g_low s + 1) by (unfold wadd; apply N.mod_small; exact NW). rewrite LW.
    split; cbn [g_low g_high g_threads g_ids g_begun g_bumps]; auto; try lia.
    - intros j t Hj. apply upd_cases in Hj as [(-> & -> & _)|(N & Hj)].
      + unfold t'. destruct (N.ltb_spec (g_low s) DANGER); cbn; repeat split; lia.
      + pose proof (A6 j t Hj) as Tj. destruct t; cbn in *; auto; repeat split; try tauto; try lia.
    - intros j k t u x Hj Hk Sj Sk. apply upd_cases in Hj as [(-> & -> & _)|(N & Hj)]; apply upd_cases in Hk as [(-> & -> & _)|(M & Hk)]; auto.
      + exfalso. rewrite ST in Sj. injection Sj as <-. pose proof (A6 k u Hk) as Tk. destruct u; cbn in *; try discriminate; injection Sk as ->; lia.
      + exfalso. rewrite ST in Sk. injection Sk as <-. pose proof (A6 j t Hj) as Tk. destruct t; cbn in *; try discriminate; injection Sj as ->; lia.
      + exact (A7 j k _ _ x Hj Hk Sj Sk).
    - intros j t r Hj Hr. apply upd_cases in Hj as [(-> & -> & _)|(N & Hj)]; [|exact (A8 j t r Hj Hr)]. rewrite ST. intros [= E]. pose proof (proj1 (A10 r Hr)). lia.
    - intros r Hr. destruct (A10 r Hr) as (B1 & B2 & B3 & B4 & B5). unfold rok. repeat split; try tauto; try lia; intros; apply B4; auto.
    - intros j t h r Hj B. apply upd_cases in Hj as [(-> & -> & _)|(N & Hj)]; [congruence|exact (A12 j t h r Hj B)].
    - intros j k t u h Hj Hk Bj Bk. apply upd_cases in Hj as [(-> & -> & _)|(N & Hj)]; [congruence|]. apply upd_cases in Hk as [(-> & -> & _)|(M & Hk)]; [congruence|]. exact (A13 j k _ _ h Hj Hk Bj Bk).
  Qed.
  Lemma step_inv : prompt (gen_step s i) -> exists b' hb' rets', inv (gen_step s i) b' hb' rets'.
  Proof.
    intros Q. destruct (nth_error (g_threads s) i) as [t|] eqn:H.
    2:{ exists b, hb, rets. unfold gen_step. now rewrite H. }
    destruct t as [|a l|a l h|a l|a l h].
    - exists b, hb, rets. now apply step_idle.
    - exists b, hb, rets. unfold gen_step. rewrite H. now apply step_low.
    - unfold gen_step. rewrite H. cbn zeta. destruct ((g_low s <? l) || (DANGER <=? g_low s)) eqn:E.
      + exists b, hb, rets. eapply step_again; eauto.
      + exists b, hb, (mkRet a l h :: rets). apply step_return; auto; lia.
    - exists b, hb, rets. unfold gen_step in *. rewrite H in *. apply step_zone; auto. exact (proj2 Q).
    - destruct (step_bumped a l h H) as (b' & hb' & X). exists b', hb', (mkRet a l h :: rets). unfold gen_step. now rewrite H.
  Qed.
End Step.
Lemma run_inv schedule : forall s b hb rets, inv s b hb rets -> prompt_run schedule s -> exists b' hb' rets', inv (gen_run schedule s) b' hb' rets'.
Proof.
  induction schedule as [|i schedule IH]; intros s b hb rets I P. { exists b, hb, rets. exact I. }
  destruct (step_inv s i b hb rets I (P 0%nat) (P 1%nat)) as (b1 & hb1 & rets1 & I1). apply (IH (gen_step s i) b1 hb1 rets1 I1). intros n. exact (P (S n)).
Qed.
Lemma prompt_unique threads schedule : prompt_run schedule (gen_new threads) -> NoDup (g_ids (gen_run schedule (gen_new threads))).
Proof. intros P. destruct (run_inv schedule _ _ _ _ (inv_new threads) P) as (b & hb & rets & I). rewrite (i_ids _ _ _ _ I). exact (i_nodup _ _ _ _ I). Qed.
