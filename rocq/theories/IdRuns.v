(* IdGenerator: runs with few attempts, and a run that returns an id twice. *)
From Verif Require Export IdProofs.
Open Scope N_scope.

(* while at most DANGER attempts have begun, the high word is 0 and the low word of an attempt is its number *)
Definition plain (s : gen) (t : thread) : Prop :=
  match t with Idle => True | Low a l => l = a /\ a < g_begun s | High a l h => l = a /\ a < g_begun s /\ h = 0 | Zone _ _ => False | Bumped _ _ _ => False end.
Record few (s : gen) (rets : list N) : Prop := {
  f_low : g_low s = g_begun s; f_high : g_high s = 0;
  f_threads : forall i t, nth_error (g_threads s) i = Some t -> plain s t;
  f_starts : forall i j t u a, nth_error (g_threads s) i = Some t -> nth_error (g_threads s) j = Some u -> started t = Some a -> started u = Some a -> i = j;
  f_fresh : forall i t r, nth_error (g_threads s) i = Some t -> In r rets -> started t <> Some r;
  f_ids : g_ids s = map (fun l => id_of l 0) rets;
  f_rets : forall r, In r rets -> r < g_begun s;
  f_nodup : NoDup rets }.
Lemma few_new n : few (gen_new n) [].
Proof.
  assert (E : forall i t, nth_error (repeat Idle n) i = Some t -> t = Idle). { intros i t H. apply nth_error_In in H. now apply repeat_spec in H. }
  split; cbn; try reflexivity; try tauto; try constructor.
  - intros i t H. rewrite (E i t H). exact I.
  - intros i j t u a H _ X. rewrite (E i t H) in X. discriminate.
Qed.
Lemma begun_mono s i : g_begun s <= g_begun (gen_step s i).
Proof.
  unfold gen_step. destruct (nth_error (g_threads s) i) as [t|]; [|lia]. destruct t; cbn [g_begun]; try lia.
  destruct ((g_low s <? low) || (DANGER <=? g_low s)); cbn [g_begun]; lia.
Qed.
Lemma begun_run schedule : forall s, g_begun s <= g_begun (gen_run schedule s).
Proof. induction schedule as [|i l IH]; intros s; [cbn; lia|]. change (gen_run (i :: l) s) with (gen_run l (gen_step s i)). pose proof (begun_mono s i). pose proof (IH (gen_step s i)). lia. Qed.
Lemma few_step s rets i : few s rets -> g_begun (gen_step s i) <= DANGER -> exists rets', few (gen_step s i) rets'.
Proof.
  intros F. unfold gen_step. destruct (nth_error (g_threads s) i) as [t|] eqn:H; [|intros _; now exists rets].
  destruct F as [F1 F2 F3 F4 F5 F6 F7 F8]. pose proof (F3 i t H) as T. pose proof zonelo. destruct t; cbn [plain] in T; try contradiction.
  - cbn [g_begun]. intros B. assert (L : (g_low s <? DANGER) = true) by (apply N.ltb_lt; lia). rewrite L. exists rets.
    assert (W : wadd 32 (g_low s) 1 = g_begun s + 1). { unfold wadd. rewrite N.mod_small by lia. lia. } rewrite W.
    split; cbn [g_low g_high g_threads g_ids g_begun g_bumps]; auto.
    + intros j t Hj. apply upd_cases in Hj as [(-> & -> & _)|(N & Hj)]; [cbn; lia|]. pose proof (F3 j t Hj) as U. destruct t; cbn in *; auto; lia.
    + intros j k t u x Hj Hk Sj Sk. apply upd_cases in Hj as [(-> & -> & _)|(N & Hj)]; apply upd_cases in Hk as [(-> & -> & _)|(M & Hk)]; auto.
      * cbn in Sj. pose proof (F3 k u Hk) as U. destruct u; cbn in *; try congruence; try contradiction; exfalso; injection Sj as <-; injection Sk as E; lia.
      * cbn in Sk. pose proof (F3 j t Hj) as U. destruct t; cbn in *; try congruence; try contradiction; exfalso; injection Sk as <-; injection Sj as E; lia.
      * exact (F4 j k _ _ x Hj Hk Sj Sk).
    + intros j t r Hj Hr. apply upd_cases in Hj as [(-> & -> & _)|(N & Hj)]; [|exact (F5 j t r Hj Hr)]. cbn. intros [= E]. pose proof (F7 r Hr). lia.
    + intros r Hr. pose proof (F7 r Hr). lia.
  - cbn [g_begun]. intros B. exists rets. destruct T as [-> T].
    split; cbn [g_low g_high g_threads g_ids g_begun g_bumps]; auto.
    + intros j t Hj. apply upd_cases in Hj as [(-> & -> & _)|(N & Hj)]; [cbn; auto|]. exact (F3 j t Hj).
    + intros j k t u x Hj Hk Sj Sk. apply upd_cases in Hj as [(-> & -> & _)|(N & Hj)]; apply upd_cases in Hk as [(-> & -> & _)|(M & Hk)]; auto.
      * exact (F4 i k _ _ x H Hk Sj Sk).
      * exact (F4 j i _ _ x Hj H Sj Sk).
      * exact (F4 j k _ _ x Hj Hk Sj Sk).
    + intros j t r Hj Hr. apply upd_cases in Hj as [(-> & -> & _)|(N & Hj)]; [exact (F5 i _ r H Hr)|exact (F5 j t r Hj Hr)].
  - destruct T as (-> & T & ->). destruct ((g_low s <? start) || (DANGER <=? g_low s)); cbn [g_begun]; intros B.
    + exists rets. split; cbn [g_low g_high g_threads g_ids g_begun g_bumps]; auto.
      * intros j t Hj. apply upd_cases in Hj as [(-> & -> & _)|(N & Hj)]; [exact I|]. exact (F3 j t Hj).
      * intros j k t u x Hj Hk Sj Sk. apply upd_cases in Hj as [(-> & -> & _)|(N & Hj)]; [discriminate|]. apply upd_cases in Hk as [(-> & -> & _)|(M & Hk)]; [discriminate|]. exact (F4 j k _ _ x Hj Hk Sj Sk).
      * intros j t r Hj Hr. apply upd_cases in Hj as [(-> & -> & _)|(N & Hj)]; [discriminate|exact (F5 j t r Hj Hr)].
    + exists (start :: rets). split; cbn [g_low g_high g_threads g_ids g_begun g_bumps]; auto.
      * intros j t Hj. apply upd_cases in Hj as [(-> & -> & _)|(N & Hj)]; [exact I|]. exact (F3 j t Hj).
      * intros j k t u x Hj Hk Sj Sk. apply upd_cases in Hj as [(-> & -> & _)|(N & Hj)]; [discriminate|]. apply upd_cases in Hk as [(-> & -> & _)|(M & Hk)]; [discriminate|]. exact (F4 j k _ _ x Hj Hk Sj Sk).
      * intros j t r Hj Hr. apply upd_cases in Hj as [(-> & -> & _)|(N & Hj)]; [discriminate|]. destruct Hr as [<-|Hr]; [|exact (F5 j t r Hj Hr)]. intros Sj. apply N. exact (F4 j i _ _ start Hj H Sj eq_refl).
      * cbn [map]. now rewrite F6.
      * intros r [<-|Hr]; auto.
      * constructor; auto. intros X. exact (F5 i _ start H X eq_refl).
Qed.
Lemma few_run schedule : forall s rets, few s rets -> g_begun (gen_run schedule s) <= DANGER -> exists rets', few (gen_run schedule s) rets'.
Proof.
  induction schedule as [|i l IH]; intros s rets F B; [now exists rets|]. change (gen_run (i :: l) s) with (gen_run l (gen_step s i)) in *.
  destruct (few_step s rets i F) as (r & F'); [|exact (IH _ r F' B)]. pose proof (begun_run l (gen_step s i)). lia.
Qed.
Lemma few_unique threads schedule : g_begun (gen_run schedule (gen_new threads)) <= DANGER -> NoDup (g_ids (gen_run schedule (gen_new threads))).
Proof.
  intros B. destruct (few_run schedule _ _ (few_new threads) B) as (r & F). rewrite (f_ids _ _ F).
  pose proof zonelo. pose proof (f_rets _ _ F) as R. pose proof (f_nodup _ _ F) as D.
  assert (R' : forall x, In x r -> x < 2 ^ 32) by (intros x Hx; specialize (R x Hx); lia). clear - R' D.
  induction r as [|x r IH]; cbn [map]; [constructor|]. inversion D as [|? ? N D']; subst. constructor.
  - intros X. apply in_map_iff in X as (y & E & Hy). apply id_inj in E as [E _]; [subst y; contradiction| |]; apply R'; cbn; auto.
  - apply IH; auto. intros y Hy. apply R'. now right.
Qed.

(* thread 0 has read the low word 0 and stops; thread 1 calls *)
Notation calls k := (concat (repeat [1; 1; 1]%nat k)).
Lemma calls_ok k : forall m begun ids, m + N.of_nat k <= DANGER ->
  exists begun' ids', gen_run (calls k) (mkGen m 0 [Low 0 0; Idle] ids begun 0) = mkGen (m + N.of_nat k) 0 [Low 0 0; Idle] ids' begun' 0.
Proof.
  induction k as [|k IH]; intros m begun ids B.
  - exists begun, ids. cbn [repeat concat gen_run fold_left]. f_equal. lia.
  - cbn [repeat concat]. unfold gen_run. rewrite fold_left_app. cbn [fold_left].
    assert (E : gen_step (mkGen m 0 [Low 0 0; Idle] ids begun 0) 1 = mkGen (m + 1) 0 [Low 0 0; Low begun m] ids (begun + 1) 0).
    { unfold gen_step. cbn [g_threads nth_error g_low g_high g_ids g_begun g_bumps upd]. pose proof zonelo.
      assert (L : (m <? DANGER) = true) by (apply N.ltb_lt; lia). rewrite L. unfold wadd. rewrite N.mod_small by lia. reflexivity. }
    rewrite E. clear E.
    change (gen_step (mkGen (m + 1) 0 [Low 0 0; Low begun m] ids (begun + 1) 0) 1) with (mkGen (m + 1) 0 [Low 0 0; High begun m 0] ids (begun + 1) 0).
    assert (E : exists ids', gen_step (mkGen (m + 1) 0 [Low 0 0; High begun m 0] ids (begun + 1) 0) 1 = mkGen (m + 1) 0 [Low 0 0; Idle] ids' (begun + 1) 0).
    { unfold gen_step. cbn [g_threads nth_error g_low g_high g_ids g_begun g_bumps upd]. destruct ((m + 1 <? m) || (DANGER <=? m + 1)); eexists; reflexivity. }
    destruct E as (ids' & ->). destruct (IH (m + 1) (begun + 1) ids') as (b & i & E); [lia|]. exists b, i. etransitivity; [exact E|]. f_equal; lia.
Qed.
(* the other thread's calls take the generator through the danger zone, and then both return the same id *)
Definition overtaken (k : nat) : list nat := (0 :: calls k ++ [1; 1; 1; 1; 1; 1; 0; 0])%nat.
Lemma overtaken_gen k : 1 + N.of_nat k = DANGER -> exists rest, g_ids (gen_run (overtaken k) (gen_new 2)) = id_of 0 1 :: id_of 0 1 :: rest.
Proof.
  intros K. unfold overtaken, gen_run. cbn [fold_left]. set (s := gen_step _ _). pose proof dangerpos as D. pose proof zonelo as Z. pose proof zonehi as Z'.
  assert (E : s = mkGen 1 0 [Low 0 0; Idle] [] 1 0).
  { unfold s, gen_step, gen_new. cbn [g_threads nth_error repeat g_low g_high g_ids g_begun g_bumps upd]. apply N.ltb_lt in D. rewrite D. reflexivity. }
  rewrite E. clear s E. rewrite fold_left_app. destruct (calls_ok k 1 1 []) as (b & ids & E); [lia|]. unfold gen_run in E. rewrite E. clear E.
  rewrite K. cbn [fold_left].
  assert (E : gen_step (mkGen DANGER 0 [Low 0 0; Idle] ids b 0) 1 = mkGen (DANGER + 1) 0 [Low 0 0; Zone b DANGER] ids (b + 1) 0).
  { unfold gen_step. cbn [g_threads nth_error g_low g_high g_ids g_begun g_bumps upd]. rewrite N.ltb_irrefl. unfold wadd. rewrite N.mod_small by lia. reflexivity. }
  rewrite E. clear E.
  change (gen_step (mkGen (DANGER + 1) 0 [Low 0 0; Zone b DANGER] ids (b + 1) 0) 1) with (mkGen (DANGER + 1) 1 [Low 0 0; Bumped b DANGER 0] ids (b + 1) 1).
  assert (E : gen_step (mkGen (DANGER + 1) 1 [Low 0 0; Bumped b DANGER 0] ids (b + 1) 1) 1 = mkGen 0 1 [Low 0 0; Idle] (id_of DANGER 0 :: ids) (b + 1) 1).
  { unfold gen_step. cbn [g_threads nth_error g_low g_high g_ids g_begun g_bumps upd]. assert (L : (DANGER + 1 <? DANGER) = false) by (apply N.ltb_ge; lia). rewrite L. reflexivity. }
  rewrite E. clear E. generalize (id_of DANGER 0 :: ids). intros l.
  assert (E : gen_step (mkGen 0 1 [Low 0 0; Idle] l (b + 1) 1) 1 = mkGen 1 1 [Low 0 0; Low (b + 1) 0] l (b + 1 + 1) 1).
  { unfold gen_step. cbn [g_threads nth_error g_low g_high g_ids g_begun g_bumps upd]. apply N.ltb_lt in D. rewrite D. reflexivity. }
  rewrite E. clear E.
  change (gen_step (mkGen 1 1 [Low 0 0; Low (b + 1) 0] l (b + 1 + 1) 1) 1) with (mkGen 1 1 [Low 0 0; High (b + 1) 0 1] l (b + 1 + 1) 1).
  assert (L : (DANGER <=? 1) = false) by (apply N.leb_gt; lia).
  assert (E : gen_step (mkGen 1 1 [Low 0 0; High (b + 1) 0 1] l (b + 1 + 1) 1) 1 = mkGen 1 1 [Low 0 0; Idle] (id_of 0 1 :: l) (b + 1 + 1) 1).
  { unfold gen_step. cbn [g_threads nth_error g_low g_high g_ids g_begun g_bumps upd]. rewrite L. reflexivity. }
  rewrite E. clear E.
  change (gen_step (mkGen 1 1 [Low 0 0; Idle] (id_of 0 1 :: l) (b + 1 + 1) 1) 0) with (mkGen 1 1 [High 0 0 1; Idle] (id_of 0 1 :: l) (b + 1 + 1) 1).
  exists l. unfold gen_step. cbn [g_threads nth_error g_low g_high g_ids g_begun g_bumps upd]. rewrite L. reflexivity.
Qed.
Lemma overtaken_twice : exists k rest, g_ids (gen_run (overtaken k) (gen_new 2)) = id_of 0 1 :: id_of 0 1 :: rest.
Proof.
  assert (K : exists k, 1 + N.of_nat k = DANGER). { pose proof dangerpos. generalize dependent DANGER. intros d D. exists (N.to_nat (d - 1)). lia. }
  destruct K as (k & K). exists k. exact (overtaken_gen k K).
Qed.
