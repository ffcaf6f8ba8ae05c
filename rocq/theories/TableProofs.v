(* Wavetable synthesis: proofs about reading and playing. *)
From Coq Require Import Reals Lra Lia Psatz.
From Verif Require Export OscProofs TableSpec.
Local Open Scope R_scope.

Notation pit tb i := (fst (nth i tb (0, []))).
Notation wav tb i := (snd (nth i tb (0, []))).
Lemma index_ok {A} (l : list A) i d : (i < length l)%nat -> index l i = Val (nth i l d).
Proof. intros H. unfold index. rewrite (nth_error_nth' l i d H). reflexivity. Qed.
Lemma masked_ok t i : (exists k, (k <= 32)%nat /\ length t = (2 ^ k)%nat) -> masked t i = Val (cyclic t i).
Proof.
  intros (k & Hk & E). unfold masked, cyclic. assert (P : Z.of_nat (length t) = (2 ^ Z.of_nat k)%Z) by (rewrite E, Nat2Z.inj_pow; reflexivity).
  rewrite P. replace (2 ^ Z.of_nat k - 1)%Z with (Z.ones (Z.of_nat k)) by (rewrite Z.ones_equiv; lia). rewrite Z.land_ones by lia.
  apply index_ok. assert (0 <= i mod 2 ^ Z.of_nat k < 2 ^ Z.of_nat k)%Z by (apply Z.mod_pos_bound; lia). lia.
Qed.
Lemma points_ok t i w : (exists k, (k <= 32)%nat /\ length t = (2 ^ k)%nat) -> points Rnum_ops t i w = Val (optimal4x44 Rnum_ops (cyclic t (i - 1)) (cyclic t i) (cyclic t (i + 1)) (cyclic t (i + 2)) w).
Proof. intros H. unfold points. now rewrite !masked_ok by auto. Qed.
Lemma len_range (t : list R) phase : (exists k, (k <= 32)%nat /\ length t = (2 ^ k)%nat) -> 0 <= phase < 1 -> 0 <= INR (length t) * phase < IZR (2 ^ 64).
Proof.
  intros (k & Hk & E) H. assert (B : INR (length t) <= IZR (2 ^ 32)). { rewrite E, INR_IZR_INZ, Nat2Z.inj_pow. apply IZR_le. change (Z.of_nat 2) with 2%Z. apply Z.pow_le_mono_r; lia. }
  pose proof (pos_INR (length t)). assert (IZR (2 ^ 32) < IZR (2 ^ 64)) by (apply IZR_lt; reflexivity). split; nra.
Qed.
Lemma at_ok t phase : (exists k, (k <= 32)%nat /\ length t = (2 ^ k)%nat) -> 0 <= phase < 1 -> at_ Rnum_ops t phase = Val (sample t phase).
Proof.
  intros H Hp. pose proof (len_range t phase H Hp) as B. unfold at_, unchecked_usize. cbn [nofZ nmul nltb nfloor Rnum_ops]. rewrite <- INR_IZR_INZ. set (p := INR (length t) * phase) in *.
  destruct (Rlt_dec (-1) p); [|lra]. destruct (Rlt_dec p (IZR (2 ^ 64))); [|lra]. cbn [andb bind]. destruct (base_Int_part p) as [L U].
  assert (0 <= Int_part p)%Z. { assert (-1 < Int_part p)%Z by (apply lt_IZR; lra). lia. } rewrite Z.max_r by auto. rewrite points_ok by auto. reflexivity.
Qed.
Lemma at_simd_ok t phase : (exists k, (k <= 32)%nat /\ length t = (2 ^ k)%nat) -> 0 <= phase < 1 -> at_simd Rnum_ops t phase = Val (sample t phase).
Proof.
  intros H Hp. pose proof (len_range t phase H Hp) as B. unfold at_simd, trunc. cbn [nofZ nmul nltb nfloor Rnum_ops]. rewrite <- INR_IZR_INZ. set (p := INR (length t) * phase) in *.
  destruct (Rlt_dec p 0); [lra|]. rewrite points_ok by auto. reflexivity.
Qed.
(* ---- search ---- *)
Section Tables.
  Variable tb : list (R * list R).
  Hypothesis ok : tables_ok tb.
  Notation n := (length tb).
  Notation p i := (pit tb i).
  Lemma rise i j : (i < j < n)%nat -> p i < p j. Proof. destruct ok as (_ & H & _). apply H. Qed.
  Lemma three : (3 <= n)%nat. Proof. apply ok. Qed.
  Lemma pow_len i : (i < n)%nat -> exists k, (k <= 32)%nat /\ length (wav tb i) = (2 ^ k)%nat.
  Proof. intros H. destruct ok as (_ & _ & F). rewrite Forall_forall in F. apply (F (nth i tb (0, []))). now apply nth_In. Qed.
  Definition found (f : R) (r : nat) : Prop := (r <= n - 3)%nat /\ (r = 0%nat \/ p r <= f) /\ (r = (n - 3)%nat \/ f <= p (r + 1)).
  Lemma search_ok f : forall fuel i0 i1, (i1 - i0 <= fuel)%nat -> (i0 <= i1 <= n - 3)%nat -> (i0 = 0%nat \/ p i0 <= f) -> (i1 = (n - 3)%nat \/ f < p i1) ->
    exists r, search Rnum_ops fuel tb f i0 i1 = Val r /\ (r <= n - 3)%nat /\ (r = 0%nat \/ p r <= f) /\ (r = (n - 3)%nat \/ f < p (r + 1)).
  Proof.
    pose proof three as T. induction fuel as [|fuel IH]; intros i0 i1 Hf Hi H0 H1; cbn [search].
    - assert (i0 = i1) by lia. subst i1. rewrite Nat.ltb_irrefl. exists i0. repeat split; try lia; auto. destruct H1 as [H1|H1]; auto. right. pose proof (rise i0 (i0 + 1) ltac:(lia)). lra.
    - destruct (Nat.ltb_spec i0 i1) as [L|L].
      + set (i := ((i0 + i1) / 2)%nat). assert (B : (i0 <= i < i1)%nat). { unfold i. split; [apply Nat.div_le_lower_bound; lia|apply Nat.div_lt_upper_bound; lia]. }
        rewrite (index_ok tb i (0, [])) by lia. cbn [bind nltb Rnum_ops]. destruct (Rlt_dec f (p i)) as [C|C]. { apply IH; auto; lia. }
        rewrite (index_ok tb (i + 1) (0, [])) by lia. cbn [bind]. destruct (Rlt_dec f (p (i + 1))) as [D|D].
        * exists i. repeat split; try lia; right; lra.
        * apply IH; auto; try lia. right. lra.
      + assert (i0 = i1) by lia. subst i1. exists i0. repeat split; try lia; auto. destruct H1 as [H1|H1]; auto. right. pose proof (rise i0 (i0 + 1) ltac:(lia)). lra.
  Qed.
  Lemma table_index_ok hint f : (hint <= n - 3)%nat -> exists r, table_index Rnum_ops tb hint f = Val r /\ found f r.
  Proof.
    intros H. pose proof three as T. unfold table_index. rewrite (index_ok tb hint (0, [])) by lia. cbn [bind nleb Rnum_ops].
    assert (S : exists r, (if (n <? 3)%nat then Panics else search Rnum_ops n tb f 0 (n - 3)) = Val r /\ found f r).
    { destruct (Nat.ltb_spec n 3); [lia|]. destruct (search_ok f n 0 (n - 3)) as (r & E & A & B & C); auto; try lia. exists r. split; auto. unfold found. repeat split; auto. destruct C; auto. right. lra. }
    destruct (Rle_dec (p hint) f) as [A|A]; [|exact S]. rewrite (index_ok tb (hint + 1) (0, [])) by lia. cbn [bind]. destruct (Rle_dec f (p (hint + 1))) as [B|B]; [|exact S].
    exists hint. split; auto. unfold found. auto.
  Qed.
  (* asking again at the same frequency gives the same index *)
  Lemma table_index_again hint f r : (hint <= n - 3)%nat -> table_index Rnum_ops tb hint f = Val r -> table_index Rnum_ops tb r f = Val r.
  Proof.
    intros H E. pose proof three as T. destruct (table_index_ok hint f H) as (r' & E' & F). rewrite E in E'. injection E' as <-. destruct F as (F1 & F2 & F3).
    unfold table_index. rewrite (index_ok tb r (0, [])) by lia. cbn [bind nleb Rnum_ops].
    assert (K : (p r <= f /\ f <= p (r + 1)) \/ (if (n <? 3)%nat then Panics else search Rnum_ops n tb f 0 (n - 3)) = Val r).
    { unfold table_index in E. rewrite (index_ok tb hint (0, [])) in E by lia. cbn [bind nleb Rnum_ops] in E.
      destruct (Rle_dec (p hint) f) as [A|A]; [|right; exact E]. rewrite (index_ok tb (hint + 1) (0, [])) in E by lia. cbn [bind] in E. destruct (Rle_dec f (p (hint + 1))) as [B|B]; [|right; exact E].
      left. injection E as <-. auto. }
    destruct (Rle_dec (p r) f) as [A|A].
    - rewrite (index_ok tb (r + 1) (0, [])) by lia. cbn [bind]. destruct (Rle_dec f (p (r + 1))) as [B|B]; [reflexivity|]. destruct K as [[K1 K2]|K]; [lra|exact K].
    - cbn [bind]. destruct K as [[K1 K2]|K]; [lra|exact K].
  Qed.
End Tables.
(* ---- reading is the level ---- *)
Lemma limit01_clamp x : clamp01 Rnum_ops x = limit01 x.
Proof. unfold clamp01, limit01. cbn [nmin nmax n0 n1 nofZ Rnum_ops]. unfold Rmin, Rmax. destruct (Rle_dec x 0); destruct (Rle_dec 1 x); destruct (Rle_dec _ _); lra. Qed.
Definition blend (tb : list (R * list R)) (r : nat) (f phase : R) : R :=
  let w := limit01 ((f - pit tb r) / (pit tb (r + 1) - pit tb r)) in (1 - w) * sample (wav tb (r + 1)) phase + w * sample (wav tb (r + 2)) phase.
Lemma blend_level : forall r tb f phase, rising tb -> (r + 2 < length tb)%nat -> (r = 0%nat \/ pit tb r <= f) -> (r = (length tb - 3)%nat \/ f <= pit tb (r + 1)) -> blend tb r f phase = level tb f phase.
Proof.
  induction r as [|r IH]; intros tb f phase Hr Hl H1 H2.
  - destruct tb as [|[p0 t0] [|[p1 t1] [|[p2 t2] more]]]; cbn [length] in Hl; try lia. unfold blend, level. cbn [nth fst snd Nat.add] in *.
    destruct (Rle_dec f p1) as [A|A]; [reflexivity|]. destruct more; [reflexivity|]. destruct H2 as [H2|H2]; [cbn [length] in H2; lia|lra].
  - destruct tb as [|[p0 t0] tb]; cbn [length] in Hl; try lia. assert (Hr' : rising tb) by (intros i j Hij; apply (Hr (S i) (S j)); cbn [length]; lia).
    assert (Hp : pit tb r <= f) by (destruct H1 as [H1|H1]; [lia|exact H1]). assert (H2' : r = (length tb - 3)%nat \/ f <= pit tb (r + 1)) by (destruct H2 as [H2|H2]; [left; cbn [length] in H2; lia|right; exact H2]).
    change (blend ((p0, t0) :: tb) (S r) f phase) with (blend tb r f phase). rewrite (IH tb f phase Hr') by (auto; lia).
    destruct tb as [|[p1 t1] [|[p2 t2] more]]; cbn [length] in Hl; try lia. destruct more as [|[p3 t3] more]; [cbn [length] in Hl; lia|].
    change (level ((p0, t0) :: (p1, t1) :: (p2, t2) :: (p3, t3) :: more) f phase) with (if (if Rle_dec f p1 then true else false) then let w := limit01 ((f - p0) / (p1 - p0)) in (1 - w) * sample t1 phase + w * sample t2 phase else level ((p1, t1) :: (p2, t2) :: (p3, t3) :: more) f phase).
    destruct (Rle_dec f p1) as [A|A]; [|reflexivity].
    (* then f = p1 and r = 0 *)
    assert (P1 : p1 <= pit ((p1, t1) :: (p2, t2) :: (p3, t3) :: more) r). { destruct r; [cbn; lra|]. left. cbn [length] in Hl. apply (Hr' 0%nat (S r)). cbn [length]. lia. }
    assert (f = p1) by lra. subst f. assert (p0 < p1) by (apply (Hr 0%nat 1%nat); cbn [length]; lia). assert (p1 < p2) by (apply (Hr 1%nat 2%nat); cbn [length]; lia).
    cbn [level]. destruct (Rle_dec p1 p2); [|lra]. cbn zeta. replace ((p1 - p1) / (p2 - p1)) with 0 by (field; lra). replace ((p1 - p0) / (p1 - p0)) with 1 by (field; lra).
    unfold limit01. destruct (Rle_dec 0 0); [|lra]. destruct (Rle_dec 1 0); [lra|]. destruct (Rle_dec 1 1); [|lra]. ring.
Qed.
Lemma read_level look tb hint f phase : tables_ok tb -> (forall t, (exists k, (k <= 32)%nat /\ length t = (2 ^ k)%nat) -> look t phase = Val (sample t phase)) -> (hint <= length tb - 3)%nat ->
  exists r, table_index Rnum_ops tb hint f = Val r /\ (r <= length tb - 3)%nat /\ table_read Rnum_ops look tb hint f phase = Val (level tb f phase, r).
Proof.
  intros ok L H. pose proof (three tb ok) as T. destruct (table_index_ok tb ok hint f H) as (r & E & F1 & F2 & F3). exists r. split; [exact E|]. split; [exact F1|].
  unfold table_read. rewrite E. cbn [bind]. rewrite (index_ok tb r (0, [])), (index_ok tb (r + 1) (0, [])), (index_ok tb (r + 2) (0, [])) by lia. cbn [bind].
  rewrite !L by (apply pow_len; auto; lia). cbn [bind]. do 2 f_equal. rewrite <- (blend_level r tb f phase) by (auto; try lia; apply ok). unfold blend. rewrite limit01_clamp. reflexivity.
Qed.
Lemma too_few tb hint f phase : (length tb < 3)%nat -> readR tb hint f phase = Panics \/ readR tb hint f phase = Undefined.
Proof.
  intros H. unfold table_read, table_index. destruct tb as [|[p0 t0] [|[p1 t1] [|t2 tb]]]; cbn [length] in H; try lia.
  - left. destruct hint; reflexivity.
  - left. destruct hint as [|hint]; [|destruct hint; reflexivity]. cbn [index nth_error bind Nat.add fst nleb Rnum_ops length Nat.ltb Nat.leb]. destruct (Rle_dec p0 f); reflexivity.
  - destruct hint as [|[|hint]]; cbn [index nth_error bind Nat.add fst nleb Rnum_ops length Nat.ltb Nat.leb].
    + destruct (Rle_dec p0 f); [|left; reflexivity]. cbn [bind]. destruct (Rle_dec f p1); cbn [bind]; [|left; reflexivity].
      cbn [index nth_error Nat.add bind]. destruct (at_ Rnum_ops (snd (p1, t1)) phase); cbn [bind]; auto.
    + destruct (Rle_dec p1 f); left; reflexivity.
    + left. destruct hint; reflexivity.
Qed.
(* what is heard of a table is at most its pitch *)
Lemma level_band tb f phase : tables_ok tb -> f <= pit tb (length tb - 1) -> exists j w, (j + 1 < length tb)%nat /\ 0 <= w <= 1 /\ level tb f phase = (1 - w) * sample (wav tb j) phase + w * sample (wav tb (j + 1)) phase /\
  (w < 1 -> f <= pit tb j) /\ f <= pit tb (j + 1).
Proof.
  intros ok Hf. pose proof (three tb ok) as T. destruct (table_index_ok tb ok 0 f ltac:(lia)) as (r & _ & F1 & F2 & F3). exists (r + 1)%nat, (limit01 ((f - pit tb r) / (pit tb (r + 1) - pit tb r))).
  replace (r + 1 + 1)%nat with (r + 2)%nat by lia. pose proof (rise tb ok r (r + 1) ltac:(lia)) as R1. pose proof (rise tb ok (r + 1) (r + 2) ltac:(lia)) as R2.
  split; [lia|]. split; [unfold limit01; destruct (Rle_dec _ 0); [lra|]; destruct (Rle_dec 1 _); lra|]. split; [symmetry; apply blend_level; auto; try lia; apply ok|].
  assert (F : f <= pit tb (r + 1) \/ (r + 2 = length tb - 1)%nat) by (destruct F3; [right; lia|auto]).
  split.
  - intros W. destruct (Rle_dec f (pit tb (r + 1))) as [A|A]; [exact A|]. exfalso. revert W. unfold limit01. assert (1 <= (f - pit tb r) / (pit tb (r + 1) - pit tb r)). { apply (Rmult_le_reg_r (pit tb (r + 1) - pit tb r)); [lra|]. unfold Rdiv. rewrite Rmult_assoc, Rinv_l by lra. lra. }
    destruct (Rle_dec _ 0); [lra|]. destruct (Rle_dec 1 _); lra.
  - destruct F as [F|F]; [lra|]. rewrite F. exact Hf.
Qed.

(* ---- WaveSynth ---- *)
Section Synth.
  Variable tb : list (R * list R).
  Hypothesis ok : tables_ok tb.
  Notation n3 := (length tb - 3)%nat.
  Lemma tick_ok s f : (sy_hint s <= n3)%nat -> let p := frac (sy_phase s + f * sy_sd s) in exists h, table_index Rnum_ops tb (sy_hint s) (Rabs f) = Val h /\ (h <= n3)%nat /\
    synth_tick Rnum_ops tb s f = Val (synth_at s p h, (level tb (Rabs f) p, p)).
  Proof.
    intros H p. destruct (read_level (at_ Rnum_ops) tb (sy_hint s) (Rabs f) p ok (fun t Ht => at_ok t p Ht (frac_range _)) H) as (h & E & Hh & Er). exists h. split; [exact E|]. split; [exact Hh|].
    unfold synth_tick. change (wrap Rnum_ops (nadd Rnum_ops (sy_phase s) (nmul Rnum_ops f (sy_sd s)))) with p. change (nabs Rnum_ops f) with (Rabs f). rewrite Er. reflexivity.
  Qed.
  Lemma run_ok : forall l s, (sy_hint s <= n3)%nat -> exists s' o, synth_runR tb s l = Val (s', o) /\ (sy_hint s' <= n3)%nat /\ length o = length l /\
    (forall k f, nth_error l k = Some f -> let p := frac (sy_phase s + turns (sy_sd s) (firstn (S k) l)) in nth_error o k = Some (level tb (Rabs f) p, p)) /\
    (l <> [] -> sy_phase s' = frac (sy_phase s + turns (sy_sd s) l)) /\ (l = [] -> s' = s) /\ sy_sd s' = sy_sd s.
  Proof.
    induction l as [|f l IH]; intros s H. { exists s, []. cbn [synth_run]. refine (conj eq_refl (conj H (conj eq_refl (conj _ (conj _ (conj _ eq_refl)))))); auto; try easy. intros k f E. destruct k; discriminate. }
    destruct (tick_ok s f H) as (h & E & Hh & Et). cbn [synth_run]. rewrite Et. cbn [bind]. set (p := frac (sy_phase s + f * sy_sd s)). set (s1 := synth_at s p h).
    destruct (IH s1 Hh) as (s' & o & Er & H' & L & O & P & N & D). rewrite Er. cbn [bind]. exists s', ((level tb (Rabs f) p, p) :: o). split; [reflexivity|]. split; [exact H'|]. split; [cbn [length]; now rewrite L|].
    split; [|split; [|split]].
    - intros k g Hk. destruct k as [|k]; cbn [nth_error firstn turns] in *. { injection Hk as ->. cbn [firstn turns]. rewrite Rplus_0_r. reflexivity. }
      rewrite (O k g Hk). cbn [sy_phase sy_sd synth_at s1]. unfold p. rewrite frac_frac. cbn zeta. rewrite (Rplus_assoc (sy_phase s)). reflexivity.
    - intros _. cbn [turns]. destruct l as [|g l]; [rewrite N by reflexivity; cbn [turns sy_phase synth_at s1]; unfold p; now rewrite Rplus_0_r|]. rewrite P by discriminate. cbn [sy_phase sy_sd synth_at s1]. unfold p. rewrite frac_frac. now rewrite Rplus_assoc.
    - discriminate.
    - exact D.
  Qed.
  Lemma synth_run_app a b s : synth_runR tb s (a ++ b) = do (s1, o1) <- synth_runR tb s a; do (s2, o2) <- synth_runR tb s1 b; Val (s2, o1 ++ o2).
  Proof.
    revert s. induction a as [|f a IH]; intros s; cbn [app synth_run bind]. { destruct (synth_runR tb s b) as [[s2 o2]| |]; reflexivity. }
    destruct (synth_tick Rnum_ops tb s f) as [[s1 y]| |]; cbn [bind]; auto. rewrite IH. destruct (synth_runR tb s1 a) as [[s2 o2]| |]; cbn [bind]; auto. destruct (synth_runR tb s2 b) as [[s3 o3]| |]; reflexivity.
  Qed.
  (* the hint does not matter *)
  Lemma run_hint : forall l s h, (sy_hint s <= n3)%nat -> (h <= n3)%nat -> exists s1 s2 o, synth_runR tb s l = Val (s1, o) /\ synth_runR tb (synth_at s (sy_phase s) h) l = Val (s2, o).
  Proof.
    intros l s h H1 H2. destruct (run_ok l s H1) as (s1 & o1 & E1 & _ & L1 & O1 & _). destruct (run_ok l (synth_at s (sy_phase s) h) H2) as (s2 & o2 & E2 & _ & L2 & O2 & _).
    exists s1, s2, o1. split; [exact E1|]. rewrite E2. do 2 f_equal. apply (nth_ext _ _ (0, 0) (0, 0)); [congruence|]. intros k Hk. rewrite L2 in Hk. destruct (nth_error l k) as [f|] eqn:E; [|apply nth_error_None in E; lia].
    specialize (O1 k f E). specialize (O2 k f E). cbn [sy_phase sy_sd synth_at] in O2. cbn zeta in O1, O2. apply (nth_error_nth _ _ (0, 0)) in O1. apply (nth_error_nth _ _ (0, 0)) in O2. congruence.
  Qed.
  (* SIMD floor *)
  Lemma floor_simd_ok x : frac x < 9999999 / 10000000 -> floor_simd Rnum_ops x = IZR (Int_part x).
  Proof.
    intros H. pose proof (frac_range x) as [R0 _]. unfold frac in H, R0. set (k := Int_part x) in *. unfold floor_simd, round_even. cbn [nofZ nsub ndiv nltb n1 nfloor Rnum_ops]. f_equal.
    set (y := x - 4999999 / 10000000). destruct (Rle_lt_dec (4999999 / 10000000) (x - IZR k)) as [A|A].
    - assert (Y : Int_part y = k) by (apply int_unique; unfold y; lra). rewrite Y. destruct (Rlt_dec (y - IZR k) (1 / 2)) as [B|B]; [reflexivity|]. unfold y in B. lra.
    - assert (Y : Int_part y = (k - 1)%Z) by (apply int_unique; rewrite minus_IZR; unfold y; lra). rewrite Y. rewrite minus_IZR. destruct (Rlt_dec (y - (IZR k - 1)) (1 / 2)) as [B|B]; [unfold y in B; lra|].
      destruct (Rlt_dec (1 / 2) (y - (IZR k - 1))) as [C|C]; [lia|unfold y in C; lra].
  Qed.
  Lemma word_ok F hint h : (hint <= n3)%nat -> table_index Rnum_ops tb hint F = Val h -> forall l x s, sy_phase s = frac x -> sy_hint s = hint \/ sy_hint s = h -> Forall (fun f => Rabs f = F) l ->
    (forall k, (0 < k <= length l)%nat -> frac (x + turns (sy_sd s) (firstn k l)) < 9999999 / 10000000) ->
    let '(e, ps) := word_phases Rnum_ops (sy_sd s) x l in exists o, e = x + turns (sy_sd s) l /\
      word_reads Rnum_ops tb hint F ps = Val (o, match l with [] => hint | _ => h end) /\ synth_runR tb s l = Val (synth_at s (frac e) (match l with [] => sy_hint s | _ => h end), o).
  Proof.
    intros Hh Hi. assert (Hr : (h <= n3)%nat) by (destruct (table_index_ok tb ok hint F Hh) as (r & E & B & _); rewrite Hi in E; injection E as ->; exact B).
    induction l as [|f l IH]; intros x s P Q A C; cbn [word_phases].
    - exists []. split; [cbn [turns]; ring|]. split; [reflexivity|]. cbn [synth_run]. rewrite <- P. destruct s; reflexivity.
    - apply Forall_cons_iff in A. destruct A as [A1 A2]. set (x' := nadd Rnum_ops x (nmul Rnum_ops f (sy_sd s))). change (nadd Rnum_ops x (nmul Rnum_ops f (sy_sd s))) with (x + f * sy_sd s) in x'.
      set (s1 := synth_at s (frac x') h). specialize (IH x' s1 eq_refl (or_intror eq_refl) A2).
      assert (C' : forall k, (0 < k <= length l)%nat -> frac (x' + turns (sy_sd s1) (firstn k l)) < 9999999 / 10000000).
      { intros k Hk. specialize (C (S k) ltac:(cbn [length]; lia)). cbn [firstn turns] in C. unfold x', s1. cbn [sy_sd synth_at]. now rewrite Rplus_assoc. }
      specialize (IH C'). change (sy_sd s1) with (sy_sd s) in IH. destruct (word_phases Rnum_ops (sy_sd s) x' l) as [e ps]. destruct IH as (o & Ee & Ew & Er).
      assert (Fx : x' - floor_simd Rnum_ops x' = frac x'). { rewrite floor_simd_ok; [reflexivity|]. specialize (C 1%nat ltac:(cbn [length]; lia)). cbn [firstn turns] in C. now rewrite Rplus_0_r in C. }
      exists ((level tb F (frac x'), frac x') :: o). split; [rewrite Ee; cbn [turns]; unfold x'; ring|]. split.
      + cbn [word_reads]. change (nsub Rnum_ops x' (floor_simd Rnum_ops x')) with (x' - floor_simd Rnum_ops x'). rewrite Fx.
        destruct (read_level (at_simd Rnum_ops) tb hint F (frac x') ok (fun t Ht => at_simd_ok t (frac x') Ht (frac_range _)) Hh) as (r & E1 & _ & E2). rewrite Hi in E1. injection E1 as <-. rewrite E2. cbn [bind]. rewrite Ew. reflexivity.
      + cbn [synth_run]. assert (Hs : (sy_hint s <= n3)%nat) by (destruct Q as [-> | ->]; auto). destruct (tick_ok s f Hs) as (h' & E1 & _ & E2). rewrite A1 in E1, E2.
        assert (h' = h). { destruct Q as [Q|Q]; rewrite Q in E1; [congruence|]. rewrite (table_index_again tb ok hint F h Hh Hi) in E1. congruence. } subst h'.
        rewrite E2. cbn [bind]. rewrite P, frac_frac. change (synth_at s (frac (x + f * sy_sd s)) h) with s1. rewrite Er. cbn [bind]. do 2 f_equal. unfold s1, synth_at. cbn. destruct l; reflexivity.
  Qed.
  Lemma turns_firstn_skip sd a b (l : list R) : turns sd (firstn (a + b) l) = turns sd (firstn a l) + turns sd (firstn b (skipn a l)).
  Proof. revert l. induction a as [|a IH]; intros l; cbn [firstn skipn Nat.add turns]; [ring|]. destruct l as [|f l]; [rewrite firstn_nil; cbn [turns]; ring|]. cbn [turns firstn]. rewrite IH. ring. Qed.
  Lemma words_ok : forall m l x s, (8 * m <= length l)%nat -> sy_phase s = frac x -> (sy_hint s <= n3)%nat -> steady m l -> (forall k, (0 < k <= 8 * m)%nat -> frac (x + turns (sy_sd s) (firstn k l)) < 9999999 / 10000000) ->
    exists e h o, synth_words Rnum_ops tb m (sy_sd s) x (sy_hint s) l = Val (e, h, o) /\ synth_runR tb s (firstn (8 * m) l) = Val (synth_at s (frac e) h, o).
  Proof.
    induction m as [|m IH]; intros l x s Hl P Hh S C.
    - exists x, (sy_hint s), []. cbn [synth_words firstn Nat.mul synth_run]. split; [reflexivity|]. rewrite <- P. destruct s; reflexivity.
    - destruct S as [S1 S2]. destruct (table_index_ok tb ok (sy_hint s) (Rabs (hd 0 l)) Hh) as (h & Eh & Bh & _).
      pose proof (word_ok (Rabs (hd 0 l)) (sy_hint s) h Hh Eh (firstn 8 l) x s P (or_introl eq_refl) S1) as W. cbn [synth_words]. change (n0 Rnum_ops) with 0. change (nabs Rnum_ops (hd 0 l)) with (Rabs (hd 0 l)).
      destruct (word_phases Rnum_ops (sy_sd s) x (firstn 8 l)) as [x' ps]. destruct W as (o & Ee & Ew & Er).
      { intros k Hk. rewrite firstn_length in Hk. rewrite firstn_firstn. replace (Nat.min k 8) with k by lia. apply C. lia. }
      assert (NE : exists f l', firstn 8 l = f :: l') by (destruct l as [|f l]; [cbn in Hl; lia|cbn; eauto]). destruct NE as (f & l' & NE). rewrite NE in Ew, Er. rewrite Ew. cbn [bind].
      set (s1 := synth_at s (frac x') h). destruct (IH (skipn 8 l) x' s1) as (e & h2 & o2 & E1 & E2); auto.
      + rewrite skipn_length. lia.
      + intros k Hk. cbn [sy_sd synth_at s1]. rewrite Ee. specialize (C (8 + k)%nat ltac:(lia)). rewrite turns_firstn_skip in C. now rewrite Rplus_assoc.
      + change (sy_sd s1) with (sy_sd s) in E1. change (sy_hint s1) with h in E1. rewrite E1. cbn [bind]. exists e, h2, (o ++ o2). split; [reflexivity|].
        replace (firstn (8 * S m) l) with (firstn 8 l ++ firstn (8 * m) (skipn 8 l)).
        * rewrite synth_run_app, NE, Er. cbn [bind]. fold s1. rewrite E2. reflexivity.
        * replace (8 * S m)%nat with (8 + 8 * m)%nat by lia. rewrite <- (firstn_skipn 8 l) at 3. rewrite firstn_app. rewrite firstn_firstn. replace (Nat.min (8 + 8 * m) 8) with 8%nat by lia.
          rewrite firstn_length. replace (8 + 8 * m - Nat.min 8 (length l))%nat with (8 * m)%nat by lia. reflexivity.
  Qed.
  Lemma process_ok l s : 0 <= sy_phase s < 1 -> (sy_hint s <= n3)%nat -> steady (length l / 8) l -> clear_of_end s l -> synth_processR tb s l = synth_runR tb s l.
  Proof.
    intros P Hh S C. unfold synth_process. set (m := (length l / 8)%nat) in *. assert (Hm : (8 * m <= length l)%nat) by (unfold m; apply Nat.mul_div_le; lia).
    destruct (words_ok m l (sy_phase s) s Hm) as (e & h & o & E1 & E2); auto. { now rewrite frac_id. } { intros k Hk. apply C. lia. }
    rewrite E1. cbn [bind fst snd]. change (wrap Rnum_ops e) with (frac e). rewrite <- (firstn_skipn (8 * m) l) at 2. rewrite synth_run_app, E2. reflexivity.
  Qed.
End Synth.
(* ---- PhaseSynth ---- *)
Lemma circular_min p q : 0 <= p < 1 -> 0 <= q < 1 -> Rmin (Rabs (p - q)) (Rmin (Rabs (p - 1 - q)) (Rabs (p + 1 - q))) = circular p q.
Proof.
  intros Hp Hq. unfold circular. assert (F : frac (p - q) = if Rle_dec q p then p - q else p - q + 1).
  { destruct (Rle_dec q p); [apply frac_id; lra|]. rewrite <- (frac_shift (p - q) 1). apply frac_id. change (IZR 1) with 1. lra. }
  rewrite F. unfold Rmin, Rabs. destruct (Rle_dec q p); repeat destruct (Rcase_abs _); repeat destruct (Rle_dec _ _); lra.
Qed.
Lemma circular_range p q : 0 <= circular p q <= 1 / 2.
Proof. unfold circular. pose proof (frac_range (p - q)). destruct (Rle_dec _ _); lra. Qed.
Section Phase.
  Variable tb : list (R * list R).
  Hypothesis ok : tables_ok tb.
  Lemma ptick_ok s x : (ps_hint s <= length tb - 3)%nat -> 0 <= ps_phase s < 1 -> let p := frac x in exists h, (h <= length tb - 3)%nat /\
    psynth_tick Rnum_ops tb s x = Val (mkPsynth p true h (ps_sr s), level tb (psynth_freqs (if ps_ready s then Some (ps_phase s) else None) p * ps_sr s) p).
  Proof.
    intros H P p. unfold psynth_tick. change (wrap Rnum_ops x) with p. set (d := if ps_ready s then _ else _). assert (D : d = psynth_freqs (if ps_ready s then Some (ps_phase s) else None) p).
    { unfold d. destruct (ps_ready s); [|reflexivity]. cbn [psynth_freqs]. rewrite <- circular_min by (auto; apply frac_range). reflexivity. }
    rewrite D. set (F := nmul Rnum_ops _ _). destruct (read_level (at_ Rnum_ops) tb (ps_hint s) F p ok (fun t Ht => at_ok t p Ht (frac_range _)) H) as (h & _ & Hh & Er). exists h. split; [exact Hh|]. rewrite Er. reflexivity.
  Qed.
  Lemma prun_ok : forall l s, (ps_hint s <= length tb - 3)%nat -> 0 <= ps_phase s < 1 -> exists s' o, psynth_runR tb s l = Val (s', o) /\ (ps_hint s' <= length tb - 3)%nat /\ 0 <= ps_phase s' < 1 /\ length o = length l /\
    forall k x, nth_error l k = Some x -> nth_error o k = Some (level tb (psynth_freqs (match k with O => if ps_ready s then Some (ps_phase s) else None | S j => option_map frac (nth_error l j) end) (frac x) * ps_sr s) (frac x)).
  Proof.
    induction l as [|x l IH]; intros s H P. { exists s, []. cbn [psynth_run]. refine (conj eq_refl (conj H (conj P (conj eq_refl _)))). intros [|k] x E; discriminate. }
    destruct (ptick_ok s x H P) as (h & Hh & E). cbn [psynth_run]. rewrite E. cbn [bind]. set (s1 := mkPsynth (frac x) true h (ps_sr s)). destruct (IH s1 Hh (frac_range x)) as (s' & o & Er & H' & P' & L & O). rewrite Er. cbn [bind].
    eexists. eexists. split; [reflexivity|]. split; [exact H'|]. split; [exact P'|]. split; [cbn [length]; now rewrite L|]. intros k y Hk. destruct k as [|k]; cbn [nth_error] in *. { injection Hk as ->. reflexivity. }
    rewrite (O k y Hk). cbn [ps_ready ps_phase ps_sr s1]. destruct k; reflexivity.
  Qed.
End Phase.
(* ---- PulseWave ---- *)
Lemma pulsewave_ok tb s1 s2 f w : tables_ok tb -> (sy_hint s1 <= length tb - 3)%nat -> (ps_hint s2 <= length tb - 3)%nat -> 0 <= ps_phase s2 < 1 ->
  let p := frac (sy_phase s1 + f * sy_sd s1) in let q := frac (p + w) in exists h1 h2, (h1 <= length tb - 3)%nat /\ (h2 <= length tb - 3)%nat /\
  pulsewave_tick Rnum_ops tb (s1, s2) (f, w) = Val (synth_at s1 p h1, mkPsynth q true h2 (ps_sr s2), level tb (Rabs f) p - level tb (psynth_freqs (if ps_ready s2 then Some (ps_phase s2) else None) q * ps_sr s2) q).
Proof.
  intros ok H1 H2 P p q. destruct (tick_ok tb ok s1 f H1) as (h1 & _ & B1 & E1). fold p in E1. destruct (ptick_ok tb ok s2 (p + w) H2 P) as (h2 & B2 & E2). fold q in E2. exists h1, h2. split; [exact B1|]. split; [exact B2|].
  unfold pulsewave_tick. cbn [fst snd]. rewrite E1. cbn [bind fst snd]. change (nadd Rnum_ops p w) with (p + w). rewrite E2. reflexivity.
Qed.
(* the interpolation *)
Notation optR := (optimal4x44 Rnum_ops).
Lemma interpolates_line a b x : 0 <= x <= 1 -> Rabs (optR (a - b) a (a + b) (a + 2 * b) x - (a + b * x)) <= (Rabs a + Rabs b) / 1000.
Proof.
  intros X. set (z := x - 1 / 2). assert (Z : -(1 / 2) <= z <= 1 / 2) by (unfold z; lra). assert (U : 0 <= z * z <= 1 / 4) by nra. assert (W : 0 <= z * z * (z * z) <= 1 / 16) by nra. assert (T : - (1 / 8) <= z * z * z <= 1 / 8) by nra.
  assert (P : exists p q, Rabs p <= 1 / 1000 /\ Rabs q <= 1 / 1000 /\ optR (a - b) a (a + b) (a + 2 * b) x - (a + b * x) = a * p + b * q).
  { exists (optR 1 1 1 1 x - 1), (optR (-1) 0 1 2 x - x). unfold optimal4x44, dec; cbn [nsub nadd nmul ndiv nofZ n1 n0 Rnum_ops]. unfold n1; cbn [nofZ Rnum_ops]. fold z. replace x with (z + 1 / 2) by (unfold z; lra). clearbody z.
    set (u := z * z) in *. set (w := u * u) in *. set (t := u * z) in *.
    refine (conj _ (conj _ _)).
    - match goal with |- Rabs ?e <= _ => assert (-(1/1000) <= e <= 1/1000); [|apply Rabs_le; lra] end. unfold w, u, t in *. nra.
    - match goal with |- Rabs ?e <= _ => assert (-(1/1000) <= e <= 1/1000); [|apply Rabs_le; lra] end. unfold w, u, t in *. nra.
    - ring. }
  destruct P as (p & q & P & Q & ->). eapply Rle_trans; [apply Rabs_triang|]. rewrite !Rabs_mult. pose proof (Rabs_pos a). pose proof (Rabs_pos b). nra.
Qed.
Lemma interpolates_mirrored a b c d x : optR d c b a (1 - x) = optR a b c d x.
Proof. unfold optimal4x44, dec; cbn [nsub nadd nmul ndiv nofZ Rnum_ops]. unfold n1; cbn [nofZ Rnum_ops]. field. Qed.
