(* Granular synthesizer: any sequencer is told the same; without jitter, blocks do not matter. *)
From Coq Require Import Reals Lra Lia Psatz.
From Verif Require Export GranProofs.
From Verif Require Import OscProofs.
Local Open Scope R_scope.

Definition over {A B} (f : A -> B) (o : outcome A) : outcome B := match o with Val a => Val (f a) | Panics => Panics | Undefined => Undefined end.
Section Link.
  Context {U Rn Sq Out : Type}.
  Variables (cos_ sin_ : R -> R) (tau : R) (rnd_f32 : Rn -> R * Rn) (rnd_u64 : Rn -> N * Rn) (rnd_from : N -> Rn).
  Variables (texture : R * R * R -> R * R * R) (ping : N -> U -> U) (generator : R -> R -> R -> R -> R -> R -> R * R * U).
  Variables (push : Sq -> grain R U -> Sq) (stick : Sq -> Sq * Out) (sprocess : nat -> Sq -> Sq * Out) (sreset : Sq -> Sq) (srate : R -> Sq -> Sq).
  Variables (voices : nat) (beat_length : R) (beats_per_cycle : nat) (inner_radius outer_radius jitter : R).
  Notation rp := (replay push stick sprocess sreset srate).
  Variable s0 : Sq.
  Definition lift (g : granular R Rn (list (call U))) : granular R Rn Sq := mkGran (g_next g) (fst (rp s0 (g_seq g))) (g_rate g) (g_time g) (g_seed g) (g_rnd g).
  Notation inst p := (instantiate Rnum_ops cos_ sin_ tau rnd_f32 rnd_u64 texture ping generator p voices beat_length beats_per_cycle inner_radius outer_radius jitter).
  Notation fillv p := (fill_voice Rnum_ops cos_ sin_ tau rnd_f32 rnd_u64 texture ping generator p voices beat_length beats_per_cycle inner_radius outer_radius jitter).
  Notation fillall p := (instantiate_voices Rnum_ops cos_ sin_ tau rnd_f32 rnd_u64 texture ping generator p voices beat_length beats_per_cycle inner_radius outer_radius jitter).
  Notation note := (fun (l : list (call U)) e => CPush e :: l).
  Notation stpl := (gran_step Rnum_ops cos_ sin_ tau rnd_f32 rnd_u64 rnd_from texture ping generator note (fun l => (CTick :: l, tt)) (fun size l => (CBlock size :: l, tt)) (fun l => CReset :: l) (fun sr l => CRate sr :: l)
      voices beat_length beats_per_cycle inner_radius outer_radius jitter).
  Notation stpr := (gran_step Rnum_ops cos_ sin_ tau rnd_f32 rnd_u64 rnd_from texture ping generator push stick sprocess sreset srate voices beat_length beats_per_cycle inner_radius outer_radius jitter).
  Lemma inst_sim g v : inst push (lift g) v = over lift (inst note g v).
  Proof.
    unfold instantiate, lift. cbn [g_next g_seq g_rate g_time g_seed g_rnd]. destruct (index (g_next g) v) as [t| |]; cbn [bind]; auto.
    destruct (helix_position _ _ _ _ _ _ _ _ _ _ _ (g_rnd g) v t) as [p rn]. destruct (generate _ _ _ _ v t (texture p)) as [[len env] u].
    destruct (negb _); [reflexivity|]. destruct (negb _); [reflexivity|]. destruct (if equal _ _ _ then _ else _) as [l| |]; cbn [bind]; auto. destruct (rnd_u64 rn) as [h rn']. cbn [over g_next g_seq g_rate g_time g_seed g_rnd replay fst].
    destruct (rp s0 (g_seq g)). reflexivity.
  Qed.
  Lemma fillv_sim before v : forall fuel g, fillv push fuel (lift g) v before = over lift (fillv note fuel g v before).
  Proof.
    induction fuel as [|fuel IH]; intros g; cbn [fill_voice]; change (g_next (lift g)) with (g_next g); destruct (index (g_next g) v) as [t| |]; cbn [bind]; auto; destruct (nltb Rnum_ops t before); auto.
    rewrite inst_sim. destruct (inst note g v) as [g'| |]; cbn [bind over]; auto.
  Qed.
  Lemma fillall_sim fuel before g : fillall push fuel (lift g) before = over lift (fillall note fuel g before).
  Proof.
    unfold instantiate_voices. generalize (seq 0 voices) as l. intros l. change (Val (lift g)) with (over lift (Val g)). generalize (Val g) as o. induction l as [|v l IH]; intros o; [reflexivity|]. cbn [fold_left]. rewrite <- IH. f_equal.
    destruct o as [g'| |]; cbn [bind over]; auto. apply fillv_sim.
  Qed.
  Lemma step_sim fuel g a : match stpl fuel g a with
    | Val (g', _) => exists o, stpr fuel (lift g) a = Val (lift g', o) /\ snd (rp s0 (g_seq g')) = snd (rp s0 (g_seq g)) ++ o
    | Panics => stpr fuel (lift g) a = Panics | Undefined => stpr fuel (lift g) a = Undefined end.
  Proof.
    assert (PU : forall es l, snd (rp s0 (es ++ l)) = snd (rp s0 l) \/ True) by auto.
    assert (FP : forall fuel g g' before, fillall note fuel g before = Val g' -> snd (rp s0 (g_seq g')) = snd (rp s0 (g_seq g))).
    { clear. intros fuel g g' before. unfold instantiate_voices. generalize (seq 0 voices) as l. intros l.
      assert (IN : forall g v g', inst note g v = Val g' -> snd (rp s0 (g_seq g')) = snd (rp s0 (g_seq g))).
      { clear. intros g v g'. unfold instantiate. destruct (index (g_next g) v) as [t| |]; cbn [bind]; try discriminate. destruct (helix_position _ _ _ _ _ _ _ _ _ _ _ (g_rnd g) v t) as [p rn]. destruct (generate _ _ _ _ v t (texture p)) as [[len env] u].
        destruct (negb _); [discriminate|]. destruct (negb _); [discriminate|]. destruct (if equal _ _ _ then _ else _) as [l| |]; cbn [bind]; try discriminate. destruct (rnd_u64 rn) as [h rn']. intros [= <-]. cbn [g_seq replay]. destruct (rp s0 (g_seq g)). reflexivity. }
      assert (FV : forall v fuel g g', fillv note fuel g v before = Val g' -> snd (rp s0 (g_seq g')) = snd (rp s0 (g_seq g))).
      { intros v. induction fuel0 as [|f IH]; intros g1 g2; cbn [fill_voice]; destruct (index (g_next g1) v) as [t| |]; cbn [bind]; try discriminate; destruct (nltb Rnum_ops t before); try discriminate; try (intros [= <-]; reflexivity).
        destruct (inst note g1 v) as [g3| |] eqn:E; cbn [bind]; try discriminate. intros H. rewrite (IH _ _ H). now apply (IN _ v). }
      revert g. induction l as [|v l IH]; intros g; cbn [fold_left]; [intros [= <-]; reflexivity|]. cbn [bind]. destruct (fillv note fuel g v before) as [g1| |] eqn:E.
      - intros H. rewrite (IH _ H). now apply (FV v fuel).
      - intros H. exfalso. clear -H. induction l as [|w l IH]; cbn [fold_left bind] in H; [discriminate|auto].
      - intros H. exfalso. clear -H. induction l as [|w l IH]; cbn [fold_left bind] in H; [discriminate|auto]. }
    destruct a as [|size| |sr|h]; cbn [gran_step].
    - unfold granular_tick. change (g_at (lift g) ?t) with (lift (g_at g t)). change (g_time (lift ?x)) with (g_time x). change (g_rate (lift g)) with (g_rate g). rewrite fillall_sim. destruct (fillall note fuel _ _) as [g'| |] eqn:E; cbn [bind over]; auto.
      apply FP in E. cbn [g_play]. unfold g_play, lift. cbn [g_seq g_next g_rate g_time g_seed g_rnd replay fst snd]. destruct (rp s0 (g_seq g')) as [s1 o1]. cbn [fst snd] in *. destruct (stick s1) as [s2 x]. exists [x]. cbn [bind fst snd]. split; [reflexivity|]. cbn in E. now rewrite E.
    - unfold granular_process. change (g_at (lift g) ?t) with (lift (g_at g t)). change (g_time (lift ?x)) with (g_time x). change (g_rate (lift g)) with (g_rate g). rewrite fillall_sim. destruct (fillall note fuel _ _) as [g'| |] eqn:E; cbn [bind over]; auto.
      apply FP in E. cbn [g_play]. unfold g_play, lift. cbn [g_seq g_next g_rate g_time g_seed g_rnd replay fst snd]. destruct (rp s0 (g_seq g')) as [s1 o1]. cbn [fst snd] in *. destruct (sprocess size s1) as [s2 x]. exists [x]. cbn [bind fst snd]. split; [reflexivity|]. cbn in E. now rewrite E.
    - exists []. unfold granular_reset, lift. cbn [g_seq g_next g_rate g_time g_seed g_rnd replay]. destruct (rp s0 (g_seq g)). cbn [fst snd]. split; [reflexivity|]. now rewrite app_nil_r.
    - exists []. unfold granular_rate, lift. cbn [g_seq g_next g_rate g_time g_seed g_rnd replay]. destruct (rp s0 (g_seq g)). cbn [fst snd]. split; [reflexivity|]. now rewrite app_nil_r.
    - exists []. unfold granular_hash, lift. cbn [g_seq g_next g_rate g_time g_seed g_rnd replay]. split; [reflexivity|]. now rewrite app_nil_r.
  Qed.
  Notation runl := (log_run cos_ sin_ tau rnd_f32 rnd_u64 rnd_from texture ping generator voices beat_length beats_per_cycle inner_radius outer_radius jitter).
  Notation runr := (gran_run Rnum_ops cos_ sin_ tau rnd_f32 rnd_u64 rnd_from texture ping generator push stick sprocess sreset srate voices beat_length beats_per_cycle inner_radius outer_radius jitter).
  Lemma run_sim fuel l : forall g, match runl fuel g l with
    | Val (g', _) => exists o, runr fuel (lift g) l = Val (lift g', o) /\ snd (rp s0 (g_seq g')) = snd (rp s0 (g_seq g)) ++ o
    | Panics => runr fuel (lift g) l = Panics | Undefined => runr fuel (lift g) l = Undefined end.
  Proof.
    unfold log_run. induction l as [|a l IH]; intros g; cbn [gran_run]; [exists []; split; [reflexivity|now rewrite app_nil_r]|]. pose proof (step_sim fuel g a) as S. destruct (stpl fuel g a) as [[g1 o1]| |]; cbn [bind]; [|now rewrite S..].
    destruct S as (o & -> & E). cbn [bind]. specialize (IH g1). destruct (gran_run _ _ _ _ _ _ _ _ _ _ _ _ _ _ _ _ _ _ _ _ _ fuel g1 l) as [[g2 o2]| |]; cbn [bind]; [|now rewrite IH..].
    destruct IH as (o' & -> & E'). exists (o ++ o'). cbn [bind]. split; [reflexivity|]. now rewrite E', E, app_assoc.
  Qed.
  Lemma new_lift sr seed : lift (log_new rnd_from voices sr seed) = granular_new Rnum_ops rnd_from sreset voices s0 sr seed.
  Proof. reflexivity. Qed.
  Lemma inst_keeps g v g' : inst note g v = Val g' -> g_rate g' = g_rate g /\ g_seed g' = g_seed g /\ length (g_next g') = length (g_next g).
  Proof.
    unfold instantiate. destruct (index (g_next g) v) as [t| |]; cbn [bind]; try discriminate. destruct (helix_position _ _ _ _ _ _ _ _ _ _ _ (g_rnd g) v t) as [p rn]. destruct (generate _ _ _ _ v t (texture p)) as [[len env] u].
    destruct (negb _); [discriminate|]. destruct (negb _); [discriminate|]. destruct (if equal _ _ _ then _ else _) as [l| |] eqn:EI; cbn [bind]; try discriminate. assert (EL : length l = length (g_next g)) by (destruct (equal _ _ _); [destruct (v =? 0)%nat; [|discriminate]|]; injection EI as <-; [unfold offsets; now rewrite map_length, seq_length|reflexivity]). destruct (rnd_u64 rn) as [h rn']. intros [= <-]. cbn [g_rate g_seed g_next]. rewrite length_upd. split; [reflexivity|]. split; [reflexivity|]. exact EL.
  Qed.
  Lemma fillv_keeps before v : forall fuel g g', fillv note fuel g v before = Val g' -> g_rate g' = g_rate g /\ g_seed g' = g_seed g /\ length (g_next g') = length (g_next g).
  Proof.
    induction fuel as [|f IH]; intros g1 g2; cbn [fill_voice]; destruct (index (g_next g1) v) as [t| |]; cbn [bind]; try discriminate; destruct (nltb Rnum_ops t before); try discriminate; try (intros [= <-]; auto).
    destruct (inst note g1 v) as [g3| |] eqn:E; cbn [bind]; try discriminate. intros H. apply IH in H as (-> & -> & ->). now apply inst_keeps in E.
  Qed.
  Lemma fillall_keeps fuel before g g' : fillall note fuel g before = Val g' -> g_rate g' = g_rate g /\ g_seed g' = g_seed g /\ length (g_next g') = length (g_next g).
  Proof.
    unfold instantiate_voices. generalize (seq 0 voices) as l. intros l. revert g. induction l as [|v l IH]; intros g; cbn [fold_left]; [intros [= <-]; auto|]. cbn [bind]. destruct (fillv note fuel g v before) as [g1| |] eqn:E.
    - intros H. apply IH in H as (-> & -> & ->). now apply fillv_keeps in E.
    - intros H. exfalso. clear -H. induction l as [|w l IH]; cbn [fold_left bind] in H; [discriminate|auto].
    - intros H. exfalso. clear -H. induction l as [|w l IH]; cbn [fold_left bind] in H; [discriminate|auto].
  Qed.
  Lemma step_keeps fuel g a g' o : stpl fuel g a = Val (g', o) -> g_rate g' = match a with GRate sr => sr | _ => g_rate g end /\ g_seed g' = match a with GHash h => h | _ => g_seed g end /\ length (g_next g') = length (g_next g).
  Proof.
    destruct a as [|size| |sr|h]; cbn [gran_step]; try (intros [= <- _]; repeat split; cbn [granular_reset g_next]; now rewrite ?map_length).
    - unfold granular_tick. destruct (fillall note fuel _ _) as [g1| |] eqn:E; cbn [bind]; try discriminate. apply fillall_keeps in E. intros [= <- _]. exact E.
    - unfold granular_process. destruct (fillall note fuel _ _) as [g1| |] eqn:E; cbn [bind]; try discriminate. apply fillall_keeps in E. intros [= <- _]. exact E.
  Qed.
  Lemma run_keeps fuel sr seed : forall h g o, runl fuel (log_new rnd_from voices sr seed) (rev h) = Val (g, o) -> g_rate g = gran_rate sr h /\ g_seed g = gran_seed seed h /\ length (g_next g) = voices.
  Proof.
    induction h as [|a h IH]; intros g o; cbn [rev]; [intros [= <- _]; repeat split; cbn [log_new granular_new granular_reset g_next]; now rewrite ?map_length, ?repeat_length|]. rewrite GranProofs.run_app. destruct (runl fuel _ (rev h)) as [[g1 o1]| |]; cbn [bind]; try discriminate. destruct (IH g1 o1 eq_refl) as (ER & ES & EN).
    unfold log_run at 1. cbn [gran_run]. destruct (stpl fuel g1 a) as [[g2 o2]| |] eqn:E; cbn [bind]; try discriminate. intros [= <- _]. apply step_keeps in E as (-> & -> & ->). rewrite ER, ES. destruct a; repeat split; exact EN.
  Qed.
End Link.
(* told more, a log gets longer *)
Lemma replay_log {U} (k l : list (call U)) : fst (replay (fun (l : list (call U)) e => CPush e :: l) (fun l => (CTick :: l, tt)) (fun size l => (CBlock size :: l, tt)) (fun l => CReset :: l) (fun sr l => CRate sr :: l) k l) = l ++ k.
Proof. induction l as [|c l IH]; [reflexivity|]. cbn [replay]. destruct (replay _ _ _ _ _ k l) as [s o]. cbn [fst] in IH. subst s. destruct c; reflexivity. Qed.

(* ---- the helix ---- *)
Section Helix.
  Variables (voices : nat) (beat_length : R) (beats_per_cycle : nat) (inner_radius outer_radius : R).
  Notation hx := (helix Rnum_ops cos sin (2 * PI) voices beat_length beats_per_cycle inner_radius outer_radius).
  Lemma place_01 v : (v < voices)%nat -> 0 <= voice_place Rnum_ops voices v <= 1.
  Proof.
    intros H. unfold voice_place. cbn [ndiv nofZ Rnum_ops]. change (n1 Rnum_ops) with 1. destruct (Nat.eqb_spec voices 1); [lra|]. rewrite <- !INR_IZR_INZ. assert (0 < INR (voices - 1)) by (apply lt_0_INR; lia).
    pose proof (pos_INR v). assert (INR v <= INR (voices - 1)) by (apply le_INR; lia). split; [apply Rle_mult_inv_pos; auto|]. apply Rmult_le_reg_r with (INR (voices - 1)); auto. unfold Rdiv. rewrite Rmult_assoc, Rinv_l by lra. lra.
  Qed.
  Lemma place_ends : (2 <= voices)%nat -> voice_place Rnum_ops voices 0 = 0 /\ voice_place Rnum_ops voices (voices - 1) = 1.
  Proof.
    intros H. unfold voice_place. cbn [ndiv nofZ Rnum_ops]. destruct (Nat.eqb_spec voices 1); [lia|]. rewrite <- !INR_IZR_INZ. assert (0 < INR (voices - 1)) by (apply lt_0_INR; lia). split; [cbn [INR]; unfold Rdiv; ring|field; lra].
  Qed.
  Lemma helix_shape v t : 0 < beat_length -> (0 < beats_per_cycle)%nat -> let '(x, y, z) := hx v t in let r := (1 - voice_place Rnum_ops voices v) * inner_radius + voice_place Rnum_ops voices v * outer_radius in
    let c := beat_length * INR beats_per_cycle in x * x + y * y = r * r /\ 0 <= z < 1 /\ z = frac (t / c) /\ (x = r * cos (2 * PI * (t / beat_length)) /\ y = r * sin (2 * PI * (t / beat_length))).
  Proof.
    intros B C. unfold helix, lerp. cbn [ndiv nmul nsub nadd nofZ nfloor Rnum_ops]. change (n1 Rnum_ops) with 1. rewrite <- !INR_IZR_INZ. set (c := beat_length * INR beats_per_cycle). assert (IB : 0 < INR beats_per_cycle) by (apply lt_0_INR; auto). assert (0 < c) by (apply Rmult_lt_0_compat; auto).
    assert (Z : (t - IZR (Int_part (t / c)) * c) / c = frac (t / c)) by (unfold frac; field; lra). rewrite !Z. set (w := voice_place Rnum_ops voices v). set (a := frac (t / c) * INR beats_per_cycle * (2 * PI)).
    assert (A : cos a = cos (2 * PI * (t / beat_length)) /\ sin a = sin (2 * PI * (t / beat_length))).
    { assert (Q : 2 * PI * (t / beat_length) = a + 2 * IZR (Int_part (t / c) * Z.of_nat beats_per_cycle) * PI). { unfold a, frac. rewrite mult_IZR, <- INR_IZR_INZ. replace (t / c * INR beats_per_cycle) with (t / beat_length) by (unfold c; field; lra). unfold Rminus. replace ((t / c + - IZR (Int_part (t / c))) * INR beats_per_cycle) with (t / c * INR beats_per_cycle - IZR (Int_part (t / c)) * INR beats_per_cycle) by ring. replace (t / c * INR beats_per_cycle) with (t / beat_length) by (unfold c; field; lra). ring. }
      rewrite Q. assert (P : forall x k, cos (x + 2 * IZR k * PI) = cos x /\ sin (x + 2 * IZR k * PI) = sin x).
      { clear. intros x k. destruct (Z_le_gt_dec 0 k).
        - rewrite <- (Z2Nat.id k) by auto. rewrite <- INR_IZR_INZ. split; [apply cos_period|apply sin_period].
        - replace x with (x + 2 * IZR k * PI + 2 * INR (Z.to_nat (- k)) * PI) at 2 4 by (rewrite INR_IZR_INZ, Z2Nat.id, opp_IZR by lia; ring). split; [now rewrite cos_period|now rewrite sin_period]. }
      destruct (P a (Int_part (t / c) * Z.of_nat beats_per_cycle)%Z) as [P1 P2]. now rewrite P1, P2. }
    destruct A as [A1 A2]. pose proof (frac_range (t / c)). pose proof (sin2_cos2 a) as T. unfold Rsqr in T.
    split; [|split; [lra|split; [ring|rewrite A1, A2; split; ring]]].
    replace (cos a * (inner_radius * (1 - w) + outer_radius * w) * (cos a * (inner_radius * (1 - w) + outer_radius * w)) + sin a * (inner_radius * (1 - w) + outer_radius * w) * (sin a * (inner_radius * (1 - w) + outer_radius * w)))
      with ((sin a * sin a + cos a * cos a) * ((inner_radius * (1 - w) + outer_radius * w) * (inner_radius * (1 - w) + outer_radius * w))) by ring.
    rewrite T. ring.
  Qed.
  Lemma clamp_range x : -1 <= clamp11_ Rnum_ops x <= 1 /\ (-1 <= x <= 1 -> clamp11_ Rnum_ops x = x).
  Proof. unfold clamp11_, clamp_. cbn [nltb nneg Rnum_ops]. change (n1 Rnum_ops) with 1. destruct (Rlt_dec x (- (1))); [split; lra|]. destruct (Rlt_dec 1 x); split; lra. Qed.
End Helix.

(* ---- without jitter ---- *)
Lemma no_jitter p r1 r2 r3 : jittered Rnum_ops 0 p r1 r2 r3 = p.
Proof. destruct p as [[x y] z]. unfold jittered. cbn [nadd nmul nsub nofZ Rnum_ops]. assert (E : forall a r, 0 + a + (r * 2 - n1 Rnum_ops) * 0 = a) by (intros; ring). now rewrite !E. Qed.
Lemma tiles_same {U} now (f : R -> R * R) (l1 : list (grain R U)) : forall l2 s, tiles s now l1 -> tiles s now l2 ->
  (forall e, In e l1 \/ In e l2 -> (gr_length e, gr_envelope e) = f (gr_start e)) -> times l1 = times l2.
Proof.
  induction l1 as [|e1 l1 IH]; intros [|e2 l2] s T1 T2 F; cbn [tiles] in *; [reflexivity|lra|lra|]. destruct T1 as (A1 & B1 & C1). destruct T2 as (A2 & B2 & C2).
  pose proof (F e1 (or_introl (or_introl eq_refl))) as F1. pose proof (F e2 (or_intror (or_introl eq_refl))) as F2. rewrite A1 in F1. rewrite A2 in F2. rewrite <- F2 in F1. injection F1 as L E.
  cbn [times map]. rewrite A1, A2, L, E. f_equal. apply (IH l2 (s + gr_length e1 - gr_envelope e1)); [exact C1|rewrite L, E; exact C2|]. intros e He. apply F. destruct He; [left|right]; now right.
Qed.
Lemma tiling_same {U} voices now (f : nat -> R -> R * R) (l1 l2 : list (grain R U)) : tiling voices now l1 -> tiling voices now l2 ->
  (forall e, In e l1 \/ In e l2 -> (gr_length e, gr_envelope e) = f (gr_voice e) (gr_start e)) -> forall v, (v < voices)%nat -> times (of_voice v l1) = times (of_voice v l2).
Proof.
  intros T1 T2 F v Hv.
  assert (H0 : forall (e : grain R U) l, tiling voices now (e :: l) -> gr_start e = 0 /\ 0 < now /\ gr_voice e = 0%nat).
  { intros e l (E0 & FV & T). specialize (T 0%nat ltac:(lia)). unfold of_voice in T. cbn [filter] in T. rewrite E0 in T. cbn [Nat.eqb tiles] in T. destruct T as (A & B & _). replace (_ * INR 0 / INR voices) with 0 in A, B by (cbn [INR]; unfold Rdiv; ring). auto. }
  destruct l1 as [|e1 l1], l2 as [|e2 l2]; [reflexivity| | |].
  - exfalso. destruct (H0 _ _ T2) as (_ & B & _). cbn [tiling] in T1. destruct T1; [lia|lra].
  - exfalso. destruct (H0 _ _ T1) as (_ & B & _). cbn [tiling] in T2. destruct T2; [lia|lra].
  - destruct (H0 _ _ T1) as (A1 & _ & V1). destruct (H0 _ _ T2) as (A2 & _ & V2). pose proof (F e1 (or_introl (or_introl eq_refl))) as F1. pose proof (F e2 (or_intror (or_introl eq_refl))) as F2.
    rewrite A1, V1 in F1. rewrite A2, V2 in F2. rewrite <- F2 in F1. injection F1 as L E. destruct T1 as (_ & _ & T1). destruct T2 as (_ & _ & T2). specialize (T1 v Hv). specialize (T2 v Hv). rewrite L, E in T1.
    apply (tiles_same now (f v) _ _ _ T1 T2). intros e He. assert (GE : (In e (e1 :: l1) \/ In e (e2 :: l2)) /\ gr_voice e = v).
    { unfold of_voice in He. destruct He as [He|He]; apply filter_In in He as [He Q]; apply Nat.eqb_eq in Q; auto. }
    destruct GE as [G1 G2]. rewrite (F e G1), G2. reflexivity.
Qed.
