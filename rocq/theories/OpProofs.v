From Coq Require Import Reals SpecFloat Lra Lia QArith.
From Verif Require Import OpSpec NodeProofs NodeLaws NodeArithProofs NetMore NetBinop NetHistory.
Import ListNotations.
Local Open Scope nat_scope.

(* ---- arithmetic ---- *)
Lemma SFadd_comm prec emax a b : SFadd prec emax a b = SFadd prec emax b a.
Proof.
  destruct a as [s|s| |s m e], b as [t|t| |t k f]; try reflexivity; try (destruct s, t; reflexivity).
  cbn [SFadd]. rewrite Z.min_comm, Z.add_comm. reflexivity.
Qed.
Lemma SFmul_comm prec emax a b : SFmul prec emax a b = SFmul prec emax b a.
Proof.
  destruct a as [s|s| |s m e], b as [t|t| |t k f]; try reflexivity; try (destruct s, t; reflexivity).
  cbn [SFmul]. rewrite (xorb_comm s t), (Pos.mul_comm m k), (Z.add_comm e f). reflexivity.
Qed.
Lemma SFadd_opp prec emax a b : SFadd prec emax a (SFopp b) = SFsub prec emax a b.
Proof.
  destruct a as [s|s| |s m e], b as [t|t| |t k f]; try reflexivity; try (destruct s, t; reflexivity).
Qed.
Lemma lawful_R : lawful Rnum_ops.
Proof. intros a b. cbn. repeat split; ring. Qed.
Lemma lawful_f32 : lawful f32_ops.
Proof. intros a b. cbn. split; [apply SFadd_comm|]. split; [apply SFmul_comm|apply SFadd_opp]. Qed.
Lemma lawful_f64 : lawful f64_ops.
Proof. intros a b. cbn. split; [apply SFadd_comm|]. split; [apply SFmul_comm|apply SFadd_opp]. Qed.
Lemma neg_zero_minus v : same_number (nneg f32_ops v) (nsub f32_ops (n0 f32_ops) v).
Proof. destruct v as [s|s| |s m e]; try (left; reflexivity). right. exists (negb s). destruct s; [exists false|exists false]; split; reflexivity. Qed.

Section NumberOps.
  Context {A P U : Type} (nm : num A) (ar : arith A) (ops : unit_ops A P U).
  Notation node := (NodeModel.node A U).
  Lemma numbers (x : node) c l : lawful nm ->
    outputs ar ops (an_neg nm x) l = map (map (nneg nm)) (outputs ar ops x l) /\
    outputs ar ops (an_add nm x c) l = map (map (fun v => nadd nm v c)) (outputs ar ops x l) /\
    outputs ar ops (num_add nm c x) l = map (map (fun v => nadd nm c v)) (outputs ar ops x l) /\
    outputs ar ops (an_sub nm x c) l = map (map (fun v => nsub nm v c)) (outputs ar ops x l) /\
    outputs ar ops (num_sub nm c x) l = map (map (fun v => nsub nm c v)) (outputs ar ops x l) /\
    outputs ar ops (an_mul nm x c) l = map (map (fun v => nmul nm v c)) (outputs ar ops x l) /\
    outputs ar ops (num_mul nm c x) l = map (map (fun v => nmul nm c v)) (outputs ar ops x l).
  Proof.
    intro L. unfold an_neg, an_add, num_add, an_sub, num_sub, an_mul, num_mul. rewrite !outputs_Unop.
    repeat split; apply map_ext; intro o; apply map_ext; intro v.
    - apply L.
    - apply L.
    - destruct (L c v) as (_ & _ & E). rewrite <- E. apply L.
    - apply L.
  Qed.
End NumberOps.

(* ---- the pseudorandom numbers of generators whose phase or seed is set ---- *)
Section Voices.
  Context {F V X : Type} (nf : num F) (nv : num V) (widen : V -> F) (narrow : F -> V).
  Variables (sin_ cos_ floor_ : V -> V) (pow_ : V -> V -> V) (tau : V) (rnd : N -> V) (tb : @tables V) (conv bit : N -> V) (xtick : X -> list V -> X * list V) (xreset : X -> X).
  Variable ar : arith V.
  Variable ahash : N -> N -> N.
  Notation voice := (voice F V X).
  Notation node := (NodeModel.node V voice).
  Notation vops := (src_ops nf nv widen narrow sin_ cos_ floor_ pow_ tau rnd tb conv bit xtick xreset).
  (* the same but for the hash, which is not used *)
  Definition alike (u w : voice) : Prop :=
    match u, w with
    | SOsc k s, SOsc k' s' => k = k' /\ os_phase s = os_phase s' /\ os_sd s = os_sd s' /\ os_init s = os_init s' /\ os_init s <> None
    | SDsf b s, SDsf b' s' => b = b' /\ ds_phase s = ds_phase s' /\ ds_rough s = ds_rough s' /\ ds_spacing s = ds_spacing s' /\ ds_sd s = ds_sd s' /\ ds_init s = ds_init s' /\ ds_init s <> None
    | SWave s, SWave s' => sy_phase s = sy_phase s' /\ sy_init s = sy_init s' /\ sy_hint s = sy_hint s' /\ sy_sr s = sy_sr s' /\ sy_sd s = sy_sd s' /\ sy_init s <> None
    | SNoise st sd _, SNoise st' sd' _ => st = st' /\ sd = sd' /\ sd <> None
    | SMls n s sd _, SMls n' s' sd' _ => n = n' /\ s = s' /\ sd = sd' /\ sd <> None
    | SFilter i x, SFilter i' x' => i = i' /\ x = x'
    | _, _ => False
    end.
  Lemma alike_tick u w l : alike u w -> snd (u_tick vops u l) = snd (u_tick vops w l) /\ alike (fst (u_tick vops u l)) (fst (u_tick vops w l)).
  Proof.
    destruct u as [k s|b s|s|st sd h|n s sd h|i x], w as [k' s'|b' s'|s'|st' sd' h'|n' s' sd' h'|i' x']; cbn [alike]; try contradiction.
    - destruct s as [p d h i], s' as [p' d' h' i']; cbn. intros (<- & <- & <- & <- & Hn).
      destruct k; cbn; (split; [reflexivity|repeat split; auto]).
    - destruct s, s'; cbn. intros (<- & <- & <- & <- & <- & <- & Hn). destruct b; cbn; (split; [reflexivity|repeat split; auto]).
    - destruct s as [p h i hi sr sd], s' as [p' h' i' hi' sr' sd']; cbn. intros (<- & <- & <- & <- & <- & Hn).
      unfold synth_tick; cbn. destruct (table_read nv _ _ _ _ _) as [[y hint]| |]; cbn; (split; [reflexivity|repeat split; auto]).
    - intros (<- & <- & Hn). cbn. split; [reflexivity|repeat split; auto].
    - intros (<- & <- & <- & Hn). cbn. split; [reflexivity|repeat split; auto].
    - intros (<- & <-). cbn. destruct (xtick x l) as [x' y]. cbn. split; [reflexivity|split; reflexivity].
  Qed.
  Lemma alike_ins u w : alike u w -> u_ins vops u = u_ins vops w.
  Proof.
    destruct u as [k s|b s|s|st sd h|n s sd h|i x], w as [k' s'|b' s'|s'|st' sd' h'|n' s' sd' h'|i' x']; cbn [alike]; try contradiction; try reflexivity; intros (<- & _); reflexivity.
  Qed.
  (* a generator or filter that has not run since it was reset *)
  Definition rewound (u : voice) : Prop :=
    match u with
    | SOsc _ s => os_init s = Some (os_phase s)
    | SDsf _ s => ds_init s = Some (ds_phase s)
    | SWave s => sy_init s = Some (sy_phase s)
    | SNoise st sd _ => exists s, sd = Some s /\ st = noise_reset s
    | SMls n s sd _ => exists d, sd = Some d /\ s = mls_start n d
    | SFilter _ x => xreset x = x
    end.
  Lemma alike_reset u w : alike u w -> rewound w -> alike (u_reset vops u) w.
  Proof.
    destruct u as [k s|b s|s|st sd h|n s sd h|i x], w as [k' s'|b' s'|s'|st' sd' h'|n' s' sd' h'|i' x']; cbn [alike]; try contradiction.
    - destruct s as [p d h i], s' as [p' d' h' i']; cbn. intros (<- & <- & <- & <- & Hn) E. subst i. cbn. repeat split; auto.
    - destruct s, s'; cbn. intros (<- & <- & <- & <- & <- & <- & Hn) E. rewrite E. repeat split; auto. congruence.
    - destruct s as [p h i hi sr sd], s' as [p' h' i' hi' sr' sd']; cbn. intros (<- & <- & <- & <- & <- & Hn) E. unfold synth_reset, synth_start. cbn. rewrite E. repeat split; auto. congruence.
    - cbn. intros (<- & <- & Hn) (s & -> & ->). cbn. repeat split; auto.
    - cbn. intros (<- & <- & <- & Hn) (d & -> & ->). cbn. repeat split; auto.
    - cbn. intros (<- & <-) E. now rewrite E.
  Qed.
  Lemma alike_hash u w h0 : alike u w -> rewound w -> alike (u_set_hash vops u h0) w.
  Proof.
    destruct u as [k s|b s|s|st sd h|n s sd h|i x], w as [k' s'|b' s'|s'|st' sd' h'|n' s' sd' h'|i' x']; cbn [alike]; try contradiction.
    - destruct s as [p d h i], s' as [p' d' h' i']; cbn. intros (<- & <- & <- & <- & Hn) E. subst i. cbn. repeat split; auto.
    - destruct s, s'; cbn. intros (<- & <- & <- & <- & <- & <- & Hn) E. rewrite E. repeat split; auto. congruence.
    - destruct s as [p h i hi sr sd], s' as [p' h' i' hi' sr' sd']; cbn. intros (<- & <- & <- & <- & <- & Hn) E. unfold synth_set_hash, synth_reset, synth_start. cbn. rewrite E. repeat split; auto. congruence.
    - cbn. intros (<- & <- & Hn) (s & -> & ->). cbn. repeat split; auto.
    - cbn. intros (<- & <- & <- & Hn) (d & -> & ->). cbn. repeat split; auto.
    - cbn. intros (<- & <-) E. split; reflexivity.
  Qed.
  (* expressions with the same leaves but for hashes *)
  Inductive nalike : node -> node -> Prop :=
  | na_leaf u w : alike u w -> nalike (Leaf u) (Leaf w)
  | na_const v : nalike (Constant v) (Constant v)
  | na_unop f x y : nalike x y -> nalike (Unop f x) (Unop f y)
  | na_pipe x y x' y' : nalike x x' -> nalike y y' -> nalike (Pipe x y) (Pipe x' y')
  | na_binop b x y x' y' : nalike x x' -> nalike y y' -> nalike (Binop b x y) (Binop b x' y').
  Fixpoint nrewound (x : node) : Prop :=
    match x with Leaf u => rewound u | Unop _ x => nrewound x | Pipe x y | Binop _ x y => nrewound x /\ nrewound y | _ => True end.
  Lemma nalike_ins x y : nalike x y -> ins vops x = ins vops y.
  Proof. induction 1 as [u w H| | |x y x' y' H1 I1 H2 I2|b x y x' y' H1 I1 H2 I2]; cbn [ins]; auto. exact (alike_ins u w H). Qed.
  Lemma nalike_tick x y : nalike x y -> forall l, snd (tick ar vops x l) = snd (tick ar vops y l) /\ nalike (fst (tick ar vops x l)) (fst (tick ar vops y l)).
  Proof.
    induction 1 as [u w H|v|f x y H IH|x y x' y' H1 I1 H2 I2|b x y x' y' H1 I1 H2 I2]; intro l.
    - destruct (alike_tick u w l H) as [E L]. cbn [tick]. destruct (u_tick vops u l), (u_tick vops w l). cbn in *. split; [exact E|now constructor].
    - cbn. split; [reflexivity|constructor].
    - destruct (IH l) as [E L]. rewrite !tick_Unop. cbn. split; [now rewrite E|now constructor].
    - destruct (I1 l) as [E L]. rewrite !tick_Pipe. cbn [fst snd]. rewrite E. destruct (I2 (snd (tick ar vops x' l))) as [E' L']. split; [exact E'|now constructor].
    - rewrite !tick_Binop. cbn [fst snd]. rewrite (nalike_ins x x' H1). destruct (I1 (firstn (ins vops x') l)) as [E L], (I2 (skipn (ins vops x') l)) as [E' L'].
      rewrite E, E'. split; [reflexivity|now constructor].
  Qed.
  Lemma nalike_outputs x y : nalike x y -> forall l, outputs ar vops x l = outputs ar vops y l.
  Proof.
    intros H l. revert x y H. induction l as [|i l IH]; intros x y H; [reflexivity|]. unfold outputs in *. cbn [ticks].
    destruct (nalike_tick x y H i) as [E L]. destruct (tick ar vops x i) as [x1 o], (tick ar vops y i) as [y1 o']. cbn in E, L. subst o'.
    specialize (IH x1 y1 L). destruct (ticks (tick ar vops) x1 l), (ticks (tick ar vops) y1 l). cbn in *. now rewrite IH.
  Qed.
  Lemma nalike_ping x y : nalike x y -> nrewound y -> forall h, nalike (fst (ping vops ahash false x h)) y.
  Proof.
    induction 1 as [u w H|v|f x y H IH|x y x' y' H1 I1 H2 I2|b x y x' y' H1 I1 H2 I2]; intros R h; cbn [ping nrewound] in *.
    - constructor. now apply alike_hash.
    - constructor.
    - specialize (IH R (ahash h (node_id vops (Unop f x)))). destruct (ping vops ahash false x _) as [z k]. cbn in *. now constructor.
    - destruct R as [R1 R2]. specialize (I1 R1 (ahash h (node_id vops (Pipe x y)))). destruct (ping vops ahash false x _) as [z k]. specialize (I2 R2 k).
      destruct (ping vops ahash false y k). cbn in *. now constructor.
    - destruct R as [R1 R2]. specialize (I1 R1 (ahash h (node_id vops (Binop b x y)))). destruct (ping vops ahash false x _) as [z k]. specialize (I2 R2 k).
      destruct (ping vops ahash false y k). cbn in *. now constructor.
  Qed.
  Lemma nalike_reset x y : nalike x y -> nrewound y -> nalike (reset ar vops x) y.
  Proof.
    induction 1 as [u w H|v|f x y H IH|x y x' y' H1 I1 H2 I2|b x y x' y' H1 I1 H2 I2]; intros R; cbn [reset nrewound] in *.
    - constructor. now apply alike_reset.
    - constructor.
    - constructor. auto.
    - destruct R. constructor; auto.
    - destruct R. constructor; auto.
  Qed.
  Lemma nalike_happen l : forall x y, nalike x y -> nrewound y -> nalike (happen ar vops ahash x l) y.
  Proof.
    induction l as [|[h|] l IH]; intros x y H R; [exact H| |]; cbn [happen fold_left]; apply IH; auto.
    - now apply nalike_ping.
    - now apply nalike_reset.
  Qed.

  Lemma phase_set u p w : phased widen p u = Some w -> alike (u_reset vops (u_set vops u (mkSetting (PPhase p) [ARight]))) w /\ rewound w /\
    (forall a, u_set vops u (mkSetting (PPhase p) a) = u_set vops u (mkSetting (PPhase p) [ARight])).
  Proof.
    destruct u as [k s|b s|s|st sd h|n s sd h|i x]; cbn; try discriminate; intros [= <-]; cbn; repeat split; auto; try discriminate.
  Qed.
  Lemma fill_phase c u p w : phased widen p u = Some w -> exists x, b_phase ar vops (fill c u) p = Some x /\ nalike x (fill c w) /\ nrewound (fill c w).
  Proof.
    intro H. destruct (phase_set u p w H) as (L & R & Ha). unfold b_phase.
    induction c as [|v|f c IH]; cbn [fill set].
    - eexists. split; [reflexivity|]. split; [now constructor|exact R].
    - cbn [direction s_addr peel tl option_map]. eexists. split; [reflexivity|]. cbn [reset]. split; [constructor; [constructor|constructor]|split; [exact I|exact R]].
      rewrite <- (Ha []) in L. exact L.
    - destruct (set vops par_value (fill c u) (mkSetting (PPhase p) [ARight])) as [y|]; [|now destruct IH as (x & E & _)]. cbn [option_map] in *.
      destruct IH as (x & [= <-] & L' & R'). eexists. split; [reflexivity|]. cbn [reset]. split; [now constructor|exact R'].
  Qed.
  Theorem phase_builder c u p w : phased widen p u = Some w -> exists x, b_phase ar vops (fill c u) p = Some x /\
    forall h l, outputs ar vops (happen ar vops ahash x h) l = outputs ar vops (fill c w) l.
  Proof.
    intro H. destruct (fill_phase c u p w H) as (x & E & L & R). exists x. split; [exact E|]. intros h l. apply nalike_outputs. now apply nalike_happen.
  Qed.

  Hypothesis Hx : forall x, xreset (xreset x) = xreset x.
  Lemma seed_set u s w : sown s u = Some w -> alike (u_reset vops (u_set vops u (mkSetting (PSeed s) []))) w /\ rewound w /\
    (forall a, u_set vops u (mkSetting (PSeed s) a) = u_set vops u (mkSetting (PSeed s) [])).
  Proof.
    destruct u as [k s0|b s0|s0|st sd h|n s0 sd h|i x]; cbn; try discriminate; intros [= <-]; cbn; repeat split; auto; try discriminate; eexists; split; reflexivity.
  Qed.
  Lemma attach_seed c u s w : sown s u = Some w -> filters c -> exists x, b_seed ar vops (attach c u) s = Some x /\ nalike x (attach (rested xreset c) w) /\ nrewound (attach (rested xreset c) w).
  Proof.
    intros H Hc. destruct (seed_set u s w H) as (L & R & Ha). unfold b_seed.
    induction c as [|f|f b v|f c IH]; cbn [attach set rested filters] in *.
    - eexists. split; [reflexivity|]. cbn [reset]. rewrite Ha. split; [now constructor|exact R].
    - destruct Hc as (i & y & ->). cbn [direction s_addr peel tl option_map]. eexists. split; [reflexivity|]. cbn [reset s_par].
      split; [constructor; constructor; [exact L|split; reflexivity]|split; [exact R|exact (Hx y)]].
    - destruct Hc as (i & y & ->). cbn [direction s_addr peel tl option_map]. eexists. split; [reflexivity|]. cbn [reset s_par].
      split; [constructor; [now constructor|constructor; [constructor; split; reflexivity|constructor]]|split; [exact R|split; [exact (Hx y)|exact I]]].
    - destruct (set vops par_value (attach c u) (mkSetting (PSeed s) [ALeft])) as [y|]; [|now destruct (IH Hc) as (x & E & _)]. cbn [option_map] in *.
      destruct (IH Hc) as (x & [= <-] & L' & R'). eexists. split; [reflexivity|]. cbn [reset]. split; [now constructor|exact R'].
  Qed.
  Theorem seed_builder c u s w : sown s u = Some w -> filters c -> exists x, b_seed ar vops (attach c u) s = Some x /\
    forall h l, outputs ar vops (happen ar vops ahash x h) l = outputs ar vops (attach (rested xreset c) w) l.
  Proof.
    intros H Hc. destruct (attach_seed c u s w H Hc) as (x & E & L & R). exists x. split; [exact E|]. intros h l. apply nalike_outputs. now apply nalike_happen.
  Qed.
  (* the phase does not get past a filter, a product with a constant, or a second generator *)
  Lemma phase_lost (x : node) f v b p : b_phase ar vops (Pipe x (Leaf (SFilter 1 f))) p = Some (reset ar vops (Pipe x (Leaf (SFilter 1 f)))) /\
    b_phase ar vops (Binop b x (Constant v)) p = Some (reset ar vops (Binop b x (Constant v))).
  Proof. split; reflexivity. Qed.
End Voices.
