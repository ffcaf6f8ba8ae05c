(* Reset of the other kinds of units *)
From Coq Require Import Reals Lra Lia.
From Verif Require Import ResetUnits ResetProofs ResetTune TableCases TuneSpec.
Import ListNotations.
Local Open Scope nat_scope.

(* ---- units that reset() takes back to the same state, exactly ---- *)
Section Exact.
  Context {A P U : Type}.
  Variable ops : unit_ops A P U.
  Variable Inv : U -> Prop.
  Hypothesis step : forall u i, Inv u -> length i = u_ins ops u ->
    Inv (fst (u_tick ops u i)) /\ u_ins ops (fst (u_tick ops u i)) = u_ins ops u /\ u_outs ops (fst (u_tick ops u i)) = u_outs ops u /\ length (snd (u_tick ops u i)) = u_outs ops u.
  Hypothesis back : forall u i, Inv u -> length i = u_ins ops u -> u_reset ops (fst (u_tick ops u i)) = u_reset ops u.
  Lemma exact_restored u : Inv u -> u_reset ops u = u -> resettable ops u.
  Proof.
    intros Hu E. split; [now apply (inv_fixed ops Inv step)|]. intros l Hl.
    assert (K : u_reset ops (after ops u l) = u); [|rewrite K; apply alike_refl].
    enough (K : forall l u, Inv u -> stream (u_ins ops u) l -> u_reset ops (after ops u l) = u_reset ops u) by (rewrite K; auto).
    clear u l Hu E Hl. induction l as [|i l IH]; intros u Hu Hl; [reflexivity|]. inversion Hl as [|? ? Hi Hl']; subst. rewrite after_cons.
    destruct (step u i Hu Hi) as (H1 & H2 & _). rewrite <- H2 in Hl'. rewrite (IH _ H1 Hl'). now apply back.
  Qed.
End Exact.

(* ---- FxModel.v ---- *)
Section Fx.
  Variable tanh_ : R -> R.
  Notation ops := (fx_ops Rnum_ops tanh_).
  Definition fx_inv (u : fx R) : Prop :=
    match u with
    | XLfo ch f s => (forall t, length (f t) = ch) /\ length (e_v1 s) = ch /\ (nleb Rnum_ops (e_t1 s) (e_t s) = false -> length (e_v s) = ch /\ length (e_d s) = ch)
    | _ => True
    end.
  Definition fx_norm (u : fx R) : fx R :=
    match u with
    | XLfo ch f s => XLfo ch f (if nleb Rnum_ops (e_t1 s) (e_t s) then mkEnv tt (e_t s) 0%R (e_t1 s) (e_seed s) [] (e_v1 s) [] [] (e_int s) (e_sd s) (e_hash s)
        else mkEnv tt (e_t s) 0%R (e_t1 s) (e_seed s) [] (e_v1 s) (e_v s) (e_d s) (e_int s) (e_sd s) (e_hash s))
    | XAll _ x1 y1 => XAll 0%R x1 y1
    | u => u
    end.
  Lemma zip2_length {X} (f : X -> X -> X) a b : length (zip2 f a b) = Nat.min (length a) (length b).
  Proof. unfold zip2. now rewrite map_length, combine_length. Qed.
  Lemma fx_step u i : fx_inv u -> length i = u_ins ops u ->
    fx_inv (fst (u_tick ops u i)) /\ u_ins ops (fst (u_tick ops u i)) = u_ins ops u /\ u_outs ops (fst (u_tick ops u i)) = u_outs ops u /\ length (snd (u_tick ops u i)) = u_outs ops u.
  Proof.
    intros H Hi. destruct u as [ch f s|n lo hi sr s|h|eta x1 y1]; try (repeat split; exact I).
    cbn [u_tick fx_ops fx_tick u_ins u_outs fx_inv] in *. destruct H as (Hf & H1 & Hv). unfold env_tick. destruct (nleb Rnum_ops (e_t1 s) (e_t s)) eqn:E.
    - unfold env_next, segment_from, control, EnvModel.step. cbn [fst snd e_v e_d e_v1 e_t1 e_t fx_inv]. rewrite !zip2_length, !map_length, !Hf, H1. repeat split; auto; rewrite ?Nat.min_id; auto.
    - destruct (Hv eq_refl) as [Hv1 Hv2]. unfold EnvModel.step. cbn [fst snd e_v e_d e_v1 e_t1 e_t fx_inv]. rewrite !zip2_length, Hv1, Hv2, Nat.min_id. repeat split; auto.
  Qed.
  Lemma fx_norm_ar u v : fx_norm u = fx_norm v -> u_ins ops u = u_ins ops v /\ u_outs ops u = u_outs ops v.
  Proof. destruct u, v; intros E; try discriminate E; cbn in *; auto; injection E; intros; subst; auto. Qed.
  Lemma fx_norm_tick u v i : fx_inv u -> fx_inv v -> fx_norm u = fx_norm v -> length i = u_ins ops u ->
    fx_norm (fst (u_tick ops u i)) = fx_norm (fst (u_tick ops v i)) /\ snd (u_tick ops u i) = snd (u_tick ops v i).
  Proof.
    intros _ _ E _. destruct u as [ch f s|n lo hi sr s|h|eta x1 y1], v as [ch' f' s'|n' lo' hi' sr' s'|h'|eta' x1' y1']; try discriminate E.
    - destruct s as [[] t t0 t1 se v0 v1 v d int sd ha], s' as [[] t' t0' t1' se' v0' v1' v' d' int' sd' ha']. unfold fx_norm in E. cbn [e_t e_t1 e_seed e_v1 e_v e_d e_int e_sd e_hash e_st] in E.
      injection E as -> -> E. cbn [u_tick fx_ops fx_tick]. unfold env_tick. cbn [e_t e_t1].
      destruct (nleb Rnum_ops t1 t) eqn:E1, (nleb Rnum_ops t1' t') eqn:E2; cbn in E1, E2; destruct (Rle_dec t1 t), (Rle_dec t1' t'); try discriminate; injection E; intros; subst; try (exfalso; lra).
      + unfold env_next, segment_from, control, EnvModel.step. cbn [fst snd e_t e_t0 e_t1 e_seed e_v0 e_v1 e_v e_d e_int e_sd e_hash e_st fx_norm]. auto.
      + unfold EnvModel.step. cbn [fst snd e_t e_t0 e_t1 e_seed e_v0 e_v1 e_v e_d e_int e_sd e_hash e_st fx_norm]. auto.
    - cbn in E. injection E as -> -> -> -> ->. auto.
    - injection E as ->. auto.
    - cbn in E. injection E as -> ->. auto.
  Qed.
  Lemma fx_back u i : fx_inv u -> length i = u_ins ops u -> fx_norm (u_reset ops (fst (u_tick ops u i))) = fx_norm (u_reset ops u).
  Proof.
    intros _ _. destruct u as [ch f s|n lo hi sr s|h|eta x1 y1]; try reflexivity.
    - cbn [u_tick fx_ops fx_tick u_reset]. unfold env_tick. destruct (nleb Rnum_ops (e_t1 s) (e_t s)); unfold env_next, segment_from, control, EnvModel.step, env_reset;
        cbn [fst snd fx_reset e_t e_t0 e_t1 e_seed e_v0 e_v1 e_v e_d e_int e_sd e_hash e_st fx_norm]; unfold env_reset, control; cbn [fst snd fx_reset e_t e_t0 e_t1 e_seed e_v0 e_v1 e_v e_d e_int e_sd e_hash e_st fx_norm];
        (destruct (nleb Rnum_ops (n0 Rnum_ops) (n0 Rnum_ops)) eqn:E; [reflexivity|cbn in E; destruct (Rle_dec 0 0); [discriminate|lra]]).
    - cbn. unfold tap_tick, taps_tick, write. cbn. f_equal. f_equal. generalize (l_i s) (nth 0 i 0%R). induction (l_buf s); intros [|k] x; cbn; f_equal; auto.
  Qed.
  Lemma fx_inv_reset u : fx_inv u -> fx_inv (u_reset ops u).
  Proof.
    destruct u as [ch f s|n lo hi sr s|h|eta x1 y1]; auto. intros (H1 & H2 & H3). cbn [u_reset fx_ops fx_reset fx_inv]. unfold env_reset, control. cbn [e_v1 e_t1 e_t]. split; auto. split; [now rewrite map_length|].
    intros E. cbn in E. destruct (Rle_dec 0 0); [discriminate|lra].
  Qed.
  Lemma fx_resettable u : fx_ready u -> resettable ops u.
  Proof.
    intros H. assert (fx_inv u) as Hi.
    { destruct u as [ch f s|n lo hi sr s|h|eta x1 y1]; try exact I. destruct H as (Hf & (E1 & E2 & E3) & E4 & E5 & E6). split; auto. rewrite E6, Hf. split; auto. rewrite E1, E3. cbn. destruct (Rle_dec 0 0); [discriminate|lra]. }
    split; [now apply (inv_fixed ops fx_inv fx_step)|]. apply (norm_restored ops fx_inv fx_step fx_norm fx_norm_ar fx_norm_tick fx_back fx_inv_reset); auto.
    destruct u as [ch f s|n lo hi sr s|h|eta x1 y1].
    - destruct H as (Hf & (E1 & E2 & E3) & E4 & E5 & E6). destruct s as [[] t t0 t1 se v0 v1 v d int sd ha]. cbn in E1, E2, E3, E4, E5, E6. subst.
      cbn. destruct (Rle_dec 0 0); [|lra]. rewrite map_id. reflexivity.
    - cbn in H. cbn. f_equal. rewrite H at 2. unfold line_new. f_equal. clear. induction (l_buf s); cbn; f_equal; auto.
    - reflexivity.
    - destruct H as [-> ->]. reflexivity.
  Qed.
End Fx.

(* ---- OpModel.v ---- *)
Section Voices.
  Context {X : Type} (sin_ cos_ floor_ : R -> R) (pow_ : R -> R -> R) (tau_ : R) (rnd : N -> R) (tb : list (R * list R)) (conv bit : N -> R) (xtick : X -> list R -> X * list R) (xreset : X -> X).
  Notation ops := (src_ops Rnum_ops Rnum_ops (fun x => x) (fun x => x) sin_ cos_ floor_ pow_ tau_ rnd tb conv bit xtick xreset).
  Hypothesis Htb : tables_ok tb.
  Hypothesis Hx : filters_reset xtick xreset.
  Definition v_inv (u : voice R R X) : Prop := match u with SWave s => sy_hint s <= length tb - 3 | _ => True end.
  Definition v_norm (u : voice R R X) : voice R R X := match u with SWave s => SWave (mkSynth (sy_phase s) (sy_hash s) (sy_init s) 0 (sy_sr s) (sy_sd s))
    | SDsf true s => SDsf true (mkDsf (ds_phase s) 0%R (ds_spacing s) (ds_sd s) (ds_hash s) (ds_init s)) | u => u end.
  Lemma wrap_range x : (0 <= wrap Rnum_ops x < 1)%R.
  Proof. unfold wrap. cbn. destruct (base_Int_part x). lra. Qed.
  Lemma wave_tick s f : sy_hint s <= length tb - 3 -> exists r, r <= length tb - 3 /\
    synth_tick Rnum_ops tb s f = Val (synth_at s (wrap Rnum_ops (sy_phase s + f * sy_sd s)%R) r, (TableSpec.level tb (Rabs f) (wrap Rnum_ops (sy_phase s + f * sy_sd s)%R), wrap Rnum_ops (sy_phase s + f * sy_sd s)%R)).
  Proof.
    intros H. destruct (read_any_hint tb (sy_hint s) (Rabs f) (wrap Rnum_ops (sy_phase s + f * sy_sd s)%R) Htb H (wrap_range _)) as (r & Hr & E).
    exists r. split; auto. unfold synth_tick. cbn [nadd nmul nabs Rnum_ops]. cbn [nadd nmul nabs Rnum_ops] in E. rewrite E. reflexivity.
  Qed.
  Lemma v_step u i : v_inv u -> length i = u_ins ops u ->
    v_inv (fst (u_tick ops u i)) /\ u_ins ops (fst (u_tick ops u i)) = u_ins ops u /\ u_outs ops (fst (u_tick ops u i)) = u_outs ops u /\ length (snd (u_tick ops u i)) = u_outs ops u.
  Proof.
    intros H Hi. destruct u as [k s|two s|s|st sd h|n s sd h|k x]; cbn [u_tick src_ops src_tick u_ins u_outs v_inv] in *; try (repeat split; exact I).
    - destruct k; repeat split.
    - destruct (wave_tick s (nth 0 i (n0 Rnum_ops)) H) as (r & Hr & ->). repeat split; auto.
    - destruct (Hx x i) as [H1 _]. destruct (xtick x i). repeat split; auto.
  Qed.
  Lemma v_norm_ar u v : v_norm u = v_norm v -> u_ins ops u = u_ins ops v /\ u_outs ops u = u_outs ops v.
  Proof. destruct u, v; intros E; try discriminate E; try (destruct two); try (destruct two0); cbn in *; try discriminate E; auto; injection E; intros; subst; auto. Qed.
  Lemma v_norm_tick u v i : v_inv u -> v_inv v -> v_norm u = v_norm v -> length i = u_ins ops u ->
    v_norm (fst (u_tick ops u i)) = v_norm (fst (u_tick ops v i)) /\ snd (u_tick ops u i) = snd (u_tick ops v i).
  Proof.
    intros Hu Hv E _. destruct u as [k s|two s|s|st sd h|n s sd h|k x], v as [k' s'|two' s'|s'|st' sd' h'|n' s' sd' h'|k' x']; try discriminate E; try (destruct two); try (destruct two'); try discriminate E; try (cbn [v_norm] in E; rewrite E; auto).
    { cbn [v_norm] in E. injection E as E1 E2 E3 E4 E5. cbn [u_tick src_ops src_tick]. unfold dsf_tick, set_roughness. cbn [fst snd ds_phase ds_rough ds_spacing ds_sd ds_hash ds_init v_norm]. rewrite E1, E2, E3, E4, E5. auto. }
    cbn [u_tick src_ops src_tick v_inv] in *. destruct (wave_tick s (nth 0 i (n0 Rnum_ops)) Hu) as (r & Hr & ->). destruct (wave_tick s' (nth 0 i (n0 Rnum_ops)) Hv) as (r' & Hr' & ->).
    cbn [v_norm] in E. injection E as E1 E2 E3 E4 E5. cbn [fst snd v_norm synth_at sy_phase sy_hash sy_init sy_sr sy_sd]. rewrite E1, E2, E3, E4, E5. auto.
  Qed.
  Lemma v_back u i : v_inv u -> length i = u_ins ops u -> v_norm (u_reset ops (fst (u_tick ops u i))) = v_norm (u_reset ops u).
  Proof.
    intros H _. destruct u as [k s|two s|s|st sd h|n s sd h|k x]; cbn [u_tick src_ops src_tick u_reset v_inv] in *; try reflexivity.
    - destruct k; reflexivity.
    - destruct two; reflexivity.
    - destruct (wave_tick s (nth 0 i (n0 Rnum_ops)) H) as (r & Hr & ->). reflexivity.
    - destruct (Hx x i) as [_ H1]. destruct (xtick x i). cbn in *. now rewrite H1.
  Qed.
  Lemma v_inv_reset u : v_inv u -> v_inv (u_reset ops u).
  Proof. destruct u; auto. Qed.
  Lemma voice_resettable u : voice_ready rnd tb xreset u -> resettable ops u.
  Proof.
    intros H. assert (v_inv u) as Hi by (destruct u; try exact I; apply H).
    split; [now apply (inv_fixed ops v_inv v_step)|]. apply (norm_restored ops v_inv v_step v_norm v_norm_ar v_norm_tick v_back v_inv_reset); auto.
    destruct u as [k s|two s|s|st sd h|n s sd h|k x]; cbn [voice_ready] in H; cbn [u_reset src_ops src_reset].
    - destruct s. unfold osc_reset. cbn in *. now rewrite <- H.
    - destruct two, s; cbn in *; now rewrite <- H.
    - destruct H as [H _]. destruct s. unfold synth_reset, synth_start. cbn in *. now rewrite <- H.
    - unfold seeded. now rewrite <- H.
    - unfold seeded. now rewrite <- H.
    - now rewrite H.
  Qed.
End Voices.

(* ---- delays and the like ---- *)
Lemma upd_len {A} (l : list A) i v : length (upd l i v) = length l.
Proof. revert i. induction l; destruct i; cbn; auto. Qed.
Lemma rl_resettable {P} u : rl_ready u -> resettable (@line_ops P) u.
Proof.
  intros H. apply (exact_restored _ (fun _ => True)).
  - intros v i _ Hi. destruct v as [d|f|p]; repeat split.
  - intros v i _ Hi. destruct v as [d|f|p]; [|reflexivity..]. cbn. unfold delay_reset, delay_step, line_reset. cbn. now rewrite upd_len.
  - exact I.
  - destruct u as [d|f|p]; [..|reflexivity]; cbn in *.
    + destruct d as [t sr s]. unfold delay_reset, line_reset. cbn in *. now rewrite <- H.
    + destruct f. unfold fir_reset. cbn in *. now rewrite H.
Qed.
Lemma declick_resettable {P} d : dc_t d = 0%R -> resettable (@declick_ops P) d.
Proof.
  intros H. apply (exact_restored _ (fun _ => True)).
  - intros v i _ Hi. cbn. unfold declick_tick. destruct (nltb _ _ _); repeat split.
  - intros v i _ Hi. cbn. unfold declick_tick. destruct (nltb _ _ _); reflexivity.
  - exact I.
  - destruct d. cbn in *. unfold declick_reset. cbn. now rewrite H.
Qed.
Lemma meter_resettable {P} m s : m_state s = 0%R -> resettable (@meter_ops P m) s.
Proof.
  intros H. apply (exact_restored _ (fun _ => True)).
  - intros v i _ Hi. repeat split.
  - intros v i _ Hi. reflexivity.
  - exact I.
  - destruct s. cbn in *. unfold meter_reset. cbn. now rewrite H.
Qed.
Lemma linear_resettable {P} n lo hi sr len : resettable (@linear_ops P n lo hi sr) (line_new 0%R len).
Proof.
  apply (exact_restored _ (fun _ => True)).
  - intros v i _ Hi. repeat split.
  - intros v i _ Hi. cbn. unfold linear_tick, taps_tick, write, line_reset. cbn. now rewrite upd_len.
  - exact I.
  - cbn. unfold line_reset. cbn. now rewrite repeat_length.
Qed.

(* ---- either ---- *)
Section Either.
  Context {A P U V : Type} (f : unit_ops A P U) (g : unit_ops A P V).
  Lemma after_inl l : forall u, after (either f g) (inl u) l = inl (after f u l) /\ played (either f g) (inl u) l = played f u l.
  Proof.
    induction l as [|i l IH]; intros u; [auto|]. rewrite !after_cons, !played_cons. cbn [either u_tick]. destruct (u_tick f u i) as [u' o]. cbn [fst snd]. destruct (IH u') as [-> ->]. auto.
  Qed.
  Lemma after_inr l : forall u, after (either f g) (inr u) l = inr (after g u l) /\ played (either f g) (inr u) l = played g u l.
  Proof.
    induction l as [|i l IH]; intros u; [auto|]. rewrite !after_cons, !played_cons. cbn [either u_tick]. destruct (u_tick g u i) as [u' o]. cbn [fst snd]. destruct (IH u') as [-> ->]. auto.
  Qed.
  Lemma alike_inl u v : alike f u v -> alike (either f g) (inl u) (inl v).
  Proof.
    intros (H1 & H2 & H3). split; [exact H1|]. split; [exact H2|]. intros l Hl. destruct (after_inl l u) as [-> ->], (after_inl l v) as [-> ->]. now apply H3.
  Qed.
  Lemma alike_inr u v : alike g u v -> alike (either f g) (inr u) (inr v).
  Proof.
    intros (H1 & H2 & H3). split; [exact H1|]. split; [exact H2|]. intros l Hl. destruct (after_inr l u) as [-> ->], (after_inr l v) as [-> ->]. now apply H3.
  Qed.
  Lemma either_resettable w : match w with inl u => resettable f u | inr v => resettable g v end -> resettable (either f g) w.
  Proof.
    destruct w as [u|v]; intros [H1 H2]; split; intros l Hl.
    - destruct (after_inl l u) as [-> ->]. now apply H1.
    - destruct (after_inl l u) as [-> _]. apply alike_inl. now apply H2.
    - destruct (after_inr l v) as [-> ->]. now apply H1.
    - destruct (after_inr l v) as [-> _]. apply alike_inr. now apply H2.
  Qed.
End Either.
Section Together.
  Context {G S_ X Y : Type} (tl : tools R G S_ X) (tanh_ : R -> R) (rnd : N -> R) (tb : list (R * list R)) (conv bit : N -> R) (xtick : Y -> list R -> Y * list R) (xreset : Y -> Y).
  Lemma parts_resettable u : shapes_reset tl -> nests_reset tl -> tables_ok tb -> filters_reset xtick xreset ->
    part_ready tl rnd tb xreset u -> resettable (part_ops tl tanh_ rnd tb conv bit xtick xreset) u.
  Proof.
    intros H1 H2 H3 H4 H. apply either_resettable. destruct u as [n|u]; [now apply nodes_resettable|].
    apply either_resettable. destruct u as [u|u]; [now apply fx_resettable|].
    apply either_resettable. destruct u as [u|u]; [now apply voice_resettable|].
    apply either_resettable. destruct u as [u|u]; [now apply rl_resettable|now apply declick_resettable].
  Qed.
End Together.

(* ---- units around units ---- *)
Section Bisim.
  Context {A P U : Type}.
  Variable ops : unit_ops A P U.
  Variable Rel : U -> U -> Prop.
  Hypothesis rel_step : forall u v i, Rel u v -> length i = u_ins ops u ->
    Rel (fst (u_tick ops u i)) (fst (u_tick ops v i)) /\ snd (u_tick ops u i) = snd (u_tick ops v i) /\ u_ins ops (fst (u_tick ops u i)) = u_ins ops u /\
    u_outs ops (fst (u_tick ops u i)) = u_outs ops u /\ length (snd (u_tick ops u i)) = u_outs ops u.
  Hypothesis rel_ar : forall u v, Rel u v -> u_ins ops u = u_ins ops v /\ u_outs ops u = u_outs ops v.
  Lemma rel_run l : forall u v, Rel u v -> stream (u_ins ops u) l -> Rel (after ops u l) (after ops v l) /\ played ops u l = played ops v l /\ u_ins ops (after ops u l) = u_ins ops u /\
    u_outs ops (after ops u l) = u_outs ops u /\ stream (u_outs ops u) (played ops u l).
  Proof.
    induction l as [|i l IH]; intros u v HR Hl; [repeat split; auto; constructor|]. inversion Hl as [|? ? Hi Hl']; subst. rewrite !after_cons, !played_cons.
    destruct (rel_step u v i HR Hi) as (G1 & G2 & G3 & G4 & G5). rewrite <- G3 in Hl'. destruct (IH _ _ G1 Hl') as (K1 & K2 & K3 & K4 & K5). rewrite G3 in K3. rewrite G4 in K4, K5.
    split; [exact K1|]. split; [now rewrite G2, K2|]. split; [exact K3|]. split; [exact K4|]. constructor; auto.
  Qed.
  Lemma rel_alike u v : Rel u v -> alike ops u v.
  Proof.
    intros HR. destruct (rel_ar _ _ HR). split; [auto|]. split; [auto|]. intros l Hl. destruct (rel_run l u v HR Hl) as (K1 & K2 & _). destruct (rel_ar _ _ K1). auto.
  Qed.
  Lemma rel_fixed u : Rel u u -> fixed_arity ops u.
  Proof. intros HR l Hl. destruct (rel_run l u u HR Hl) as (_ & _ & K3 & K4 & K5). auto. Qed.
  (* reset takes what has been played back to the start *)
  Variable Way : U -> U -> Prop.
  Hypothesis way_step : forall u0 u i, Way u0 u -> length i = u_ins ops u -> Way u0 (fst (u_tick ops u i)) /\ u_ins ops (fst (u_tick ops u i)) = u_ins ops u.
  Hypothesis way_back : forall u0 u, Way u0 u -> Rel (u_reset ops u) u0.
  Lemma way_resettable u : Rel u u -> Way u u -> resettable ops u.
  Proof.
    intros HR HW. split; [now apply rel_fixed|]. intros l Hl. apply rel_alike. apply way_back. revert Hl.
    enough (K : forall l v, Way u v -> stream (u_ins ops v) l -> Way u (after ops v l)) by (intros; now apply K).
    clear l. induction l as [|i l IH]; intros v Hv Hl; [exact Hv|]. inversion Hl as [|? ? Hi Hl']; subst. rewrite after_cons. destruct (way_step _ _ _ Hv Hi) as [K1 K2]. apply IH; auto. now rewrite K2.
  Qed.
End Bisim.

Ltac ands := repeat match goal with |- _ /\ _ => split end.
Section Nest.
  Context {P U : Type} (ops : unit_ops R P U).
  Definition along (u0 u : U) : Prop := resettable ops u0 /\ exists l, stream (u_ins ops u0) l /\ u = after ops u0 l.
  Lemma along_step u0 u i : along u0 u -> length i = u_ins ops u0 -> along u0 (fst (u_tick ops u i)) /\ u_ins ops u = u_ins ops u0 /\ u_outs ops u = u_outs ops u0 /\ u_ins ops (fst (u_tick ops u i)) = u_ins ops u0.
  Proof.
    intros [[F Rs] (l & Hl & ->)] Hi. destruct (F l Hl) as (E1 & E2 & _). assert (Hl2 : stream (u_ins ops u0) (l ++ [i])) by (apply Forall_app; split; auto).
    destruct (F _ Hl2) as (E3 & _). rewrite after_app, after_cons in E3. change (after ops ?x []) with x in E3. split; [|auto]. split; [split; auto|].
    exists (l ++ [i]). split; auto. now rewrite after_app, after_cons.
  Qed.
  Lemma along_back u0 u : along u0 u -> al ops (u_reset ops u) u0.
  Proof. intros [[F Rs] (l & Hl & ->)]. split; [now apply Rs|]. split; [eapply alike_arity; [now apply Rs|auto]|auto]. Qed.
  Lemma along_start u : resettable ops u -> along u u.
  Proof. intros H. split; auto. exists []. split; [constructor|reflexivity]. Qed.
  Lemma al_self u : resettable ops u -> al ops u u.
  Proof. intros [F _]. split; [apply alike_refl|auto]. Qed.

  Lemma nest_resettable u eta : resettable ops u -> u_ins ops u = 1 -> resettable (nest_ops ops) (mkAll u eta 0%R).
  Proof.
    intros Hu Hi. refine (way_resettable (nest_ops ops) (fun s t => an_eta s = an_eta t /\ an_z s = an_z t /\ al ops (an_x s) (an_x t) /\ u_ins ops (an_x s) = 1) _ _ (fun s t => u_ins ops (an_x s) = 1 /\ an_eta s = an_eta t /\ an_z s = 0%R /\ along (an_x s) (an_x t)) _ _ _ _ _).
    - intros s t i (E1 & E2 & E3 & E4) _. cbn [nest_ops machine u_tick u_ins u_outs]. unfold all_tick. rewrite E1, E2.
      set (v := nsub _ _ _). destruct (al_tick ops _ _ [v] E3 (eq_sym E4)) as (K1 & K2 & K3 & K4 & K5).
      destruct (u_tick ops (an_x s) [v]) as [x o], (u_tick ops (an_x t) [v]) as [x' o']. cbn [fst snd an_eta an_z an_x] in *. subst o'. ands; auto; congruence.
    - intros s t _. split; reflexivity.
    - intros s t i (E1 & E2 & E3 & E4) _. split; [|reflexivity]. cbn [nest_ops machine u_tick]. unfold all_tick. set (v := nsub _ _ _).
      destruct (along_step _ _ [v] E4 (eq_sym E1)) as (K1 & _). destruct (u_tick ops (an_x t) [v]) as [x o]. cbn [fst an_eta an_z an_x] in *. auto.
    - intros s t (E1 & E2 & E3 & E4). cbn [nest_ops machine u_reset all_reset an_eta an_z an_x]. pose proof (along_back _ _ E4) as K. destruct (al_ar ops _ _ K) as [K1 _]. ands; auto; congruence.
    - cbn. ands; auto; now apply al_self.
    - cbn. split; [exact Hi|]. repeat (split; [reflexivity|]). now apply along_start.
  Qed.
  Lemma nest2_resettable u eta : resettable ops u -> u_ins ops u = 1 -> resettable (nest2_ops ops) (mkAll u eta 0%R).
  Proof.
    intros Hu Hi. refine (way_resettable (nest2_ops ops) (fun s t => an_z s = an_z t /\ al ops (an_x s) (an_x t) /\ u_ins ops (an_x s) = 1) _ _ (fun s t => u_ins ops (an_x s) = 1 /\ an_z s = 0%R /\ along (an_x s) (an_x t)) _ _ _ _ _).
    - intros s t i (E2 & E3 & E4) _. cbn [nest2_ops machine u_tick u_ins u_outs]. unfold all_tick2, all_tick. cbn [an_eta an_z an_x]. rewrite E2.
      set (v := nsub _ _ _). destruct (al_tick ops _ _ [v] E3 (eq_sym E4)) as (K1 & K2 & K3 & K4 & K5).
      destruct (u_tick ops (an_x s) [v]) as [x o], (u_tick ops (an_x t) [v]) as [x' o']. cbn [fst snd an_eta an_z an_x] in *. subst o'. ands; auto; congruence.
    - intros s t _. split; reflexivity.
    - intros s t i (E1 & E3 & E4) _. split; [|reflexivity]. cbn [nest2_ops machine u_tick]. unfold all_tick2, all_tick. cbn [an_eta an_z an_x]. set (v := nsub _ _ _).
      destruct (along_step _ _ [v] E4 (eq_sym E1)) as (K1 & _). destruct (u_tick ops (an_x t) [v]) as [x o]. cbn [fst an_eta an_z an_x] in *. auto.
    - intros s t (E1 & E3 & E4). cbn [nest2_ops machine u_reset all_reset an_eta an_z an_x]. pose proof (along_back _ _ E4) as K. destruct (al_ar ops _ _ K) as [K1 _]. ands; auto; congruence.
    - cbn. ands; auto; now apply al_self.
    - cbn. split; [exact Hi|]. repeat (split; [reflexivity|]). now apply along_start.
  Qed.
  Lemma set_frame_lengths (b : list (list R)) k o : length o = length b -> map (@length R) (set_frame b k o) = map (@length R) b.
  Proof. unfold set_frame. revert o. induction b as [|c b IH]; intros [|x o] H; try discriminate; cbn; [auto|]. rewrite upd_len. f_equal. apply IH. cbn in H. lia. Qed.
  Lemma zero_lines (b b' : list (list R)) : map (@length R) b = map (@length R) b' -> map (fun c => repeat 0%R (length c)) b = map (fun c => repeat 0%R (length c)) b'.
  Proof. revert b'. induction b as [|c b IH]; intros [|c' b'] H; try discriminate; cbn in *; [auto|]. injection H as H1 H2. rewrite H1. f_equal. auto. Qed.
  Lemma loop_resettable u samples len buf n : resettable ops u -> u_outs ops u = u_ins ops u -> resettable (loop_ops ops) (mkFb u samples len (repeat (repeat 0%R n) (u_ins ops u)) 0 buf).
  Proof.
    intros Hu Ho. refine (way_resettable (loop_ops ops) (fun s t => fb_samples s = fb_samples t /\ fb_len s = fb_len t /\ fb_line s = fb_line t /\ fb_index s = fb_index t /\
        al ops (fb_x s) (fb_x t) /\ u_outs ops (fb_x s) = u_ins ops (fb_x s) /\ length (fb_line s) = u_ins ops (fb_x s)) _ _ (fun s t => u_outs ops (fb_x s) = u_ins ops (fb_x s) /\ length (fb_line s) = u_ins ops (fb_x s) /\ fb_samples s = fb_samples t /\ fb_len s = fb_len t /\
        map (@length R) (fb_line s) = map (@length R) (fb_line t) /\ fb_line s = map (fun c => repeat 0%R (length c)) (fb_line s) /\ fb_index s = 0 /\ along (fb_x s) (fb_x t)) _ _ _ _ _).
    - intros s t i (E1 & E2 & E3 & E4 & E5 & E6 & E7) Hi. cbn [loop_ops u_tick u_ins u_outs] in *. unfold fb_tick, read_index. rewrite E1, E2, E4, E3.
      set (v := zipw _ _ _). assert (Hv : length v = u_ins ops (fb_x s)). { unfold v. rewrite BufProofs.zipw_length, BufProofs.frame_length, <- E3, E7, Hi. apply Nat.min_id. }
      destruct (al_tick ops _ _ v E5 Hv) as (K1 & K2 & K3 & K4 & K5).
      destruct (u_tick ops (fb_x s) v) as [x o], (u_tick ops (fb_x t) v) as [x' o']. cbn [fst snd fb_samples fb_len fb_line fb_index fb_x] in *. subst o'.
      ands; auto; try congruence. unfold set_frame. rewrite BufProofs.zipw_length. rewrite <- E3, K3, E6, E7, Nat.min_id. congruence.
    - intros s t (E1 & E2 & E3 & E4 & E5 & E6 & E7). cbn. apply (al_ar ops _ _ E5).
    - intros s t i (E1 & E2 & E3 & E4 & E5 & E6 & E7 & E8) Hi. cbn [loop_ops u_tick u_ins u_outs] in *. unfold fb_tick.
      set (v := zipw _ _ _). assert (Hl : length (fb_line t) = length (fb_line s)). { rewrite <- (map_length (@length R)), <- E5, map_length. reflexivity. }
      destruct (E8) as [[F Rs] (l & Hl2 & El)]. destruct (F l Hl2) as (F1 & F2 & _). rewrite <- El in F1, F2.
      assert (Hv : length v = u_ins ops (fb_x s)). { unfold v. rewrite BufProofs.zipw_length, BufProofs.frame_length, Hl, E2, Hi, F1. apply Nat.min_id. }
      destruct (along_step _ _ v E8 Hv) as (K1 & K2 & K3 & K4).
      assert (K5 : length (snd (u_tick ops (fb_x t) v)) = u_outs ops (fb_x s)).
      { destruct (F (l ++ [v])) as (_ & _ & F3); [apply Forall_app; split; auto|]. rewrite played_app in F3. apply Forall_app in F3. destruct F3 as [_ F3]. rewrite played_cons in F3. rewrite <- El in F3. now inversion F3. }
      destruct (u_tick ops (fb_x t) v) as [x o]. cbn [fst snd fb_samples fb_len fb_line fb_index fb_x] in *. split; [|congruence]. repeat (split; [assumption|]). split; [|auto].
      rewrite set_frame_lengths; [exact E5|]. congruence.
    - intros s t (E1 & E2 & E3 & E4 & E5 & E6 & E7 & E8). cbn [loop_ops u_reset fb_reset fb_samples fb_len fb_line fb_index fb_x]. pose proof (along_back _ _ E8) as K. destruct (al_ar ops _ _ K) as [K1 K2].
      ands; auto; try congruence.
      + rewrite E6. apply zero_lines. auto.
      + rewrite map_length, K1, <- E2, <- (map_length (@length R)), <- E5, map_length. reflexivity.
    - cbn. ands; auto; try (now apply al_self). now rewrite repeat_length.
    - cbn [fb_samples fb_len fb_line fb_index fb_x]. split; [exact Ho|]. split; [now rewrite repeat_length|]. repeat (split; [reflexivity|]). split; [|split; [reflexivity|now apply along_start]].
      generalize (u_ins ops u). induction n0; cbn; [auto|]. now rewrite repeat_length, <- IHn0.
  Qed.
End Nest.

Lemma fresh_impl {A U} (ar : arith A) (p q : U -> Prop) (x : NodeModel.node A U) : (forall u, p u -> q u) -> fresh ar p x -> fresh ar q x.
Proof.
  intros H. assert (L : forall xs : list (NodeModel.node A U), Forall (fun x => fresh ar p x -> fresh ar q x) xs -> each (fresh ar p) xs -> each (fresh ar q) xs).
  { induction 1; cbn; [auto|]. intros []. split; auto. }
  induction x using NodeProofs.node_ind'; cbn [fresh]; auto; try tauto; try (now apply L).
Qed.
Section Together2.
  Context {G S_ X Y : Type} (tl : tools R G S_ X) (tanh_ : R -> R) (rnd : N -> R) (tb : list (R * list R)) (conv bit : N -> R) (xtick : Y -> list R -> Y * list R) (xreset : Y -> Y).
  Lemma mixed_resettable ar x : shapes_reset tl -> nests_reset tl -> tables_ok tb -> filters_reset xtick xreset ->
    NodeModel.wf (part_ops tl tanh_ rnd tb conv bit xtick xreset) x -> fresh ar (part_ready tl rnd tb xreset) x ->
    resettable (expr_ops ar (part_ops tl tanh_ rnd tb conv bit xtick xreset)) x.
  Proof.
    intros H1 H2 H3 H4 Hw Hf. apply expr_resettable; [exact Hw|]. apply (fresh_impl ar (part_ready tl rnd tb xreset)); [|exact Hf]. intros u Hu. now apply parts_resettable.
  Qed.
End Together2.

(* for examples *)
Definition tuned_filter : tnode R unit unit R := t_reset Rnum_ops real_tools (t_rate Rnum_ops real_tools (TSvf (svf_new Rnum_ops (tl_elem real_tools) MLowpass (mkSvp 44100 440 1 1)%R) 1 0) 48000%R).
Lemma lines_equal k : @DelayModel.line_new R 0%R k = line_new 0%R (length (l_buf (@DelayModel.line_new R 0%R k))).
Proof. cbn. now rewrite repeat_length. Qed.
Definition mixed_expr : NodeModel.node R (part (G := unit) (S := unit) (X := R) (Y := unit)) :=
  Pipe (Pipe (Stack (Leaf (inr (inr (inl (SOsc KSaw (osc_new Rnum_ops (Some (1 / 3)%R) (/ 44100)%R)))))) (Constant [1000; 1]%R)) (Leaf (inl tuned_filter)))
    (Feedback (Leaf (inr (inr (inr (inl (LDelay (mkDelay 1 3 (line_new 0 4))%R)))))) [0%R] (fun v => v)).
