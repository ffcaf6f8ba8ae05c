(* Reset of the nodes of TuneModel.v *)
From Coq Require Import Reals Lra Lia.
From Verif Require Import ResetUnits ResetProofs TuneSpec TuneReal OpProofs2.
Import ListNotations.
Local Open Scope nat_scope.

(* general criteria *)
Section Criteria.
  Context {A P U : Type}.
  Variable ops : unit_ops A P U.
  Variable Inv : U -> Prop.
  Hypothesis step : forall u i, Inv u -> length i = u_ins ops u ->
    Inv (fst (u_tick ops u i)) /\ u_ins ops (fst (u_tick ops u i)) = u_ins ops u /\ u_outs ops (fst (u_tick ops u i)) = u_outs ops u /\ length (snd (u_tick ops u i)) = u_outs ops u.
  Lemma inv_after l : forall u, Inv u -> stream (u_ins ops u) l -> Inv (after ops u l) /\ u_ins ops (after ops u l) = u_ins ops u /\ u_outs ops (after ops u l) = u_outs ops u /\ stream (u_outs ops u) (played ops u l).
  Proof.
    induction l as [|i l IH]; intros u Hu Hl; [repeat split; auto; constructor|]. inversion Hl as [|? ? Hi Hl']; subst. rewrite after_cons, played_cons.
    destruct (step u i Hu Hi) as (H1 & H2 & H3 & H4). rewrite <- H2 in Hl'. destruct (IH _ H1 Hl') as (H5 & H6 & H7 & H8). rewrite H6, H7, H3 in *. repeat split; auto. constructor; auto.
  Qed.
  Lemma inv_fixed u : Inv u -> fixed_arity ops u.
  Proof. intros Hu l Hl. apply inv_after; auto. Qed.
  (* norm leaves out what playing does not show *)
  Context {W : Type}.
  Variable norm : U -> W.
  Hypothesis norm_ar : forall u v, norm u = norm v -> u_ins ops u = u_ins ops v /\ u_outs ops u = u_outs ops v.
  Hypothesis norm_tick : forall u v i, Inv u -> Inv v -> norm u = norm v -> length i = u_ins ops u ->
    norm (fst (u_tick ops u i)) = norm (fst (u_tick ops v i)) /\ snd (u_tick ops u i) = snd (u_tick ops v i).
  Hypothesis norm_reset : forall u i, Inv u -> length i = u_ins ops u -> norm (u_reset ops (fst (u_tick ops u i))) = norm (u_reset ops u).
  Hypothesis inv_reset : forall u, Inv u -> Inv (u_reset ops u).
  Lemma norm_alike_run l : forall u v, Inv u -> Inv v -> norm u = norm v -> stream (u_ins ops u) l ->
    u_ins ops (after ops u l) = u_ins ops (after ops v l) /\ u_outs ops (after ops u l) = u_outs ops (after ops v l) /\ played ops u l = played ops v l.
  Proof.
    induction l as [|i l IH]; intros u v Hu Hv E Hl.
    - destruct (norm_ar _ _ E). repeat split; auto.
    - inversion Hl as [|? ? Hi Hl']; subst. rewrite !after_cons, !played_cons. destruct (norm_tick u v i Hu Hv E Hi) as [E1 E2].
      destruct (norm_ar _ _ E) as [E3 E4]. destruct (step u i Hu Hi) as (H1 & H2 & _). destruct (step v i Hv ltac:(congruence)) as (H3 & _).
      rewrite <- H2 in Hl'. destruct (IH _ _ H1 H3 E1 Hl') as (H5 & H6 & H7). rewrite E2, H7. auto.
  Qed.
  Lemma norm_alike u v : Inv u -> Inv v -> norm u = norm v -> alike ops u v.
  Proof. intros Hu Hv E. destruct (norm_ar _ _ E). split; auto. split; auto. intros l Hl. now apply norm_alike_run. Qed.
  Lemma norm_reset_run l : forall u, Inv u -> stream (u_ins ops u) l -> norm (u_reset ops (after ops u l)) = norm (u_reset ops u).
  Proof.
    induction l as [|i l IH]; intros u Hu Hl; [reflexivity|]. inversion Hl as [|? ? Hi Hl']; subst. rewrite after_cons. destruct (step u i Hu Hi) as (H1 & H2 & _).
    rewrite <- H2 in Hl'. rewrite (IH _ H1 Hl'). now apply norm_reset.
  Qed.
  Lemma norm_restored u : Inv u -> norm (u_reset ops u) = norm u -> restored ops u.
  Proof.
    intros Hu E l Hl. apply norm_alike; auto; [apply inv_reset; now apply inv_after|]. rewrite <- E. now apply norm_reset_run.
  Qed.
End Criteria.

Section Tuned.
  Context {G S_ X : Type} (tl : tools R G S_ X).
  Notation nm := Rnum_ops.
  Notation el := (tl_elem tl).
  Notation tn := (tnode R G S_ X).
  Notation zbi := (mkBi 0 0 0 0 0)%R.
  Notation zsv := (mkSv 0 0 0 0 0 0)%R.
  (* coefficients are those of the parameters; subsampling is off *)
  Definition sound (n : tn) : Prop :=
    match n with
    | TLow true _ c f sr => c = pole_coeff nm el sr f
    | THigh true _ _ c f sr => c = pole_coeff nm el sr f
    | TButter true b sr f => bq_c b = butter_lowpass nm el sr f
    | TReson true b sr f q => bq_c b = resonator nm el sr f q
    | TSvf s p c => p <= 1 /\ c = 0 /\ vf_c s = sv_coefs nm el (vf_mode s) (vf_par s)
    | TRez true s => rz_f s = rz_f (rez_tune nm tl s (rz_sr s) (rz_cutoff s) (rz_q s)) /\ rz_fb s = rz_fb (rez_tune nm tl s (rz_sr s) (rz_cutoff s) (rz_q s))
    | TDirty true s => dt_c s = bi_coefs nm tl (dt_mode s) (dt_par s)
    | TBank s => let k := length (bk_a1 s) in length (bk_a2 s) = k /\ length (bk_b0 s) = k /\ length (bk_b1 s) = k /\ length (bk_b2 s) = k /\
        length (bk_x1 s) = k /\ length (bk_x2 s) = k /\ length (bk_y1 s) = k /\ length (bk_y2 s) = k
    | _ => True
    end.
  Definition norm (n : tn) : tn :=
    match n with
    | TLow true v _ _ sr => TLow true v 0%R 0%R sr
    | TAll true _ x y => TAll true 0%R x y
    | THigh true x y _ _ sr => THigh true x y 0%R 0%R sr
    | TButter true b sr _ => TButter true (with_coefs b zbi) sr 0%R
    | TReson true b sr _ _ => TReson true (with_coefs b zbi) sr 0%R 0%R
    | TSvf s p c => TSvf (mkSvf (vf_mode s) (mkSvp (sp_sr (vf_par s)) 0%R 0%R (if sv_gained (vf_mode s) then 0%R else sp_gain (vf_par s))) zsv (vf_ic1 s) (vf_ic2 s)) 1 c
    | TMoog true s => TMoog true (mkMoog 0%R 0%R (mg_sr s) 0%R 0%R 0%R (mg_s0 s) (mg_s1 s) (mg_s2 s) (mg_s3 s) (mg_px s) (mg_ps0 s) (mg_ps1 s) (mg_ps2 s))
    | TRez true s => TRez true (mkRez (rz_buf0 s) (rz_buf1 s) 0%R 0%R 0%R 0%R (rz_sr s) (rz_bp s))
    | TDirty true s => TDirty true (mkDirty (dt_fb s) (dt_mode s) (mkSvp (sp_sr (dt_par s)) 0%R 0%R (if bi_gained (dt_mode s) then 0%R else sp_gain (dt_par s))) zbi (dt_sh1 s) (dt_sh2 s) (dt_s1 s) (dt_s2 s))
    | TPan s => if Nat.ltb 1 (p_n s) then TPan (mkPan (p_n s) 0%R 0%R) else n
    | THold s => if nleb nm (hd_next s) (hd_t s) then THold (mkHold (hd_rnd s) (hd_hash s) (hd_sd s) (hd_var s) (hd_t s) (hd_next s) 0%R) else n
    | TDsf true s => TDsf true (mkDsf (ds_phase s) 0%R (ds_spacing s) (ds_sd s) (ds_hash s) (ds_init s))
    | TNest true x _ z => TNest true x 0%R z
    | _ => n
    end.
  Notation ops := (t_ops nm tl).
  Lemma lanes_length f (a b : list R) : length (lanes2 f a b) = Nat.min (length a) (length b).
  Proof. unfold lanes2. rewrite map_length, combine_length. reflexivity. Qed.
  (* with coefficients that are those of the parameters, reading the inputs gives what they say, whatever the parameters were *)
  Lemma low_det c f0 sr f : c = pole_coeff nm el sr f0 -> (if neqb nm f f0 then pole_coeff nm el sr f else c) = pole_coeff nm el sr f /\ (if neqb nm f f0 then f else f0) = f.
  Proof. intros ->. destruct (neqb nm f f0) eqn:E; auto. apply neqb_R in E. now subst. Qed.
  Lemma butter_det b f0 sr f : bq_c b = butter_lowpass nm el sr f0 ->
    (if neqb nm f f0 then with_coefs b (butter_lowpass nm el sr f) else b) = with_coefs b (butter_lowpass nm el sr f) /\ (if neqb nm f f0 then f else f0) = f.
  Proof. intros H. destruct (neqb nm f f0) eqn:E; auto. apply neqb_R in E. subst. split; auto. destruct b. cbn in *. now subst. Qed.
  Lemma reson_det b f0 q0 sr f q : bq_c b = resonator nm el sr f0 q0 -> let d := neqb nm f f0 || neqb nm q q0 in
    (if d then with_coefs b (resonator nm el sr f q) else b) = with_coefs b (resonator nm el sr f q) /\ (if d then f else f0) = f /\ (if d then q else q0) = q.
  Proof.
    intros H. cbv zeta. destruct (neqb nm f f0) eqn:E; auto. destruct (neqb nm q q0) eqn:E'; auto. apply neqb_R in E, E'. cbn [orb]. subst. repeat split; auto. destruct b. cbn in *. now subst.
  Qed.
  Lemma rez_det s f q : sound (TRez true s) -> (if neqb nm f (rz_cutoff s) || neqb nm q (rz_q s) then rez_tune nm tl s (rz_sr s) f q else s) = rez_tune nm tl s (rz_sr s) f q.
  Proof.
    intros [H1 H2]. destruct (neqb nm f _) eqn:E; auto. destruct (neqb nm q _) eqn:E'; auto. apply neqb_R in E, E'. cbn [orb]. rewrite E, E'.
    destruct s. unfold rez_tune in *. cbn -[Rnum_ops e_sin e_pi] in *. rewrite <- H2, <- H1. reflexivity.
  Qed.
  Lemma squares (a b c : R) : (a * a + b * b + c * c = 0)%R -> a = 0%R /\ b = 0%R /\ c = 0%R.
  Proof.
    intros H. pose proof (Rle_0_sqr a) as A. pose proof (Rle_0_sqr b) as B. pose proof (Rle_0_sqr c) as C. unfold Rsqr in *. repeat split; apply Rsqr_0_uniq; unfold Rsqr; lra.
  Qed.
  Definition dirty_given (s : dirty R S_) (i : list R) : svparams R :=
    mkSvp (sp_sr (dt_par s)) (nth 1 i 0%R) (nth 2 i 0%R) (if bi_gained (dt_mode s) then nth 3 i 0%R else sp_gain (dt_par s)).
  Lemma dirty_det s i : dt_c s = bi_coefs nm tl (dt_mode s) (dt_par s) -> dirty_inputs nm tl s i = dirty_tune nm tl s (dirty_given s i).
  Proof.
    intros H. unfold dirty_inputs, dirty_given. destruct s as [fb m [sr f q g] c a b s1 s2]. cbn [dt_mode dt_par sp_sr sp_cutoff sp_q sp_gain dt_c] in *. subst c.
    change (n0 nm) with 0%R. destruct (bi_gained m); destruct (neqb nm _ 0%R) eqn:E; try reflexivity; apply neqb_R in E; unfold squared in E; cbn in E.
    - assert (nth 1 i 0 = f /\ nth 2 i 0 = q /\ nth 3 i 0 = g)%R as (-> & -> & ->); [|reflexivity]. apply squares in E. destruct E as (? & ? & ?). repeat split; lra.
    - assert (nth 1 i 0 = f /\ nth 2 i 0 = q)%R as (-> & ->); [|reflexivity]. destruct (squares (nth 1 i 0 - f) (nth 2 i 0 - q) 0)%R as (? & ? & _); [lra|]. repeat split; lra.
  Qed.
  Lemma sound_tick u i : sound u -> length i = u_ins ops u ->
    sound (fst (u_tick ops u i)) /\ u_ins ops (fst (u_tick ops u i)) = u_ins ops u /\ u_outs ops (fst (u_tick ops u i)) = u_outs ops u /\ length (snd (u_tick ops u i)) = u_outs ops u.
  Proof.
    intros Hs Hi. destruct u; cbn [u_tick t_ops t_tick u_ins u_outs t_inputs t_outputs sound] in *.
    - destruct w; cbn [andb]; [|cbn; auto]. destruct (low_det _ _ _ (nth 1 i (n0 nm)) Hs) as [-> ->]. cbn; auto.
    - cbn; auto.
    - destruct w; cbn; auto.
    - destruct w; cbn [andb]; [|cbn; auto]. destruct (low_det _ _ _ (nth 1 i (n0 nm)) Hs) as [-> ->]. cbn; auto.
    - destruct w; cbn [andb]; [|cbn; auto]. destruct (butter_det _ _ _ (nth 1 i (n0 nm)) Hs) as [-> ->]. cbn; auto.
    - destruct w; cbn [andb]; [|cbn; auto]. destruct (reson_det _ _ _ _ (nth 1 i (n0 nm)) (nth 2 i (n0 nm)) Hs) as (-> & -> & ->). cbn; auto.
    - cbn; auto.
    - destruct Hs as (A1 & A2 & A3 & A4 & A5 & A6 & A7 & A8). cbn. rewrite !lanes_length. repeat split; auto; lia.
    - cbn; auto.
    - destruct Hs as (A1 & A2 & A3). subst counter. rewrite (proj2 (Nat.leb_le period (0 + 1))) by lia. rewrite inputs_det by assumption. cbn. auto.
    - destruct w; cbn; auto.
    - destruct w; cbn [andb]; [|cbn; auto]. rewrite rez_det by assumption. cbn. auto.
    - destruct w.
      + rewrite dirty_det by assumption. unfold dirty_step. destruct s as [fb m p c a b s1 s2]. cbn [dirty_tune dt_fb dt_mode dt_par dt_c dt_sh1 dt_sh2 dt_s1 dt_s2] in *.
        destruct fb; repeat (destruct (tl_shape tl _ _)); cbn; auto.
      + unfold dirty_step. destruct s as [fb m p c a b s1 s2]. cbn [dt_fb dt_mode dt_par dt_c dt_sh1 dt_sh2 dt_s1 dt_s2] in *.
        destruct fb; repeat (destruct (tl_shape tl _ _)); cbn; auto.
    - cbn; auto.
    - cbn; auto.
    - cbn; auto.
    - unfold panner_tick. destruct (Nat.ltb 1 (p_n s)); cbn; auto.
    - unfold hold_step. destruct (nleb nm _ _); [destruct (tl_next tl _)|]; cbn; auto.
    - destruct w; cbn; auto.
    - destruct (tl_tick tl x _). cbn. destruct w; auto.
  Qed.
  Lemma norm_arity u v : norm u = norm v -> u_ins ops u = u_ins ops v /\ u_outs ops u = u_outs ops v.
  Proof.
    intros E. assert (forall n, t_inputs (norm n) = t_inputs n /\ t_outputs (norm n) = t_outputs n) as K.
    { intros []; cbn [norm]; try (destruct w); try (destruct (Nat.ltb _ _)); try (destruct (nleb _ _ _)); cbn; auto. }
    cbn. destruct (K u) as [<- <-], (K v) as [<- <-]. now rewrite E.
  Qed.
  Definition kind (n : tn) : nat :=
    match n with
    | TLow _ _ _ _ _ => 0 | TDc _ _ _ _ _ => 1 | TAll _ _ _ _ => 2 | THigh _ _ _ _ _ _ => 3 | TButter _ _ _ _ => 4 | TReson _ _ _ _ _ => 5 | TBiquad _ => 6 | TBank _ => 7 | TFix _ => 8
    | TSvf _ _ _ => 9 | TMoog _ _ => 10 | TRez _ _ => 11 | TDirty _ _ => 12 | TFollow _ _ _ => 13 | TAFollow _ _ _ _ => 14 | TConst _ => 15 | TPan _ => 16 | THold _ => 17 | TDsf _ _ => 18 | TNest _ _ _ _ => 19
    end.
  Lemma kind_norm n : kind (norm n) = kind n.
  Proof. destruct n; cbn [norm]; try (destruct w); try (destruct (Nat.ltb _ _)); try (destruct (nleb _ _ _)); reflexivity. Qed.
  Lemma norm_tick u v i : sound u -> sound v -> norm u = norm v -> length i = u_ins ops u ->
    norm (fst (u_tick ops u i)) = norm (fst (u_tick ops v i)) /\ snd (u_tick ops u i) = snd (u_tick ops v i).
  Proof.
    intros Hu Hv E _. assert (K : kind u = kind v) by (rewrite <- (kind_norm u), E; apply kind_norm).
    destruct u, v; try discriminate K; clear K; cbn [norm sound u_tick t_ops t_tick] in *.
    - destruct w, w0; try discriminate E.
      + injection E as -> ->. cbn [andb]. destruct (low_det _ _ _ (nth 1 i (n0 nm)) Hu) as [-> ->], (low_det _ _ _ (nth 1 i (n0 nm)) Hv) as [-> ->]. auto.
      + injection E as -> -> -> ->. auto.
    - injection E as -> -> -> -> ->. auto.
    - destruct w, w0; try discriminate E; [injection E as -> ->|injection E as -> -> ->]; auto.
    - destruct w, w0; try discriminate E.
      + injection E as -> -> ->. cbn [andb]. destruct (low_det _ _ _ (nth 1 i (n0 nm)) Hu) as [-> ->], (low_det _ _ _ (nth 1 i (n0 nm)) Hv) as [-> ->]. auto.
      + injection E as -> -> -> -> ->. auto.
    - destruct w, w0; try discriminate E.
      + injection E as E1 E2 E3 E4 ->. cbn [andb]. destruct (butter_det _ _ _ (nth 1 i (n0 nm)) Hu) as [-> ->], (butter_det _ _ _ (nth 1 i (n0 nm)) Hv) as [-> ->].
        cbn. now rewrite E1, E2, E3, E4.
      + injection E as -> -> ->. auto.
    - destruct w, w0; try discriminate E.
      + injection E as E1 E2 E3 E4 ->. cbn [andb]. destruct (reson_det _ _ _ _ (nth 1 i (n0 nm)) (nth 2 i (n0 nm)) Hu) as (-> & -> & ->), (reson_det _ _ _ _ (nth 1 i (n0 nm)) (nth 2 i (n0 nm)) Hv) as (-> & -> & ->).
        cbn. now rewrite E1, E2, E3, E4.
      + injection E as -> -> -> ->. auto.
    - injection E as ->. auto.
    - injection E as ->. auto.
    - injection E as ->. auto.
    - destruct Hu as (A1 & A2 & A3), Hv as (B1 & B2 & B3). subst counter counter0. rewrite (proj2 (Nat.leb_le period (0 + 1))) by lia. rewrite (proj2 (Nat.leb_le period0 (0 + 1))) by lia.
      rewrite !inputs_det by assumption. injection E as E1 E2 E3 E4 E5. cbn -[sv_coefs]. rewrite E1, E2, E4, E5. rewrite E1 in E3. destruct (sv_gained (vf_mode s0)); [auto|]. rewrite E3. auto.
    - destruct w, w0; try discriminate E.
      + injection E as E1 E2 E3 E4 E5 E6 E7 E8 E9. cbn -[e_sin e_pi]. now rewrite E1, E2, E3, E4, E5, E6, E7, E8, E9.
      + injection E as ->. auto.
    - destruct w, w0; try discriminate E.
      + cbn [andb]. rewrite (rez_det s), (rez_det s0) by assumption. injection E as E1 E2 E3 E4. cbn -[e_sin e_pi]. now rewrite E1, E2, E3, E4.
      + injection E as ->. auto.
    - destruct w, w0; try discriminate E; [|injection E as ->; auto].
      rewrite !dirty_det by assumption. unfold dirty_given, dirty_step. destruct s as [fb m p c a b s1 s2], s0 as [fb' m' p' c' a' b' s1' s2'].
      cbn [dirty_tune dt_fb dt_mode dt_par dt_c dt_sh1 dt_sh2 dt_s1 dt_s2] in *. injection E as <- <- E3 E4 <- <- <- <-. rewrite E3.
      assert (Eg : (if bi_gained m then nth 3 i 0%R else sp_gain p) = (if bi_gained m then nth 3 i 0%R else sp_gain p')) by (destruct (bi_gained m); auto). rewrite Eg.
      destruct fb; repeat (destruct (tl_shape tl _ _)); cbn; auto.
    - injection E as -> -> ->. auto.
    - injection E as -> -> -> ->. auto.
    - injection E as ->. auto.
    - destruct (Nat.ltb 1 (p_n s)) eqn:E1; destruct (Nat.ltb 1 (p_n s0)) eqn:E2.
      + injection E as E3. unfold panner_tick. rewrite E1, E2. unfold set_pan. destruct (pan_weights _ _ _ _ _). cbn. rewrite E3. auto.
      + injection E as <-. cbn [p_n] in E2. congruence.
      + injection E as ->. cbn [p_n] in E1. congruence.
      + injection E as ->. auto.
    - unfold hold_step. destruct (nleb nm (hd_next s) (hd_t s)) eqn:E1; destruct (nleb nm (hd_next s0) (hd_t s0)) eqn:E2.
      + injection E as E3 E4 E5 E6 E7 E8. rewrite E3. destruct (tl_next tl _). cbn [fst snd hd_rnd hd_hash hd_sd hd_var hd_t hd_next hd_hold]. rewrite E4, E5, E6, E7. auto.
      + injection E as <-. cbn [hd_next hd_t] in E2. congruence.
      + injection E as ->. cbn [hd_next hd_t] in E1. congruence.
      + injection E as ->. auto.
    - destruct w, w0; try discriminate E; [|injection E as ->; auto].
      injection E as E1 E2 E3 E4 E5. unfold dsf_tick, set_roughness. cbn [fst snd ds_phase ds_rough ds_spacing ds_sd ds_hash ds_init]. rewrite E1, E2, E3, E4, E5. auto.
    - destruct w, w0; try discriminate E.
      + injection E as -> ->. destruct (tl_tick tl _ _). auto.
      + injection E as -> -> ->. destruct (tl_tick tl _ _). auto.
  Qed.
  Lemma sound_reset u : sound u -> sound (u_reset ops u).
  Proof.
    destruct u; cbn [u_reset t_ops t_reset sound]; try (destruct w); auto; cbn; intros H; rewrite ?repeat_length; try tauto.
  Qed.
  Hypothesis Hsh : shapes_reset tl.
  Hypothesis Hne : nests_reset tl.
  Lemma norm_reset u i : sound u -> length i = u_ins ops u -> norm (u_reset ops (fst (u_tick ops u i))) = norm (u_reset ops u).
  Proof.
    intros Hs Hi. destruct Hsh as [H1 _], Hne as [H2 _]. destruct u; cbn [u_tick t_ops t_tick u_reset sound] in *; try reflexivity.
    - destruct w; reflexivity.
    - destruct w; reflexivity.
    - destruct w; reflexivity.
    - destruct w; cbn [andb]; [|reflexivity]. destruct (butter_det _ _ _ (nth 1 i (n0 nm)) Hs) as [-> ->]. reflexivity.
    - destruct w; cbn [andb]; [|reflexivity]. destruct (reson_det _ _ _ _ (nth 1 i (n0 nm)) (nth 2 i (n0 nm)) Hs) as (-> & -> & ->). reflexivity.
    - destruct Hs as (A1 & A2 & A3). subst counter. rewrite (proj2 (Nat.leb_le period (0 + 1))) by lia. rewrite !inputs_det by assumption. cbn -[sv_coefs sv_gained].
      destruct (sv_gained (vf_mode s)) eqn:E; reflexivity.
    - destruct w; reflexivity.
    - destruct w; cbn [andb]; [|reflexivity]. rewrite (rez_det s) by assumption. reflexivity.
    - destruct w.
      + rewrite dirty_det by assumption. unfold dirty_given, dirty_step. destruct s as [fb m p c a b s1 s2]. cbn [dirty_tune dt_fb dt_mode dt_par dt_c dt_sh1 dt_sh2 dt_s1 dt_s2] in *.
        destruct fb.
        * match goal with |- context [tl_shape tl a ?x] => pose proof (H1 a x) as K; destruct (tl_shape tl a x) end. cbn [fst t_reset] in *. unfold dirty_reset. cbn. rewrite K. destruct (bi_gained m); reflexivity.
        * match goal with |- context [tl_shape tl a ?x] => pose proof (H1 a x) as K; destruct (tl_shape tl a x) end.
          match goal with |- context [tl_shape tl b ?x] => pose proof (H1 b x) as K'; destruct (tl_shape tl b x) end. cbn [fst t_reset] in *. unfold dirty_reset. cbn. rewrite K, K'. destruct (bi_gained m); reflexivity.
      + unfold dirty_step. destruct s as [fb m p c a b s1 s2]. cbn [dt_fb dt_mode dt_par dt_c dt_sh1 dt_sh2 dt_s1 dt_s2] in *. destruct fb.
        * match goal with |- context [tl_shape tl a ?x] => pose proof (H1 a x) as K; destruct (tl_shape tl a x) end. cbn [fst t_reset] in *. unfold dirty_reset. cbn. rewrite K. reflexivity.
        * match goal with |- context [tl_shape tl a ?x] => pose proof (H1 a x) as K; destruct (tl_shape tl a x) end.
          match goal with |- context [tl_shape tl b ?x] => pose proof (H1 b x) as K'; destruct (tl_shape tl b x) end. cbn [fst t_reset] in *. unfold dirty_reset. cbn. rewrite K, K'. reflexivity.
    - unfold panner_tick. destruct (Nat.ltb 1 (p_n s)) eqn:E; [|reflexivity]. unfold set_pan. destruct (pan_weights _ _ _ _ _). cbn [fst t_reset norm p_n]. rewrite E. reflexivity.
    - unfold hold_step. destruct (nleb nm (hd_next s) (hd_t s)); [destruct (tl_next tl _)|]; cbn; destruct (Rle_dec _ _); auto; exfalso; lra.
    - destruct w; reflexivity.
    - match goal with |- context [tl_tick tl x ?v] => pose proof (H2 x v) as K; destruct (tl_tick tl x v) end. cbn in *. rewrite K. destruct w; reflexivity.
  Qed.
  Lemma tuned_fixed u : sound u -> fixed_arity ops u.
  Proof. apply (inv_fixed ops sound sound_tick). Qed.
  Lemma tuned_restored u : sound u -> norm (u_reset ops u) = norm u -> restored ops u.
  Proof. intros. apply (norm_restored ops sound sound_tick norm norm_arity norm_tick norm_reset sound_reset); auto. Qed.
  (* which nodes *)
  Lemma reset_again u : norm (t_reset nm tl (t_reset nm tl u)) = norm (t_reset nm tl u).
  Proof.
    destruct Hsh as [_ H1], Hne as [_ H2]. destruct u; try reflexivity; try (destruct w); try reflexivity; cbn.
    - destruct s as [fb m p c a b s1 s2]. unfold dirty_reset. cbn. destruct fb; now rewrite ?H1.
    - destruct s as [fb m p c a b s1 s2]. unfold dirty_reset. cbn. destruct fb; now rewrite ?H1.
    - now rewrite H2.
    - now rewrite H2.
  Qed.
  Lemma sound_build w op n : TuneModel.build nm tl w op = Some n -> sound n.
  Proof.
    destruct op; cbn [TuneModel.build]; intros E; try (injection E as <-); try (destruct w); try exact I; try reflexivity; try (cbn; rewrite ?map_length, ?repeat_length; now repeat split); try (split; reflexivity).
    all: destruct (nltb _ _ _); [injection E as <-; exact I|discriminate E].
  Qed.
  Lemma build_norm w op n : TuneModel.build nm tl w op = Some n -> new_parts tl op -> norm (t_reset nm tl n) = norm n.
  Proof.
    destruct op; cbn [TuneModel.build new_parts]; intros E Hp; try (injection E as <-); try (destruct w); try reflexivity.
    all: try (destruct (nltb _ _ _); [injection E as <-; reflexivity|discriminate E]).
    all: cbn; unfold dirty_reset, bank_reset, bank_new; cbn; rewrite ?map_length, ?Hp; try (destruct fb); try reflexivity.
    all: unfold follow_tune, afollow_tune, fo_set_coeff, af_set_coeffs; cbn; destruct (Rlt_dec 1 1); [lra|reflexivity].
  Qed.
  Lemma upd_length' (l : list R) i v : length (upd l i v) = length l.
  Proof. revert i. induction l; destruct i; cbn; auto. Qed.
  Lemma sound_rate n sr : sound n -> sound (t_rate nm tl n sr) /\ t_inputs (t_rate nm tl n sr) = t_inputs n.
  Proof.
    destruct n; cbn [t_rate sound t_inputs]; intros H; (split; [|reflexivity]); try (destruct w); try exact I; try reflexivity; try exact H; try (split; reflexivity).
    destruct H as (H1 & H2 & H3). split; [exact H1|]. split; [exact H2|reflexivity].
  Qed.
  Lemma sound_set n st m : unsampled st -> sound n -> t_set nm tl n st = Some m -> sound m /\ t_inputs m = t_inputs n.
  Proof.
    intros Hu H E. unfold unsampled in Hu. destruct n; cbn [t_set] in E.
    all: destruct (s_par st); try contradiction; try (injection E as <-; split; [exact H|reflexivity]).
    all: try (injection E as <-; split; [try (destruct w); try exact I; try reflexivity; try (split; reflexivity)|reflexivity]).
    1: { destruct (direction st); try (injection E as <-; auto). unfold bank_set in E. destruct (Nat.ltb _ _); [|discriminate]. injection E as <-. cbn in *. rewrite !upd_length'. auto. }
    all: destruct w; injection E as <-; split; try exact H; try exact I; try reflexivity.
  Qed.
  Lemma inputs_reset n : t_inputs (t_reset nm tl n) = t_inputs n.
  Proof. destruct n; reflexivity. Qed.
  Lemma sound_run acts : forall n m os, sound n -> Forall (proper (t_inputs n)) acts -> t_run nm tl n (acts ++ [AReset]) = Some (m, os) -> sound m /\ exists u, m = t_reset nm tl u.
  Proof.
    induction acts as [|a acts IH]; intros n m os Hn Ha E.
    - cbn in E. injection E as <- <-. split; [now apply sound_reset|eauto].
    - inversion Ha as [|? ? Ha1 Ha2]; subst. destruct a; cbn [app t_run proper] in *.
      + destruct (sound_tick n i Hn Ha1) as (H1 & H2 & _). cbn [u_tick t_ops u_ins] in *. destruct (t_tick nm tl n i) as [n1 o1]. cbn [fst] in *.
        destruct (t_run nm tl n1 _) as [[m' os']|] eqn:E'; [|discriminate]. injection E as <- <-. rewrite <- H2 in Ha2. eapply IH; eauto.
      + destruct (t_set nm tl n s) as [n1|] eqn:Es; [|discriminate]. destruct (sound_set n s n1 Ha1 Hn Es) as [H1 H2]. rewrite <- H2 in Ha2. eapply IH; eauto.
      + destruct (sound_rate n sr Hn) as [H1 H2]. rewrite <- H2 in Ha2. eapply IH; eauto.
      + rewrite <- (inputs_reset n) in Ha2. eapply IH; [|exact Ha2|exact E]. now apply sound_reset.
  Qed.
  Lemma nodes_resettable n : as_new tl n -> resettable ops n.
  Proof.
    intros (w & op & n0 & Hb & [[-> Hp]|(acts & os & Ha & E)]).
    - pose proof (sound_build _ _ _ Hb). split; [now apply tuned_fixed|apply tuned_restored; auto]. eapply build_norm; eauto.
    - destruct (sound_run acts n0 n os (sound_build _ _ _ Hb) Ha E) as (Hs & u & ->). split; [now apply tuned_fixed|apply tuned_restored; auto]. apply reset_again.
  Qed.
End Tuned.
