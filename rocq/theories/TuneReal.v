(* Over the real numbers: inputs for parameters do what settings do. *)
From Coq Require Import Reals Lra.
From Verif Require Import TuneProofs TuneSpec.
Local Open Scope nat_scope.

Section Inputs.
  Context {G S X : Type}.
  Variable tl : tools R G S X.
  Notation nm := Rnum_ops.
  Notation el := (tl_elem tl).
  Notation tnode := (tnode R G S X).
  Notation opcode := (opcode R S X).

  Lemma neqb_R a b : neqb nm a b = false -> a = b.
  Proof.
    unfold neqb. cbn. destruct (Rle_dec a b), (Rle_dec b a); cbn; try discriminate. intros _. lra.
  Qed.
  Lemma sq2 a b : neqb nm (nadd nm (squared nm a) (squared nm b)) (n0 nm) = false -> a = 0%R /\ b = 0%R.
  Proof. intro H. apply neqb_R in H. cbn in H. unfold squared in H. cbn in H. split; nra. Qed.
  Lemma sq3 a b c : neqb nm (nadd nm (nadd nm (squared nm a) (squared nm b)) (squared nm c)) (n0 nm) = false -> a = 0%R /\ b = 0%R /\ c = 0%R.
  Proof. intro H. apply neqb_R in H. cbn in H. unfold squared in H. cbn in H. repeat split; nra. Qed.

  (* the node with settings that has the state of a node with inputs *)
  Definition slim (n : tnode) : tnode :=
    match n with
    | TLow _ v c f sr => TLow false v c f sr
    | TAll _ e x y => TAll false e x y
    | THigh _ x y c f sr => THigh false x y c f sr
    | TButter _ b sr f => TButter false b sr f
    | TSvf s _ _ => TFix s
    | TMoog _ s => TMoog false s
    | TRez _ s => TRez false s
    | TDirty _ s => TDirty false s
    | TPan s => TPan (mkPan 1 (p_left s) (p_right s))
    | TDsf _ s => TDsf false s
    | TNest _ x e z => TNest false x e z
    | n => n
    end.
  (* the coefficients of a node are those of its parameters *)
  Definition fits (op : opcode) (n : tnode) : Prop :=
    match op, n with
    | OLowpole _, TLow true _ c f sr => c = pole_coeff nm el sr f
    | OAllpole _, TAll true _ _ _ => True
    | OHighpole _, THigh true _ _ c f sr => c = pole_coeff nm el sr f
    | OButter _, TButter true b sr f => bq_c b = butter_lowpass nm el sr f
    | OSvf m _ _ _, TSvf s 1 0 => vf_mode s = m /\ vf_c s = sv_coefs nm el m (vf_par s)
    | OMoog _ _, TMoog true _ => True
    | ORez _ _ _, TRez true s => s = rez_tune nm tl s (rz_sr s) (rz_cutoff s) (rz_q s)
    | ODirty _ m _ _ _ _, TDirty true s => dt_mode s = m /\ dt_c s = bi_coefs nm tl m (dt_par s)
    | OPan _, TPan s => p_n s = 2
    | ODsf _ _ _, TDsf true _ => True
    | ONest _ _, TNest true _ _ _ => True
    | _, _ => False
    end.
  Lemma fits_build op k n m : arity op = Some k -> build nm tl true op = Some n -> build nm tl false op = Some m -> fits op n /\ m = slim n.
  Proof.
    destruct op; cbn; intro A; try discriminate A; try (intros E1 E2; injection E1 as <-; injection E2 as <-; now repeat split).
    match goal with |- context [if ?b then _ else _] => destruct b end; intros E1 E2; [injection E1 as <-; injection E2 as <-; now repeat split|discriminate].
  Qed.
  Lemma fits_rate op n sr : fits op n -> fits op (t_rate nm tl n sr) /\ slim (t_rate nm tl n sr) = t_rate nm tl (slim n) sr.
  Proof.
    destruct op, n; cbn; try contradiction; try (destruct w; try contradiction; intro H; now repeat split).
    - destruct period as [|[]], counter; try contradiction. intros [<- H]. now repeat split.
    - destruct w; [|contradiction]. intros [<- H]. now repeat split.
    - intro H. now split.
  Qed.
  Lemma fits_reset op n : fits op n -> fits op (t_reset nm tl n) /\ slim (t_reset nm tl n) = t_reset nm tl (slim n).
  Proof.
    destruct op, n; cbn; try contradiction; try (destruct w; try contradiction; intro H; now repeat split).
    - destruct period as [|[]], counter; try contradiction. intros [<- H]. now repeat split.
    - destruct w; [|contradiction]. intros H. split; [|reflexivity]. destruct s; unfold rez_reset, rez_tune in *; cbn in *. injection H; intros. congruence.
    - intro H. now split.
  Qed.
  Lemma fits_tick op k n x a b c : arity op = Some k -> fits op n -> exists m,
    t_set nm tl (slim n) (as_setting op a b c) = Some m /\
    t_tick nm tl m [x] = (slim (fst (t_tick nm tl n (firstn k [x; a; b; c]))), snd (t_tick nm tl n (firstn k [x; a; b; c]))) /\
    fits op (fst (t_tick nm tl n (firstn k [x; a; b; c]))).
  Proof.
    destruct op; cbn [arity]; intro A; try discriminate A; injection A as <-; destruct n; cbn [fits]; try contradiction; try (destruct w; [|contradiction]).
    - intros ->. cbn. eexists. split; [reflexivity|]. destruct (neqb nm a cutoff) eqn:E; [now split|]. apply neqb_R in E. subst. now split.
    - intros _. cbn. eexists. split; [reflexivity|]. now split.
    - intros ->. cbn. eexists. split; [reflexivity|]. destruct (neqb nm a cutoff) eqn:E; [now split|]. apply neqb_R in E. subst. now split.
    - intros B. cbn. eexists. split; [reflexivity|]. destruct (neqb nm a cutoff) eqn:E; [now split|]. apply neqb_R in E. subst. 
      destruct b0 as [c0 u1 u2 u3 u4]. cbn in B. subst c0. now split.
    - destruct period as [|[]], counter; try contradiction. intros [<- B]. destruct s as [m0 [sr0 f0 q0 g0] c0 i1 i2]. cbn in B. subst c0.
      unfold as_setting. cbn [vf_mode t_set s_par slim].
      assert (E : forall t, sv_gained t = match t with MBell | MLowshelf | MHighshelf => true | _ => false end) by reflexivity.
      destruct (sv_gained m0) eqn:Gd; destruct m0; try discriminate Gd; (eexists; split; [reflexivity|]); cbn [firstn t_tick nth Nat.add Nat.leb]; unfold sv_inputs;
        cbn [vf_mode sv_gained vf_par sp_cutoff sp_q sp_gain sp_sr nth];
        (destruct (neqb nm a f0) eqn:E1; [cbn; now repeat split|]; destruct (neqb nm b q0) eqn:E2; [cbn; now repeat split|];
         apply neqb_R in E1, E2; subst; cbn [orb]; try (destruct (neqb nm c g0) eqn:E3; [cbn; now repeat split|]; apply neqb_R in E3; subst); cbn; now repeat split).
    - intros _. cbn. eexists. split; [reflexivity|]. now split.
    - intros B. cbn. eexists. split; [reflexivity|]. destruct (neqb nm a (rz_cutoff s)) eqn:E1; [now repeat split|]; destruct (neqb nm b (rz_q s)) eqn:E2; [now repeat split|].
      apply neqb_R in E1, E2. subst. cbn [orb]. rewrite <- B. split; [reflexivity|]. rewrite B. reflexivity.
    - intros [<- B]. destruct s as [fb0 m0 [sr0 f0 q0 g0] c0 h1 h2 i1 i2]. cbn in B. subst c0. unfold as_setting. cbn [dt_mode t_set s_par slim dt_par sp_cutoff sp_q sp_gain sp_sr].
      destruct (bi_gained m0) eqn:Gd; destruct m0; try discriminate Gd; (eexists; split; [reflexivity|]); cbn [firstn t_tick nth]; unfold dirty_inputs;
        cbn [dt_mode bi_gained dt_par sp_cutoff sp_q sp_gain sp_sr nth];
        (match goal with |- context [neqb nm ?a ?b] => destruct (neqb nm a b) eqn:E1 end;
        [|first [apply sq3 in E1; cbn in E1; destruct E1 as (E1 & E2 & E3) | apply sq2 in E1; cbn in E1; destruct E1 as [E1 E2]]; apply Rminus_diag_uniq in E1, E2; try apply Rminus_diag_uniq in E3; subst a b; try subst c]); unfold dirty_tune, dirty_step; cbn; destruct fb0; cbn;
        repeat match goal with |- context [tl_shape tl ?v ?u] => destruct (tl_shape tl v u) end; now repeat split.
    - intros B. cbn [slim t_set as_setting s_par t_tick firstn fst snd]. unfold panner_tick, set_pan. cbn [p_n p_left p_right nth]. rewrite B. cbn [Nat.ltb Nat.leb]. eexists. split; [reflexivity|]. now split.
    - intros _. cbn. eexists. split; [reflexivity|]. now split.
    - intros _. eexists. split; [reflexivity|]. cbn. match goal with |- context [tl_tick tl ?u ?v] => destruct (tl_tick tl u v) end. now split.
  Qed.
  Theorem inputs op k n m : arity op = Some k -> build nm tl true op = Some n -> build nm tl false op = Some m ->
    forall acts, t_outs nm tl n (flat_map (by_input k) acts) = t_outs nm tl m (flat_map (by_setting op) acts).
  Proof.
    intros A B1 B2 acts. destruct (fits_build op k n m A B1 B2) as [H ->]. clear B1 B2. revert n H. induction acts as [|w acts IH]; intros n H; [reflexivity|].
    cbn [flat_map]. destruct w as [x a b c|sr|]; cbn [by_input by_setting app].
    - destruct (fits_tick op k n x a b c A H) as (m & E1 & E2 & E3). unfold t_outs in *. cbn [t_run]. rewrite E1, E2.
      destruct (t_tick nm tl n (firstn k [x; a; b; c])) as [n' o]. cbn [fst snd] in *. specialize (IH n' E3).
      destruct (t_run nm tl n' _) as [[? ?]|], (t_run nm tl (slim n') _) as [[? ?]|]; congruence.
    - destruct (fits_rate op n sr H) as [H1 H2]. unfold t_outs in *. cbn [t_run]. rewrite <- H2. now apply IH.
    - destruct (fits_reset op n H) as [H1 H2]. unfold t_outs in *. cbn [t_run]. rewrite <- H2. now apply IH.
  Qed.

  (* inputs that do not change *)
  Lemma set_init op k a b c n m : arity op = Some k -> build nm tl true op = Some n -> build nm tl false (documented op (as_setting op a b c)) = Some m ->
    t_set nm tl (slim n) (as_setting op a b c) = Some m.
  Proof.
    destruct op; cbn [arity]; intro A; try discriminate A; intro B; cbn in B;
      try (injection B as <-; intro E; cbn in E; injection E as <-; reflexivity).
    - revert B. match goal with |- context [if ?b then _ else _] => destruct b end; [|discriminate]. intro B; injection B as <-. cbn.
      match goal with |- context [if ?b then _ else _] => destruct b end; [|discriminate]. intro E; injection E as <-. reflexivity.
    - injection B as <-. destruct m0; intro E; cbn in E; injection E as <-; reflexivity.
    - injection B as <-. destruct m0; intro E; cbn in E; injection E as <-; reflexivity.
  Qed.
  Lemma set_rate op k a b c n m sr : arity op = Some k -> fits op n -> t_set nm tl (slim n) (as_setting op a b c) = Some m ->
    t_set nm tl (t_rate nm tl (slim n) sr) (as_setting op a b c) = Some (t_rate nm tl m sr).
  Proof.
    destruct op; cbn [arity]; intro A; try discriminate A; destruct n; cbn [fits]; try contradiction; intros _; try (intro E; cbn in E; injection E as <-; reflexivity).
    - destruct m0; intro E; cbn in E; injection E as <-; reflexivity.
    - destruct m0; intro E; cbn in E; injection E as <-; reflexivity.
  Qed.
  Lemma set_reset op k a b c n m : arity op = Some k -> fits op n -> t_set nm tl (slim n) (as_setting op a b c) = Some m ->
    t_set nm tl (t_reset nm tl (slim n)) (as_setting op a b c) = Some (t_reset nm tl m).
  Proof.
    destruct op; cbn [arity]; intro A; try discriminate A; destruct n; cbn [fits]; try contradiction; intros _; try (intro E; cbn in E; injection E as <-; reflexivity).
    - destruct m0; intro E; cbn in E; injection E as <-; reflexivity.
    - destruct m0; intro E; cbn in E; injection E as <-; reflexivity.
  Qed.
  Lemma set_again op k a b c n m x : arity op = Some k -> fits op n -> t_set nm tl (slim n) (as_setting op a b c) = Some m ->
    t_set nm tl (fst (t_tick nm tl m [x])) (as_setting op a b c) = Some (fst (t_tick nm tl m [x])).
  Proof.
    destruct op; cbn [arity]; intro A; try discriminate A; destruct n; cbn [fits]; try contradiction; intros _; try (intro E; cbn in E; injection E as <-; reflexivity).
    - destruct m0; intro E; cbn in E; injection E as <-; reflexivity.
    - destruct s as [fb0 m1 p0 c0 h1 h2 i1 i2]. destruct m0; intro E; cbn in E; injection E as <-; cbn; unfold dirty_tune, dirty_step; cbn; destruct fb0; cbn;
        repeat match goal with |- context [tl_shape tl ?v ?u] => destruct (tl_shape tl v u) end; reflexivity.
    - intro E; cbn in E; injection E as <-. cbn. match goal with |- context [tl_tick tl ?u ?v] => destruct (tl_tick tl u v) end. reflexivity.
  Qed.
  Theorem held op k a b c n m : arity op = Some k -> build nm tl true op = Some n -> build nm tl false (documented op (as_setting op a b c)) = Some m ->
    forall acts, Forall (fun w => steady w a b c) acts -> t_outs nm tl n (flat_map (by_input k) acts) = t_outs nm tl m (flat_map plain acts).
  Proof.
    intros A B1 B2 acts St. assert (H : fits op n).
    { destruct (build nm tl false op) as [m0|] eqn:B3; [exact (proj1 (fits_build op k n m0 A B1 B3))|]. destruct op; try discriminate B3; try discriminate A.
      cbn in B1, B3. revert B1 B3. match goal with |- context [if ?b then _ else _] => destruct b end; discriminate. }
    pose proof (set_init op k a b c n m A B1 B2) as E. clear B1 B2. revert n m H E. induction St as [|w acts Hw St IH]; intros n m H E; [reflexivity|].
    cbn [flat_map]. destruct w as [x a' b' c'|sr|]; cbn [by_input plain app].
    - destruct Hw as (-> & -> & ->). destruct (fits_tick op k n x a b c A H) as (m' & E1 & E2 & E3). rewrite E in E1. injection E1 as <-.
      pose proof (set_again op k a b c n m x A H E) as E4. unfold t_outs in *. cbn [t_run]. rewrite E2 in *. cbn [fst] in E4.
      destruct (t_tick nm tl n (firstn k [x; a; b; c])) as [n' o]. cbn [fst snd] in *. specialize (IH n' (slim n') E3 E4).
      destruct (t_run nm tl n' _) as [[? ?]|], (t_run nm tl (slim n') _) as [[? ?]|]; congruence.
    - destruct (fits_rate op n sr H) as [H1 H2]. unfold t_outs in *. cbn [t_run]. apply IH; [exact H1|]. rewrite H2. now apply (set_rate op k).
    - destruct (fits_reset op n H) as [H1 H2]. unfold t_outs in *. cbn [t_run]. apply IH; [exact H1|]. rewrite H2. now apply (set_reset op k).
  Qed.

  (* the resonator *)
  Definition rsame (f q : R) (n m : tnode) : Prop := exists sr f1 q1 u1 u2 u3 u4,
    n = TReson true (mkBiquad (resonator nm el sr f1 q1) u1 u2 u3 u4) sr f1 q1 /\ m = TReson false (mkBiquad (resonator nm el sr f q) u1 u2 u3 u4) sr f q.
  Theorem held_resonator f0 q0 f q c n m : build nm tl true (OReson f0 q0) = Some n -> build nm tl false (OReson f q) = Some m ->
    forall acts, Forall (fun w => steady w f q c) acts -> t_outs nm tl n (flat_map (by_input 3) acts) = t_outs nm tl m (flat_map plain acts).
  Proof.
    cbn. intros E1 E2 acts St. assert (H : rsame f q n m).
    { injection E1 as <-. injection E2 as <-. unfold reson_tune, with_coefs. cbn. now do 7 eexists. }
    clear E1 E2. revert n m H. induction St as [|w acts Hw St IH]; intros n m (sr & f1 & q1 & u1 & u2 & u3 & u4 & -> & ->); [reflexivity|].
    cbn [flat_map]. destruct w as [x a' b' c'|sr'|]; cbn [by_input plain app].
    - destruct Hw as (-> & -> & ->). unfold t_outs in *. cbn [t_run firstn].
      set (b1 := fst (bi_step nm (mkBiquad (resonator nm el sr f q) u1 u2 u3 u4) x)). set (y := snd (bi_step nm (mkBiquad (resonator nm el sr f q) u1 u2 u3 u4) x)).
      assert (T1 : exists f2 q2, f2 = f /\ q2 = q /\ t_tick nm tl (TReson true (mkBiquad (resonator nm el sr f1 q1) u1 u2 u3 u4) sr f1 q1) [x; f; q] = (TReson true b1 sr f2 q2, [y])).
      { cbn [t_tick nth andb]. destruct (neqb nm f f1) eqn:E1; [now do 2 eexists|]. destruct (neqb nm q q1) eqn:E2; [now do 2 eexists|].
        apply neqb_R in E1, E2. subst. now do 2 eexists. }
      destruct T1 as (f2 & q2 & -> & -> & T1). rewrite T1. assert (T2 : t_tick nm tl (TReson false (mkBiquad (resonator nm el sr f q) u1 u2 u3 u4) sr f q) [x] = (TReson false b1 sr f q, [y])) by reflexivity.
      rewrite T2. specialize (IH (TReson true b1 sr f q) (TReson false b1 sr f q)).
      assert (H : rsame f q (TReson true b1 sr f q) (TReson false b1 sr f q)) by (unfold b1, bi_step; cbn [fst]; now do 7 eexists). specialize (IH H).
      destruct (t_run nm tl (TReson true b1 sr f q) _) as [[? ?]|], (t_run nm tl (TReson false b1 sr f q) _) as [[? ?]|]; congruence.
    - unfold t_outs in *. cbn [t_run]. apply IH. cbn. unfold reson_tune, with_coefs. cbn. now do 7 eexists.
    - unfold t_outs in *. cbn [t_run]. apply IH. cbn. now do 7 eexists.
  Qed.
End Inputs.
