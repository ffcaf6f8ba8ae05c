(* Proofs about settings. *)
From Verif Require Import TuneSpec.
Local Open Scope nat_scope.

Section Settings.
  Context {F G S X : Type}.
  Variable nm : num F.
  Variable tl : tools F G S X.
  Hypothesis irrefl : forall x, nltb nm x x = false.
  Hypothesis refl : nleb nm (n0 nm) (n0 nm) = true.
  Hypothesis Sh : shape_law tl.
  Hypothesis Sh2 : forall s, tl_shape_reset tl (tl_shape_reset tl s) = tl_shape_reset tl s.
  Hypothesis In_ : inner_law tl.
  Notation tnode := (tnode F G S X).
  Notation opcode := (opcode F S X).

  (* the node without the assertion of Allpole::new *)
  Definition raw (op : opcode) : tnode :=
    match op with
    | OAllpole d => TAll false (all_eta nm d) (n0 nm) (n0 nm)
    | _ => match build nm tl false op with Some n => n | None => TConst [] end
    end.
  Lemma build_raw op n : build nm tl false op = Some n -> n = raw op.
  Proof. destruct op; cbn; try congruence. destruct (nltb nm (n0 nm) d); congruence. Qed.
  Definition clean (n : tnode) : tnode :=
    match t_reset nm tl n with THold s => THold (mkHold (hd_rnd s) (hd_hash s) (hd_sd s) (hd_var s) (hd_t s) (hd_next s) (n0 nm)) | m => m end.
  Definition rated (r : option F) (n : tnode) : tnode := match r with Some sr => t_rate nm tl n sr | None => n end.
  Definition narrow (n : tnode) : bool :=
    match n with TLow w _ _ _ _ | TAll w _ _ _ | THigh w _ _ _ _ _ | TButter w _ _ _ | TReson w _ _ _ _ | TMoog w _ | TRez w _ | TDirty w _ | TDsf w _ | TNest w _ _ _ => negb w
    | TSvf _ _ _ => false | TPan s => Nat.leb (p_n s) 1 | _ => true end.

  Lemma narrow_tick n i : narrow (fst (t_tick nm tl n i)) = narrow n.
  Proof.
    destruct n; cbn; try reflexivity;
      repeat match goal with |- context [let (_, _) := ?e in _] => destruct e eqn:?; cbn end; try reflexivity.
    now destruct (p_n s) as [|[|k]] eqn:E; cbn; rewrite ?E.
  Qed.
  Lemma narrow_set n st n' : t_set nm tl n st = Some n' -> narrow n' = narrow n.
  Proof.
    destruct n; cbn; destruct (s_par st); try (intro E; injection E as <-; reflexivity); try (destruct w; intro E; injection E as <-; reflexivity).
    destruct (direction st); try (intro E; injection E as <-; reflexivity). destruct (bank_set _ _ _ _ _ _ _); intro E; [injection E as <-; reflexivity|discriminate].
  Qed.
  Lemma narrow_rate n sr : narrow (t_rate nm tl n sr) = narrow n. Proof. now destruct n. Qed.
  Lemma narrow_reset n : narrow (t_reset nm tl n) = narrow n. Proof. now destruct n. Qed.

  Lemma clean_tick n i : narrow n = true -> clean (fst (t_tick nm tl n i)) = clean n.
  Proof.
    intros W. destruct n; cbn in W |- *; try discriminate; try (destruct w; [discriminate|]); try reflexivity.
    - destruct s as [fb m p c sh1 sh2 s1 s2]. unfold dirty_step. cbn. destruct fb; cbn.
      + match goal with |- context [tl_shape tl sh1 ?v] => pose proof (Sh sh1 v) as A1; destruct (tl_shape tl sh1 v) as [a1 b1] end.
        unfold clean. cbn in *. unfold dirty_reset. cbn. now rewrite A1.
      + match goal with |- context [tl_shape tl sh1 ?v] => pose proof (Sh sh1 v) as A1; destruct (tl_shape tl sh1 v) as [a1 b1] end.
        match goal with |- context [tl_shape tl sh2 ?v] => pose proof (Sh sh2 v) as A2; destruct (tl_shape tl sh2 v) as [a2 b2] end.
        unfold clean. cbn in *. unfold dirty_reset. cbn. now rewrite A1, A2.
    - apply Nat.leb_le in W. destruct (p_n s) as [|[|k]]; [reflexivity..|lia].
    - unfold hold_step. destruct (nleb nm (hd_next s) (hd_t s)); [destruct (tl_next tl _)|]; reflexivity.
    - destruct In_ as (A & _). match goal with |- context [tl_tick tl x ?v] => pose proof (A x v) as A1; destruct (tl_tick tl x v) end. unfold clean. cbn in *. now rewrite A1.
  Qed.

  Lemma clean_reset n : clean (t_reset nm tl n) = clean n.
  Proof.
    destruct n; try reflexivity.
    - destruct s as [fb m p c sh1 sh2 s1 s2]. unfold clean. cbn. unfold dirty_reset. cbn. destruct fb; cbn; now rewrite ?Sh2.
    - destruct In_ as (_ & A & _). unfold clean. cbn. now rewrite A.
  Qed.
  Lemma clean_rate n sr : clean (t_rate nm tl n sr) = t_rate nm tl (clean n) sr.
  Proof.
    destruct n; try reflexivity.
    - unfold clean. cbn. unfold follow_tune, fo_set_coeff, fo_reset. cbn. now rewrite irrefl.
    - unfold clean. cbn. unfold afollow_tune, af_set_coeffs, af_reset. cbn. now rewrite irrefl.
    - destruct In_ as (_ & _ & A & _). unfold clean. cbn. now rewrite A.
  Qed.
  Lemma clean_set n st n' : t_set nm tl n st = Some n' -> exists m, t_set nm tl (clean n) st = Some m /\ clean m = clean n'.
  Proof.
    assert (E : forall a b c : tnode, Some a = Some b -> clean c = clean a -> exists m, Some c = Some m /\ clean m = clean b).
    { intros a b c E H. exists c. split; [reflexivity|]. now injection E as <-. }
    assert (Z : forall b, clean (t_reset nm tl b) = clean b) by apply clean_reset.
    destruct n; unfold clean at 1; cbn; destruct (s_par st); try (intro E0; apply (E _ _ _ E0); reflexivity); try (destruct w; intro E0; apply (E _ _ _ E0); reflexivity).
    all: try (intro E0; apply (E _ _ _ E0); now apply clean_reset).
    all: try (destruct w; intro E0; apply (E _ _ _ E0); destruct s as [fb0 m0 p0 c0 sh1 sh2 u1 u2]; destruct fb0; unfold clean; cbn; unfold dirty_reset, dirty_tune; cbn; now rewrite !Sh2).
    all: try (intro E0; apply (E _ _ _ E0); unfold clean; cbn; unfold follow_tune, fo_set_coeff, fo_reset, afollow_tune, af_set_coeffs, af_reset; cbn; now rewrite ?irrefl).
    all: try (intro E0; apply (E _ _ _ E0); unfold clean; cbn; destruct In_ as (_ & A & _); now rewrite A).
    unfold bank_set. cbn. destruct (direction st); try (intro E0; apply (E _ _ _ E0); reflexivity).
    match goal with |- context [if ?b then _ else _] => destruct b end; intro E0; [|discriminate]. apply (E _ _ _ E0). cbn. unfold clean. cbn. unfold bank_reset. cbn. now rewrite length_upd.
  Qed.
  Lemma rate_rate op a b : t_rate nm tl (t_rate nm tl (raw op) a) b = t_rate nm tl (raw op) b.
  Proof.
    destruct op; cbn; try reflexivity.
    - unfold follow_tune, fo_set_coeff, fo_reset. cbn. now rewrite !irrefl.
    - unfold afollow_tune, af_set_coeffs, af_reset. cbn. now rewrite !irrefl.
    - destruct In_ as (_ & _ & _ & A). now rewrite A.
  Qed.
  Definition honoured (op : opcode) : Prop := match op with OReson _ _ => False | _ => True end.
  Lemma bank_fresh cs : bank_reset nm (bank_new nm cs) = bank_new nm cs.
  Proof. unfold bank_reset, bank_new. cbn. now rewrite map_length. Qed.
  Lemma clean_raw op : fresh_parts tl op -> clean (raw op) = raw op.
  Proof.
    destruct op; cbn; intro H; try reflexivity.
    - unfold clean. cbn. now rewrite bank_fresh.
    - unfold clean. cbn. unfold dirty_reset, dirty_tune, dirty_new. cbn. rewrite H. now destruct fb.
    - unfold clean. cbn. unfold follow_tune, fo_set_coeff, fo_reset. cbn. now rewrite irrefl.
    - unfold clean. cbn. unfold afollow_tune, af_set_coeffs, af_reset. cbn. now rewrite irrefl.
    - unfold clean. cbn. now rewrite H.
  Qed.
  Lemma clean_rated op r : fresh_parts tl op -> clean (rated r (raw op)) = rated r (raw op).
  Proof. intro H. destruct r; cbn [rated]; [rewrite clean_rate|]; now rewrite clean_raw. Qed.
  Lemma fresh_documented op st : fresh_parts tl op -> fresh_parts tl (documented op st).
  Proof.
    destruct op; cbn [documented]; destruct (s_par st); try exact (fun H => H); intro; try exact I. destruct (s_addr st) as [|[]]; exact I.
  Qed.
  Lemma map_upd {A B} (f : A -> B) l i x : map f (upd l i x) = upd (map f l) i (f x).
  Proof. revert i. induction l as [|y l IH]; intros [|i]; cbn; [reflexivity..|]. now rewrite IH. Qed.
  Lemma map_const_rep {A B} (v : B) (xs : list A) : map (fun _ => v) xs = repeat v (length xs).
  Proof. induction xs; cbn; congruence. Qed.
  Lemma rated_set_eq op r st n : honoured op -> fresh_parts tl op -> t_set nm tl (rated r (raw op)) st = Some n -> clean n = rated r (raw (documented op st)).
  Proof.
    intros Ho Fr. pose proof (clean_rated op r Fr) as C. pose proof (fun st => clean_rated (documented op st) r (fresh_documented op st Fr)) as C2. 
    destruct op; cbn in Ho; try contradiction.
    all: try (destruct r; cbn in C |- *; destruct (s_par st); intro E; injection E as <-; first [exact C | reflexivity]).
    - assert (B : rated r (raw (OBank cs)) = TBank (bank_new nm cs)) by now destruct r. rewrite B in *. cbn [t_set].
      unfold documented. destruct (s_par st); try (intro E; injection E as <-; rewrite B; exact C).
      unfold direction. destruct (s_addr st) as [|[| | |i|k] ad]; try (intro E; injection E as <-; rewrite B; exact C).
      unfold bank_set. match goal with |- context [if ?b then _ else _] => destruct b end; [|discriminate].
      intro E; injection E as <-. transitivity (TBank (bank_new nm (upd cs i (mkBi a1 a2 b0 b1 b2))) : tnode); [|now destruct r].
      rewrite <- bank_fresh. unfold clean. cbn. unfold bank_reset, bank_new. cbn. now rewrite ?map_upd, ?length_upd, ?map_length.
    - destruct r; cbn in C |- *; destruct (s_par st); intro E; injection E as <-; try exact C.
      all: unfold clean; cbn; unfold dirty_reset, dirty_tune, dirty_new; cbn; cbn in Fr; rewrite Fr; now destruct fb.
    - destruct r; cbn in C |- *; destruct (s_par st); intro E; injection E as <-; try exact C.
      all: unfold clean; cbn; unfold follow_tune, fo_set_coeff, fo_reset; cbn; now rewrite !irrefl.
    - destruct r; cbn in C |- *; destruct (s_par st); intro E; injection E as <-; try exact C.
      all: unfold clean; cbn; unfold afollow_tune, af_set_coeffs, af_reset; cbn; now rewrite !irrefl.
    - destruct r; cbn in C |- *; destruct (s_par st); intro E; injection E as <-; try exact C.
      all: unfold clean; cbn; now rewrite map_const_rep.
    - destruct r; cbn in C |- *; destruct (s_par st); intro E; injection E as <-; try exact C.
      all: unfold clean in *; cbn in *; congruence.
  Qed.

  (* the held value does not matter when it is about to be replaced *)
  Definition same (a b : tnode) : Prop :=
    a = b \/ exists g h sd v t u x y, a = THold (mkHold g h sd v t u x) /\ b = THold (mkHold g h sd v t u y) /\ nleb nm u t = true.
  Lemma same_clean n : same (t_reset nm tl n) (clean n).
  Proof. destruct n; try (now left). right. unfold clean. cbn. unfold hold_reset. cbn. do 8 eexists. repeat split. apply refl. Qed.
  Lemma same_run a b l : same a b -> t_outs nm tl a l = t_outs nm tl b l.
  Proof.
    unfold t_outs. revert a b. induction l as [|[i|st|sr|] l IH]; intros a b H; [reflexivity|..]; cbn [t_run].
    - destruct H as [<-|(g & h & sd & v & t & u & x & y & -> & -> & U)]; [reflexivity|]. cbn. unfold hold_step. cbn. rewrite U. reflexivity.
    - destruct H as [<-|(g & h & sd & v & t & u & x & y & -> & -> & U)]; [reflexivity|].
      cbn. destruct (s_par st); apply IH; right; cbn; do 8 eexists; repeat split; exact U.
    - apply IH. destruct H as [<-|(g & h & sd & v & t & u & x & y & -> & -> & U)]; [now left|]. right. cbn. do 8 eexists. repeat split. exact U.
    - apply IH. destruct H as [<-|(g & h & sd & v & t & u & x & y & -> & -> & U)]; [now left|]. right. cbn. do 8 eexists. repeat split. apply refl.
  Qed.

  Lemma honoured_documented op st : honoured op -> honoured (documented op st).
  Proof. destruct op; cbn [documented]; destruct (s_par st); try exact (fun H => H); intro; try exact I. destruct (s_addr st) as [|[]]; exact I. Qed.
  Lemma rated_rated op r sr : t_rate nm tl (rated r (raw op)) sr = rated (Some sr) (raw op).
  Proof. destruct r; [apply rate_rate|reflexivity]. Qed.
  Lemma run_clean h : forall op r n n' os, honoured op -> fresh_parts tl op -> narrow n = true -> clean n = rated r (raw op) -> t_run nm tl n h = Some (n', os) ->
    clean n' = rated (fold_left (fun r a => match a with ARate sr => Some sr | _ => r end) h r) (raw (settle op h)).
  Proof.
    induction h as [|a h IH]; intros op r n n' os Ho Fr W C; cbn [t_run].
    - intro E; injection E as <- <-. exact C.
    - destruct a as [i|st|sr|].
      + pose proof (clean_tick n i W) as CT. pose proof (narrow_tick n i) as NT. destruct (t_tick nm tl n i) as [m o]. cbn [fst] in *.
        destruct (t_run nm tl m h) as [[m' os']|] eqn:E1; [|discriminate]. intro E; injection E as <- <-.
        exact (IH op r m m' os' Ho Fr (eq_trans NT W) (eq_trans CT C) E1).
      + destruct (t_set nm tl n st) as [m|] eqn:E1; [|discriminate]. intro E. cbn [fold_left settle].
        destruct (clean_set n st m E1) as (k & K1 & K2). rewrite C in K1. pose proof (rated_set_eq op r st k Ho Fr K1) as K3.
        refine (IH (documented op st) r m n' os (honoured_documented op st Ho) (fresh_documented op st Fr) _ _ E).
        * now rewrite (narrow_set n st m E1). * now rewrite <- K2.
      + intro E. refine (IH op (Some sr) _ n' os Ho Fr _ _ E); [now rewrite narrow_rate|]. rewrite clean_rate, C. apply rated_rated.
      + intro E. refine (IH op r _ n' os Ho Fr _ _ E); [now rewrite narrow_reset|]. now rewrite clean_reset.
  Qed.
  Lemma narrow_raw op : narrow (raw op) = true.
  Proof. now destruct op. Qed.
  Theorem settings op h n n' os m : honoured op -> fresh_parts tl op -> build nm tl false op = Some n -> t_run nm tl n h = Some (n', os) ->
    build nm tl false (settle op h) = Some m ->
    forall acts, t_outs nm tl (t_reset nm tl n') acts = t_outs nm tl (match last_rate h with Some sr => t_rate nm tl m sr | None => m end) acts.
  Proof.
    intros Ho Fr B R B2 acts. apply build_raw in B, B2. subst n m.
    pose proof (run_clean h op None (raw op) n' os Ho Fr (narrow_raw op) (clean_raw op Fr) R) as C.
    rewrite (same_run _ _ acts (same_clean n')), C. reflexivity.
  Qed.

  (* ---- settings that change nothing ---- *)
  Definition calm (n : tnode) : Prop :=
    match n with
    | TFollow s _ _ => nltb nm (fo_coeff_now s) (n1 nm) = true -> fo_coeff_now s = fo_coeff s
    | TAFollow s _ _ _ => nltb nm (af_a_now s) (n1 nm) = true -> af_a_now s = af_a s /\ af_r_now s = af_r s
    | _ => True
    end.
  Lemma calm_tick n i : calm (fst (t_tick nm tl n i)).
  Proof. destruct n; cbn; repeat match goal with |- context [let (_, _) := ?e in _] => destruct e eqn:?; cbn end; try exact I; [reflexivity|now split]. Qed.
  Lemma calm_tune s sr t : calm (TFollow s t sr) -> calm (follow_tune nm tl s sr t).
  Proof. cbn. destruct (nltb nm (fo_coeff_now s) (n1 nm)) eqn:E; intro H; [reflexivity|]. now rewrite E. Qed.
  Lemma calm_atune s sr a r : calm (TAFollow s a r sr) -> calm (afollow_tune nm tl s sr a r).
  Proof. cbn. destruct (nltb nm (af_a_now s) (n1 nm)) eqn:E; intro H; [now split|]. now rewrite E. Qed.
  Lemma calm_reset n : calm (t_reset nm tl n).
  Proof. destruct n; cbn; try exact I; now rewrite irrefl. Qed.
  Lemma calm_rate n sr : calm n -> calm (t_rate nm tl n sr).
  Proof. destruct n; intro H; try exact I; [now apply calm_tune|now apply calm_atune]. Qed.
  Lemma calm_set n st n' : calm n -> t_set nm tl n st = Some n' -> calm n'.
  Proof.
    intros H. destruct n; cbn [t_set]; destruct (s_par st); try (intro E; injection E as <-; exact H); try (destruct w; intro E; injection E as <-; exact H).
    - destruct (direction st); try (intro E; injection E as <-; exact H). destruct (bank_set _ _ _ _ _ _ _); [|discriminate]. intro E; injection E as <-; exact H.
    - intro E; injection E as <-. now apply calm_tune.
    - intro E; injection E as <-. now apply calm_atune.
  Qed.
  Lemma calm_raw op : calm (raw op).
  Proof. destruct op; try exact I; cbn; now rewrite !irrefl. Qed.
  Lemma calm_run h : forall n n' os, calm n -> t_run nm tl n h = Some (n', os) -> calm n'.
  Proof.
    induction h as [|a h IH]; intros n n' os H; cbn [t_run].
    - intro E; now injection E as <- <-.
    - destruct a as [i|st|sr|].
      + pose proof (calm_tick n i) as CT. destruct (t_tick nm tl n i) as [m o]. cbn [fst] in *.
        destruct (t_run nm tl m h) as [[m' os']|] eqn:E1; [|discriminate]. intro E; injection E as <- <-. exact (IH m m' os' CT E1).
      + destruct (t_set nm tl n st) as [m|] eqn:E1; [|discriminate]. exact (IH m n' os (calm_set n st m H E1)).
      + exact (IH _ n' os (calm_rate n sr H)).
      + exact (IH _ n' os (calm_reset n)).
  Qed.
  Lemma set_same n op r st n' : calm n -> clean n = rated r (raw op) -> documented op st = op -> t_set nm tl n st = Some n' -> n' = n.
  Proof.
    intros K C D.
    destruct op; destruct n; try (exfalso; destruct r; discriminate C); cbn [t_set documented] in *; destruct (s_par st) eqn:P; try (intro E; now injection E as <-).
    all: try (destruct w; intro E; now injection E as <-).
    all: try (match goal with s : svf F |- _ => destruct s as [u1 [u2 u3 u4 u5] u6 u7 u8] end).
    all: try (match goal with s : dirty F S |- _ => destruct s as [u1 u2 [u3 u4 u5 u6] u7 u8 u9 u10 u11] end).
    all: try (match goal with s : _ |- _ => lazymatch type of s with moog _ => destruct s | rez _ => destruct s | biquad _ => destruct s | bank _ => destruct s | hold _ _ => destruct s | dsfs _ => destruct s | panner => destruct s | follow => destruct s | afollow => destruct s end end).
    all: try (destruct w; [destruct r; discriminate C|]).
    all: try (intro E; injection E as <-; injection D; intros; subst; destruct r; unfold clean in C; cbn in C; injection C; intros; subst; cbn; reflexivity).
    - assert (C' : clean (TBank (mkBank bk_a1 bk_a2 bk_b0 bk_b1 bk_b2 bk_x1 bk_x2 bk_y1 bk_y2)) = TBank (bank_new nm cs)) by (rewrite C; now destruct r).
      unfold clean in C'. cbn in C'. intro E. injection C'. intros. unfold direction in E. destruct (s_addr st) as [|[| | |i|k] ad]; try (now injection E as <-).
      injection D as D. unfold bank_set in E. match type of E with context [if ?b then _ else _] => destruct b end; [|discriminate]. injection E as <-.
      subst bk_a1 bk_a2 bk_b0 bk_b1 bk_b2. cbn [TuneModel.bk_a1 TuneModel.bk_a2 TuneModel.bk_b0 TuneModel.bk_b1 TuneModel.bk_b2 TuneModel.bk_x1 TuneModel.bk_x2 TuneModel.bk_y1 TuneModel.bk_y2]. do 2 f_equal.
      all: rewrite <- D at 2; now rewrite map_upd.
    - intro E; injection E as <-; injection D; intros; subst. cbn in K.
      assert (A : fo_coeff = tl_halfway tl (nmul nm t sr) /\ time = t).
      { destruct r; unfold clean in C; cbn in C; injection C; intros; subst; now split. }
      destruct A as [-> ->]. unfold follow_tune, fo_set_coeff. cbn. destruct (nltb nm fo_coeff_now (n1 nm)); [now rewrite K|reflexivity].
    - intro E; injection E as <-; injection D; intros; subst. cbn in K.
      assert (A : af_a = tl_halfway tl (nmul nm a sr) /\ af_r = tl_halfway tl (nmul nm r0 sr) /\ a0 = a /\ r1 = r0).
      { destruct r; unfold clean in C; cbn in C; injection C; intros; subst; now repeat split. }
      destruct A as (-> & -> & -> & ->). unfold afollow_tune, af_set_coeffs. cbn. destruct (nltb nm af_a_now (n1 nm)); [|reflexivity]. destruct K as [-> ->]; reflexivity.
    - intro E; injection E as <-. assert (A : l0 = l) by (destruct r; unfold clean in C; cbn in C; now injection C). subst. injection D as D. rewrite <- D at 2. now rewrite map_const_rep.
  Qed.
  Theorem repeats op h n n' os st m : honoured op -> fresh_parts tl op -> build nm tl false op = Some n -> t_run nm tl n h = Some (n', os) ->
    documented (settle op h) st = settle op h -> t_set nm tl n' st = Some m -> forall acts, t_outs nm tl m acts = t_outs nm tl n' acts.
  Proof.
    intros Ho Fr B R D E acts. apply build_raw in B. subst n.
    pose proof (run_clean h op None (raw op) n' os Ho Fr (narrow_raw op) (clean_raw op Fr) R) as C.
    now rewrite (set_same n' _ _ st m (calm_run h _ _ _ (calm_raw op) R) C D E).
  Qed.

  (* settings panic only when a bank has no such lane *)
  Definition kind (n : tnode) : option nat := match n with TBank s => Some (length (bk_a1 s)) | _ => None end.
  Lemma kind_tick n i : kind (fst (t_tick nm tl n i)) = kind n.
  Proof. destruct n; cbn; repeat match goal with |- context [let (_, _) := ?e in _] => destruct e eqn:?; cbn end; reflexivity. Qed.
  Lemma kind_set n st n' : t_set nm tl n st = Some n' -> kind n' = kind n.
  Proof.
    destruct n; cbn [t_set]; destruct (s_par st); try (intro E; injection E as <-; reflexivity); try (destruct w; intro E; injection E as <-; reflexivity).
    destruct (direction st); try (intro E; injection E as <-; reflexivity). unfold bank_set. match goal with |- context [if ?b then _ else _] => destruct b end; intro E; [|discriminate].
    injection E as <-. cbn. now rewrite length_upd.
  Qed.
  Lemma kind_rate n sr : kind (t_rate nm tl n sr) = kind n. Proof. now destruct n. Qed.
  Lemma kind_reset n : kind (t_reset nm tl n) = kind n. Proof. now destruct n. Qed.
  Lemma set_none n st : t_set nm tl n st = None -> exists k a1 a2 b0 b1 b2 i, kind n = Some k /\ s_par st = PBiquad a1 a2 b0 b1 b2 /\ direction st = AIndex i /\ k <= i.
  Proof.
    destruct n; cbn [t_set]; destruct (s_par st); try discriminate; try (destruct w; discriminate).
    destruct (direction st); try discriminate. unfold bank_set. destruct (Nat.ltb_spec i (length (bk_a1 s))); [discriminate|]. intros _. do 7 eexists. repeat split. exact H.
  Qed.
  Lemma run_none h : forall n, t_run nm tl n h = None -> exists st k a1 a2 b0 b1 b2 i, In (ASet st) h /\ kind n = Some k /\ s_par st = PBiquad a1 a2 b0 b1 b2 /\ direction st = AIndex i /\ k <= i.
  Proof.
    induction h as [|a h IH]; intros n; cbn [t_run]; [discriminate|].
    assert (K : forall m, kind m = kind n -> t_run nm tl m h = None -> exists st k a1 a2 b0 b1 b2 i, In (ASet st) (a :: h) /\ kind n = Some k /\ s_par st = PBiquad a1 a2 b0 b1 b2 /\ direction st = AIndex i /\ k <= i).
    { intros m Km E. destruct (IH m E) as (st & k & a1 & a2 & b0 & b1 & b2 & i & H1 & H2 & H3 & H4 & H5). exists st, k, a1, a2, b0, b1, b2, i. rewrite <- Km. repeat split; auto. now right. }
    destruct a as [i|st|sr|].
    - pose proof (kind_tick n i) as Kt. destruct (t_tick nm tl n i) as [m o]. cbn [fst] in Kt. destruct (t_run nm tl m h) as [[? ?]|] eqn:E; [discriminate|]. intros _. exact (K m Kt E).
    - destruct (t_set nm tl n st) as [m|] eqn:E.
      + apply K. now apply (kind_set n st).
      + intros _. destruct (set_none n st E) as (k & a1 & a2 & b0 & b1 & b2 & i & H2 & H3 & H4 & H5). exists st, k, a1, a2, b0, b1, b2, i. repeat split; auto. now left.
    - apply K, kind_rate.
    - apply K, kind_reset.
  Qed.
  Theorem panics w op n h : build nm tl w op = Some n -> t_run nm tl n h = None ->
    exists cs st a1 a2 b0 b1 b2 i, op = OBank cs /\ In (ASet st) h /\ s_par st = PBiquad a1 a2 b0 b1 b2 /\ direction st = AIndex i /\ length cs <= i.
  Proof.
    intros B E. destruct (run_none h n E) as (st & k & a1 & a2 & b0 & b1 & b2 & i & H1 & H2 & H3 & H4 & H5).
    assert (A : exists cs, op = OBank cs /\ k = length cs).
    { destruct op; cbn in B; try (injection B as <-; cbn in H2; try discriminate H2); try (destruct w; discriminate H2).
      - revert B. match goal with |- context [if ?b then _ else _] => destruct b end; [|discriminate]. intro B. injection B as <-. discriminate H2.
      - exists cs. split; [reflexivity|]. injection H2 as <-. now rewrite map_length. }
    destruct A as (cs & -> & ->). now exists cs, st, a1, a2, b0, b1, b2, i.
  Qed.
  Lemma honoured_other op : (forall f q, op <> OReson f q) -> honoured op.
  Proof. intro H. destruct op; try exact I. exact (H f q eq_refl). Qed.
End Settings.

(* the other nodes never panic *)
Lemma runs {F G S X} (nm : num F) (tl : tools F G S X) w op n h : (forall cs, op <> OBank cs) -> build nm tl w op = Some n -> exists n' os, t_run nm tl n h = Some (n', os).
Proof.
  intros Ho B. destruct (t_run nm tl n h) as [[n' os]|] eqn:E; [now exists n', os|].
  destruct (panics nm tl w op n h B E) as (cs & ? & ? & ? & ? & ? & ? & ? & Eo & _). now destruct (Ho cs).
Qed.
Lemma runs_out {F G S X} (nm : num F) (tl : tools F G S X) w op n h : (forall cs, op <> OBank cs) -> build nm tl w op = Some n -> exists os, t_outs nm tl n h = Some os.
Proof. intros Ho B. destruct (runs nm tl w op n h Ho B) as (n' & os & E). exists os. unfold t_outs. now rewrite E. Qed.
Lemma runs_rate {F G S X} (nm : num F) (tl : tools F G S X) w op n sr h : (forall cs, op <> OBank cs) -> build nm tl w op = Some n -> exists n' os, t_run nm tl (t_rate nm tl n sr) h = Some (n', os).
Proof. intros Ho B. exact (runs nm tl w op n (ARate sr :: h) Ho B). Qed.
