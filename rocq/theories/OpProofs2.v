From Coq Require Import Reals SpecFloat Lra Lia QArith.
From Verif Require Import OpSpec NodeProofs NodeLaws NodeArithProofs NetMore NetBinop NetHistory OpProofs TuneProofs TuneReal NetExamples.
Import ListNotations.
Local Open Scope nat_scope.

(* ---- numbers and constants ---- *)
Section Constants.
  Context {A P U : Type} (nm : num A) (ar : arith A) (ops : unit_ops A P U).
  Hypothesis Hu : unit_laws (a_zero ar) ops.
  Notation node := (NodeModel.node A U).
  Lemma outputs_Constant v l : outputs ar ops (Constant v) l = map (fun _ => v) l.
  Proof. apply outputs_stateless. reflexivity. Qed.
  Lemma zipw_map_const {X Y Z W} (f : Y -> Z -> W) (v : Z) (m : list X) (l : list Y) : length m = length l -> zipw f l (map (fun _ => v) m) = map (fun y => f y v) l.
  Proof. revert l. induction m as [|x m IH]; intros [|y l] H; cbn in *; try discriminate; auto. f_equal. auto. Qed.
  Lemma stream_firstn n (l : list (list A)) : stream n l -> map (firstn n) l = l.
  Proof. intros H. induction H as [|i l <- H IH]; cbn; [reflexivity|]. now rewrite firstn_all, IH. Qed.
  Lemma binop_constant b x v l : stream (ins ops x) l -> outputs ar ops (Binop b x (Constant v)) l = map (fun o => zipw b o v) (outputs ar ops x l).
  Proof.
    intros H. rewrite outputs_Binop, outputs_Constant, (stream_firstn _ _ H) by exact Hu. rewrite map_map. apply zipw_map_const. symmetry. apply outputs_length.
  Qed.
  Lemma constant_is_pipe b x v : NodeModel.wf ops x -> length v = outs ops x ->
    NodeSpec.equiv ar ops (Binop b x (Constant v)) (Pipe x (Binop b (MultiPass (length v)) (Constant v))).
  Proof.
    intros W H. split; [cbn; lia|]. split; [cbn; auto|]. intros l Hl. cbn [ins] in Hl. rewrite Nat.add_0_r in Hl.
    rewrite outputs_Pipe, binop_constant by exact Hl. rewrite binop_constant; [now rewrite outputs_MultiPass|].
    cbn [ins]. rewrite H. now apply outputs_stream.
  Qed.
  Lemma zipw_repeat (b : A -> A -> A) c (o : list A) : zipw b o (repeat c (length o)) = map (fun v => b v c) o.
  Proof. induction o; cbn; f_equal; auto. Qed.
  Lemma constant_is_number b x c : NodeModel.wf ops x -> NodeSpec.equiv ar ops (Binop b x (Constant (repeat c (outs ops x)))) (Unop (fun v => b v c) x).
  Proof.
    intros W. split; [cbn; lia|]. split; [reflexivity|]. intros l Hl. cbn [ins] in Hl. rewrite Nat.add_0_r in Hl. rewrite binop_constant, outputs_Unop by exact Hl.
    pose proof (outputs_stream ar ops Hu x l W Hl) as Ho. apply (map_stream_ext (outs ops x)); [exact Ho|]. intros i <-. apply zipw_repeat.
  Qed.
End Constants.

(* ---- networks ---- *)
Section Nets.
  Context {A P U : Type} (zero : A) (ops : unit_ops A P U) (uping : bool -> U -> N -> U * N) (ahash : N -> N -> N).
  Lemma dataflow_length n us x us' vals y : NetWf.wf ops n -> dataflow zero ops n us x us' vals y -> length y = n_out n.
  Proof. intros W [_ H]. apply mapM_length in H. rewrite map_length in H. rewrite H. apply (w_out _ n W). Qed.
  Lemma net_numbers n : NetWf.wf ops n -> forall left fresh new id b u op c, u_ins ops u = 0 -> u_outs ops u = 1 -> u_tick ops u [] = (u, [c]) ->
    u_ins ops b = 2 -> u_outs ops b = 1 -> (forall x y, u_tick ops b [x; y] = (b, [op x y])) ->
    (forall k, scalar zero ops id (n_out n) u = Some k -> fresh_for k n fresh /\ fresh_for k n new) -> (forall i j, fresh i <> new j) ->
    exists m, net_num zero ops fresh new id left b u n = Some m /\ n_in m = n_in n /\ n_out m = n_out n /\ (~ has_cycle n -> ~ has_cycle m) /\
      units m = (if left then u :: units n else units n ++ [u]) ++ repeat b (n_out n) /\
      forall us x us' vals y, length x = n_in n -> dataflow zero ops n us x us' vals y ->
        let with_ l := (if left then u :: l else l ++ [u]) ++ repeat b (n_out n) in
        exists vals', dataflow zero ops m (with_ us) x (with_ us') vals' (map (fun v => if left then op c v else op v c) y).
  Proof.
    intros W left fresh new id b u op c Hu0 Hu1 Hu Hb2 Hb1 Hb Hf Hfn. unfold net_num.
    destruct (scalar_ok zero ops uping ahash id (n_out n) u Hu0 Hu1) as (k & E & Wk & Ik & Ok & Uk & Ck & Dk). rewrite E. destruct (Hf k E) as [F1 F2]. specialize (Dk c Hu).
    assert (Zl : forall y : list A, length y = n_out n -> zipw op (repeat c (n_out n)) y = map (fun v => op c v) y).
    { intros y <-. clear. induction y; cbn; f_equal; auto. }
    assert (Zr : forall y : list A, length y = n_out n -> zipw op y (repeat c (n_out n)) = map (fun v => op v c) y).
    { intros y <-. clear. induction y; cbn; f_equal; auto. }
    destruct left.
    - destruct (binop_ok zero ops false fresh new b op k n Wk W F1 F2 Hfn Hb2 Hb1 ltac:(discriminate) Ok) as (m & Em & Wm & I1 & O1 & U1 & C1 & D1).
      exists m. split; [exact Em|]. split; [rewrite I1, Ik; reflexivity|]. split; [congruence|]. split; [auto|]. rewrite Uk in *. split; [rewrite U1, Ok; reflexivity|].
      intros us x us' vals y Hx D. cbv zeta. eexists. specialize (D1 Hb [u] us [] x x [u] us' [[c]] vals (repeat c (n_out n)) y ltac:(now rewrite Ik) eq_refl Dk D).
      rewrite Zl in D1 by (eapply dataflow_length; eauto). rewrite Ok in D1. exact D1.
    - assert (F1' : fresh_for n k fresh) by (destruct F1 as [X Y]; split; [exact X|]; intro i; destruct (Y i); auto).
      assert (F2' : fresh_for n k new) by (destruct F2 as [X Y]; split; [exact X|]; intro i; destruct (Y i); auto).
      destruct (binop_ok zero ops false fresh new b op n k W Wk F1' F2' Hfn Hb2 Hb1 ltac:(discriminate) (eq_sym Ok)) as (m & Em & Wm & I1 & O1 & U1 & C1 & D1).
      exists m. split; [exact Em|]. split; [rewrite I1, Ik; lia|]. split; [congruence|]. split; [auto|]. rewrite Uk in *. split; [rewrite U1, app_assoc; reflexivity|].
      intros us x us' vals y Hx D. cbv zeta. eexists. specialize (D1 Hb us [u] x [] [] us' [u] vals [[c]] y (repeat c (n_out n)) Hx eq_refl D Dk).
      rewrite Zr in D1 by (eapply dataflow_length; eauto). rewrite app_nil_r in D1. rewrite <- !app_assoc. exact D1.
  Qed.
End Nets.

(* ---- subsampled filters ---- *)
Section Subsample.
  Context {G S_ X : Type} (tl_ : tools R G S_ X).
  Notation nm := Rnum_ops.
  Fixpoint holds (p c : nat) (cur : list R) (ins : list (list R)) : list (list R) :=
    match ins with
    | [] => []
    | i :: r => if Nat.leb p (c + 1) then (nth 0 i 0%R :: tl i) :: holds p 0 (tl i) r else (nth 0 i 0%R :: cur) :: holds p (c + 1) cur r
    end.
  Lemma holds_map p : forall ins c cur, c < p ->
    holds p c cur ins = map (fun k => nth 0 (nth k ins []) 0%R :: if Nat.ltb (k + 1 + c) p then cur else tl (nth ((k + 1 + c) / p * p - 1 - c) ins [])) (seq 0 (length ins)).
  Proof.
    induction ins as [|i r IH]; intros c cur H; [reflexivity|]. cbn [holds length seq map].
    destruct (Nat.leb_spec p (c + 1)) as [E|E].
    - assert (c = p - 1) by lia. subst c. f_equal.
      + cbn [nth]. destruct (Nat.ltb_spec (0 + 1 + (p - 1)) p); [lia|]. replace (0 + 1 + (p - 1)) with p by lia. rewrite Nat.div_same by lia. replace (1 * p - 1 - (p - 1)) with 0 by lia. reflexivity.
      + rewrite IH by lia. rewrite <- seq_shift, map_map. apply map_ext_in. intros k Hk. cbn [nth]. f_equal. rewrite Nat.add_0_r.
        destruct (Nat.ltb_spec (S k + 1 + (p - 1)) p); [lia|]. replace (S k + 1 + (p - 1)) with (k + 1 + 1 * p) by lia. rewrite Nat.div_add by lia. rewrite Nat.mul_add_distr_r.
        destruct (Nat.ltb_spec (k + 1) p).
        * rewrite Nat.div_small by lia. replace (0 * p + 1 * p - 1 - (p - 1)) with 0 by lia. reflexivity.
        * assert (1 <= (k + 1) / p) by (apply Nat.div_le_lower_bound; lia). rewrite Nat.sub_0_r. replace ((k + 1) / p * p + 1 * p - 1 - (p - 1)) with (S ((k + 1) / p * p - 1)) by nia. reflexivity.
    - f_equal.
      + cbn [nth]. destruct (Nat.ltb_spec (0 + 1 + c) p); [reflexivity|lia].
      + rewrite IH by lia. rewrite <- seq_shift, map_map. apply map_ext_in. intros k Hk. cbn [nth]. f_equal. replace (k + 1 + (c + 1)) with (S k + 1 + c) by lia.
        destruct (Nat.ltb_spec (S k + 1 + c) p) as [|Hp]; [reflexivity|]. assert (1 <= (S k + 1 + c) / p) by (apply Nat.div_le_lower_bound; lia).
        replace ((S k + 1 + c) / p * p - 1 - c) with (S ((S k + 1 + c) / p * p - 1 - (c + 1))) by nia. reflexivity.
  Qed.
  Lemma holds_held p initial ins : 1 <= p -> holds p 0 initial ins = subsampled 0%R p initial ins.
  Proof.
    intro H. rewrite holds_map by lia. unfold subsampled. apply map_ext. intro k. now rewrite Nat.add_0_r, Nat.sub_0_r.
  Qed.
  Lemma neqb_same a : neqb nm a a = false.
  Proof. unfold neqb. cbn. destruct (Rle_dec a a); [reflexivity|lra]. Qed.
  Definition tuned_to (cur : list R) (s : svf R) : Prop :=
    sp_cutoff (vf_par s) = nth 0 cur 0%R /\ sp_q (vf_par s) = nth 1 cur 0%R /\ (sv_gained (vf_mode s) = true -> sp_gain (vf_par s) = nth 2 cur 0%R).
  Lemma nth_tl {Y} (d : Y) k l : nth k (tl l) d = nth (S k) l d.
  Proof. destruct l; [now destruct k|reflexivity]. Qed.
  Lemma inputs_tuned s i : tuned_to (tl i) (sv_inputs nm tl_ s i).
  Proof.
    unfold tuned_to. rewrite !nth_tl. unfold sv_inputs, n0. cbn [nofZ Rnum_ops].
    change (IZR 0) with 0%R.
    destruct (sv_gained (vf_mode s)) eqn:E.
    - destruct (neqb nm (nth 1 i 0%R) (sp_cutoff (vf_par s))) eqn:E1; [cbn; repeat split; auto|]. destruct (neqb nm (nth 2 i 0%R) (sp_q (vf_par s))) eqn:E2; [cbn; repeat split; auto|].
      destruct (neqb nm (nth 3 i 0%R) (sp_gain (vf_par s))) eqn:E3; [cbn; repeat split; auto|]. cbn [orb]. apply TuneReal.neqb_R in E1, E2, E3. auto.
    - destruct (neqb nm (nth 1 i 0%R) (sp_cutoff (vf_par s))) eqn:E1; [cbn; rewrite E; repeat split; auto; discriminate|]. destruct (neqb nm (nth 2 i 0%R) (sp_q (vf_par s))) eqn:E2; [cbn; rewrite E; repeat split; auto; discriminate|].
      cbn [orb]. apply TuneReal.neqb_R in E1, E2. rewrite E. repeat split; auto; discriminate.
  Qed.
  Lemma inputs_same s x cur : tuned_to cur s -> sv_inputs nm tl_ s (x :: cur) = s.
  Proof.
    intros (H1 & H2 & H3). unfold sv_inputs, n0. cbn [nofZ Rnum_ops nth]. change (IZR 0) with 0%R. rewrite <- H1, <- H2, !neqb_same. cbn [orb].
    destruct (sv_gained (vf_mode s)); [|reflexivity]. now rewrite <- H3, neqb_same.
  Qed.
  Lemma inputs_ext s i j : tl i = tl j -> sv_inputs nm tl_ s i = sv_inputs nm tl_ s j.
  Proof. intro H. unfold sv_inputs. now rewrite <- !nth_tl, H. Qed.
  Lemma step_tuned cur s x : tuned_to cur s -> tuned_to cur (fst (svf_step nm s x)).
  Proof. auto. Qed.
  Lemma held_outs p : forall ins c cur s, c < p -> tuned_to cur s ->
    t_outs nm tl_ (TSvf s p c) (map ATick ins) = t_outs nm tl_ (TSvf s 1 0) (map ATick (holds p c cur ins)).
  Proof.
    unfold t_outs. induction ins as [|i r IH]; intros c cur s Hc T; [reflexivity|]. cbn [holds].
    destruct (Nat.leb_spec p (c + 1)) as [E|E]; cbn [map t_run t_tick].
    - assert (E' : Nat.leb p (c + 1) = true) by now apply Nat.leb_le. rewrite E'. cbn [Nat.leb Nat.add]. rewrite (inputs_ext s (nth 0 i 0%R :: tl i) i eq_refl).
      cbn [nth]. change (n0 nm) with 0%R. specialize (IH 0 (tl i) (fst (svf_step nm (sv_inputs nm tl_ s i) (nth 0 i 0%R))) ltac:(lia) (step_tuned _ _ _ (inputs_tuned s i))).
      destruct (svf_step nm (sv_inputs nm tl_ s i) (nth 0 i 0%R)) as [s' y]. cbn [fst] in IH.
      destruct (t_run nm tl_ (TSvf s' p 0) (map ATick r)) as [[m os]|], (t_run nm tl_ (TSvf s' 1 0) _) as [[m' os']|]; congruence.
    - assert (E' : Nat.leb p (c + 1) = false) by now apply Nat.leb_gt. rewrite E'. cbn [Nat.leb Nat.add]. rewrite (inputs_same s _ cur T). cbn [nth]. change (n0 nm) with 0%R.
      specialize (IH (c + 1) cur (fst (svf_step nm s (nth 0 i 0%R))) ltac:(lia) (step_tuned _ _ _ T)). destruct (svf_step nm s (nth 0 i 0%R)) as [s' y]. cbn [fst] in IH.
      destruct (t_run nm tl_ (TSvf s' p (c + 1)) (map ATick r)) as [[m os]|], (t_run nm tl_ (TSvf s' 1 0) _) as [[m' os']|]; congruence.
  Qed.
  Theorem subsample_builder m f q g n p ins : build nm tl_ true (OSvf m f q g) = Some n -> 1 <= p ->
    t_outs nm tl_ n (ASet (mkSetting (PSubsample p) []) :: map ATick ins) = t_outs nm tl_ n (map ATick (subsampled 0%R p [f; q; g] ins)).
  Proof.
    intros [= <-] Hp. unfold t_outs at 1. cbn [t_run t_set s_par]. replace (Nat.max 1 p) with p by lia. rewrite <- holds_held by exact Hp.
    rewrite <- (held_outs p ins 0 [f; q; g]); [unfold t_outs|lia|now repeat split]. now destruct (t_run nm tl_ _ _) as [[]|].
  Qed.
  Lemma last_default {Y} (l : list Y) d d' : l <> [] -> last l d = last l d'.
  Proof. induction l as [|a [|b l] IH]; [congruence|reflexivity|]. intros _. cbn [last] in *. apply IH. discriminate. Qed.
  Lemma held_run p : forall ins c cur s, c < p -> tuned_to cur s -> exists s' c' os,
    t_run nm tl_ (TSvf s p c) (map ATick ins) = Some (TSvf s' p c', os) /\ t_run nm tl_ (TSvf s 1 0) (map ATick (holds p c cur ins)) = Some (TSvf s' 1 0, os) /\
    tuned_to (tl (last (holds p c cur ins) (0%R :: cur))) s'.
  Proof.
    induction ins as [|i r IH]; intros c cur s Hc T; [exists s, c, []; auto|]. cbn [holds].
    destruct (Nat.leb_spec p (c + 1)) as [E|E]; cbn [map t_run t_tick].
    - assert (E' : Nat.leb p (c + 1) = true) by now apply Nat.leb_le. rewrite E'. cbn [Nat.leb Nat.add]. rewrite (inputs_ext s (nth 0 i 0%R :: tl i) i eq_refl).
      cbn [nth]. change (n0 nm) with 0%R. destruct (IH 0 (tl i) (fst (svf_step nm (sv_inputs nm tl_ s i) (nth 0 i 0%R))) ltac:(lia) (step_tuned _ _ _ (inputs_tuned s i))) as (s' & c' & os & E1 & E2 & T').
      destruct (svf_step nm (sv_inputs nm tl_ s i) (nth 0 i 0%R)) as [s1 y]. cbn [fst] in E1, E2. rewrite E1, E2. exists s', c', ([y] :: os). split; auto. split; auto.
      destruct (holds p 0 (tl i) r) as [|h t]; [exact T'|]. match goal with |- tuned_to (tl (last (_ :: h :: t) ?d)) _ => change (tuned_to (tl (last (h :: t) d)) s'); rewrite (last_default (h :: t) d (0%R :: tl i)) by discriminate; exact T' end.
    - assert (E' : Nat.leb p (c + 1) = false) by now apply Nat.leb_gt. rewrite E'. cbn [Nat.leb Nat.add]. rewrite (inputs_same s _ cur T). cbn [nth]. change (n0 nm) with 0%R.
      destruct (IH (c + 1) cur (fst (svf_step nm s (nth 0 i 0%R))) ltac:(lia) (step_tuned _ _ _ T)) as (s' & c' & os & E1 & E2 & T').
      destruct (svf_step nm s (nth 0 i 0%R)) as [s1 y]. cbn [fst] in E1, E2. rewrite E1, E2. exists s', c', ([y] :: os). split; auto. split; auto.
      destruct (holds p (c + 1) cur r) as [|h t]; [exact T'|]. match goal with |- tuned_to (tl (last (_ :: h :: t) ?d)) _ => change (tuned_to (tl (last (h :: t) d)) s'); exact T' end.
  Qed.
  Lemma run_app n a b : t_run nm tl_ n (a ++ b) = match t_run nm tl_ n a with Some (m, os) => match t_run nm tl_ m b with Some (k, os') => Some (k, os ++ os') | None => None end | None => None end.
  Proof.
    revert n; induction a as [|[i|st|sr|] a IH]; intros n; cbn [app t_run]; [now destruct (t_run nm tl_ n b) as [[]|]| | | |]; auto.
    - destruct (t_tick nm tl_ n i) as [m o]. rewrite IH. destruct (t_run nm tl_ m a) as [[m1 os]|]; auto. destruct (t_run nm tl_ m1 b) as [[]|]; auto.
    - destruct (t_set nm tl_ n st); auto.
  Qed.
  Theorem subsample_restarts m f q g n p before after : build nm tl_ true (OSvf m f q g) = Some n -> 1 <= p ->
    let held := subsampled 0%R p [f; q; g] before in
    t_outs nm tl_ n (ASet (mkSetting (PSubsample p) []) :: map ATick before ++ AReset :: map ATick after) =
    t_outs nm tl_ n (map ATick held ++ AReset :: map ATick (subsampled 0%R p (tl (last held (0%R :: [f; q; g]))) after)).
  Proof.
    intros [= <-] Hp. cbv zeta. rewrite <- !holds_held by exact Hp. set (s := svf_new _ _ _ _). assert (T : tuned_to [f; q; g] s) by now repeat split.
    unfold t_outs. cbn [t_run t_set s_par]. replace (Nat.max 1 p) with p by lia. rewrite !run_app.
    destruct (held_run p before 0 [f; q; g] s ltac:(lia) T) as (s' & c' & os & E1 & E2 & T'). rewrite E1, E2. cbn [t_run t_reset].
    set (cur := tl (last _ _)) in *. assert (T2 : tuned_to cur (svf_do nm (tl_elem tl_) s' OpReset)) by exact T'.
    destruct (held_run p after 0 cur _ ltac:(lia) T2) as (s2 & c2 & os2 & F1 & F2 & _). rewrite F1, F2. reflexivity.
  Qed.
  Theorem subsample_changes m f q g n p p' before after : build nm tl_ true (OSvf m f q g) = Some n -> 1 <= p -> 1 <= p' ->
    let held := subsampled 0%R p [f; q; g] before in
    t_outs nm tl_ n (ASet (mkSetting (PSubsample p) []) :: map ATick before ++ ASet (mkSetting (PSubsample p') []) :: map ATick after) =
    t_outs nm tl_ n (map ATick (held ++ subsampled 0%R p' (tl (last held (0%R :: [f; q; g]))) after)).
  Proof.
    intros [= <-] Hp Hp'. cbv zeta. rewrite <- !holds_held by assumption. set (s := svf_new _ _ _ _). assert (T : tuned_to [f; q; g] s) by now repeat split.
    unfold t_outs. cbn [t_run t_set s_par]. replace (Nat.max 1 p) with p by lia. rewrite map_app, !run_app.
    destruct (held_run p before 0 [f; q; g] s ltac:(lia) T) as (s' & c' & os & E1 & E2 & T'). rewrite E1, E2. cbn [t_run t_set s_par]. replace (Nat.max 1 p') with p' by lia.
    set (cur := tl (last _ _)) in *. destruct (held_run p' after 0 cur s' ltac:(lia) T') as (s2 & c2 & os2 & F1 & F2 & _). rewrite F1, F2. reflexivity.
  Qed.
End Subsample.

Definition low_gain (f : R) : R := let g := tan (PI * f / 44100) in (g * (g * (1 / (1 + g * (g + 1 / 1)))))%R.
Lemma low_gain_quarter : low_gain 11025 = (1 / 3)%R.
Proof. unfold low_gain. replace (PI * 11025 / 44100)%R with (PI / 4)%R by field. rewrite tan_PI4. field. Qed.
Lemma low_gain_440 : (low_gain 440 < 1 / 3)%R.
Proof.
  unfold low_gain. pose proof PI_RGT_0 as P. set (g := tan (PI * 440 / 44100)).
  assert (G0 : (0 < g)%R) by (apply tan_gt_0; lra).
  assert (G1 : (g < 1)%R) by (rewrite <- tan_PI4; apply tan_increasing; lra). cbv zeta.
  replace (g * (g * (1 / (1 + g * (g + 1 / 1)))))%R with (g * g / (1 + g * (g + 1)))%R by (field; nra).
  apply (Rmult_lt_reg_r (1 + g * (g + 1))); [nra|]. unfold Rdiv. rewrite Rmult_assoc, Rinv_l by nra. nra.
Qed.
Definition lowp (f : R) : svf R := svf_new Rnum_ops R_elem MLowpass (mkSvp 44100 f 1 1)%R.
Definition low : tnode R unit unit R := TSvf (lowp 440) 1 0.
Lemma first_sample f : snd (svf_step Rnum_ops (lowp f) 1%R) = low_gain f.
Proof. unfold low_gain, svf_step, lowp. cbn. ring. Qed.
Lemma read_input : sv_inputs Rnum_ops real_tools (lowp 440) [1; 11025; 1]%R = lowp 11025.
Proof.
  unfold sv_inputs. cbn [vf_mode lowp svf_new sv_gained vf_par sp_cutoff]. replace (neqb Rnum_ops (nth 1 [1; 11025; 1]%R (n0 Rnum_ops)) 440%R) with true; [reflexivity|].
  symmetry. destruct (neqb _ _ _) eqn:E; [reflexivity|]. apply neqb_R in E. cbn in E. lra.
Qed.
Lemma first_440 : t_outs Rnum_ops real_tools low [ASet (mkSetting (PSubsample 2) []); ATick [1; 11025; 1]%R] = Some [[low_gain 440]].
Proof.
  unfold t_outs. cbn [t_run t_set s_par low t_tick Nat.max Nat.add Nat.leb nth]. pose proof (first_sample 440) as E. destruct (svf_step Rnum_ops (lowp 440) 1%R) as [s' y]. cbn [snd] in E. now subst y.
Qed.
Lemma first_11025 : t_outs Rnum_ops real_tools low [ATick [1; 11025; 1]%R] = Some [[low_gain 11025]].
Proof.
  unfold t_outs. cbn [t_run t_set s_par low t_tick Nat.max Nat.add Nat.leb]. rewrite read_input. cbn [nth]. pose proof (first_sample 11025) as E. destruct (svf_step Rnum_ops (lowp 11025) 1%R) as [s' y]. cbn [snd] in E. now subst y.
Qed.
Lemma built_low : build Rnum_ops real_tools true (OSvf MLowpass 440 1 1)%R = Some low.
Proof. unfold low, lowp. cbn [build]. unfold default_sr. reflexivity. Qed.
Lemma subsample_late : ~ forall n p ins, build Rnum_ops real_tools true (OSvf MLowpass 440 1 1)%R = Some n -> 1 <= p -> Forall (fun i => exists x, i = [x; 11025; 1]%R) ins ->
  t_outs Rnum_ops real_tools n (ASet (mkSetting (PSubsample p) []) :: map ATick ins) = t_outs Rnum_ops real_tools n (map ATick ins).
Proof.
  intro H. specialize (H low 2 [[1; 11025; 1]%R] built_low ltac:(lia) ltac:(repeat constructor; now eexists)). cbn [map] in H. rewrite first_440, first_11025 in H. injection H as H.
  pose proof low_gain_440. rewrite low_gain_quarter in H. lra.
Qed.
(* after two samples and a reset, the first sample has the cutoff frequency that was read in the second sample *)
Lemma read_any s x : vf_mode s = MLowpass -> vf_par s = mkSvp 44100%R 440%R 1%R 1%R -> sv_inputs Rnum_ops real_tools s [x; 11025; 1]%R = mkSvf MLowpass (mkSvp 44100 11025 1 1)%R (vf_c (lowp 11025)) (vf_ic1 s) (vf_ic2 s).
Proof.
  intros Hm Hp. unfold sv_inputs. rewrite Hm, Hp. cbn [sv_gained sp_cutoff]. replace (neqb Rnum_ops (nth 1 [x; 11025; 1]%R (n0 Rnum_ops)) 440%R) with true; [unfold svf_update; rewrite Hm; reflexivity|].
  symmetry. destruct (neqb _ _ _) eqn:E; [reflexivity|]. apply neqb_R in E. cbn in E. lra.
Qed.
Lemma reset_stale : exists y, t_outs Rnum_ops real_tools low (ASet (mkSetting (PSubsample 2) []) :: map ATick [[1; 11025; 1]; [1; 11025; 1]]%R ++ AReset :: map ATick [[1; 11025; 1]%R]) = Some [[low_gain 440]; [y]; [low_gain 11025]].
Proof.
  unfold t_outs. cbn [map app t_run t_set s_par low t_tick Nat.max Nat.add Nat.leb nth]. pose proof (first_sample 440) as E. destruct (svf_step Rnum_ops (lowp 440) 1%R) as [s1 y1] eqn:E1. cbn [snd] in E. subst y1.
  cbn [t_run t_tick Nat.add Nat.leb nth]. rewrite read_any; [|injection E1 as <-; reflexivity|injection E1 as <-; reflexivity].
  destruct (svf_step Rnum_ops (mkSvf _ _ _ (vf_ic1 s1) _) 1%R) as [s2 y2] eqn:E2.
  assert (E' : svf_do Rnum_ops R_elem s2 OpReset = lowp 11025) by (injection E2 as <-; reflexivity).
  cbn [t_run t_reset t_tick Nat.add Nat.leb nth]. change (tl_elem real_tools) with R_elem. rewrite E'. pose proof (first_sample 11025) as E3. destruct (svf_step Rnum_ops (lowp 11025) 1%R) as [s3 y3].
  cbn [snd] in E3. subst y3. exists y2. reflexivity.
Qed.
Lemma subsample_reset : ~ forall n p before after os, build Rnum_ops real_tools true (OSvf MLowpass 440 1 1)%R = Some n -> 1 <= p ->
  t_outs Rnum_ops real_tools n (ASet (mkSetting (PSubsample p) []) :: map ATick before ++ AReset :: map ATick after) = Some os ->
  t_outs Rnum_ops real_tools n (ASet (mkSetting (PSubsample p) []) :: map ATick after) = Some (skipn (length before) os).
Proof.
  intro H. destruct reset_stale as [y E]. specialize (H low 2 _ _ _ built_low ltac:(lia) E). cbn [map length skipn] in H. rewrite first_440 in H. injection H as H. pose proof low_gain_440. rewrite low_gain_quarter in H. lra.
Qed.
(* with the default period there is no such difference *)
Section Default.
  Context {G S_ X : Type} (tl_ : tools R G S_ X).
  Notation nm := Rnum_ops.
  Lemma inputs_det s i : vf_c s = sv_coefs nm (tl_elem tl_) (vf_mode s) (vf_par s) ->
    let p := mkSvp (sp_sr (vf_par s)) (nth 1 i 0%R) (nth 2 i 0%R) (if sv_gained (vf_mode s) then nth 3 i 0%R else sp_gain (vf_par s)) in
    sv_inputs nm tl_ s i = mkSvf (vf_mode s) p (sv_coefs nm (tl_elem tl_) (vf_mode s) p) (vf_ic1 s) (vf_ic2 s).
  Proof.
    intro H. cbv zeta. unfold sv_inputs, n0. cbn [nofZ Rnum_ops]. change (IZR 0) with 0%R. destruct s as [m [sr f q g] c a b]. cbn [vf_mode vf_par vf_c sp_sr sp_cutoff sp_q sp_gain vf_ic1 vf_ic2] in *. subst c.
    destruct (sv_gained m).
    - destruct (neqb nm (nth 1 i 0%R) f) eqn:E1; [reflexivity|]. destruct (neqb nm (nth 2 i 0%R) q) eqn:E2; [reflexivity|]. destruct (neqb nm (nth 3 i 0%R) g) eqn:E3; [reflexivity|].
      cbn [orb]. apply neqb_R in E1, E2, E3. now subst.
    - destruct (neqb nm (nth 1 i 0%R) f) eqn:E1; [reflexivity|]. destruct (neqb nm (nth 2 i 0%R) q) eqn:E2; [reflexivity|]. cbn [orb]. apply neqb_R in E1, E2. now subst.
  Qed.
  Definition fit (m : svmode) (sr g : R) (s : svf R) : Prop :=
    vf_mode s = m /\ sp_sr (vf_par s) = sr /\ (sv_gained m = false -> sp_gain (vf_par s) = g) /\ vf_c s = sv_coefs nm (tl_elem tl_) (vf_mode s) (vf_par s).
  Lemma fit_tick m sr g s i x : fit m sr g s -> fit m sr g (fst (svf_step nm (sv_inputs nm tl_ s i) x)).
  Proof.
    intros (H1 & H2 & H3 & H4). rewrite inputs_det by exact H4. unfold fit. cbn. split; [exact H1|]. split; [exact H2|]. split; [|reflexivity]. intro E. rewrite H1, E. auto.
  Qed.
  Lemma fit_same m sr g s s' l : fit m sr g s -> fit m sr g s' -> vf_ic1 s = vf_ic1 s' -> vf_ic2 s = vf_ic2 s' -> t_outs nm tl_ (TSvf s 1 0) (map ATick l) = t_outs nm tl_ (TSvf s' 1 0) (map ATick l).
  Proof.
    intros (H1 & H2 & H3 & H4) (H1' & H2' & H3' & H4') E1 E2. destruct l as [|i l]; [reflexivity|]. unfold t_outs. cbn [map t_run t_tick Nat.leb Nat.add].
    rewrite !inputs_det by assumption. rewrite H1, H1', H2, H2', E1, E2. destruct (sv_gained m); [reflexivity|]. now rewrite H3, H3'.
  Qed.
  Lemma default_from m sr g s0 after : fit m sr g s0 -> vf_ic1 s0 = 0%R -> vf_ic2 s0 = 0%R -> forall before s os, fit m sr g s ->
    t_outs nm tl_ (TSvf s 1 0) (map ATick before ++ AReset :: map ATick after) = Some os -> t_outs nm tl_ (TSvf s0 1 0) (map ATick after) = Some (skipn (length before) os).
  Proof.
    intros F0 Z1 Z2. induction before as [|i r IH]; intros s os Fs H.
    - cbn [map app length skipn] in *. unfold t_outs in H. cbn [t_run t_reset] in H. rewrite <- H. rewrite (fit_same m sr g s0 (svf_do nm (tl_elem tl_) s OpReset)); auto.
    - unfold t_outs in H. cbn [map app t_run t_tick Nat.leb Nat.add] in H. pose proof (fit_tick m sr g s i (nth 0 i (n0 nm)) Fs) as F'. destruct (svf_step nm (sv_inputs nm tl_ s i) (nth 0 i (n0 nm))) as [s' y]. cbn [fst] in F'.
      specialize (IH s'). unfold t_outs in IH at 1. destruct (t_run nm tl_ (TSvf s' 1 0) (map ATick r ++ AReset :: map ATick after)) as [[n' os']|]; [|discriminate]. injection H as <-. exact (IH os' F' eq_refl).
  Qed.
  Lemma default_reset m f q g n before after os : build nm tl_ true (OSvf m f q g) = Some n ->
    t_outs nm tl_ n (map ATick before ++ AReset :: map ATick after) = Some os -> t_outs nm tl_ n (map ATick after) = Some (skipn (length before) os).
  Proof. intros [= <-]. apply (default_from m 44100%R g); try reflexivity; repeat split. Qed.
End Default.

(* ---- envelopes ---- *)
Lemma intervals {F V C} (nf : num F) (nv : num V) (conv : F -> V) (f : C -> F -> C * list F) st ch sd i j :
  set_interval (env_new nf nv conv f st ch sd i) j = env_new nf nv conv f st ch sd j /\ set_interval (envin_new nf nv st ch sd i) j = envin_new nf nv st ch sd j.
Proof. split; [|reflexivity]. unfold env_new, env_reset, set_interval. cbn. now destruct (f st (n0 nf)). Qed.

(* ---- seeds and associativity ---- *)
Section Assoc.
  Local Open Scope Q_scope.
  Definition hiss : NodeModel.node Q (voice Q Q unit) := Leaf (SNoise 0 None 0).
  Lemma seeds_differ : outputs q_arith q_ops (seed q_ops atto_hash (Stack (Stack hiss hiss) hiss) 7) [[]] <> outputs q_arith q_ops (seed q_ops atto_hash (Stack hiss (Stack hiss hiss)) 7) [[]].
  Proof. vm_compute. intro H. discriminate H. Qed.
End Assoc.

(* ---- phases behind filters ---- *)
Section Behind.
  Local Open Scope Q_scope.
  Lemma phase_behind : ~ forall c u p x y, b_phase q_arith q_ops (Pipe (fill c u) pass0) p = Some x -> b_phase q_arith q_ops (fill c u) p = Some y ->
    forall l, Forall2 (Forall2 Qeq) (outputs q_arith q_ops x l) (outputs q_arith q_ops (Pipe y pass0) l).
  Proof.
    intro H. specialize (H (Driven [1]) saw0 (1 # 2) _ _ eq_refl eq_refl [[]]). vm_compute in H.
    inversion H as [|? ? ? ? K _ e1 e2]. inversion K as [|? ? ? ? K' _ e3 e4]. discriminate K'.
  Qed.
End Behind.
Lemma numbers_constants {A P U} (nm : num A) (ar : arith A) (ops : unit_ops A P U) (Hu : unit_laws (a_zero ar) ops) (x : NodeModel.node A U) c : NodeModel.wf ops x -> lawful nm ->
  NodeSpec.equiv ar ops (an_add nm x c) (Binop (nadd nm) x (Constant (repeat c (outs ops x)))) /\
  NodeSpec.equiv ar ops (an_sub nm x c) (Binop (nsub nm) x (Constant (repeat c (outs ops x)))) /\
  NodeSpec.equiv ar ops (an_mul nm x c) (Binop (nmul nm) x (Constant (repeat c (outs ops x)))).
Proof.
  intros W L. split; [|split].
  - destruct (constant_is_number ar ops Hu (nadd nm) x c W) as (H1 & H2 & H3). split; [exact (eq_sym H1)|]. split; [exact (eq_sym H2)|]. intros l Hl. symmetry. apply H3. rewrite H1. exact Hl.
  - destruct (constant_is_number ar ops Hu (nsub nm) x c W) as (H1 & H2 & H3). split; [exact (eq_sym H1)|]. split; [exact (eq_sym H2)|]. intros l Hl. rewrite H3 by (rewrite H1; exact Hl). unfold an_sub. rewrite !outputs_Unop.
    apply map_ext. intro o. apply map_ext. intro v. apply L.
  - destruct (constant_is_number ar ops Hu (nmul nm) x c W) as (H1 & H2 & H3). split; [exact (eq_sym H1)|]. split; [exact (eq_sym H2)|]. intros l Hl. symmetry. apply H3. rewrite H1. exact Hl.
Qed.
Lemma not_associative : ~ forall x y z, NodeSpec.equiv q_arith q_ops (seed q_ops atto_hash (Stack (Stack x y) z) 7) (seed q_ops atto_hash (Stack x (Stack y z)) 7).
Proof. intro H. destruct (H hiss hiss hiss) as (_ & _ & E). apply seeds_differ. apply E. repeat constructor. Qed.
Lemma fresh_scalar k : scalar 0%Z nu_ops 7 (n_out one_net) (NVal 10) = Some k -> fresh_for k one_net new_id /\ fresh_for k one_net new_id2.
Proof.
  intro E. assert (I : option_map n_index (scalar 0%Z nu_ops 7 (n_out one_net) (NVal 10)) = Some [(7%N, 0)]) by (vm_compute; reflexivity). rewrite E in I. injection I as I.
  split; (split; [unfold new_id, new_id2; intros i j H; lia|]); intros i; unfold contains, new_id, new_id2; rewrite index_one, I; split; intros H; apply H; apply lookup_small; intros p Hp; cbn [In] in Hp; intuition subst; cbn [fst]; lia.
Qed.
