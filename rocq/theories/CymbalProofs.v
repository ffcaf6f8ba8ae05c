(* Proofs about the cymbal of CymbalModel.v. *)
From Coq Require Import Reals Lra Lia FunctionalExtensionality Psatz.
From Verif Require Import EnvProofs OscProofs MeterProofs FxProofs PreProofs SoundProofs SoundCurves TableProofs TableHeardProofs.
From Verif Require Import DrumSpec DrumProofs DrumSnare DrumLevel CymbalSpec.
Import ListNotations.
Local Open Scope R_scope.
Local Notation nR := Rnum_ops.
Local Notation tickD := (NodeModel.tick R_arith drumR).
Local Notation nodeC := (NodeModel.node R (cu R unit unit R)).

Section Cymbal.
  Variable tb : list (R * list R).
  Hypothesis ok : tables_ok tb.
  Notation tickC := (NodeModel.tick R_arith (cymbalsR tb)).
  Lemma driven_cymbal (Inv : nat -> nodeC -> Prop) (out : nat -> list R) :
    (forall n x, Inv n x -> exists y, tickC x [] = (y, out n) /\ Inv (S n) y) -> forall N x n, Inv 0%nat x -> (n < N)%nat -> nth n (cymbal_outputs tb x (repeat [] N)) [] = out n.
  Proof.
    intros St. assert (G : forall N x k n, Inv k x -> (n < N)%nat -> nth n (cymbal_outputs tb x (repeat [] N)) [] = out (k + n)%nat).
    { induction N as [|N IH]; intros x k n H Hn; [lia|]. destruct (St k x H) as (y & E & H'). unfold NodeSpec.outputs in *. cbn [repeat BufModel.ticks]. rewrite E.
      specialize (IH y (S k)). destruct (BufModel.ticks tickC y (repeat [] N)) as [z o] eqn:Eo. cbn [snd] in *. destruct n as [|n]; [now rewrite Nat.add_0_r|].
      cbn [nth]. rewrite IH; [f_equal; lia|exact H'|lia]. }
    intros N x n H Hn. now rewrite (G N x 0%nat n H Hn).
  Qed.
  Lemma leaf_lift u u' i o : tickD (Leaf u) i = (Leaf u', o) -> tickC (Leaf (CDrum u)) i = (Leaf (CDrum u'), o).
  Proof. cbn [tick cymbalsR cu_ops u_tick cu_tick drumR du_ops]. destruct (du_tick nR real_tools u i) as [v y]. intros E. injection E as -> ->. reflexivity. Qed.

  Variables (sr : R) (h : nat -> N) (r : nat -> R).
  Hypothesis HS : usual sr.
  Hypothesis HH : forall i, (h i < 2 ^ 64)%N.
  Lemma sr_pos : 0 < sr. Proof. destruct HS; lra. Qed.

  (* ---- wavetable oscillators ---- *)
  Definition wave_ok (i : nat) (f : nat -> R) (n : nat) (s : @synth R) : Prop :=
    (sy_hint s <= length tb - 3)%nat /\ sy_sd s = 1 / sr /\ forall x, frac (sy_phase s + x) = frac (EnvModel.rnd1 nR (h i) + sum_to (fun k => f k / sr) n + x).
  Lemma wave_step i f n s l : wave_ok i f n s -> nth 0 l 0 = f n -> exists s', tickC (Leaf (CSynth s)) l = (Leaf (CSynth s'), [wave_of tb sr h i f n]) /\ wave_ok i f (S n) s'.
  Proof.
    intros (Hh & Hd & Hp) Hl. destruct (tick_ok tb ok s (f n) Hh) as (h' & _ & Hh' & E). eexists. split.
    - cbn [tick cymbalsR cu_ops u_tick cu_tick]. change (n0 nR) with 0. rewrite Hl, E. cbv beta iota. apply f_equal2; [reflexivity|]. unfold wave_of. f_equal. f_equal. rewrite Hp, Hd. f_equal. cbn [sum_to]. unfold Rdiv. ring.
    - split; [exact Hh'|]. split; [exact Hd|]. intros x. cbn [sy_phase synth_at]. rewrite frac_frac, Rplus_assoc, Hp, Hd. f_equal. cbn [sum_to]. unfold Rdiv. ring.
  Qed.
  Lemma wave_0 i f : exists s, square_osc nR sr (h i) = Leaf (CSynth s) :> nodeC /\ wave_ok i f 0 s.
  Proof.
    eexists. split; [reflexivity|]. split; [cbn; lia|]. split; [reflexivity|]. intros x. cbn [sum_to synth_set_hash synth_reset synth_start synth_new sy_phase sy_init sy_hash]. unfold hash_phase. now rewrite Rplus_0_r.
  Qed.
  (* one pair *)
  Definition clang_node (f m g : R) (s t : @synth R) : nodeC := Pipe (an_add nR (an_mul nR (Pipe (Constant [f]) (Leaf (CSynth s))) m) g) (Leaf (CSynth t)).
  Definition clang_ok (i : nat) (f m g : R) (n : nat) (x : nodeC) : Prop := exists s t, x = clang_node f m g s t /\ wave_ok (2 * i) (fun _ => f) n s /\ wave_ok (2 * i + 1) (clang_pitch tb sr h i f m g) n t.
  Lemma clang_step i f m g n x : clang_ok i f m g n x -> exists y, tickC x [] = (y, [clang_of tb sr h i f m g n]) /\ clang_ok i f m g (S n) y.
  Proof.
    intros (s & t & -> & A & B). destruct (wave_step (2 * i) (fun _ => f) n s [f] A eq_refl) as (s' & E & A').
    destruct (wave_step (2 * i + 1) (clang_pitch tb sr h i f m g) n t [clang_pitch tb sr h i f m g n] B eq_refl) as (t' & E' & B').
    exists (clang_node f m g s' t'). split; [|exists s', t'; auto].
    assert (E1 : tickC (an_add nR (an_mul nR (Pipe (Constant [f]) (Leaf (CSynth s))) m) g) [] = (an_add nR (an_mul nR (Pipe (Constant [f]) (Leaf (CSynth s'))) m) g, [clang_pitch tb sr h i f m g n])).
    { unfold an_add, an_mul. remember (Leaf (CSynth s)) as L. remember (Leaf (CSynth s')) as L'. cbn [tick]. rewrite E. cbn [map nadd nmul Rnum_ops]. do 2 f_equal. unfold clang_pitch. ring. }
    unfold clang_node. remember (an_add nR _ g) as K. remember (Leaf (CSynth t)) as L. remember (Leaf (CSynth t')) as L'. cbn [tick]. rewrite E1, E'. reflexivity.
  Qed.
  Lemma clang_0 i f m g : clang_ok i f m g 0 (clang nR sr h i f m g).
  Proof.
    destruct (wave_0 (2 * i) (fun _ => f)) as (s & E & A). destruct (wave_0 (2 * i + 1) (clang_pitch tb sr h i f m g)) as (t & E' & B). exists s, t. split; [|split; assumption].
    unfold clang, square_hz_osc, clang_node. rewrite E, E'. reflexivity.
  Qed.
  Lemma add_step a b a' b' u v : tickC a [] = (a', [u]) -> tickC b [] = (b', [v]) -> tickC (Binop (nadd nR) a b) [] = (Binop (nadd nR) a' b', [u + v]).
  Proof. intros A B. cbn [tick]. rewrite firstn_nil, skipn_nil, A, B. reflexivity. Qed.
  Lemma mul_step a b a' b' u v : tickC a [] = (a', [u]) -> tickC b [] = (b', [v]) -> tickC (Binop (nmul nR) a b) [] = (Binop (nmul nR) a' b', [u * v]).
  Proof. intros A B. cbn [tick]. rewrite firstn_nil, skipn_nil, A, B. reflexivity. Qed.
  Definition control_leaf (i : nat) (E : R -> R) (n : nat) : nodeC := drum_leaf (control_node sr h i E n).
  Lemma control_leaf_step i E n l : tickC (control_leaf i E n) l = (control_leaf i E (S n), [control sr h i E n]).
  Proof. pose proof (control_step sr h HS HH i E n l) as C. unfold control_leaf, control_node, lifted, lfo_at, leaf_of, drum_leaf in *. apply leaf_lift. exact C. Qed.
  Definition mixed_ok (n : nat) (x : nodeC) : Prop := exists a b c, x = Binop (nmul nR) (Binop (nadd nR) (Binop (nadd nR) a b) c) (control_leaf 6 (fading 8) n) /\
    clang_ok 0 (near r 0 1339.0586) 54127 (near r 1 1703.2929) n a /\ clang_ok 1 (near r 2 2090.1314) 43480 (near r 3 1425.6187) n b /\ clang_ok 2 (near r 4 1189.1727) 56771 (near r 5 1954.3242) n c.
  Lemma mixed_step n x : mixed_ok n x -> exists y, tickC x [] = (y, [cymbal_mixed tb sr h r n]) /\ mixed_ok (S n) y.
  Proof.
    intros (a & b & c & -> & A & B & C). destruct (clang_step _ _ _ _ _ _ A) as (a' & Ea & A'). destruct (clang_step _ _ _ _ _ _ B) as (b' & Eb & B'). destruct (clang_step _ _ _ _ _ _ C) as (c' & Ec & C').
    eexists. split; [apply mul_step; [apply add_step; [apply add_step; [exact Ea|exact Eb]|exact Ec]|apply control_leaf_step]|]. exists a', b', c'. auto.
  Qed.
  Lemma drawn_R i z : drawn nR r i (ndiv nR (nofZ nR z) (nofZ nR 10000)) = near r i (IZR z / 10000).
  Proof. unfold drawn, near. cbn [nadd nsub nmul ndiv nofZ Rnum_ops]. change (n1 nR) with 1. ring. Qed.
  Lemma mixed_0 : mixed_ok 0 (Binop (nmul nR) (cymbal_complex nR sr h r) (drum_leaf (leaf_of (lfo_new nR sr (h 6%nat) 1 (fun t => [exp (nmul nR (nneg nR t) (nofZ nR 8))]))))).
  Proof.
    unfold cymbal_complex. rewrite !drawn_R. do 3 eexists. split; [apply f_equal2; [reflexivity|]|].
    - unfold control_leaf, control_node, lifted. rewrite lfo_0. do 3 f_equal. apply functional_extensionality. intros t. unfold fading. cbn [nmul nneg nofZ Rnum_ops]. do 2 f_equal. ring.
    - replace 1339.0586 with (13390586 / 10000) by lra. replace 1703.2929 with (17032929 / 10000) by lra. replace 2090.1314 with (20901314 / 10000) by lra.
      replace 1425.6187 with (14256187 / 10000) by lra. replace 1189.1727 with (11891727 / 10000) by lra. replace 1954.3242 with (19543242 / 10000) by lra. cbn [nofZ Rnum_ops]. repeat split; apply clang_0.
  Qed.

  (* ---- the filters ---- *)
  Definition cymbal_cut : nat -> R := control sr h 7 cymbal_cutoff.
  Notation mixed := (cymbal_mixed tb sr h r).
  Notation lowed := (lowpassed sr cymbal_cut mixed).
  Definition low_filter (s : svf R) : nodeC := Pipe (Stack (MultiPass 2) (Constant [1])) (Leaf (CDrum (DTune (TSvf s 1 0)))).
  Lemma low_filter_step n s : svf_ok sr cymbal_cut mixed n s -> exists s', tickC (low_filter s) [mixed n; cymbal_cut n] = (low_filter s', [lowed n]) /\ svf_ok sr cymbal_cut mixed (S n) s'.
  Proof.
    intros H. destruct (svf_low sr cymbal_cut mixed n s [mixed n; cymbal_cut n; 1] H eq_refl eq_refl eq_refl) as (s' & E & H'). exists s'. split; [|exact H']. apply leaf_lift in E.
    change (tickC (low_filter s) [mixed n; cymbal_cut n]) with (let (y', o') := tickC (Leaf (CDrum (DTune (TSvf s 1 0)))) [mixed n; cymbal_cut n; 1] in (Pipe (Stack (MultiPass 2) (Constant [1])) y', o') : nodeC * list R).
    rewrite E. reflexivity.
  Qed.
  Lemma low_filter_0 : exists s, cymbal_lowpass nR real_tools sr 1 = low_filter s :> nodeC /\ svf_ok sr cymbal_cut mixed 0 s.
  Proof.
    unfold cymbal_lowpass. cbn [TuneModel.build t_rate]. eexists. split; [reflexivity|]. unfold svf_ok, svf_do, svf_new, svf_update. cbn [vf_mode vf_par vf_c vf_ic1 vf_ic2 sp_cutoff sp_q sp_gain low_state].
    split; [reflexivity|]. split; [reflexivity|]. exists 440. split; reflexivity.
  Qed.
  Definition flat (_ : nat) : R := 2500.
  Definition high_ok (x : nat -> R) (n : nat) (s : svf R) : Prop := vf_c s = sv_coefs nR R_elem MHighpass (mkSvp sr 2500 1 1) /\ (vf_ic1 s, vf_ic2 s) = low_state sr flat x n.
  Lemma high_step x n s l : high_ok x n s -> nth 0 l 0 = x n -> exists s', tickC (Leaf (CDrum (DTune (TFix s)))) l = (Leaf (CDrum (DTune (TFix s'))), [highpassed sr flat x n]) /\ high_ok x (S n) s'.
  Proof.
    intros [C St] Hl. cbn [tick cymbalsR cu_ops u_tick cu_tick du_tick t_tick]. change (n0 nR) with 0. rewrite Hl. unfold svf_step. rewrite C. set (g := warped sr flat n).
    assert (Cf : sv_coefs nR R_elem MHighpass (mkSvp sr 2500 1 1) = mkSv (1 / (1 + g * (g + 1))) (g * (1 / (1 + g * (g + 1)))) (g * (g * (1 / (1 + g * (g + 1))))) 1 (- (1)) (- (1))).
    { unfold sv_coefs, sv_with. cbn [nadd nmul ndiv nneg nofZ Rnum_ops e_tan e_pi R_elem sp_cutoff sp_sr sp_q]. change (n1 nR) with 1. replace (1 / 1) with 1 by field. reflexivity. }
    rewrite Cf. cbn [sv_a1 sv_a2 sv_a3 sv_m0 sv_m1 sv_m2 nadd nsub nmul nofZ Rnum_ops]. pose proof (den_pos g) as D. eexists. split; [apply f_equal2; [reflexivity|]|].
    - unfold highpassed, low_of, band_of. cbv zeta. fold g. rewrite <- St. cbn [fst snd]. f_equal. field. nra.
    - split; [cbn [vf_c]; now rewrite Cf|]. cbn [vf_ic1 vf_ic2 low_state]. cbv zeta. fold g. rewrite <- St. unfold low_of, band_of. cbn [fst snd]. f_equal; field; nra.
  Qed.
  Lemma high_0 x : exists s, cymbal_highpass nR real_tools sr 2500 1 = Leaf (CDrum (DTune (TFix s))) :> nodeC /\ high_ok x 0 s.
  Proof. unfold cymbal_highpass. cbn [TuneModel.build t_rate]. eexists. split; [reflexivity|]. split; reflexivity. Qed.

  (* ---- the whole ---- *)
  Definition cymbal_ok (n : nat) (x : nodeC) : Prop := exists m s t d, x = Pipe (Pipe (Pipe (Stack m (control_leaf 7 cymbal_cutoff n)) (low_filter s)) (Leaf (CDrum (DTune (TFix t))))) (Leaf (CDrum (DSu (UDeclick d)))) /\
    mixed_ok n m /\ svf_ok sr cymbal_cut mixed n s /\ high_ok lowed n t /\ at_time (1 / 1000) (INR n / sr) sr d.
  Lemma cymbal_step n x : cymbal_ok n x -> exists y, tickC x [] = (y, [cymbal_of tb sr h r n]) /\ cymbal_ok (S n) y.
  Proof.
    intros (m & s & t & d & -> & M & S & T & D). destruct (mixed_step n m M) as (m' & Em & M'). destruct (low_filter_step n s S) as (s' & Es & S'). destruct (high_step lowed n t [lowed n] T eq_refl) as (t' & Et & T').
    set (v := highpassed sr flat lowed n) in *. destruct (d_tick (1 / 1000) (INR n / sr) sr d v sr_pos D) as [D' O]. set (d' := fst (declick_tick nR nR (fun x => x) d v)) in *.
    exists (Pipe (Pipe (Pipe (Stack m' (control_leaf 7 cymbal_cutoff (Datatypes.S n))) (low_filter s')) (Leaf (CDrum (DTune (TFix t'))))) (Leaf (CDrum (DSu (UDeclick d'))))). split.
    - assert (E1 : tickC (Stack m (control_leaf 7 cymbal_cutoff n)) [] = (Stack m' (control_leaf 7 cymbal_cutoff (Datatypes.S n)), [mixed n; cymbal_cut n])).
      { cbn [tick]. rewrite firstn_nil, skipn_nil, Em, control_leaf_step. reflexivity. }
      assert (E4 : tickC (Leaf (CDrum (DSu (UDeclick d)))) [v] = (Leaf (CDrum (DSu (UDeclick d'))), [cymbal_of tb sr h r n])).
      { cbn [tick cymbalsR cu_ops u_tick cu_tick du_tick su_tick nth]. unfold d'. destruct (declick_tick nR nR (fun x => x) d v) as [d2 y]. cbn [fst snd] in *. cbn [gained] in O. injection O as ->. reflexivity. }
      remember (Stack m (control_leaf 7 cymbal_cutoff n)) as K1. remember (Stack m' (control_leaf 7 cymbal_cutoff (Datatypes.S n))) as K1'. remember (low_filter s) as K2. remember (low_filter s') as K2'.
      remember (Leaf (CDrum (DTune (TFix t)))) as K3. remember (Leaf (CDrum (DTune (TFix t')))) as K3'. remember (Leaf (CDrum (DSu (UDeclick d)))) as K4. remember (Leaf (CDrum (DSu (UDeclick d')))) as K4'.
      cbn [tick]. rewrite E1, Es, Et, E4. reflexivity.
    - exists m', s', t', d'. split; [reflexivity|]. split; [exact M'|]. split; [exact S'|]. split; [exact T'|]. replace (INR (Datatypes.S n) / sr) with (INR n / sr + 1 / sr) by (rewrite S_INR; unfold Rdiv; ring). exact D'.
  Qed.
  Lemma cutoff_R : (fun t => [xerp nR exp ln (nofZ nR 20000) (nofZ nR 2000) (clamp01 nR t)]) = (fun t => [cymbal_cutoff t]).
  Proof.
    apply functional_extensionality. intros t. rewrite xerp_R by (cbn; lra). unfold cymbal_cutoff. cbn [nofZ Rnum_ops]. f_equal. f_equal. f_equal; [lra|].
    unfold clamp01. cbn [nmin nmax nleb nltb Rnum_ops]. change (n0 nR) with 0. change (n1 nR) with 1. unfold Rmax, Rmin. repeat destruct (Rle_dec _ _); repeat destruct (Rlt_dec _ _); lra.
  Qed.
  Lemma cymbal_0 : cymbal_ok 0 (cymbalR sr h r).
  Proof.
    destruct low_filter_0 as (s & Es & S). destruct (high_0 lowed) as (t & Et & T). unfold cymbalR, cymbal. change (n1 nR) with 1. change (nofZ nR 2500) with 2500. rewrite Es, Et, cutoff_R.
    do 4 eexists. split; [|split; [exact mixed_0|split; [exact S|split; [exact T|]]]].
    - unfold control_leaf at 1. unfold control_node, lifted. rewrite (lfo_0 sr (h 7%nat) 1 (fun t => [cymbal_cutoff t])). reflexivity.
    - split; [reflexivity|]. split; [reflexivity|]. left. unfold declick_new, declick_rate. cbn [dc_t]. unfold Rdiv. cbn [INR]. rewrite Rmult_0_l. reflexivity.
  Qed.
  Lemma cymbal_outputs_are N n : (n < N)%nat -> nth n (cymbal_outputs tb (cymbalR sr h r) (repeat [] N)) [] = [cymbal_of tb sr h r n].
  Proof. intros H. apply (driven_cymbal cymbal_ok (fun n => [cymbal_of tb sr h r n])); [exact cymbal_step|exact cymbal_0|exact H]. Qed.
End Cymbal.
