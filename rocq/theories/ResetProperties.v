(* C28: reset() restores nodes and whole expressions. Arithmetic over the reals, except for C28_expressions. *)
From Coq Require Import Reals Lra Lia.
From Verif Require Import NodeArith ResetUnits ResetProofs ResetTune ResetLeaves TuneSpec TableCases NodeProofs.
Import ListNotations.
Local Open Scope nat_scope.

(* An expression of units that reset() restores, of whatever kind and with whatever arithmetic, is itself restored: whatever has been played, after reset() it plays what it plays as it was built.
   The combinators are all those of audionode.rs and feedback.rs. *)
Theorem C28_expressions : forall A P U (ar : arith A) (ops : unit_ops A P U) (x : NodeModel.node A U), wf ops x -> fresh ar (resettable ops) x -> resettable (expr_ops ar ops) x.
Proof. intros A P U ar ops x. exact (expr_resettable ar ops x). Qed.
Print Assumptions C28_expressions.

(* Nodes with settings and with inputs for their parameters: filters, followers, panners, Hold, Dsf and so on, as built or as reset after any use other than subsampling. *)
Theorem C28_nodes : forall (G S X : Type) (tl : tools R G S X) n, shapes_reset tl -> nests_reset tl -> as_new tl n -> resettable (t_ops Rnum_ops tl) n.
Proof. intros G S X tl n H1 H2. exact (nodes_resettable tl H1 H2 n). Qed.
Print Assumptions C28_nodes.
Example C28_nodes_case : shapes_reset real_tools /\ nests_reset real_tools /\ as_new real_tools tuned_filter /\ as_new real_tools (TNest false 0%R (1 / 2)%R 0%R).
Proof.
  split; [split; auto|]. split; [split; auto|]. split.
  - exists true, (OSvf MLowpass 440 1 1)%R. eexists. split; [reflexivity|]. right. exists [ARate 48000%R], []. split; [repeat constructor|reflexivity].
  - exists false, (ONest (1 / 2) 0)%R. eexists. split; [reflexivity|]. left. split; [reflexivity|reflexivity].
Qed.

(* The units of chorus, flanger and phaser: LFOs, taps, tanh and allpoles. *)
Theorem C28_effect_units : forall (tanh_ : R -> R) u, fx_ready u -> resettable (fx_ops Rnum_ops tanh_) u.
Proof. exact fx_resettable. Qed.
Print Assumptions C28_effect_units.
Example C28_effect_units_case : fresh R_arith fx_ready (phaser Rnum_ops 44100%R 5 (1 / 2)%R sin) /\
  exists x, flanger Rnum_ops 44100%R 5 (1 / 2)%R (5 / 1000)%R (10 / 1000)%R (fun t => 75 / 10000 + 25 / 10000 * sin t)%R = Some x /\ fresh R_arith fx_ready x.
Proof.
  split.
  - cbn. repeat split; repeat constructor.
  - unfold flanger, tap_new. assert (nleb Rnum_ops (n0 Rnum_ops) (5 / 1000)%R && nleb Rnum_ops (5 / 1000)%R (10 / 1000)%R = true) as ->.
    { cbn. destruct (Rle_dec 0 (5 / 1000)), (Rle_dec (5 / 1000) (10 / 1000)); try reflexivity; exfalso; lra. }
    eexists. split; [reflexivity|]. cbn -[line_new tap_length]. repeat split; try (repeat constructor). exact (lines_equal _).
Qed.

(* Generators: oscillators, Dsf, wavetables, noise and maximum length sequences. *)
Theorem C28_generators : forall (X : Type) (sin_ cos_ floor_ : R -> R) pow_ tau_ rnd tb conv bit (xtick : X -> list R -> X * list R) xreset u, tables_ok tb -> filters_reset xtick xreset ->
  voice_ready rnd tb xreset u -> resettable (src_ops Rnum_ops Rnum_ops (fun x => x) (fun x => x) sin_ cos_ floor_ pow_ tau_ rnd tb conv bit xtick xreset) u.
Proof. intros X s c f p t rnd tb cv b xt xr u H1 H2. exact (voice_resettable s c f p t rnd tb cv b xt xr H1 H2 u). Qed.
Print Assumptions C28_generators.
Example C28_generators_case : tables_ok three_tables /\ filters_reset (fun (x : unit) (l : list R) => (x, [nth 0 l 0%R])) (fun x => x) /\
  voice_ready (fun _ => 0%R) three_tables (fun x : unit => x) (SOsc KSaw (osc_new Rnum_ops (Some (1 / 3)%R) (/ 44100)%R)) /\
  voice_ready (fun _ => 0%R) three_tables (fun x : unit => x) (src_set_hash Rnum_ops (fun _ => 0%R) (fun x => x) (SNoise 0 None 0) 77).
Proof. split; [exact three_tables_ok|]. split; [split; reflexivity|]. split; reflexivity. Qed.

(* Delays, FIR filters, panners, taps with linear interpolation, declickers and meters. *)
Theorem C28_delays : forall P u, rl_ready u -> resettable (@line_ops P) u.
Proof. exact @rl_resettable. Qed.
Print Assumptions C28_delays.
Theorem C28_linear_taps : forall P n lo hi sr len, resettable (@linear_ops P n lo hi sr) (line_new 0%R len).
Proof. exact @linear_resettable. Qed.
Print Assumptions C28_linear_taps.
Theorem C28_declick : forall P d, dc_t d = 0%R -> resettable (@declick_ops P) d.
Proof. exact @declick_resettable. Qed.
Print Assumptions C28_declick.
Theorem C28_meters : forall P m s, m_state s = 0%R -> resettable (@meter_ops P m) s.
Proof. exact @meter_resettable. Qed.
Print Assumptions C28_meters.
Example C28_delays_case : rl_ready (LDelay (mkDelay 1 3 (line_new 0 4))%R) /\ rl_ready (LFir (fir_new Rnum_ops [1; 2]%R)) /\ dc_t (declick_new Rnum_ops 1 44100)%R = 0%R /\
  m_state (meter_new Rnum_ops Rnum_ops (fun x => x) (Rpower (1 / 2)) (Peak 1) 44100)%R = 0%R.
Proof. repeat split. Qed.

(* Units around units or expressions: allpass loops, with the coefficient as a parameter or an input, and feedback through a delay. *)
Theorem C28_nested : forall P U (ops : unit_ops R P U) u eta, resettable ops u -> u_ins ops u = 1 ->
  resettable (nest_ops ops) (mkAll u eta 0%R) /\ resettable (nest2_ops ops) (mkAll u eta 0%R).
Proof. intros P U ops u eta H1 H2. exact (conj (nest_resettable ops u eta H1 H2) (nest2_resettable ops u eta H1 H2)). Qed.
Print Assumptions C28_nested.
Theorem C28_feedback_unit : forall P U (ops : unit_ops R P U) u samples, resettable ops u -> u_outs ops u = u_ins ops u -> resettable (loop_ops ops) (fb_new 0%R ops u samples).
Proof. intros P U ops u samples H1 H2. exact (loop_resettable ops u samples _ _ _ H1 H2). Qed.
Print Assumptions C28_feedback_unit.
Example C28_nested_case : let ops := expr_ops R_arith (@line_ops unit) in let x := Pipe Pass (Leaf (LDelay (mkDelay 1 3 (line_new 0 4))))%R in
  resettable ops x /\ u_ins ops x = 1 /\ u_outs ops x = u_ins ops x.
Proof.
  cbn zeta. split; [|split; reflexivity]. apply C28_expressions; [repeat split|]. split; [exact I|]. apply C28_delays. reflexivity.
Qed.

(* Units of two kinds in one expression. *)
Theorem C28_either : forall A P U V (f : unit_ops A P U) (g : unit_ops A P V) w, match w with inl u => resettable f u | inr v => resettable g v end -> resettable (either f g) w.
Proof. intros A P U V f g w. exact (either_resettable f g w). Qed.
Print Assumptions C28_either.

(* All of them together: an expression of these units plays after reset() what it plays as it was built, whatever has been played in between. *)
Theorem C28_everything : forall (G S X Y : Type) (tl : tools R G S X) tanh_ rnd tb conv bit (xtick : Y -> list R -> Y * list R) xreset,
  let ops := part_ops tl tanh_ rnd tb conv bit xtick xreset in shapes_reset tl -> nests_reset tl -> tables_ok tb -> filters_reset xtick xreset ->
  forall x before l, wf ops x -> fresh R_arith (part_ready tl rnd tb xreset) x -> stream (ins ops x) before -> stream (ins ops x) l ->
  let used := fst (BufModel.ticks (tick R_arith ops) x before) in
  ins ops (reset R_arith ops used) = ins ops x /\ outs ops (reset R_arith ops used) = outs ops x /\ outputs R_arith ops (reset R_arith ops used) l = outputs R_arith ops x l.
Proof.
  intros G S X Y tl th rnd tb cv b xt xr ops H1 H2 H3 H4 x before l Hw Hf Hb Hl used. destruct (mixed_resettable tl th rnd tb cv b xt xr R_arith x H1 H2 H3 H4 Hw Hf) as [_ K].
  destruct (K before Hb) as (E1 & E2 & E3). split; [exact E1|]. split; [exact E2|]. destruct (E3 l) as (_ & _ & E4); [rewrite E1; exact Hl|]. exact E4.
Qed.
Print Assumptions C28_everything.
Example C28_everything_case : let ops := part_ops real_tools tanh (fun _ => 0%R) three_tables (fun _ => 0%R) (fun _ => 0%R) (fun (x : unit) (l : list R) => (x, [nth 0 l 0%R])) (fun x => x) in
  shapes_reset real_tools /\ nests_reset real_tools /\ tables_ok three_tables /\ filters_reset (fun (x : unit) (l : list R) => (x, [nth 0 l 0%R])) (fun x => x) /\
  wf ops mixed_expr /\ fresh R_arith (part_ready real_tools (fun _ => 0%R) three_tables (fun x => x)) mixed_expr /\ ins ops mixed_expr = 1 /\ stream 1 [[440]; [220]]%R.
Proof.
  cbn zeta. destruct C28_nodes_case as (H1 & H2 & H3 & _). split; [exact H1|]. split; [exact H2|]. split; [exact three_tables_ok|]. split; [split; reflexivity|].
  split; [cbn; repeat split; auto|]. split; [|split; [reflexivity|repeat constructor]].
  cbn [fresh mixed_expr]. split; [split; [split; [reflexivity|exact I]|exact H3]|]. split; [reflexivity|repeat constructor].
Qed.
