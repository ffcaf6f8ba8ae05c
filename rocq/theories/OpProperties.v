(* C75, and C28 (subsampled filters). *)
From Coq Require Import Reals SpecFloat QArith.
From Verif Require Import OpProofs OpProofs2 NodeProofs NetHistory NetExamples.
From Verif Require Import OpSpec.
Import ListNotations.
Local Open Scope nat_scope.

(* C75: -x, x + c, c + x, x - c, c - x, x * c and c * x, for a number c, negate, add, subtract and multiply every sample of every channel of x. So it is over the real numbers, and to the bit in single and
   double precision, where c - x is computed as -x + c. *)
Theorem C75_numbers : (forall (A P U : Type) (nm : num A) (ar : arith A) (ops : unit_ops A P U), lawful nm -> forall (x : NodeModel.node A U) (c : A) (l : list (list A)),
    outputs ar ops (an_neg nm x) l = map (map (nneg nm)) (outputs ar ops x l) /\
    outputs ar ops (an_add nm x c) l = map (map (fun v => nadd nm v c)) (outputs ar ops x l) /\
    outputs ar ops (num_add nm c x) l = map (map (fun v => nadd nm c v)) (outputs ar ops x l) /\
    outputs ar ops (an_sub nm x c) l = map (map (fun v => nsub nm v c)) (outputs ar ops x l) /\
    outputs ar ops (num_sub nm c x) l = map (map (fun v => nsub nm c v)) (outputs ar ops x l) /\
    outputs ar ops (an_mul nm x c) l = map (map (fun v => nmul nm v c)) (outputs ar ops x l) /\
    outputs ar ops (num_mul nm c x) l = map (map (fun v => nmul nm c v)) (outputs ar ops x l)) /\
  lawful Rnum_ops /\ lawful f32_ops /\ lawful f64_ops /\
  (forall v, same_number (nneg f32_ops v) (nsub f32_ops (n0 f32_ops) v)).
Proof.
  split; [intros A P U nm ar ops L x c l; exact (numbers nm ar ops x c l L)|]. split; [exact lawful_R|]. split; [exact lawful_f32|]. split; [exact lawful_f64|exact neg_zero_minus].
Qed.
Print Assumptions C75_numbers.

(* C75: an operator with a number is the operator with a constant on every channel, and the operator with a constant v is the same as a pipe to add(v), sub(v) or mul(v). *)
Theorem C75_constants : forall (A P U : Type) (nm : num A) (ar : arith A) (ops : unit_ops A P U), unit_laws (a_zero ar) ops -> forall (x : NodeModel.node A U), NodeModel.wf ops x ->
  (forall v, length v = outs ops x ->
    NodeSpec.equiv ar ops (Binop (nadd nm) x (Constant v)) (Pipe x (op_add nm v)) /\
    NodeSpec.equiv ar ops (Binop (nsub nm) x (Constant v)) (Pipe x (op_sub nm v)) /\
    NodeSpec.equiv ar ops (Binop (nmul nm) x (Constant v)) (Pipe x (op_mul nm v))) /\
  (forall c, lawful nm ->
    NodeSpec.equiv ar ops (an_add nm x c) (Binop (nadd nm) x (Constant (repeat c (outs ops x)))) /\
    NodeSpec.equiv ar ops (an_sub nm x c) (Binop (nsub nm) x (Constant (repeat c (outs ops x)))) /\
    NodeSpec.equiv ar ops (an_mul nm x c) (Binop (nmul nm) x (Constant (repeat c (outs ops x))))).
Proof.
  intros A P U nm ar ops Hu x W. split.
  - intros v H. exact (conj (constant_is_pipe ar ops Hu (nadd nm) x v W H) (conj (constant_is_pipe ar ops Hu (nsub nm) x v W H) (constant_is_pipe ar ops Hu (nmul nm) x v W H))).
  - intros c L. exact (numbers_constants nm ar ops Hu x c W L).
Qed.
Print Assumptions C75_constants.
Example C75_numbers_example : map (map Qred) (outputs q_arith q_ops (num_sub Qnum_ops (10 # 1) (Pipe (Constant [2; 3]%Q) (op_mul Qnum_ops [5; 7]%Q))) [[]; []]) = [[0; -11]; [0; -11]]%Q /\
  NodeModel.wf q_ops (Pipe (Constant [2; 3]%Q) (op_mul Qnum_ops [5; 7]%Q)) /\ outs q_ops (Pipe (Constant [2; 3]%Q) (op_mul Qnum_ops [5; 7]%Q)) = 2.
Proof. split; [vm_compute; reflexivity|]. split; [cbn; intuition|reflexivity]. Qed.

(* C75: net + c, net - c and net * c, and with the number on the left: whenever the network can be evaluated, the result can be, and has the operator with c on every channel. *)
Theorem C75_net_numbers : forall (A P U : Type) (zero : A) (ops : unit_ops A P U) uping ahash,
  control_laws ops uping -> unit_laws zero ops -> forall n, reachable zero ops uping ahash no_loop_back n ->
  forall left fresh new id b u op c, u_ins ops u = 0 -> u_outs ops u = 1 -> u_tick ops u [] = (u, [c]) ->
  u_ins ops b = 2 -> u_outs ops b = 1 -> (forall x y, u_tick ops b [x; y] = (b, [op x y])) ->
  (forall k, scalar zero ops id (n_out n) u = Some k -> fresh_for k n fresh /\ fresh_for k n new) -> (forall i j, fresh i <> new j) ->
  exists m, net_num zero ops fresh new id left b u n = Some m /\ n_in m = n_in n /\ n_out m = n_out n /\ (~ has_cycle n -> ~ has_cycle m) /\
    units m = (if left then u :: units n else units n ++ [u]) ++ repeat b (n_out n) /\
    forall us x us' vals y, length x = n_in n -> dataflow zero ops n us x us' vals y ->
      let with_ l := (if left then u :: l else l ++ [u]) ++ repeat b (n_out n) in
      exists vals', dataflow zero ops m (with_ us) x (with_ us') vals' (map (fun v => if left then op c v else op v c) y).
Proof.
  intros A P U zero ops uping ahash Hc Hu n R. exact (net_numbers zero ops uping ahash n (reachable_wf zero ops uping ahash Hc Hu n R)).
Qed.
Print Assumptions C75_net_numbers.
(* a network of two delays, and the number 10 *)
Example C75_net_example : reach_nu no_loop_back one_net /\ (forall k, scalar 0%Z nu_ops 7 (n_out one_net) (NVal 10) = Some k -> fresh_for k one_net new_id /\ fresh_for k one_net new_id2) /\
  option_map (fun n => option_map snd (run_ticks 0%Z nu_ops nu_ping atto_hash n [[5]; [6]; [7]]%Z)) (net_num 0%Z nu_ops new_id new_id2 7 false NAdd (NVal 10) one_net) = Some (Some [[14]; [15]; [16]]%Z).
Proof. split; [exact one_reachable|]. split; [exact fresh_scalar|vm_compute; reflexivity]. Qed.

(* C75: x.phase(p), for an oscillator opcode x with or without constant inputs and operators on its output, is the oscillator that starts from phase p, whatever has been played and set before; and it stays so
   wherever in a graph it is placed, and whenever it is reset. Oscillators are sine, the PolyBLEP oscillators, the discrete summation oscillators and the wavetable oscillators. *)
Theorem C75_phase : forall (F V X : Type) (nf : num F) (nv : num V) (widen : V -> F) (narrow : F -> V) sin_ cos_ floor_ pow_ tau rnd tb conv bit xtick xreset ar ahash,
  let ops := src_ops nf nv widen narrow sin_ cos_ floor_ pow_ tau rnd tb conv bit xtick xreset in
  forall (c : frame_ V) (u : voice F V X) (p : V) (w : voice F V X), phased widen p u = Some w ->
  exists x, b_phase ar ops (fill c u) p = Some x /\ forall h l, outputs ar ops (happen ar ops ahash x h) l = outputs ar ops (fill c w) l.
Proof.
  intros F V X nf nv widen narrow sin_ cos_ floor_ pow_ tau rnd tb conv bit xtick xreset ar ahash. exact (phase_builder nf nv widen narrow sin_ cos_ floor_ pow_ tau rnd tb conv bit xtick xreset ar ahash).
Qed.
Print Assumptions C75_phase.
Example C75_phase_example : phased (fun x => x) (1 # 2)%Q saw0 = Some (SOsc KRamp (mkOsc (1 # 2)%Q (1 # 8)%Q 0 (Some (1 # 2)%Q))) /\
  option_map (fun x => map (map Qred) (outputs q_arith q_ops (happen q_arith q_ops atto_hash x [Placed 3; Rewound]) [[]; []; []])) (b_phase q_arith q_ops (fill (Driven [1]%Q) saw0) (1 # 2)%Q) = Some [[1 # 2]; [5 # 8]; [3 # 4]]%Q.
Proof. split; [reflexivity|vm_compute; reflexivity]. Qed.

(* C75: x.seed(s), for noise(), white(), mls(), mls_bits(n), pink() and brown() with or without operators, is the generator that starts from seed s with its filter at rest, whatever has been played and set
   before; and it stays so wherever in a graph it is placed, and whenever it is reset. *)
Theorem C75_seed : forall (F V X : Type) (nf : num F) (nv : num V) (widen : V -> F) (narrow : F -> V) sin_ cos_ floor_ pow_ tau rnd tb conv bit xtick xreset ar ahash,
  let ops := src_ops nf nv widen narrow sin_ cos_ floor_ pow_ tau rnd tb conv bit xtick xreset in
  (forall x, xreset (xreset x) = xreset x) ->
  forall (c : tail_ V (voice F V X)) (u : voice F V X) (s : N) (w : voice F V X), sown s u = Some w -> filters c ->
  exists x, b_seed ar ops (attach c u) s = Some x /\ forall h l, outputs ar ops (happen ar ops ahash x h) l = outputs ar ops (attach (rested xreset c) w) l.
Proof.
  intros F V X nf nv widen narrow sin_ cos_ floor_ pow_ tau rnd tb conv bit xtick xreset ar ahash. exact (seed_builder nf nv widen narrow sin_ cos_ floor_ pow_ tau rnd tb conv bit xtick xreset ar ahash).
Qed.
Print Assumptions C75_seed.
Example C75_seed_example : sown 5 (SNoise 77 None 3 : voice Q Q unit) = Some (SNoise 5 (Some 5%N) 0) /\ filters (Filtered (SFilter 1 tt) : tail_ Q (voice Q Q unit)) /\
  option_map (fun x => outputs q_arith q_ops (happen q_arith q_ops atto_hash x [Placed 3; Rewound; Placed 4]) [[]; []]) (b_seed q_arith q_ops (attach (Filtered (SFilter 1 tt)) (SNoise 77 None 3)) 5) =
  Some (outputs q_arith q_ops (attach (Filtered (SFilter 1 tt)) (SNoise 5 None 9)) [[]; []]).
Proof. split; [reflexivity|]. split; [now exists 1, tt|vm_compute; reflexivity]. Qed.

(* C75: envelope(f).interval(t) is what would have been constructed with the interval t; so it is for envelopes with inputs. *)
Theorem C75_interval : forall (F V C : Type) (nf : num F) (nv : num V) (conv : F -> V) (f : C -> F -> C * list F) (st : C) (channels : nat) (duration i j : F),
  set_interval (env_new nf nv conv f st channels duration i) j = env_new nf nv conv f st channels duration j /\
  set_interval (envin_new nf nv st channels duration i) j = envin_new nf nv st channels duration j.
Proof. intros F V C nf nv conv f st channels duration i j. exact (intervals nf nv conv f st channels duration i j). Qed.
Print Assumptions C75_interval.

(* C75: a filter with inputs for its parameters and the subsampling period p reads them once every p samples: it is the filter without subsampling that is given the parameters read last, and before
   the first reading those of its constructor. Over the real numbers, for all modes of the state variable filter. *)
Theorem C75_subsample : forall (G S X : Type) (tl : tools R G S X) (m : svmode) (f q g : R) n (p : nat) (ins : list (list R)), build Rnum_ops tl true (OSvf m f q g) = Some n -> 1 <= p ->
  t_outs Rnum_ops tl n (ASet (mkSetting (PSubsample p) []) :: map ATick ins) = t_outs Rnum_ops tl n (map ATick (subsampled 0%R p [f; q; g] ins)).
Proof. intros G S X tl. exact (subsample_builder tl). Qed.
Print Assumptions C75_subsample.
Example C75_subsample_example : subsampled 0%R 2 [440; 1; 1]%R [[1; 500; 1]; [2; 600; 1]; [3; 700; 1]; [4; 800; 1]; [5; 900; 1]]%R =
  [[1; 440; 1; 1]; [2; 600; 1]; [3; 600; 1]; [4; 800; 1]; [5; 800; 1]]%R /\ build Rnum_ops real_tools true (OSvf MLowpass 440 1 1)%R = Some low.
Proof. split; [reflexivity|exact built_low]. Qed.

(* C75: reset() restarts the counting: after it, the filter has the parameters of the last sample before it, and reads its inputs first after p samples. *)
Theorem C75_subsample_restarts : forall (G S X : Type) (tl : tools R G S X) (m : svmode) (f q g : R) n (p : nat) (before after : list (list R)), build Rnum_ops tl true (OSvf m f q g) = Some n -> 1 <= p ->
  let held := subsampled 0%R p [f; q; g] before in
  t_outs Rnum_ops tl n (ASet (mkSetting (PSubsample p) []) :: map ATick before ++ AReset :: map ATick after) =
  t_outs Rnum_ops tl n (map ATick held ++ AReset :: map ATick (subsampled 0%R p (List.tl (last held (0%R :: [f; q; g]))) after)).
Proof. intros G S X tl. exact (subsample_restarts tl). Qed.
Print Assumptions C75_subsample_restarts.
Example C75_subsample_restarts_example : let held := subsampled 0%R 3 [440; 1; 1]%R [[1; 500; 1]; [2; 600; 1]; [3; 700; 1]; [4; 800; 1]]%R in
  subsampled 0%R 3 (List.tl (last held [0; 440; 1; 1]%R)) [[5; 900; 1]; [6; 900; 1]; [7; 900; 1]]%R = [[5; 700; 1]; [6; 700; 1]; [7; 900; 1]]%R.
Proof. reflexivity. Qed.

(* C75: a new period holds from the moment of the setting on: the next input read is that of the p'-th sample after it, and until then the parameters stay as they are. *)
Theorem C75_subsample_changes : forall (G S X : Type) (tl : tools R G S X) (m : svmode) (f q g : R) n (p p' : nat) (before after : list (list R)), build Rnum_ops tl true (OSvf m f q g) = Some n -> 1 <= p -> 1 <= p' ->
  let held := subsampled 0%R p [f; q; g] before in
  t_outs Rnum_ops tl n (ASet (mkSetting (PSubsample p) []) :: map ATick before ++ ASet (mkSetting (PSubsample p') []) :: map ATick after) =
  t_outs Rnum_ops tl n (map ATick (held ++ subsampled 0%R p' (List.tl (last held (0%R :: [f; q; g]))) after)).
Proof. intros G S X tl. exact (subsample_changes tl). Qed.
Print Assumptions C75_subsample_changes.
Example C75_subsample_changes_example : let held := subsampled 0%R 3 [440; 1; 1]%R [[1; 500; 1]; [2; 600; 1]]%R in
  held = [[1; 440; 1; 1]; [2; 440; 1; 1]]%R /\ subsampled 0%R 2 (List.tl (last held [])) [[3; 700; 1]; [4; 800; 1]]%R = [[3; 440; 1; 1]; [4; 800; 1]]%R.
Proof. split; reflexivity. Qed.

(* REFUTED: the subsampling period does not matter when the parameters do not change. In Svf::tick (svf.rs:835-842) the counter goes from 0 to the period before the first reading, so that the first period - 1 samples
   are filtered with the cutoff frequency, Q and gain of the constructor (440 Hz and 1 for lowpass()), not with those of the inputs. *)
Theorem C75_subsample_refuted : ~ forall n p ins, build Rnum_ops real_tools true (OSvf MLowpass 440 1 1)%R = Some n -> 1 <= p -> Forall (fun i => exists x, i = [x; 11025; 1]%R) ins ->
  t_outs Rnum_ops real_tools n (ASet (mkSetting (PSubsample p) []) :: map ATick ins) = t_outs Rnum_ops real_tools n (map ATick ins).
Proof. exact subsample_late. Qed.
Print Assumptions C75_subsample_refuted.

(* REFUTED: a filter with inputs for its parameters starts again after reset(), whatever its subsampling period. Svf::reset (svf.rs:822-826) keeps the parameters that were read last; with a period of 2 or more the
   first samples after a reset are filtered with them, while the first samples of the new filter were filtered with those of its constructor. *)
Theorem C28_subsample_refuted : ~ forall n p before after os, build Rnum_ops real_tools true (OSvf MLowpass 440 1 1)%R = Some n -> 1 <= p ->
  t_outs Rnum_ops real_tools n (ASet (mkSetting (PSubsample p) []) :: map ATick before ++ AReset :: map ATick after) = Some os ->
  t_outs Rnum_ops real_tools n (ASet (mkSetting (PSubsample p) []) :: map ATick after) = Some (skipn (length before) os).
Proof. exact subsample_reset. Qed.
Print Assumptions C28_subsample_refuted.

(* C28 for the state variable filters with inputs for their parameters, with the default period of 1: after a reset they play what a new filter plays, whatever was played before. *)
Theorem C28_filter_inputs_reset : forall (G S X : Type) (tl : tools R G S X) (m : svmode) (f q g : R) n before after os, build Rnum_ops tl true (OSvf m f q g) = Some n ->
  t_outs Rnum_ops tl n (map ATick before ++ AReset :: map ATick after) = Some os -> t_outs Rnum_ops tl n (map ATick after) = Some (skipn (length before) os).
Proof. intros G S X tl. exact (default_reset tl). Qed.
Print Assumptions C28_filter_inputs_reset.

(* REFUTED: phase() sets the initial phase of an oscillator expression such as saw_hz(f) >> lowpole_hz(c). An::phase (combinator.rs:262-266) sends the setting to the right of a pipe, for x_hz(f) = constant(f) >> x(); in
   oscillator >> filter the right is the filter, which ignores the setting; the oscillator keeps its pseudorandom phase. Only the reset takes place. *)
Theorem C75_phase_refuted : ~ forall c u p x y, b_phase q_arith q_ops (Pipe (fill c u) pass0) p = Some x -> b_phase q_arith q_ops (fill c u) p = Some y ->
  forall l, Forall2 (Forall2 Qeq) (outputs q_arith q_ops x l) (outputs q_arith q_ops (Pipe y pass0) l).
Proof. exact phase_behind. Qed.
Print Assumptions C75_phase_refuted.

(* REFUTED: the operators are associative (README.md:302 and 377) for expressions with pseudorandom generators. The hash that is given to each generator (ping, audionode.rs:846, 1178, 1300, ...) depends on how the expression
   is bracketed: the noises of (noise() | noise()) | noise() and of noise() | (noise() | noise()) are different. *)
Theorem C75_associative_refuted : ~ forall x y z, NodeSpec.equiv q_arith q_ops (seed q_ops atto_hash (Stack (Stack x y) z) 7) (seed q_ops atto_hash (Stack x (Stack y z)) 7).
Proof. exact not_associative. Qed.
Print Assumptions C75_associative_refuted.
