(* The cymbal: /repo/src/sound.rs:120-142, and the oscillators square and square_hz: /repo/src/hacker.rs:1812-1814 and 1859-1861. No proofs here.
   Times and samples have one type. *)
From Verif Require Export DrumModel TableModel.
Local Open Scope nat_scope.

Section Cymbal.
  Context {F G S X : Type} (nm : num F) (tl : tools F G S X) (exp_ ln_ : F -> F).
  Local Infix "+." := (nadd nm) (at level 50, left associativity).
  Local Infix "-." := (nsub nm) (at level 50, left associativity).
  Local Infix "*." := (nmul nm) (at level 40, left associativity).
  Local Infix "/." := (ndiv nm) (at level 40, left associativity).
  Notation zero := (n0 nm).
  Notation one := (n1 nm).
  Notation "# z" := (nofZ nm z) (at level 1).
  Notation xerp_ := (xerp nm exp_ ln_).
  Variable tb : list (F * list F).                             (* the table of square waves (wavetable.rs:518-534) that all oscillators share *)

  (* the leaves of the cymbal: those of DrumModel.v, and wavetable oscillators with one output *)
  Inductive cu := CDrum (u : du F G S X) | CSynth (s : @synth F).
  (* wavetable.rs:300-305: rnd1 of the hash as f32 *)
  Definition hash_phase (h : N) : F := EnvModel.rnd1 nm h.
  (* wavetable.rs:318-332; where the table panics there is no output *)
  Definition cu_tick (u : cu) (i : list F) : cu * list F :=
    match u with
    | CDrum u => let (u, y) := du_tick nm tl u i in (CDrum u, y)
    | CSynth s => match synth_tick nm tb s (nth 0 i zero) with Val (s, (y, _)) => (CSynth s, [y]) | _ => (u, []) end
    end.
  (* wavetable.rs:300-305 *)
  Definition cu_reset (u : cu) : cu := match u with CDrum u => CDrum (du_reset nm tl u) | CSynth s => CSynth (synth_reset hash_phase s) end.
  (* wavetable.rs:312-315 *)
  Definition cu_set_hash (u : cu) (h : N) : cu := match u with CDrum u => CDrum (du_set_hash nm u h) | CSynth s => CSynth (synth_set_hash hash_phase s h) end.
  (* wavetable.rs:296; svf.rs:996 (the constants ID): the highpass of the cymbal is a fixed one *)
  Definition cu_id (u : cu) : N := match u with CDrum (DTune (TFix _)) => 43 | CDrum u => du_id u | CSynth _ => 34 end%N.
  (* audionode.rs:25-170 (the trait AudioNode): blocks and settings are not used here *)
  Definition cu_ops : unit_ops F (param F) cu :=
    mkUnit _ _ _ (fun u => match u with CDrum u => u_ins (du_ops nm tl) u | CSynth _ => 1 end) (fun u => match u with CDrum u => u_outs (du_ops nm tl) u | CSynth _ => 1 end)
      cu_tick (fun u _ _ o => (u, o)) (fun u _ => u) cu_reset cu_id cu_set_hash.
  Notation node := (NodeModel.node F cu).
  (* sound.rs:120-142: a leaf of DrumModel.v as a leaf of the cymbal *)
  Definition drum_leaf (x : NodeModel.node F (du F G S X)) : node := match x with Leaf u => Leaf (CDrum u) | _ => Pass end.

  Variable sr : F.                                             (* the sample rate that has been set, in place of DEFAULT_SR *)
  (* hacker.rs:1812-1814 square, WaveSynth::new, with the hash h of its place in the expression *)
  Definition square_osc (h : N) : node := Leaf (cu_set_hash (CSynth (synth_new nm sr)) h).
  (* hacker.rs:1859-1861 square_hz *)
  Definition square_hz_osc (h : N) (f : F) : node := Pipe (Constant [f]) (square_osc h).
  (* prelude.rs:2108-2122 lowpass_q, on these leaves *)
  Definition cymbal_lowpass (q : F) : node :=
    match TuneModel.build nm tl true (OSvf MLowpass #440 q one) with
    | Some t => Pipe (Stack (MultiPass 2) (Constant [q])) (Leaf (CDrum (DTune (t_rate nm tl t sr))))
    | None => Pass
    end.
  (* prelude.rs:2143-2153 highpass_hz *)
  Definition cymbal_highpass (f q : F) : node :=
    match TuneModel.build nm tl false (OSvf MHighpass f q one) with
    | Some t => Leaf (CDrum (DTune (t_rate nm tl t sr)))
    | None => Pass
    end.

  Variable h : nat -> N.                                       (* the hashes that the nodes get from their places in the expression *)
  Variable r : nat -> F.                                       (* the numbers that the generator made from the seed draws, one after another *)
  (* sound.rs:122-127: the i-th frequency, around f *)
  Definition drawn (i : nat) (f : F) : F := f +. #5 *. (r i *. #2 -. one).
  (* sound.rs:132-134: one of the three pairs: square_hz(f) * m + g >> square() *)
  Definition clang (i : nat) (f m g : F) : node :=
    Pipe (an_add nm (an_mul nm (square_hz_osc (h (2 * i)) f) m) g) (square_osc (h (2 * i + 1))).
  Local Infix "+++" := (Binop (nadd nm)) (at level 50, left associativity).
  Local Infix "***" := (Binop (nmul nm)) (at level 40, left associativity).
  (* sound.rs:122-134 *)
  Definition cymbal_complex : node :=
    clang 0 (drawn 0 (#13390586 /. #10000)) #54127 (drawn 1 (#17032929 /. #10000))
    +++ clang 1 (drawn 2 (#20901314 /. #10000)) #43480 (drawn 3 (#14256187 /. #10000))
    +++ clang 2 (drawn 4 (#11891727 /. #10000)) #56771 (drawn 5 (#19543242 /. #10000)).
  (* sound.rs:120-142 *)
  Definition cymbal : node :=
    Pipe (Pipe (Pipe
      (Stack (cymbal_complex *** drum_leaf (leaf_of (lfo_new nm sr (h 6) 1 (fun t => [exp_ (nneg nm t *. #8)]))))
        (drum_leaf (leaf_of (lfo_new nm sr (h 7) 1 (fun t => [xerp_ #20000 #2000 (clamp01 nm t)])))))
      (cymbal_lowpass one)) (cymbal_highpass #2500 one))
      (Leaf (CDrum (DSu (UDeclick (declick_new nm (#1 /. #1000) sr))))).
End Cymbal.
Arguments cu : clear implicits.
