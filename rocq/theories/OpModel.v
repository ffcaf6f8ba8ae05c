(* Operators with numbers and builder methods: /repo/src/combinator.rs:255-311 and 420-500, with the operators on frames of audionode.rs:964-1160, and the operators of
   Net with numbers, net.rs:1830-1838 and 2050-2102. No proofs here. *)
From Verif Require Export NetModel TuneModel HashModel MlsModel TableModel OscModel.
Local Open Scope nat_scope.

(* ---- operators with numbers ---- *)
Section Numbers.
  Context {A U : Type} (nm : num A).
  Notation node := (@node A U).
  Definition an_neg (x : node) : node := Unop (nneg nm) x.                                       (* combinator.rs:301-311; FrameNeg, audionode.rs:987-1009 *)
  Definition an_add (x : node) (c : A) : node := Unop (fun v => nadd nm v c) x.                  (* combinator.rs:424-435; FrameAddScalar, 1057-1077 *)
  Definition num_add (c : A) (x : node) : node := Unop (fun v => nadd nm v c) x.                 (* combinator.rs:437-448 *)
  Definition an_sub (x : node) (c : A) : node := Unop (fun v => nadd nm v (nneg nm c)) x.        (* combinator.rs:450-461: FrameAddScalar of -c *)
  Definition num_sub (c : A) (x : node) : node := Unop (fun v => nadd nm (nneg nm v) c) x.       (* combinator.rs:463-474; FrameNegAddScalar, 1098-1119 *)
  Definition an_mul (x : node) (c : A) : node := Unop (fun v => nmul nm v c) x.                  (* combinator.rs:476-487; FrameMulScalar, 1140-1161 *)
  Definition num_mul (c : A) (x : node) : node := Unop (fun v => nmul nm v c) x.                 (* combinator.rs:489-500 *)
  (* prelude.rs:392-427 add(v), sub(v) and mul(v): MultiPass with a Constant *)
  Definition op_add (v : list A) : node := Binop (nadd nm) (MultiPass (length v)) (Constant v).
  (* prelude.rs:405-410 *)
  Definition op_sub (v : list A) : node := Binop (nsub nm) (MultiPass (length v)) (Constant v).
  (* prelude.rs:422-427 *)
  Definition op_mul (v : list A) : node := Binop (nmul nm) (MultiPass (length v)) (Constant v).
End Numbers.
(* net.rs:2050-2057, 2068-2075, 2086-2093: the scalar on the right; 2059-2066, 2077-2084, 2095-2102 on the left. u is the Constant and b the operator on pairs. *)
Definition net_num {A P U} (zero : A) (ops : unit_ops A P U) (fresh new : nat -> N) (id : N) (left : bool) (b u : U) (n : net A U) : option (net A U) :=
  match scalar zero ops id (n_out n) u with
  | Some k => if left then combine_binop zero ops false fresh new b k n else combine_binop zero ops false fresh new b n k
  | None => None
  end.

(* ---- builder methods ---- *)
Section Builders.
  Context {A U : Type} (ar : arith A) (ops : unit_ops A (param A) U).
  Notation node := (@node A U).
  (* setting.rs:16-53 *)
  Definition par_value (p : param A) : option A := match p with PValue v => Some v | _ => None end.
  Definition b_phase (x : node) (p : A) : option node := option_map (reset ar ops) (set ops par_value x (mkSetting (PPhase p) [ARight])).     (* combinator.rs:263-267 *)
  Definition b_seed (x : node) (s : N) : option node := option_map (reset ar ops) (set ops par_value x (mkSetting (PSeed s) [ALeft])).       (* combinator.rs:272-276 *)
  Definition b_interval (x : node) (t : A) : option node := set ops par_value x (mkSetting (PInterval t) []).                              (* combinator.rs:283-286 *)
  Definition b_subsample (x : node) (p : nat) : option node := set ops par_value x (mkSetting (PSubsample p) []).                          (* combinator.rs:295-298 *)
End Builders.

(* ---- generators that have a phase or a seed ---- *)
(* oscillator.rs:21-760 *)
Inductive okind := KSine | KRamp | KSaw | KSquare | KPulse.
Section Sources.
  Context {F V X : Type} (nf : num F) (nv : num V) (widen : V -> F) (narrow : F -> V).
  Variables (sin_ cos_ floor_ : V -> V) (pow_ : V -> V -> V) (tau : V) (rnd : N -> V).       (* the functions of the oscillators; rnd is rnd1 converted to f32 *)
  Variable tb : @tables V.                                                                 (* the table of a wavetable oscillator *)
  Variables (conv bit : N -> V).                                                           (* a 24-bit value, and a bit, as a sample *)
  Variables (xtick : X -> list V -> X * list V) (xreset : X -> X).                         (* oscillator.rs:21-760; noise.rs:101-323: filters, which take no setting that is used here and have no hash *)
  Inductive voice :=
  | SOsc (k : okind) (s : osc F)
  | SDsf (two : bool) (s : dsfs V)
  | SWave (s : @synth V)
  | SNoise (state : N) (seed : option N) (hash : N)
  | SMls (n s : N) (seed : option N) (hash : N)
  | SFilter (i : nat) (x : X).
  Notation in_ := (fun i l => nth i l (n0 nv)).
  (* oscillator.rs: the functions tick, OscModel.v; wavetable.rs:318-332, with one output; a panic shows as a frame without samples *)
  Definition src_tick (u : voice) (l : list V) : voice * list V :=
    match u with
    | SOsc k s =>
        let (s, y) := match k with
          | KSine => sine_tick nf nv widen narrow sin_ tau s (in_ 0 l)
          | KRamp => ramp_tick nf widen narrow s (in_ 0 l)
          | KSaw => saw_tick nf widen narrow s (in_ 0 l)
          | KSquare => square_tick nf widen narrow s (in_ 0 l)
          | KPulse => pulse_tick nf widen narrow s (in_ 0 l) (in_ 1 l)
          end in (SOsc k s, [y])
    | SDsf two s => let (s, y) := dsf_tick nv sin_ cos_ pow_ tau floor_ s (in_ 0 l) (if two then Some (in_ 1 l) else None) in (SDsf two s, [y])
    | SWave s => match synth_tick nv tb s (in_ 0 l) with Val (s, (y, _)) => (SWave s, [y]) | _ => (u, []) end
    | SNoise st sd h => let (st, y) := noise_tick conv st in (SNoise st sd h, [y])
    | SMls n s sd h => (SMls n (mls_next n s) sd h, [bit (mls_value n s)])
    | SFilter i x => let (x, y) := xtick x l in (SFilter i x, y)
    end.
  (* noise.rs:122-125; the number of bits has been checked by the constructor *)
  Definition mls_start (n hash : N) : N := match mls_new_with_seed n (mls_reset_seed hash) with Some (_, s) => s | None => 0%N end.
  (* noise.rs:122-125 *)
  Definition seeded (sd : option N) (h : N) : N := match sd with Some s => s | None => h end.
  (* oscillator.rs:55-59, 475-479, 563-567, 639-643, 722-726; noise.rs:122-125, 192-195, 281-284: the functions reset *)
  Definition src_reset (u : voice) : voice :=
    match u with
    | SOsc k s => SOsc k (osc_reset nf s)
    | SDsf two s => SDsf two (mkDsf (match ds_init s with Some p => p | None => rnd (ds_hash s) end) (ds_rough s) (ds_spacing s) (ds_sd s) (ds_hash s) (ds_init s))
    | SWave s => SWave (synth_reset rnd s)
    | SNoise st sd h => SNoise (noise_reset (seeded sd h)) sd h
    | SMls n s sd h => SMls n (mls_start n (seeded sd h)) sd h
    | SFilter i x => SFilter i (xreset x)
    end.
  (* oscillator.rs:88-92, 494-498, 584-588, 666-670, 746-750; noise.rs:134-138, 220-224: the functions set, for phases and seeds; addresses are not looked at *)
  Definition src_set (u : voice) (st : setting (param V)) : voice :=
    match u, s_par st with
    | SOsc k s, PPhase p => SOsc k (osc_set_phase widen s p)
    | SDsf two s, PPhase p => SDsf two (mkDsf (ds_phase s) (ds_rough s) (ds_spacing s) (ds_sd s) (ds_hash s) (Some p))
    | SWave s, PPhase p => SWave (synth_set_phase s p)
    | SNoise st _ h, PSeed s => SNoise st (Some s) h
    | SMls n s _ h, PSeed sd => SMls n s (Some sd) h
    | _, _ => u
    end.
  (* oscillator.rs:94-97, 500-503, 590-593, 672-675, 752-755; noise.rs:140-143, 226-229: the functions set_hash: the hash, and reset *)
  Definition src_set_hash (u : voice) (h : N) : voice :=
    match u with
    | SOsc k s => SOsc k (osc_set_hash nf s h)
    | SDsf two s => src_reset (SDsf two (mkDsf (ds_phase s) (ds_rough s) (ds_spacing s) (ds_sd s) h (ds_init s)))
    | SWave s => SWave (synth_set_hash rnd s h)
    | SNoise st sd _ => src_reset (SNoise st sd h)
    | SMls n s sd _ => src_reset (SMls n s sd h)
    | SFilter i x => u
    end.
  (* oscillator.rs:51-718; noise.rs:118-188 (the constants ID): the constants ID; filters have others *)
  Definition src_id (u : voice) : N :=
    match u with
    | SOsc KSine _ => 21 | SOsc KRamp _ => 94 | SOsc KSaw _ => 95 | SOsc KSquare _ => 96 | SOsc KPulse _ => 97
    | SDsf _ _ => 55 | SWave _ => 34 | SNoise _ _ _ => 20 | SMls _ _ _ _ => 19 | SFilter _ _ => 0
    end%N.
  (* audionode.rs:25-170 (the trait AudioNode): blocks are not used here *)
  Definition src_ops : unit_ops V (param V) voice :=
    mkUnit _ _ _ (fun u => match u with SOsc KPulse _ | SDsf true _ => 2 | SOsc _ _ | SDsf _ _ | SWave _ => 1 | SFilter i _ => i | _ => 0 end) (fun _ => 1)
      src_tick (fun u _ _ o => (u, o)) src_set src_reset src_id src_set_hash.
End Sources.
Arguments voice : clear implicits.
