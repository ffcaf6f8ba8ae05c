(* Ready-made sounds, loudness curves and generated control signals: /repo/src/sound.rs:6-18 and 65-78, /repo/src/math.rs:281-351 and 461-469, /repo/src/gen.rs:115-139. No proofs here.
   Times and samples have one type. Functions of the Real trait are parameters. *)
From Verif Require Export PreModel OpModel MeterModel MathModel.
Local Open Scope nat_scope.

Section Curves.
  Context {F : Type} (nm : num F) (sqrt_ sin_ cos_ : F -> F) (tau : F).
  Local Infix "+." := (nadd nm) (at level 50, left associativity).
  Local Infix "*." := (nmul nm) (at level 40, left associativity).
  Local Infix "/." := (ndiv nm) (at level 40, left associativity).
  Notation one := (n1 nm).
  Notation "# z" := (nofZ nm z) (at level 1).
  Definition square (x : F) : F := x *. x.                                                  (* math.rs:154-156 squared *)
  (* math.rs:281-283 *)
  Definition dissonance_max (f : F) : F := #10193 /. #10000 *. f +. #174672 /. #10000.
  (* math.rs:313-321 *)
  Definition a_weight (f : F) : F :=
    let f2 := square f in
    let c0 := square #12194 in
    let c1 := square (#206 /. #10) in
    let c2 := square (#1077 /. #10) in
    let c3 := square (#7379 /. #10) in
    let c4 := #12589048990582914 /. #(10 ^ 16) in
    c4 *. c0 *. f2 *. f2 /. ((f2 +. c1) *. sqrt_ ((f2 +. c2) *. (f2 +. c3)) *. (f2 +. c0)).
  (* math.rs:335-351 *)
  Definition m_weight (f : F) : F :=
    let c0 := #1246332637532143 /. #(10 ^ 19) in
    let c1 := nofZ nm (-4737338981378384) /. #(10 ^ 39) in
    let c2 := #204382833606125 /. #(10 ^ 29) in
    let c3 := nofZ nm (-1363894795463638) /. #(10 ^ 22) in
    let c4 := #1306612257412824 /. #(10 ^ 34) in
    let c5 := nofZ nm (-2118150887518656) /. #(10 ^ 26) in
    let c6 := #5559488023498642 /. #(10 ^ 19) in
    let c7 := #8164578311186197 /. #(10 ^ 15) in
    let f2 := f *. f in
    let f4 := f2 *. f2 in
    c7 *. c0 *. f /. sqrt_ (square (c1 *. f4 *. f2 +. c2 *. f4 +. c3 *. f2 +. one) +. square (c4 *. f4 *. f +. c5 *. f2 *. f +. c6 *. f)).
  (* math.rs:461-469 *)
  Definition sin_hz (hz t : F) : F := sin_ (t *. hz *. tau).
  (* math.rs:461-469 *)
  Definition cos_hz (hz t : F) : F := cos_ (t *. hz *. tau).
End Curves.

Section Sounds.
  Context {F : Type} (nm : num F) (ar : arith F) (sqrt_ exp_ ln_ sin_ cos_ : F -> F) (tau : F).
  Local Infix "+." := (nadd nm) (at level 50, left associativity).
  Local Infix "-." := (nsub nm) (at level 50, left associativity).
  Local Infix "*." := (nmul nm) (at level 40, left associativity).
  Local Infix "/." := (ndiv nm) (at level 40, left associativity).
  Notation zero := (n0 nm).
  Notation one := (n1 nm).
  Notation "# z" := (nofZ nm z) (at level 1).
  Notation id_ := (fun x : F => x).
  Notation lerp_ := (DelayModel.lerp nm).
  Notation xerp_ := (xerp nm exp_ ln_).

  (* the leaves of the sounds; control functions are Fn *)
  Inductive su :=
  | ULfo (ch : nat) (f : F -> list F) (s : env F F unit)       (* envelope.rs:17-48 *)
  | USine (s : osc F)                                          (* oscillator.rs:21-26 *)
  | UPan (s : @panner F)                                       (* pan.rs:25-30, N = 1 *)
  | UDeclick (d : @declick F).                                 (* dynamics.rs:245-250 *)
  Definition control_fn (f : F -> list F) : unit -> F -> unit * list F := fun _ t => (tt, f t).
  Notation pan_tick := (panner_tick nm cos_ sin_ (tau /. #8)).
  Notation in0 := (fun i => nth 0 i zero).
  (* envelope.rs:129-136; oscillator.rs:67-72; pan.rs:55-60; dynamics.rs:278-287 *)
  Definition su_tick (u : su) (i : list F) : su * list F :=
    match u with
    | ULfo ch f s => let (s, y) := env_tick nm nm id_ (control_fn f) s in (ULfo ch f s, y)
    | USine s => let (s, y) := sine_tick nm nm id_ id_ sin_ tau s (in0 i) in (USine s, [y])
    | UPan s => let (s, y) := pan_tick s i in (UPan s, y)
    | UDeclick d => let (d, y) := declick_tick nm nm id_ d (in0 i) in (UDeclick d, [y])
    end.
  (* envelope.rs:114-122; oscillator.rs:55-60; dynamics.rs:268-270 *)
  Definition su_reset (u : su) : su :=
    match u with
    | ULfo ch f s => ULfo ch f (env_reset nm id_ (control_fn f) s)
    | USine s => USine (osc_reset nm s)
    | UPan s => UPan s
    | UDeclick d => UDeclick (declick_reset nm d)
    end.
  (* envelope.rs:171-174; oscillator.rs:94-97 *)
  Definition su_set_hash (u : su) (h : N) : su := match u with ULfo ch f s => ULfo ch f (set_hash s h) | USine s => USine (osc_set_hash nm s h) | u => u end.
  (* envelope.rs:110; oscillator.rs:51; pan.rs:50; dynamics.rs:264 (the constants ID) *)
  Definition su_id (u : su) : N := match u with ULfo _ _ _ => 14 | USine _ => 21 | UPan _ => 49 | UDeclick _ => 23 end%N.
  (* audionode.rs:25-170 (the trait AudioNode): Blocks are not modelled here: see C49, C62 and C73 for those of the leaves. Settings are not used. *)
  Definition su_ops : unit_ops F (param F) su :=
    mkUnit _ _ _ (fun u => match u with ULfo _ _ _ => 0 | _ => 1 end) (fun u => match u with ULfo ch _ _ => ch | UPan _ => 2 | _ => 1 end)
      su_tick (fun u _ _ o => (u, o)) (fun u _ => u) su_reset su_id su_set_hash.
  Notation node := (NodeModel.node F su).

  Variable sr : F.                                             (* the sample rate that has been set, in place of DEFAULT_SR *)
  (* hacker.rs:601-608 lfo, with the hash h that its place in the expression gives; Envelope::new *)
  Definition lfo_new (h : N) (ch : nat) (f : F -> list F) : node :=
    Leaf (su_set_hash (ULfo ch f (env_new nm nm id_ (control_fn f) tt ch (one /. sr) (#2 /. #1000))) h).
  (* hacker.rs:335-337: sine, Sine::new *)
  Definition sine_new (h : N) : node := Leaf (su_set_hash (USine (osc_new nm None (one /. sr))) h).
  (* hacker.rs:1217-1219 *)
  Definition pan_new (p : F) : node := Leaf (UPan (panner_new nm cos_ sin_ (tau /. #8) 1 p)).

  (* ---- sound.rs:65-78 bassdrum ---- *)
  (* sound.rs:73: the frequency of the sweep at time t *)
  Definition drum_pitch (pitch0 pitch1 t : F) : F := xerp_ pitch0 pitch1 (clamp01 nm (t *. #50)) -. #10 *. t.
  (* sound.rs:75: the volume *)
  Definition drum_volume (t : F) : F := exp_ (nneg nm t *. #9).
  (* sound.rs:65-78; h1, h2 and h3 are the hashes of the two control signals and of the oscillator *)
  Definition bassdrum (h1 h2 h3 : N) (sharpness pitch0 pitch1 : F) : node :=
    let sweep := Pipe (lfo_new h1 1 (fun t => [drum_pitch pitch0 pitch1 t])) (sine_new h2) in
    let volume := lfo_new h3 1 (fun t => [drum_volume t]) in
    Pipe (Binop (nmul nm) sweep volume) (Leaf (UDeclick (declick_new nm (xerp_ (#2 /. #1000) (#2 /. #100000) sharpness) sr))).

  (* ---- sound.rs:8-18 risset_glissando ---- *)
  (* sound.rs:12: the remainder of x by ten, the operator % of f64, for x that is not negative *)
  Definition rem10 (x : F) : F := x -. #10 *. nofZ nm (nfloor nm (x /. #10)).
  (* sound.rs:11-16: the amplitude and the frequency of voice i at time t *)
  Definition risset_voice (up : bool) (i : nat) (t : F) : list F :=
    let f0 := if up then #20 else #20480 in
    let f1 := if up then #20480 else #20 in
    let phase := rem10 (t *. (one /. #10) +. nofZ nm (Z.of_nat i) *. #10 /. #40) /. #10 in
    let f := lerp_ (nofZ nm (-1)) one (rnd1 nm (N.of_nat i)) +. xerp_ f0 f1 phase in
    let a := smooth3 nm (sin_hz nm sin_ tau (one /. #2) phase) /. a_weight nm sqrt_ f in
    [a; f].
  (* sound.rs:8-18; he i and hs i are the hashes of the control signal and of the oscillator of voice i *)
  Definition risset (he hs : nat -> N) (up : bool) : option node :=
    match stacki 40 (fun i => Pipe (lfo_new (he i) 2 (risset_voice up i)) (Binop (nmul nm) Pass (sine_new (hs i)))) with
    | Some voices => Some (Pipe voices (an_mul nm (sumf ar nm id_ 40 (fun x => pan_new (lerp_ (nofZ nm (-1) /. #2) (one /. #2) x))) (one /. #10)))
    | None => None
    end.

  (* ---- gen.rs:115-139 gen_lfo: the functions of the two kinds of control signal, without the text that it generates for them. The numbers that funutd's Dna chooses are parameters. ---- *)
  Variables hash64a hash64g : N -> N.
  (* gen.rs:115-139 *)
  Definition slow_sine (f o t : F) : F := sin_hz nm sin_ tau f (t +. o) *. (one /. #2) +. one /. #2.
  (* gen.rs:115-139 *)
  Definition slow_noise (seed : N) (f t : F) : F := spline_noise nm hash64a hash64g seed (t *. f) *. (one /. #2) +. one /. #2.
End Sounds.
Arguments su : clear implicits.
