(* Pink and brown noise and the snare drum: /repo/src/hacker.rs:1273-1288 (pinkpass, pink, brown), /repo/src/prelude.rs:2108-2122 (lowpass_q) and /repo/src/sound.rs:80-118. No proofs here.
   Times and samples have one type. *)
From Verif Require Export SoundModel TuneModel HashModel.
Local Open Scope nat_scope.

Section Drums.
  Context {F G S X : Type} (nm : num F) (tl : tools F G S X) (exp_ ln_ : F -> F).
  Local Infix "+." := (nadd nm) (at level 50, left associativity).
  Local Infix "-." := (nsub nm) (at level 50, left associativity).
  Local Infix "*." := (nmul nm) (at level 40, left associativity).
  Local Infix "/." := (ndiv nm) (at level 40, left associativity).
  Notation zero := (n0 nm).
  Notation one := (n1 nm).
  Notation "# z" := (nofZ nm z) (at level 1).
  Notation lerp_ := (DelayModel.lerp nm).
  Notation xerp_ := (xerp nm exp_ ln_).
  Notation el := (tl_elem tl).

  (* the leaves of these sounds: control signals, oscillators and declickers of SoundModel.v, white noise, the pinking filter, and filters of TuneModel.v *)
  Inductive du :=
  | DSu (u : su F)
  | DNoise (state hash : N)                                    (* noise.rs:172-177, without a seed *)
  | DPink (s : pink F)                                         (* filter.rs:177-188 *)
  | DTune (t : tnode F G S X).                                   (* svf.rs:748-760; filter.rs:19-25 *)
  (* noise.rs:185 and 200: a 24-bit value as a sample *)
  Definition noise_value (v : N) : F := nofZ nm (Z.of_N v) *. (#2 /. #16777215) -. one.
  Notation in0 := (fun i => nth 0 i zero).
  (* noise.rs:197-202; filter.rs:219-239; svf.rs:834-852; filter.rs:63-74 *)
  Definition du_tick (u : du) (i : list F) : du * list F :=
    match u with
    | DSu u => let (u, y) := su_tick nm (e_sin el) (e_cos el) (tau nm el) u i in (DSu u, y)
    | DNoise s h => let (s, y) := noise_tick noise_value s in (DNoise s h, [y])
    | DPink s => let (s, y) := pink_step nm s (in0 i) in (DPink s, [y])
    | DTune t => let (t, y) := t_tick nm tl t i in (DTune t, y)
    end.
  (* noise.rs:191-195; filter.rs:205-213; svf.rs:822-826; filter.rs:54-56 *)
  Definition du_reset (u : du) : du :=
    match u with
    | DSu u => DSu (su_reset nm u)
    | DNoise _ h => DNoise (noise_reset h) h
    | DPink _ => DPink (mkPink zero zero zero zero zero zero zero)
    | DTune t => DTune (t_reset nm tl t)
    end.
  (* noise.rs:226-229: the hash, and reset; the filters have none *)
  Definition du_set_hash (u : du) (h : N) : du :=
    match u with
    | DSu u => DSu (su_set_hash nm u h)
    | DNoise _ _ => DNoise (noise_reset h) h
    | u => u
    end.
  (* noise.rs:188; filter.rs:201; svf.rs:818; filter.rs:50 (the constants ID); here the only other filters are lowpoles *)
  Definition du_id (u : du) : N := match u with DSu u => su_id u | DNoise _ _ => 20 | DPink _ => 26 | DTune (TSvf _ _ _) => 36 | DTune _ => 18 end%N.
  (* audionode.rs:25-170 (the trait AudioNode): blocks and settings are not used here; of the filters of TuneModel.v only the lowpass with two parameters and the lowpole with none occur *)
  Definition du_ops : unit_ops F (param F) du :=
    mkUnit _ _ _ (fun u => match u with DSu (ULfo _ _ _) | DNoise _ _ => 0 | DSu _ | DPink _ => 1 | DTune (TSvf _ _ _) => 3 | DTune _ => 1 end)
      (fun u => match u with DSu (ULfo ch _ _) => ch | DSu (UPan _) => 2 | _ => 1 end)
      du_tick (fun u _ _ o => (u, o)) (fun u _ => u) du_reset du_id du_set_hash.
  Notation node := (NodeModel.node F du).
  (* sound.rs:80-118: a leaf of SoundModel.v as a leaf of these sounds *)
  Definition leaf_of (x : NodeModel.node F (su F)) : node := match x with Leaf u => Leaf (DSu u) | _ => Pass end.

  Variable sr : F.                                             (* the sample rate that has been set, in place of DEFAULT_SR *)
  (* hacker.rs:807-809: white, Noise::new, with the hash h of its place in the expression *)
  Definition white_new (h : N) : node := Leaf (du_set_hash (DNoise 0 0) h).
  (* hacker.rs:1273-1275 pinkpass, filter.rs:190-198 *)
  Definition pinkpass_new : node := Leaf (DPink (mkPink zero zero zero zero zero zero zero)).
  (* hacker.rs:1279-1281 *)
  Definition pink_noise (h : N) : node := Pipe (white_new h) pinkpass_new.
  (* hacker.rs:1285-1288 *)
  Definition brown_noise (h : N) : node :=
    match build nm tl false (OLowpole #10) with
    | Some t => Pipe (white_new h) (Binop (nmul nm) (Leaf (DTune (t_rate nm tl t sr))) (Constant [#137 /. #10]))
    | None => Pass
    end.
  (* prelude.rs:2108-2122 lowpass_q *)
  Definition lowpass_q (q : F) : node :=
    match build nm tl true (OSvf MLowpass #440 q one) with
    | Some t => Pipe (Stack (MultiPass 2) (Constant [q])) (Leaf (DTune (t_rate nm tl t sr)))
    | None => Pass
    end.

  (* ---- sound.rs:80-118 snaredrum ---- *)
  Variable h : nat -> N.                                       (* the hashes that the nodes get from their places in the expression *)
  Variable r : nat -> F.                                       (* the numbers that the generator made from the seed draws, one after another *)
  (* sound.rs:97-101 bend_sine: the i-th call *)
  Definition bend_sine (i : nat) (f : F) : node :=
    let f0 := f +. one *. (r (2 * i) *. #2 -. one) in
    let f1 := f +. #3 *. (r (2 * i + 1) *. #2 -. one) in
    Pipe (leaf_of (lfo_new nm sr (h (2 * i)) 1 (fun t => [lerp_ f0 f1 t]))) (leaf_of (sine_new nm sr (h (2 * i + 1)))).
  (* sound.rs:111-113: the volume *)
  Definition fall (i : nat) (c : F) : node := leaf_of (lfo_new nm sr (h i) 1 (fun t => [exp_ (nneg nm t *. c)])).
  Local Infix "+++" := (Binop (nadd nm)) (at level 50, left associativity).
  Local Infix "***" := (Binop (nmul nm)) (at level 40, left associativity).
  (* sound.rs:103-113 *)
  Definition snare_mix : node :=
    let modes01 := bend_sine 0 #180 +++ bend_sine 1 #330 in
    let modes28 := bend_sine 2 #275 +++ bend_sine 3 #320 +++ bend_sine 4 #400 +++ bend_sine 5 #430 +++ bend_sine 6 #509 +++ bend_sine 7 #550 +++ bend_sine 8 #616 in
    an_mul nm modes01 (#2 /. #10) *** fall 18 #16 +++ an_mul nm modes28 (#1 /. #10) *** fall 19 #14 +++ an_mul nm (pink_noise (h 20)) (#7 /. #10) *** fall 21 #12.
  (* sound.rs:82-118 *)
  Definition snaredrum (sharpness : F) : node :=
    Pipe (Pipe (Stack snare_mix (leaf_of (lfo_new nm sr (h 22) 1 (fun t => [xerp_ #15000 #1000 t])))) (lowpass_q one))
      (Leaf (DSu (UDeclick (declick_new nm (xerp_ (#2 /. #100) (#2 /. #1000) sharpness) sr)))).
End Drums.
Arguments du : clear implicits.
