(* The effects of prelude.rs:2637-2733: chorus, flanger and phaser, as expressions of NodeModel.v. Their leaves are envelopes (EnvModel.v), tapped delay lines
   (DelayModel.v), the shaper Tanh (shape.rs:84-87 and 206-242, see ShapeModel.v) and the allpole filter (filter.rs:267-330, see FilterModel.v). No proofs here. *)
From Verif Require Export EnvModel OpModel FilterModel.
Local Open Scope nat_scope.

Section Effects.
  Context {F : Type} (nm : num F).
  Variable tanh_ : F -> F.
  Local Infix "+." := (nadd nm) (at level 50, left associativity).
  Local Infix "*." := (nmul nm) (at level 40, left associativity).
  Local Infix "/." := (ndiv nm) (at level 40, left associativity).
  Notation zero := (n0 nm).
  Notation one := (n1 nm).
  Notation "# z" := (nofZ nm z) (at level 1).
  Notation ln := (DelayModel.line F).
  Notation id_ := (fun x : F => x).

  Inductive fx :=
  | XLfo (ch : nat) (f : F -> list F) (s : env F F unit)      (* envelope.rs:17-48 Envelope; its control function, an Fn, gives ch numbers. Times are f32, as samples are. *)
  | XTap (n : nat) (lo hi sr : F) (s : ln)                     (* delay.rs:147-161 Tap with n taps *)
  | XTanh (h : F)                                              (* shape.rs:84-87 Tanh *)
  | XAll (eta x1 y1 : F).                                      (* filter.rs:268-275 Allpole with the delay as its second input *)
  Definition control (f : F -> list F) : unit -> F -> unit * list F := fun _ t => (tt, f t).
  (* envelope.rs:129-137, delay.rs:212-236, shape.rs:232-235 and 85-87, filter.rs:313-323 *)
  Definition fx_tick (u : fx) (i : list F) : fx * list F :=
    match u with
    | XLfo ch f s => let (s, y) := env_tick nm nm id_ (control f) s in (XLfo ch f s, y)
    | XTap n lo hi sr s => let (s, y) := tap_tick nm lo hi sr s i in (XTap n lo hi sr s, y)
    | XTanh h => (u, [tanh_ (nth 0 i zero *. h)])
    | XAll _ x1 y1 =>
        let eta := all_eta nm (nth 1 i zero) in
        let y := all_step nm eta x1 y1 (nth 0 i zero) in (XAll eta (nth 0 i zero) y, [y])
    end.
  (* envelope.rs:114-122, delay.rs:193-196, filter.rs:304-307 *)
  Definition fx_reset (u : fx) : fx :=
    match u with
    | XLfo ch f s => XLfo ch f (env_reset nm id_ (control f) s)
    | XTap n lo hi sr s => XTap n lo hi sr (mkLine (map (fun _ => zero) (l_buf s)) 0)
    | XTanh h => XTanh h
    | XAll eta _ _ => XAll eta zero zero
    end.
  (* envelope.rs:165-169: the interval. The other settings of these units are not used by the effects. *)
  Definition fx_set (u : fx) (st : setting (param F)) : fx :=
    match u, s_par st with XLfo ch f s, PInterval t => XLfo ch f (set_interval s t) | _, _ => u end.
  (* envelope.rs:171-174 set_hash; the others have no hash *)
  Definition fx_set_hash (u : fx) (h : N) : fx := match u with XLfo ch f s => XLfo ch f (set_hash s h) | u => u end.
  (* envelope.rs:110; delay.rs:189; shape.rs:220; filter.rs:300 (the constants ID) *)
  Definition fx_id (u : fx) : N := match u with XLfo _ _ _ => 14 | XTap _ _ _ _ _ => 50 | XTanh _ => 42 | XAll _ _ _ => 46 end%N.
  (* audionode.rs:25-170 (the trait AudioNode): blocks are not modelled here: those of feedback are ticks, and for those of envelopes and taps see C49 and C23 *)
  Definition fx_ops : unit_ops F (param F) fx :=
    mkUnit _ _ _ (fun u => match u with XLfo _ _ _ => 0 | XTap n _ _ _ _ => n + 1 | XTanh _ => 1 | XAll _ _ _ => 2 end)
      (fun u => match u with XLfo ch _ _ => ch | _ => 1 end) fx_tick (fun u _ _ o => (u, o)) fx_set fx_reset fx_id fx_set_hash.

  Notation node := (NodeModel.node F fx).
  Variable sr : F.                                             (* the sample rate that has been set, in place of DEFAULT_SR *)
  (* prelude.rs:601-609 lfo, with the interval of 2 ms; h is the hash that it has got from its place in the expression *)
  Definition lfo (h : N) (ch : nat) (interval : F) (f : F -> list F) : fx :=
    XLfo ch f (set_hash (env_new nm nm id_ (control f) tt ch (one /. sr) interval) h).
  (* delay.rs:168-181 Tap::new: None is one of its assertions *)
  Definition tap_new (n : nat) (lo hi : F) : option fx :=
    if nleb nm zero lo && nleb nm lo hi then Some (XTap n lo hi sr (line_new zero (tap_length nm sr hi))) else None.

  (* prelude.rs:2649-2684: the function of the LFO. noise seed x is fractal_noise(seed, 8, 0.45, x), and the seeds those of lines 2662, 2667, 2672 and 2677. *)
  Definition chorus_delays (noise : N -> F -> F) (seeds : list N) (separation variation mod_frequency t : F) : list F :=
    map (fun k =>
      let base := if k =? 1 then separation else separation *. #(Z.of_nat k) in
      let frequency := if k =? 1 then mod_frequency else mod_frequency +. #(2 * (Z.of_nat k - 1)) /. #100 in
      lerp11 nm base (base +. variation) (noise (nth (k - 1) seeds 0%N) (t *. frequency))) (seq 1 4).
  (* prelude.rs:2649-2684; math.rs:565-567: hash2 is funutd's hash64g *)
  Definition chorus_seeds (hash64g : N -> N) (seed : N) : list N := [seed; hash1 seed; hash64g seed; hash1 (N.lxor seed 0xfedcba)].
  (* prelude.rs:2649-2684 *)
  Definition chorus_node (lfo tap : fx) : node :=
    Binop (nmul nm) (Bus Pass (Pipe (Stack Pass (Leaf lfo)) (Leaf tap))) (Constant [one /. #5]).
  (* prelude.rs:2649-2684 chorus *)
  Definition chorus (noise : N -> F -> F) (hash64g : N -> N) (h seed : N) (separation variation mod_frequency : F) : option node :=
    match tap_new 4 separation (separation *. #4 +. variation) with
    | Some tap => Some (chorus_node (lfo h 4 (one /. #100) (chorus_delays noise (chorus_seeds hash64g seed) separation variation mod_frequency)) tap)
    | None => None
    end.

  (* prelude.rs:2699-2710 flanger *)
  Definition flanger_node (feedback : F) (lfo tap : fx) (v : list F) : node :=
    Bus Pass (Feedback2 (Pipe (Stack Pass (Leaf lfo)) (Leaf tap)) (Leaf (XTanh feedback)) v (fun x => x)).
  (* prelude.rs:2699-2710 *)
  Definition flanger (h : N) (feedback lo hi : F) (delay_f : F -> F) : option node :=
    match tap_new 1 lo hi with
    | Some tap => Some (flanger_node feedback (lfo h 1 (one /. #500) (fun t => [delay_f t])) tap [zero])
    | None => None
    end.

  (* prelude.rs:2723-2733 phaser; the stages hold what Allpole::new(1.0) gives, eta = 0 *)
  Definition phase_stage (u : fx) : node := Pipe (op_add nm [zero; one /. #10]) (Thru (Leaf u)).
  (* prelude.rs:2723-2733 *)
  Definition phaser_node (feedback : F) (lfo : fx) (stages : list fx) (v : list F) : node :=
    Bus Pass (Feedback (Pipe (Pipe (Stack Pass (Leaf lfo)) (Chain (map phase_stage stages))) (Stack (op_mul nm [feedback]) (Sink 1))) v (fun x => x)).
  (* prelude.rs:2723-2733 *)
  Definition phaser (h : N) (feedback : F) (phase_f : F -> F) : node :=
    phaser_node feedback (lfo h 1 (one /. #500) (fun t => [DelayModel.lerp nm #2 #20 (clamp01 nm (phase_f t))])) (repeat (XAll (all_eta nm one) zero zero) 10) [zero].
End Effects.
Arguments fx : clear implicits.
