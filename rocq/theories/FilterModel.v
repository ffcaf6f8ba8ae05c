(* Linear filters: /repo/src/filter.rs, /repo/src/biquad.rs:17-400, /repo/src/biquad_bank.rs, /repo/src/svf.rs, Follow of /repo/src/follow.rs, and the
   frequency responses that they, FIR filters, delays, panners and mixing matrices report. No proofs here.
   Samples and coefficients have the same type; inputs that control parameters are not modelled: filters that have them are the filters here with those inputs constant.
   In complex arithmetic real operands are taken as complex numbers with imaginary part zero. *)
From Coq Require Import Reals.
From Verif Require Export SignalModel DelayModel DynModel FirModel.

(* math.rs:58-115: the elementary functions that the code takes from libm or std *)
Record elem (F : Type) := mkElem { e_pi : F; e_exp : F -> F; e_sin : F -> F; e_cos : F -> F; e_tan : F -> F; e_sqrt : F -> F }.
Arguments mkElem {F}. Arguments e_pi {F}. Arguments e_exp {F}. Arguments e_sin {F}. Arguments e_cos {F}. Arguments e_tan {F}. Arguments e_sqrt {F}.
(* math.rs:58-115 (on real numbers) *)
Definition R_elem : elem R := mkElem PI exp sin cos tan sqrt.

Section Filter.
  Context {F : Type}.
  Variable nm : num F.
  Variable el : elem F.
  Local Infix "+." := (nadd nm) (at level 50, left associativity).
  Local Infix "-." := (nsub nm) (at level 50, left associativity).
  Local Infix "*." := (nmul nm) (at level 40, left associativity).
  Local Infix "/." := (ndiv nm) (at level 40, left associativity).
  Local Notation "-. x" := (nneg nm x) (at level 35, right associativity).
  Notation zero := (n0 nm).
  Notation one := (n1 nm).
  Notation int z := (nofZ nm z%Z).
  (* a decimal fraction p / q *)
  Notation dec p q := (nofZ nm p%Z /. nofZ nm q%Z).
  Notation cplx := (F * F)%type.
  (* biquad.rs:32-42 *)
  Definition tau : F := int 2 *. e_pi el.

  (* biquad.rs:119-128 (num_complex): num_complex: a real number; division; from_polar(1, angle) *)
  Definition cre (x : F) : cplx := (x, zero).
  (* biquad.rs:119-128 (num_complex) *)
  Definition cdiv (a b : cplx) : cplx :=
    let n := fst b *. fst b +. snd b *. snd b in
    ((fst a *. fst b +. snd a *. snd b) /. n, (snd a *. fst b -. fst a *. snd b) /. n).
  (* biquad.rs:119-128 (num_complex) *)
  Definition polar (angle : F) : cplx := (one *. e_cos el angle, one *. e_sin el angle).
  Local Infix "<+>" := (cadd nm) (at level 50, left associativity).
  Local Infix "<~>" := (csub nm) (at level 50, left associativity).
  Local Infix "<*>" := (cmul nm) (at level 40, left associativity).
  Local Infix "</>" := cdiv (at level 40, left associativity).

  (* ---- filter.rs ---- *)
  (* filter.rs:43-46 and 376-379 set_cutoff of Lowpole and Highpole *)
  Definition pole_coeff (sr cutoff : F) : F := e_exp el (-. tau *. cutoff /. sr).
  (* filter.rs:122-126 DCBlock::set_cutoff *)
  Definition dc_coeff (sr cutoff : F) : F := one -. tau /. sr *. cutoff.
  (* filter.rs:292-296 Allpole::set_delay *)
  Definition all_eta (delay : F) : F := (one -. delay) /. (one +. delay).
  (* filter.rs:63-74 Lowpole::tick: the new value, which is the output *)
  Definition low_step (c value x : F) : F := (one -. c) *. x +. c *. value.
  (* filter.rs:144-151 DCBlock::tick *)
  Definition dc_step (c x1 y1 x : F) : F := x -. x1 +. c *. y1.
  (* filter.rs:313-323 Allpole::tick *)
  Definition all_step (eta x1 y1 x : F) : F := eta *. (x -. y1) +. x1.
  (* filter.rs:397-410 Highpole::tick *)
  Definition high_step (c x1 y1 x : F) : F := c *. (y1 +. x -. x1).
  (* filter.rs:177-188 Pinkpass: b0 .. b6 *)
  Record pink := mkPink { k0 : F; k1 : F; k2 : F; k3 : F; k4 : F; k5 : F; k6 : F }.
  (* filter.rs:219-239 Pinkpass::tick *)
  Definition pink_step (s : pink) (x : F) : pink * F :=
    let b0 := dec 99886 100000 *. k0 s +. x *. dec 555179 10000000 in
    let b1 := dec 99332 100000 *. k1 s +. x *. dec 750759 10000000 in
    let b2 := dec 96900 100000 *. k2 s +. x *. dec 1538520 10000000 in
    let b3 := dec 86650 100000 *. k3 s +. x *. dec 3104856 10000000 in
    let b4 := dec 55000 100000 *. k4 s +. x *. dec 5329522 10000000 in
    let b5 := (-. dec 7616 10000) *. k5 s -. x *. dec 168980 10000000 in
    let out := (b0 +. b1 +. b2 +. b3 +. b4 +. b5 +. k6 s +. x *. dec 5362 10000) *. dec 115830421 1000000000 in
    (mkPink b0 b1 b2 b3 b4 b5 (x *. dec 115926 1000000), out).

  (* ---- biquad.rs ---- *)
  (* biquad.rs:17-25 BiquadCoefs *)
  Record bicoefs := mkBi { bi_a1 : F; bi_a2 : F; bi_b0 : F; bi_b1 : F; bi_b2 : F }.
  (* biquad.rs:28-42 butter_lowpass, with SQRT_2 the square root of 2 *)
  Definition butter_lowpass (sr cutoff : F) : bicoefs :=
    let f := e_tan el (cutoff *. e_pi el /. sr) in
    let a0r := one /. (one +. e_sqrt el (int 2) *. f +. f *. f) in
    let a1 := (int 2 *. f *. f -. int 2) *. a0r in
    let a2 := (one -. e_sqrt el (int 2) *. f +. f *. f) *. a0r in
    let b0 := f *. f *. a0r in
    mkBi a1 a2 b0 (int 2 *. b0) b0.
  (* biquad.rs:44-57 resonator *)
  Definition resonator (sr center q : F) : bicoefs :=
    let r := e_exp el (-. e_pi el *. center /. (q *. sr)) in
    let a1 := int (-2) *. r *. e_cos el (tau *. center /. sr) in
    let a2 := r *. r in
    let b0 := e_sqrt el (one -. r *. r) *. dec 1 2 in
    mkBi a1 a2 b0 zero (-. b0).
  (* biquad.rs:59-74 lowpass *)
  Definition bi_lowpass (sr cutoff q : F) : bicoefs :=
    let omega := tau *. cutoff /. sr in
    let alpha := e_sin el omega /. (int 2 *. q) in
    let beta := e_cos el omega in
    let a0r := one /. (one +. alpha) in
    let b1 := (one -. beta) *. a0r in
    mkBi (int (-2) *. beta *. a0r) ((one -. alpha) *. a0r) (b1 *. dec 1 2) b1 (b1 *. dec 1 2).
  (* biquad.rs:76-91 highpass *)
  Definition bi_highpass (sr cutoff q : F) : bicoefs :=
    let omega := tau *. cutoff /. sr in
    let alpha := e_sin el omega /. (int 2 *. q) in
    let beta := e_cos el omega in
    let a0r := one /. (one +. alpha) in
    let b0 := (one +. beta) *. dec 1 2 *. a0r in
    mkBi (int (-2) *. beta *. a0r) ((one -. alpha) *. a0r) b0 ((int (-1) -. beta) *. a0r) b0.
  (* biquad.rs:93-110 bell *)
  Definition bi_bell (sr center q gain : F) : bicoefs :=
    let omega := tau *. center /. sr in
    let alpha := e_sin el omega /. (int 2 *. q) in
    let beta := e_cos el omega in
    let a := e_sqrt el gain in
    let a0r := one /. (one +. alpha /. a) in
    let a1 := int (-2) *. beta *. a0r in
    mkBi a1 ((one -. alpha /. a) *. a0r) ((one +. alpha *. a) *. a0r) a1 ((one -. alpha *. a) *. a0r).
  (* biquad.rs:118-128 response, given z1 = from_polar(1, -TAU * omega) *)
  Definition bi_response (c : bicoefs) (z1 : cplx) : cplx :=
    let z2 := z1 <*> z1 in
    (cre (bi_b0 c) <+> cre (bi_b1 c) <*> z1 <+> cre (bi_b2 c) <*> z2) </> (cre one <+> cre (bi_a1 c) <*> z1 <+> cre (bi_a2 c) <*> z2).
  (* biquad.rs:131-143 Biquad; 183-194 tick *)
  Record biquad := mkBiquad { bq_c : bicoefs; bq_x1 : F; bq_x2 : F; bq_y1 : F; bq_y2 : F }.
  (* biquad.rs:184-194 *)
  Definition bi_step (s : biquad) (x0 : F) : biquad * F :=
    let c := bq_c s in
    let y0 := bi_b0 c *. x0 +. bi_b1 c *. bq_x1 s +. bi_b2 c *. bq_x2 s -. bi_a1 c *. bq_y1 s -. bi_a2 c *. bq_y2 s in
    (mkBiquad c x0 (bq_x1 s) y0 (bq_y1 s), y0).

  (* ---- svf.rs ---- *)
  (* svf.rs:17-24 SvfCoefs; the modes of 275-742; 267-273 SvfParams *)
  Record svcoefs := mkSv { sv_a1 : F; sv_a2 : F; sv_a3 : F; sv_m0 : F; sv_m1 : F; sv_m2 : F }.
  (* svf.rs:17-24 *)
  Inductive svmode := MLowpass | MHighpass | MBandpass | MNotch | MPeak | MAllpass | MBell | MLowshelf | MHighshelf.
  (* svf.rs:268-273 *)
  Record svparams := mkSvp { sp_sr : F; sp_cutoff : F; sp_q : F; sp_gain : F }.
  (* svf.rs:28-46: the lines that all the coefficient functions share *)
  Definition sv_with (g k m0 m1 m2 : F) : svcoefs :=
    let a1 := one /. (one +. g *. (g +. k)) in let a2 := g *. a1 in let a3 := g *. a2 in mkSv a1 a2 a3 m0 m1 m2.
  (* svf.rs:28-221: the coefficients of each mode *)
  Definition sv_coefs (m : svmode) (p : svparams) : svcoefs :=
    let g := e_tan el (e_pi el *. sp_cutoff p /. sp_sr p) in
    let k := one /. sp_q p in
    let a := e_sqrt el (sp_gain p) in
    match m with
    | MLowpass => sv_with g k zero zero one                       (* svf.rs:28-46 *)
    | MHighpass => sv_with g k one (-. k) (-. one)                (* svf.rs:49-67 *)
    | MBandpass => sv_with g k zero one zero                      (* svf.rs:70-88 *)
    | MNotch => sv_with g k one (-. k) zero                       (* svf.rs:91-109 *)
    | MPeak => sv_with g k one (-. k) (int (-2))                  (* svf.rs:112-130 *)
    | MAllpass => sv_with g k one (int (-2) *. k) zero            (* svf.rs:133-151 *)
    | MBell =>                                                    (* svf.rs:155-174 *)
        let k := one /. (sp_q p *. a) in sv_with g k one (k *. (a *. a -. one)) zero
    | MLowshelf =>                                                (* svf.rs:178-197 *)
        let g := g /. e_sqrt el a in sv_with g k one (k *. (a -. one)) (a *. a -. one)
    | MHighshelf =>                                               (* svf.rs:201-220 *)
        let g := g *. e_sqrt el a in sv_with g k (a *. a) (k *. (one -. a) *. a) (one -. a *. a)
    end.
  (* svf.rs:315-322, 364-371, 413-420, 462-469, 511-519, 561-568, 613-622, 667-679, 724-741: response of each mode, given z = from_polar(1, f) *)
  Definition sv_response (m : svmode) (p : svparams) (z : cplx) : cplx :=
    let g := cre (e_tan el (e_pi el *. sp_cutoff p /. sp_sr p)) in
    let k := cre (one /. sp_q p) in
    let a := cre (e_sqrt el (sp_gain p)) in
    let sqrt_a := cre (e_sqrt el (e_sqrt el (sp_gain p))) in
    let o := cre one in
    let den := (z <~> o) <*> (z <~> o) <+> g <*> g <*> (o <+> z) <*> (o <+> z) <+> g <*> k <*> (z <*> z <~> o) in
    match m with
    | MLowpass => (g <*> g <*> (o <+> z) <*> (o <+> z)) </> den
    | MHighpass => ((z <~> o) <*> (z <~> o)) </> den
    | MBandpass => (g <*> (z <*> z <~> o)) </> den
    | MNotch => ((z <~> o) <*> (z <~> o) <+> g <*> g <*> (o <+> z) <*> (o <+> z)) </> den
    | MPeak => cneg nm ((o <+> g <+> (g <~> o) <*> z) <*> (cre (-. one) <+> g <+> z <+> g <*> z)) </> den
    | MAllpass => ((z <~> o) <*> (z <~> o) <+> g <*> g <*> (o <+> z) <*> (o <+> z) <+> g <*> (k <~> k <*> z <*> z)) </> den
    | MBell =>
        (g <*> k <*> (z <*> z <~> o)
          <+> a <*> (g <*> (o <+> z) <*> ((a <*> a <~> o) <*> k </> a <*> (z <~> o)) <+> ((z <~> o) <*> (z <~> o) <+> g <*> g <*> (o <+> z) <*> (o <+> z))))
        </> (g <*> k <*> (z <*> z <~> o) <+> a <*> ((z <~> o) <*> (z <~> o) <+> g <*> g <*> (z <+> o) <*> (z <+> o)))
    | MLowshelf =>
        (a <*> (z <~> o) <*> (z <~> o) <+> g <*> g <*> a <*> a <*> (z <+> o) <*> (z <+> o) <+> sqrt_a <*> g <*> a <*> k <*> (z <*> z <~> o))
        </> (a <*> (z <~> o) <*> (z <~> o) <+> g <*> g <*> (o <+> z) <*> (o <+> z) <+> sqrt_a <*> g <*> k <*> (z <*> z <~> o))
    | MHighshelf =>
        (sqrt_a <*> g <*> (o <+> z) <*> (cneg nm (a <~> o) <*> a <*> k <*> (z <~> o) <+> sqrt_a <*> g <*> (o <~> a <*> a) <*> (o <+> z))
          <+> a <*> a <*> ((z <~> o) <*> (z <~> o) <+> a <*> g <*> g <*> (o <+> z) <*> (o <+> z) <+> sqrt_a <*> g <*> k <*> (z <*> z <~> o)))
        </> ((z <~> o) <*> (z <~> o) <+> a <*> g <*> g <*> (o <+> z) <*> (o <+> z) <+> sqrt_a <*> g <*> k <*> (z <*> z <~> o))
    end.
  (* svf.rs:873-887 FixedSvf *)
  Record svf := mkSvf { vf_mode : svmode; vf_par : svparams; vf_c : svcoefs; vf_ic1 : F; vf_ic2 : F }.
  (* svf.rs:894-906 FixedSvf::new *)
  Definition svf_new (m : svmode) (p : svparams) : svf := mkSvf m p (sv_coefs m p) zero zero.
  (* svf.rs:1010-1022 FixedSvf::tick, and the part of Svf::tick 842-851 after the update from the inputs *)
  Definition svf_step (s : svf) (v0 : F) : svf * F :=
    let c := vf_c s in
    let v3 := v0 -. vf_ic2 s in
    let v1 := sv_a1 c *. vf_ic1 s +. sv_a2 c *. v3 in
    let v2 := vf_ic2 s +. sv_a2 c *. vf_ic1 s +. sv_a3 c *. v3 in
    (mkSvf (vf_mode s) (vf_par s) c (int 2 *. v1 -. vf_ic1 s) (int 2 *. v2 -. vf_ic2 s), sv_m0 c *. v0 +. sv_m1 c *. v1 +. sv_m2 c *. v2).
  (* svf.rs:229-263: no mode overrides update_frequency, update_q (which call update) or update_gain (which does nothing) *)
  Definition svf_update (s : svf) (p : svparams) : svf := mkSvf (vf_mode s) p (sv_coefs (vf_mode s) p) (vf_ic1 s) (vf_ic2 s).
  (* svf.rs:936-988, 1000-1008: what can be done with a FixedSvf; set (1024-1035) does OpCenter, OpCenterQ and OpCenterQGain *)
  Inductive svf_op := OpRate (sr : F) | OpCenter (f : F) | OpCenterQ (f q : F) | OpQ (q : F) | OpGain (gain : F) | OpCenterQGain (f q gain : F) | OpReset | OpTick (x : F).
  Definition svf_do (s : svf) (op : svf_op) : svf :=
    let p := vf_par s in
    match op with
    | OpRate sr => svf_update s (mkSvp sr (sp_cutoff p) (sp_q p) (sp_gain p))                 (* svf.rs:1005-1008 *)
    | OpCenter f => svf_update s (mkSvp (sp_sr p) f (sp_q p) (sp_gain p))                     (* svf.rs:936-945 *)
    | OpCenterQ f q => svf_update s (mkSvp (sp_sr p) f q (sp_gain p))                         (* svf.rs:949-959 *)
    | OpQ q => svf_update s (mkSvp (sp_sr p) (sp_cutoff p) q (sp_gain p))                     (* svf.rs:963-966 *)
    | OpGain gain =>                                                                          (* svf.rs:970-973 *)
        mkSvf (vf_mode s) (mkSvp (sp_sr p) (sp_cutoff p) (sp_q p) gain) (vf_c s) (vf_ic1 s) (vf_ic2 s)
    | OpCenterQGain f q gain => svf_update s (mkSvp (sp_sr p) f q gain)                       (* svf.rs:977-988 *)
    | OpReset => mkSvf (vf_mode s) p (vf_c s) zero zero                                       (* svf.rs:1000-1003 *)
    | OpTick x => fst (svf_step s x)
    end.
  (* svf.rs:1056-1059 Morph: the filter and the last morph input; 1093-1097 tick, where inputs 1 and 2 are what they have been, so that
     updating the parameters from them changes nothing *)
  Definition morph_step (s : svf * F) (x m : F) : (svf * F) * F :=
    let (f, y) := svf_step (fst s) x in ((f, m), (y +. m *. x) *. dec 1 2).

  (* svf.rs:1113-1122 Morph::route on an input with response r, at sample rate sp_sr; Svf::route (856-869) multiplies r with the response *)
  Definition morph_response (s : svf * F) (freq : F) (r : cplx) : cplx :=
    let p := vf_par (fst s) in
    cscale nm (r <*> sv_response (vf_mode (fst s)) p (polar (freq *. tau /. sp_sr p)) <+> cre (snd s)) (dec 1 2).

  (* ---- leaf units: filters of one channel, and banks of them ---- *)
  (* FTick x1: Tick (delay.rs:15-65), one channel; FDelay: Delay (delay.rs:71-139), its line and its length in samples; FFollow: Follow (follow.rs);
     FFir: Fir; FBiquad: Biquad, and ButterLowpass and Resonator, which contain one; FSvf: FixedSvf. *)
  Inductive filt :=
  | FTick (x1 : F) | FDelay (l : line F) (n : nat) | FLow (c value : F) | FDc (c x1 y1 : F) | FAll (eta x1 y1 : F) | FHigh (c x1 y1 : F)
  | FPink (s : pink) | FFollow (s : @follow F) | FBiquad (s : biquad) | FSvf (s : svf) | FFir (s : @fir F).
  (* audionode.rs:75 (the functions tick of the filters) *)
  Definition filt_step (f : filt) (x : F) : filt * F :=
    match f with
    | FTick x1 => (FTick x, x1)
    | FDelay l n => let (l', o) := delay_tick zero l [x] in (FDelay l' n, nth 0 o zero)
    | FLow c v => let y := low_step c v x in (FLow c y, y)
    | FDc c x1 y1 => let y := dc_step c x1 y1 x in (FDc c x y, y)
    | FAll e x1 y1 => let y := all_step e x1 y1 x in (FAll e x y, y)
    | FHigh c x1 y1 => let y := high_step c x1 y1 x in (FHigh c x y, y)
    | FPink s => let (s', y) := pink_step s x in (FPink s', y)
    | FFollow s => let s' := fo_tick nm s x in (FFollow s', fo_v3 s')
    | FBiquad s => let (s', y) := bi_step s x in (FBiquad s', y)
    | FSvf s => let (s', y) := svf_step s x in (FSvf s', y)
    | FFir s => let (s', o) := fir_tick nm s [x] in (FFir s', nth 0 o zero)
    end.
  (* what each route function multiplies the response of input 0 with, for sample rate sr *)
  Definition filt_response (f : filt) (sr freq : F) : cplx :=
    let w := freq *. tau /. sr in
    let z1 := polar (-. w) in
    let o := cre one in
    match f with
    | FTick _ => polar (-. tau *. freq /. sr)                                             (* delay.rs:53-64 *)
    | FDelay _ n => polar (-. tau *. ofnat nm n *. freq /. sr)                            (* delay.rs:126-138 *)
    | FLow c _ => (cre (one -. c)) </> (o <~> cre c <*> z1)                               (* filter.rs:82-94 *)
    | FDc c _ _ => (o <~> z1) </> (o <~> cre c <*> z1)                                    (* filter.rs:159-171 *)
    | FAll e _ _ => (cre e <+> z1) </> (o <+> cre e <*> z1)                               (* filter.rs:331-343; multiplied and divided from the left there *)
    | FHigh c _ _ => (cre c <*> (o <~> z1)) </> (o <~> cre c <*> z1)                      (* filter.rs:418-430 *)
    | FPink _ =>                                                                          (* filter.rs:241-259; multiplied from the left there *)
        let pole p q := cre p </> (o <~> cre q <*> z1) in
        (pole (dec 555179 10000000) (dec 99886 100000) <+> pole (dec 750759 10000000) (dec 99332 100000) <+> pole (dec 1538520 10000000) (dec 96900 100000)
          <+> pole (dec 3104856 10000000) (dec 86650 100000) <+> pole (dec 5329522 10000000) (dec 55000 100000)
          <+> cre (-. dec 16898 1000000) </> (o <+> cre (dec 7616 10000) <*> z1) <+> cre (dec 115926 1000000) <*> z1 <+> cre (dec 5362 10000))
        <*> cre (dec 115830421 1000000000)
    | FFollow s =>                                                                        (* follow.rs:117-130 *)
        let c := one -. fo_coeff s in let pole := cre (one -. c) </> (o <~> cre c <*> z1) in pole <*> pole <*> pole
    | FBiquad s => bi_response (bq_c s) (polar (-. tau *. (freq /. sr)))                  (* biquad.rs:208-217 *)
    | FSvf s => sv_response (vf_mode s) (vf_par s) (polar (freq *. tau /. sp_sr (vf_par s)))                              (* svf.rs:1037-1046 *)
    | FFir s =>                                                                           (* fir.rs:72-88 *)
        let z1 := polar (-. tau *. freq /. sr) in
        let n := length (f_w s) in
        fst (fold_left (fun acc i => (fst acc <+> cre (nth (n - 1 - i) (f_w s) zero) <*> snd acc, snd acc <*> z1)) (seq 0 n) ((zero, zero), o))
    end.
  (* audionode.rs:75 (the functions tick of the filters) *)
  Fixpoint bank_step (fs : list filt) (i : list F) : list filt * list F :=
    match fs with
    | [] => ([], [])
    | f :: r => let (f', y) := filt_step f (hd zero i) in let (r', ys) := bank_step r (tl i) in (f' :: r', y :: ys)
    end.

  (* Bank: filters side by side, one for each channel: any single filter, Tick with several channels, BiquadBank (biquad_bank.rs:13-117).
     Mix n m: Mixer with n inputs, m its rows. Pan l r: Panner with one input, that is with fixed weights. *)
  Inductive lunit := Bank (fs : list filt) | Mix (n : nat) (m : list (list F)) | Pan (l r : F).
  (* pan.rs:55-60, 123-131; biquad_bank.rs:73-84 *)
  Definition lu_tick (u : lunit) (i : list F) : lunit * list F :=
    match u with
    | Bank fs => let (fs', o) := bank_step fs i in (Bank fs', o)
    | Mix n m => (u, snd (mixer_tick nm m i))
    | Pan l r => (u, [l *. nth 0 i zero; r *. nth 0 i zero])
    end.
  (* audionode.rs:25-342 *)
  Definition lu_ins (u : lunit) : nat := match u with Bank fs => length fs | Mix n _ => n | Pan _ _ => 1 end.
  (* audionode.rs:25-342 *)
  Definition lu_outs (u : lunit) : nat := match u with Bank fs => length fs | Mix _ m => length m | Pan _ _ => 2 end.
  (* audionode.rs:25-170 (the trait AudioNode): the reset functions are modelled elsewhere; settings and hashes do not matter here *)
  Definition lu_ops : unit_ops F unit lunit :=
    mkUnit F unit lunit lu_ins lu_outs lu_tick (fun u size i o => default_process zero lu_tick size u i o) (fun u _ => u) (fun u => u) (fun _ => 0%N) (fun u _ => u).
  (* the route functions, for sample rate sr *)
  Definition lu_route (sr : F) (u : lunit) (freq : F) (s : list (signal F)) : option (list (signal F)) :=
    match u with
    | Bank fs =>
        if Nat.leb (length fs) (length s) then Some (map (fun p => sig_filter nm (snd p) zero (fun r => r <*> filt_response (fst p) sr freq)) (combine fs s)) else None
    | Mix n m =>                                                                          (* pan.rs:133-150 *)
        if Nat.ltb 0 n && Nat.leb n (length s) then
          Some (map (fun row => fold_left (fun acc j => combine_sum nm acc (sig_scale nm (nth j s Unknown) (nth j row zero))) (seq 1 (n - 1))
            (sig_scale nm (nth 0 s Unknown) (nth 0 row zero))) m)
        else None
    | Pan l r =>                                                                          (* pan.rs:84-90 *)
        match s with a :: _ => Some [sig_scale nm a l; sig_scale nm a r] | [] => None end
    end.
End Filter.
Arguments filt : clear implicits. Arguments lunit : clear implicits. Arguments pink : clear implicits. Arguments biquad : clear implicits. Arguments bicoefs : clear implicits.
Arguments svf : clear implicits. Arguments svcoefs : clear implicits. Arguments svparams : clear implicits.
