(* Oscillators: /repo/src/oscillator.rs. No proofs here. F is the type of phases (f32 or f64), V the type of samples (f32); widen is F::from_f32 and narrow is to_f32.
   A list of inputs stands for the samples of input 0 (and of input 1). Functions of the Real trait are parameters. *)
From Verif Require Export EnvModel FirModel FilterModel BufModel.
Local Open Scope nat_scope.

Section Osc.
  Context {F V : Type} (nf : num F) (nv : num V) (widen : V -> F) (narrow : F -> V).
  Local Infix "+." := (nadd nf) (at level 50, left associativity).
  Local Infix "-." := (nsub nf) (at level 50, left associativity).
  Local Infix "*." := (nmul nf) (at level 40, left associativity).
  Local Infix "/." := (ndiv nf) (at level 40, left associativity).
  (* oscillator.rs:21-26 Sine, 441-446 Ramp, 529-534 PolySaw, 605-610 PolySquare, 688-693 PolyPulse *)
  Record osc := mkOsc { os_phase : F; os_sd : F; os_hash : N; os_init : option F }.
  (* oscillator.rs:55-60, 475-480, 563-568, 639-644, 722-727 reset *)
  Definition osc_reset (s : osc) : osc := mkOsc (match os_init s with Some p => p | None => rnd1 nf (os_hash s) end) (os_sd s) (os_hash s) (os_init s).
  (* oscillator.rs:62-64, 482-484, ... set_sample_rate, with the duration of a sample *)
  Definition osc_set_duration (s : osc) (sd : F) : osc := mkOsc (os_phase s) sd (os_hash s) (os_init s).
  (* oscillator.rs:30-48, 450-468, ... new and with_phase; sd is the duration of a sample at DEFAULT_SR *)
  Definition osc_new (init : option F) (sd : F) : osc := osc_set_duration (osc_reset (mkOsc (n0 nf) (n0 nf) 0 init)) sd.
  (* oscillator.rs:88-92, 494-498, ... set, for Parameter::Phase *)
  Definition osc_set_phase (s : osc) (p : V) : osc := mkOsc (os_phase s) (os_sd s) (os_hash s) (Some (widen p)).
  (* oscillator.rs:94-97, 500-503, ... set_hash *)
  Definition osc_set_hash (s : osc) (h : N) : osc := osc_reset (mkOsc (os_phase s) (os_sd s) h (os_init s)).
  (* oscillator.rs:67-71: x - floor(x) *)
  Definition wrap (x : F) : F := x -. nofZ nf (nfloor nf x).
  (* oscillator.rs:67-71 *)
  Definition osc_at (s : osc) (phase : F) : osc := mkOsc phase (os_sd s) (os_hash s) (os_init s).
  (* oscillator.rs:67-72: the part of tick that all of them share: 68-70, 488-490, 576-579, 652-655, 735-739 *)
  Definition advance (s : osc) (freq : V) : osc := osc_at s (wrap (os_phase s +. widen freq *. os_sd s)).
  (* oscillator.rs:575-582 *)
  Definition delta (s : osc) (freq : V) : F := widen freq *. os_sd s.

  (* Sine. sin_ is the sine, scalar or SIMD, which is taken to be the same function. tau is f32::TAU. *)
  Variables (sin_ : V -> V) (tau : V).
  (* oscillator.rs:66-72 tick *)
  Definition sine_tick (s : osc) (freq : V) : osc * V := (advance s freq, sin_ (nmul nv (narrow (os_phase s)) tau)).
  (* oscillator.rs:75-82: the samples of the SIMD words; the phase is not wrapped in between *)
  Fixpoint sine_words (sd phase : F) (freqs : list V) : F * list V :=
    match freqs with
    | [] => (phase, [])
    | f :: freqs => let (p, o) := sine_words sd (phase +. widen f *. sd) freqs in (p, sin_ (nmul nv (narrow phase) tau) :: o)
    end.
  (* oscillator.rs:75-82 *)
  Fixpoint sine_ticks (s : osc) (freqs : list V) : osc * list V :=
    match freqs with [] => (s, []) | f :: freqs => let (s, y) := sine_tick s f in let (s, o) := sine_ticks s freqs in (s, y :: o) end.
  (* oscillator.rs:74-86 process, for a block of size length freqs; 85 is process_remainder, which ticks *)
  Definition sine_process (s : osc) (freqs : list V) : osc * list V :=
    let n := full_simd_samples (length freqs) in
    let (phase, o) := sine_words (os_sd s) (os_phase s) (firstn n freqs) in
    let (s, o') := sine_ticks (osc_at s (wrap phase)) (skipn n freqs) in
    (s, o ++ o').

  (* oscillator.rs:486-492 Ramp::tick *)
  Definition ramp_tick (s : osc) (freq : V) : osc * V := (advance s freq, narrow (os_phase s)).
  (* oscillator.rs:510-522 polyblep *)
  Definition polyblep (t dt : F) : F :=
    if nltb nf t dt then let z := t /. dt in z +. z -. z *. z -. n1 nf
    else if nltb nf (n1 nf -. dt) t then let z := (t -. n1 nf) /. dt in z +. z +. z *. z +. n1 nf
    else n0 nf.
  (* oscillator.rs:574-582 PolySaw::tick *)
  Definition saw_tick (s : osc) (freq : V) : osc * V :=
    let phase := os_phase s in
    (advance s freq, narrow (nofZ nf 2 *. phase -. n1 nf -. polyblep phase (delta s freq))).
  (* oscillator.rs:650-664 PolySquare::tick *)
  Definition square_tick (s : osc) (freq : V) : osc * V :=
    let phase := os_phase s in
    let half := n1 nf /. nofZ nf 2 in
    let square := if nltb nf phase half then n1 nf else nneg nf (n1 nf) in
    let h := phase -. half in
    (advance s freq, narrow (square +. polyblep phase (delta s freq) -. polyblep (wrap h) (delta s freq))).
  (* oscillator.rs:733-744 PolyPulse::tick *)
  Definition pulse_tick (s : osc) (freq width : V) : osc * V :=
    let phase := os_phase s in
    let w := widen width in
    let square := if nltb nf phase w then n1 nf else nneg nf (n1 nf) in
    let half := phase -. w in
    (advance s freq, narrow (square +. polyblep phase (delta s freq) -. polyblep (wrap half) (delta s freq))).
  (* audionode.rs:75 (repeated ticking): a run of ticks on a list of inputs *)
  Fixpoint osc_run {I} (tick : osc -> I -> osc * V) (s : osc) (l : list I) : osc * list V :=
    match l with [] => (s, []) | i :: l => let (s, y) := tick s i in let (s, o) := osc_run tick s l in (s, y :: o) end.
End Osc.
Arguments osc : clear implicits.

(* The others compute with samples only. *)
Section Others.
  Context {V : Type} (nv : num V).
  Local Infix "+." := (nadd nv) (at level 50, left associativity).
  Local Infix "-." := (nsub nv) (at level 50, left associativity).
  Local Infix "*." := (nmul nv) (at level 40, left associativity).
  Local Infix "/." := (ndiv nv) (at level 40, left associativity).
  Notation one := (n1 nv).
  Notation "# z" := (nofZ nv z) (at level 1).
  Variables (sin_ cos_ : V -> V) (pow_ : V -> V -> V) (tau : V).
  (* oscillator.rs:104-112 dsf *)
  Definition dsf (f d r n : V) : V :=
    (sin_ f -. r *. sin_ (f -. d) -. pow_ r (n +. one) *. (sin_ (f +. (n +. one) *. d) -. r *. sin_ (f +. n *. d))) /. (one +. r *. r -. #2 *. r *. cos_ d).
  (* oscillator.rs:120-128 Dsf *)
  Record dsfs := mkDsf { ds_phase : V; ds_rough : V; ds_spacing : V; ds_sd : V; ds_hash : N; ds_init : option V }.
  (* oscillator.rs:154-157 set_roughness: clamp(0.0001, 0.9999, x), math.rs:128-132 *)
  Definition set_roughness (s : dsfs) (r : V) : dsfs :=
    mkDsf (ds_phase s) (clamp nv (one /. #10000) (#9999 /. #10000) r) (ds_spacing s) (ds_sd s) (ds_hash s) (ds_init s).
  (* floor(x) as a value; infinities and NaN are their own floor *)
  Variable floor_ : V -> V.
  (* oscillator.rs:176-190 tick; the second input is present if N is 2 *)
  Definition dsf_tick (s : dsfs) (freq : V) (rough : option V) : dsfs * V :=
    let s := match rough with Some r => set_roughness s r | None => s end in
    let p := ds_phase s +. freq *. ds_sd s in
    let p := p -. floor_ p in
    let n := floor_ (#22050 /. freq /. ds_spacing s) in
    (mkDsf p (ds_rough s) (ds_spacing s) (ds_sd s) (ds_hash s) (ds_init s), dsf (p *. tau) (p *. tau *. ds_spacing s) (ds_rough s) n).

  (* oscillator.rs:322-329 Rossler, 381-388 Lorenz *)
  Record chaos := mkChaos { ch_x : V; ch_y : V; ch_z : V; ch_sr : V; ch_hash : N }.
  (* oscillator.rs:346-350, 405-409 reset; rnd1(hash) as f32 is the parameter r *)
  Definition chaos_reset (r : V) (s : chaos) : chaos := mkChaos (lerp nv (n0 nv) one r) one one (ch_sr s) (ch_hash s).
  (* oscillator.rs:357-366, 416-425 *)
  Definition euler (s : chaos) (dx dy dz dt : V) : chaos := mkChaos (ch_x s +. dx *. dt) (ch_y s +. dy *. dt) (ch_z s +. dz *. dt) (ch_sr s) (ch_hash s).
  (* oscillator.rs:356-366 Rossler::tick *)
  Definition rossler_tick (s : chaos) (freq : V) : chaos * V :=
    let dx := nneg nv (ch_y s) -. ch_z s in
    let dy := ch_x s +. #15 /. #100 *. ch_y s in
    let dz := #2 /. #10 +. ch_z s *. (ch_x s -. #10) in
    let dt := #291 /. #100 *. freq /. ch_sr s in
    let s := euler s dx dy dz dt in (s, ch_x s *. (#5757 /. #100000)).
  (* oscillator.rs:415-425 Lorenz::tick *)
  Definition lorenz_tick (s : chaos) (freq : V) : chaos * V :=
    let dx := #10 *. (ch_y s -. ch_x s) in
    let dy := ch_x s *. (#28 -. ch_z s) -. ch_y s in
    let dz := ch_x s *. ch_y s -. (#8 /. #3) *. ch_z s in
    let dt := freq /. ch_sr s in
    let s := euler s dx dy dz dt in (s, ch_x s *. (#5107 /. #100000)).
  (* oscillator.rs:357-366, 416-425 (repeated ticking) *)
  Definition chaos_run (tick : chaos -> V -> chaos * V) (s : chaos) (l : list V) : chaos := fold_left (fun s f => fst (tick s f)) l s.
End Others.

(* Pluck: f64 quantities are of type F, samples of type V *)
Section Pluck.
  Context {F V : Type} (nf : num F) (nv : num V) (widen : V -> F) (narrow : F -> V) (pow_ : F -> F -> F).
  (* Rnd::from_u64(seed) and then f32_in(-1.0, 1.0), number i (funutd, outside of the repository) *)
  Variable draw : N -> nat -> V.
  Local Infix "-." := (nsub nf) (at level 50, left associativity).
  Local Infix "/." := (ndiv nf) (at level 40, left associativity).
  (* oscillator.rs:215-225; the tuning filter is its eta, x1 and y1 *)
  Record pluck := mkPluck { pl_fir : @fir V; pl_eta : V; pl_x1 : V; pl_y1 : V; pl_line : list V; pl_gain : V; pl_pos : nat; pl_hash : N; pl_freq : V; pl_sr : F; pl_ready : bool }.
  (* prelude.rs:860-864 fir3 *)
  Definition fir3 (gain : V) : @fir V :=
    let alpha := ndiv nv (nadd nv gain (n1 nv)) (nofZ nv 2) in
    let beta := ndiv nv (nsub nv (n1 nv) alpha) (nofZ nv 2) in fir_new nv [beta; alpha; beta].
  (* oscillator.rs:229-241 new; Allpole::new(1.0) has eta 0 *)
  Definition pluck_new (sr : F) (freq gain damping : V) : pluck :=
    mkPluck (fir3 (nsub nv (n1 nv) damping)) (all_eta nv (n1 nv)) (n0 nv) (n0 nv) [] (narrow (pow_ (widen gain) (n1 nf /. widen freq))) 0 0 freq sr false.
  (* oscillator.rs:246-248 total_delay, loop_delay, allpass_delay; epsilon is 0.2 *)
  Definition total_delay (s : pluck) : F := pl_sr s /. widen (pl_freq s) -. n1 nf.
  (* oscillator.rs:246-248 *)
  Definition loop_delay (s : pluck) : Z := nfloor nf (total_delay s -. n1 nf /. nofZ nf 5).
  (* oscillator.rs:246-248 *)
  Definition allpass_delay (s : pluck) : F := total_delay s -. nofZ nf (loop_delay s).
  (* oscillator.rs:255-263: the line of n samples, without their mean *)
  Definition excitation (hash : N) (n : nat) : list V :=
    let l := map (draw hash) (seq 0 n) in
    let mean := ndiv nf (fold_left (fun m x => nadd nf m (widen x)) l (n0 nf)) (nofZ nf (Z.of_nat n)) in
    map (fun x => nsub nv x (narrow mean)) l.
  (* oscillator.rs:243-266 initialize_line; loop_delay as usize is 0 for negative numbers *)
  Definition initialize_line (s : pluck) : pluck :=
    mkPluck (pl_fir s) (all_eta nv (narrow (allpass_delay s))) (n0 nv) (n0 nv) (excitation (pl_hash s) (Z.to_nat (loop_delay s)))
      (pl_gain s) 0 (pl_hash s) (pl_freq s) (pl_sr s) true.
  (* oscillator.rs:274-277 reset *)
  Definition pluck_reset (s : pluck) : pluck := mkPluck (fir_reset nv (pl_fir s)) (pl_eta s) (pl_x1 s) (pl_y1 s) (pl_line s) (pl_gain s) (pl_pos s) (pl_hash s) (pl_freq s) (pl_sr s) false.
  (* oscillator.rs:287-301 tick; None is the panic of an index out of range *)
  Definition pluck_tick (s : pluck) (x : V) : option (pluck * V) :=
    let s := if pl_ready s then s else initialize_line s in
    match nth_error (pl_line s) (pl_pos s) with
    | None => None
    | Some v =>
        let o := nadd nv (nmul nv v (pl_gain s)) x in
        let (fir, o) := fir_tick nv (pl_fir s) [o] in
        let o := nth 0 o (n0 nv) in
        let y := all_step nv (pl_eta s) (pl_x1 s) (pl_y1 s) o in
        let line := upd (pl_line s) (pl_pos s) y in
        let pos := if Nat.eqb (pl_pos s + 1) (length line) then 0 else pl_pos s + 1 in
        Some (mkPluck fir (pl_eta s) o y line (pl_gain s) pos (pl_hash s) (pl_freq s) (pl_sr s) true, y)
    end.
  (* oscillator.rs:287-301 *)
  Fixpoint pluck_run (s : pluck) (l : list V) : option (pluck * list V) :=
    match l with
    | [] => Some (s, [])
    | x :: l => match pluck_tick s x with Some (s, y) => match pluck_run s l with Some (s, o) => Some (s, y :: o) | None => None end | None => None end
    end.
End Pluck.
Arguments dsfs : clear implicits. Arguments chaos : clear implicits. Arguments pluck : clear implicits.
