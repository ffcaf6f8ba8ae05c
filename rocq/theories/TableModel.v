(* Wavetable synthesis: /repo/src/wavetable.rs. No proofs here. V is f32, F is f64; widen and narrow convert between them.
   Arithmetic of usize and i32 is that of Z: indices are below 2^13 before masking. *)
From Verif Require Export OscModel MathModel FadeModel.
Local Open Scope nat_scope.

(* wavetable.rs:154-194 (unsafe blocks and indices): What a function can end in. Undefined is undefined behaviour of an unsafe function called outside of its contract. *)
Inductive outcome (A : Type) := Val (a : A) | Panics | Undefined.
Arguments Val {A}. Arguments Panics {A}. Arguments Undefined {A}.
(* wavetable.rs:154-194 *)
Definition bind {A B} (x : outcome A) (f : A -> outcome B) : outcome B := match x with Val a => f a | Panics => Panics | Undefined => Undefined end.
Notation "'do' x <- e ; k" := (bind e (fun x => k)) (at level 200, x pattern, e at level 100, k at level 200).
(* wavetable.rs:154-168: indexing of a slice *)
Definition index {A} (l : list A) (i : nat) : outcome A := match nth_error l i with Some a => Val a | None => Panics end.

Section Read.
  Context {V : Type} (nv : num V).
  Local Infix "+." := (nadd nv) (at level 50, left associativity).
  Local Infix "-." := (nsub nv) (at level 50, left associativity).
  Local Infix "*." := (nmul nv) (at level 40, left associativity).
  Local Infix "/." := (ndiv nv) (at level 40, left associativity).
  Notation one := (n1 nv).
  Notation "# z" := (nofZ nv z) (at level 1).
  (* wavetable.rs:23-38 optimal4x44. The coefficients are written as quotients of integers (they are decimals of at most 17 digits). *)
  Definition dec (z : Z) : V := #z /. #100000000000000000.
  (* wavetable.rs:24-38 *)
  Definition optimal4x44 (a0 a1 a2 a3 x : V) : V :=
    let z := x -. one /. #2 in
    let even1 := a2 +. a1 in let odd1 := a2 -. a1 in let even2 := a3 +. a0 in let odd2 := a3 -. a0 in
    let c0 := even1 *. dec 46567255120778480 +. even2 *. dec 3432729708429672 in
    let c1 := odd1 *. dec 53743830753560160 +. odd2 *. dec 15429462557307460 in
    let c2 := even1 *. dec (-25194210134021744) +. even2 *. dec 25194744935939060 in
    let c3 := odd1 *. dec (-46896069955075126) +. odd2 *. dec 15578800670302476 in
    let c4 := even1 *. dec 986988334359864 +. even2 *. dec (-989340017126506) in
    (((c4 *. z +. c3) *. z +. c2) *. z +. c1) *. z +. c0.
  (* wavetable.rs:154-166: f32::to_int_unchecked::<usize>: truncation, undefined for NaN, infinities and all that does not fit *)
  Definition unchecked_usize (x : V) : outcome Z := if nltb nv #(-1) x && nltb nv x #(2 ^ 64) then Val (Z.max 0 (nfloor nv x)) else Undefined.
  (* the four points around index i1 of a table whose length should be a power of two: wavetable.rs:152-166 and 168-193 *)
  Definition masked (t : list V) (i : Z) : outcome V := index t (Z.to_nat (Z.land i (Z.of_nat (length t) - 1))).
  (* wavetable.rs:152-166 and 168-193 *)
  Definition points (t : list V) (i1 : Z) (w : V) : outcome V :=
    do a0 <- masked t (i1 - 1); do a1 <- masked t i1; do a2 <- masked t (i1 + 1); do a3 <- masked t (i1 + 2); Val (optimal4x44 a0 a1 a2 a3 w).
  (* wavetable.rs:152-166 at, for the samples of the table *)
  Definition at_ (t : list V) (phase : V) : outcome V :=
    let p := #(Z.of_nat (length t)) *. phase in
    do i1 <- unchecked_usize p; points t i1 (p -. #i1).
  (* wavetable.rs:170-193: fast_trunc_int of wide, for numbers that fit *)
  Definition trunc (x : V) : Z := if nltb nv x #0 then (- nfloor nv (nneg nv x))%Z else nfloor nv x.
  (* wavetable.rs:168-193 at_simd, for one lane *)
  Definition at_simd (t : list V) (phase : V) : outcome V :=
    let p := #(Z.of_nat (length t)) *. phase in let i1 := trunc p in points t i1 (p -. #i1).

  (* wavetable.rs:81-85 Wavetable *)
  Definition tables := list (V * list V).
  (* wavetable.rs:201-216: the loop of table_index; i0 and i1 are indices, fuel bounds the number of rounds *)
  Fixpoint search (fuel : nat) (tb : tables) (f : V) (i0 i1 : nat) : outcome nat :=
    if Nat.ltb i0 i1 then
      match fuel with
      | O => Undefined
      | S fuel =>
          let i := (i0 + i1) / 2 in
          do t <- index tb i; if nltb nv f (fst t) then search fuel tb f i0 i
          else do t <- index tb (i + 1); if nltb nv f (fst t) then Val i else search fuel tb f (i + 1) i1
      end
    else Val i0.
  (* wavetable.rs:195-217 table_index; the subtraction of 3 panics if there are fewer than 3 tables (if overflow checks are off, the index that results is out of range and panics then).
     && does not evaluate its right side if the left side is false. *)
  Definition table_index (tb : tables) (hint : nat) (f : V) : outcome nat :=
    do t <- index tb hint;
    do keep <- (if nleb nv (fst t) f then do t1 <- index tb (hint + 1); Val (nleb nv f (fst t1)) else Val false);
    if keep then Val hint else if Nat.ltb (length tb) 3 then Panics else search (length tb) tb f 0 (length tb - 3).
  (* wavetable.rs:219-233 read and 235-249 read_simd, with at or at_simd *)
  Definition table_read (look : list V -> V -> outcome V) (tb : tables) (hint : nat) (f phase : V) : outcome (V * nat) :=
    do i <- table_index tb hint f;
    do t <- index tb i; do t1 <- index tb (i + 1);
    let w := clamp01 nv (delerp nv (fst t) (fst t1) f) in
    do a <- look (snd t1) phase; do t2 <- index tb (i + 2); do b <- look (snd t2) phase;
    Val ((one -. w) *. a +. w *. b, i).

  (* wavetable.rs:256-272 WaveSynth, with the table outside *)
  Record synth := mkSynth { sy_phase : V; sy_hash : N; sy_init : option V; sy_hint : nat; sy_sr : V; sy_sd : V }.
  (* wavetable.rs:256-272 *)
  Definition synth_new (sr : V) : synth := mkSynth (n0 nv) 0 None 0 sr (one /. sr).
  (* wavetable.rs:300-305 reset; rnd converts rnd1 of the hash *)
  Variable rnd : N -> V.
  (* wavetable.rs:300-305 *)
  Definition synth_start (s : synth) : V := match sy_init s with Some p => p | None => rnd (sy_hash s) end.
  (* wavetable.rs:300-305 *)
  Definition synth_reset (s : synth) : synth := mkSynth (synth_start s) (sy_hash s) (sy_init s) (sy_hint s) (sy_sr s) (sy_sd s).
  (* wavetable.rs:307-310 *)
  Definition synth_set_sr (s : synth) (sr : V) : synth := mkSynth (sy_phase s) (sy_hash s) (sy_init s) (sy_hint s) sr (one /. sr).
  (* wavetable.rs:312-315 *)
  Definition synth_set_hash (s : synth) (h : N) : synth := synth_reset (mkSynth (sy_phase s) h (sy_init s) (sy_hint s) (sy_sr s) (sy_sd s)).
  (* wavetable.rs:358-362 *)
  Definition synth_set_phase (s : synth) (p : V) : synth := mkSynth (sy_phase s) (sy_hash s) (Some p) (sy_hint s) (sy_sr s) (sy_sd s).
  (* wavetable.rs:300-305 *)
  Definition synth_at (s : synth) (p : V) (hint : nat) : synth := mkSynth p (sy_hash s) (sy_init s) hint (sy_sr s) (sy_sd s).
  (* wavetable.rs:318-332 tick, with both outputs *)
  Definition synth_tick (tb : tables) (s : synth) (f : V) : outcome (synth * (V * V)) :=
    let p := wrap nv (sy_phase s +. f *. sy_sd s) in
    do (y, hint) <- table_read at_ tb (sy_hint s) (nabs nv f) p; Val (synth_at s p hint, (y, p)).
  (* wavetable.rs:318-332 *)
  Fixpoint synth_run (tb : tables) (s : synth) (l : list V) : outcome (synth * list (V * V)) :=
    match l with [] => Val (s, []) | f :: l => do (s, y) <- synth_tick tb s f; do (s, o) <- synth_run tb s l; Val (s, y :: o) end.
  (* lib.rs:326-328, floor of a SIMD vector: (x - 0.4999999).round(), with round of wide, to the nearest integer and to the even one of two *)
  Definition round_even (x : V) : Z :=
    let k := nfloor nv x in let d := x -. #k in
    if nltb nv d (one /. #2) then k else if nltb nv (one /. #2) d then (k + 1)%Z else if Z.even k then k else (k + 1)%Z.
  (* lib.rs:326-328 *)
  Definition floor_simd (x : V) : V := #(round_even (x -. #4999999 /. #10000000)).
  (* wavetable.rs:340-344: the phases of one word *)
  Fixpoint word_phases (sd phase : V) (l : list V) : V * list V :=
    match l with [] => (phase, []) | f :: l => let p := phase +. f *. sd in let (e, o) := word_phases sd p l in (e, p :: o) end.
  (* wavetable.rs:345-351: the samples of one word; the table is chosen by its first frequency *)
  Fixpoint word_reads (tb : tables) (hint : nat) (f : V) (ps : list V) : outcome (list (V * V) * nat) :=
    match ps with
    | [] => Val ([], hint)
    | p :: ps => let p := p -. floor_simd p in do (y, h) <- table_read at_simd tb hint f p; do (o, _) <- word_reads tb hint f ps; Val ((y, p) :: o, h)
    end.
  (* wavetable.rs:338-352: n words *)
  Fixpoint synth_words (tb : tables) (n : nat) (sd phase : V) (hint : nat) (l : list V) : outcome (V * nat * list (V * V)) :=
    match n with
    | O => Val (phase, hint, [])
    | S n =>
        let (phase, ps) := word_phases sd phase (firstn 8 l) in
        do (o, hint) <- word_reads tb hint (nabs nv (hd (n0 nv) l)) ps;
        do (e, o') <- synth_words tb n sd phase hint (skipn 8 l); Val (e, o ++ o')
    end.
  (* wavetable.rs:335-356 process, for a block of size length l *)
  Definition synth_process (tb : tables) (s : synth) (l : list V) : outcome (synth * list (V * V)) :=
    let n := length l / 8 in
    do (e, o) <- synth_words tb n (sy_sd s) (sy_phase s) (sy_hint s) l;
    do (s, o') <- synth_run tb (synth_at s (wrap nv (fst e)) (snd e)) (skipn (8 * n) l); Val (s, o ++ o').

  (* wavetable.rs:369-380 PhaseSynth *)
  Record psynth := mkPsynth { ps_phase : V; ps_ready : bool; ps_hint : nat; ps_sr : V }.
  (* wavetable.rs:383-391 *)
  Definition psynth_new (sr : V) : psynth := mkPsynth (n0 nv) false 0 sr.
  (* wavetable.rs:399-401 *)
  Definition psynth_reset (s : psynth) : psynth := mkPsynth (ps_phase s) false (ps_hint s) (ps_sr s).
  (* wavetable.rs:408-435 tick *)
  Definition psynth_tick (tb : tables) (s : psynth) (x : V) : outcome (psynth * V) :=
    let p := wrap nv x in
    let delta := if ps_ready s then nmin nv (nabs nv (p -. ps_phase s)) (nmin nv (nabs nv (p -. one -. ps_phase s)) (nabs nv (p +. one -. ps_phase s))) else one /. #2 in
    do (y, hint) <- table_read at_ tb (ps_hint s) (delta *. ps_sr s) p; Val (mkPsynth p true hint (ps_sr s), y).
  (* wavetable.rs:408-435 *)
  Fixpoint psynth_run (tb : tables) (s : psynth) (l : list V) : outcome (psynth * list V) :=
    match l with [] => Val (s, []) | x :: l => do (s, y) <- psynth_tick tb s x; do (s, o) <- psynth_run tb s l; Val (s, y :: o) end.
  (* wavetable.rs:442-483 PulseWave: the graph of its constructor, ticked. Inputs are frequency and width. *)
  Definition pulsewave_tick (tb : tables) (s : synth * psynth) (i : V * V) : outcome (synth * psynth * V) :=
    do (s1, y) <- synth_tick tb (fst s) (fst i);
    do (s2, z) <- psynth_tick tb (snd s) (snd y +. snd i);
    Val (s1, s2, fst y -. z).
End Read.

(* Construction *)
Section Build.
  Context {F V : Type} (nf : num F) (nv : num V) (widen : V -> F) (narrow : F -> V).
  Variables (sin_ cos_ : V -> V) (pow_ : F -> F -> F) (tau : F).
  (* fft.rs:51-100 inverse_fft of a power of two complex numbers *)
  Variable ifft : list (V * V) -> list (V * V).
  Local Infix "*." := (nmul nf) (at level 40, left associativity).
  Local Infix "/." := (ndiv nf) (at level 40, left associativity).
  (* wavetable.rs:58: usize::next_power_of_two *)
  Definition next_pow2 (n : nat) : nat := 2 ^ Nat.log2_up n.
  (* wavetable.rs:53 *)
  Definition harmonics (pitch : F) : nat := Z.to_nat (nfloor nf (nofZ nf 22000 /. pitch)).
  (* wavetable.rs:55-58 *)
  Definition wave_length (h : nat) : nat := Nat.min (Nat.max (next_pow2 (4 * h)) 32) (2 ^ 13).
  (* wavetable.rs:63-68: the weight of partial i *)
  Definition weight (amplitude : F -> nat -> F) (pitch : F) (i : nat) : F :=
    amplitude pitch i *. smooth5 nf (clamp01 nf (delerp nf (nofZ nf 22000) (nofZ nf 20000) (pitch *. nofZ nf (Z.of_nat i)))).
  (* wavetable.rs:62-73: insert partials is into the spectrum; Complex32::from_polar *)
  Fixpoint insert (phase : nat -> F) (amplitude : F -> nat -> F) (pitch : F) (is : list nat) (a : list (V * V)) : outcome (list (V * V)) :=
    match is with
    | [] => Val a
    | i :: is =>
        let w := weight amplitude pitch i in
        if nltb nf (n0 nf) w then
          let t := narrow (tau *. phase i) in
          if Nat.ltb i (length a) then insert phase amplitude pitch is (upd a i (nmul nv (narrow w) (cos_ t), nmul nv (narrow w) (sin_ t))) else Panics
        else insert phase amplitude pitch is a
    end.
  (* wavetable.rs:44-79 make_wave *)
  Definition make_wave (pitch : F) (phase : nat -> F) (amplitude : F -> nat -> F) : outcome (list V) :=
    let h := harmonics pitch in let n := wave_length h in
    do a <- insert phase amplitude pitch (seq 1 h) (repeat (n0 nv, n0 nv) n);
    Val (map (fun x => nmul nv (snd x) (nofZ nv (Z.of_nat n))) (ifft a)).
  (* wavetable.rs:108-113: the loop over pitches; fuel bounds the number of its rounds *)
  Fixpoint build (fuel : nat) (pitch factor max_pitch : F) (phase : nat -> F) (amplitude : F -> nat -> F) : outcome (list (V * list V)) :=
    if nleb nf pitch max_pitch then
      match fuel with
      | O => Undefined
      | S fuel => do w <- make_wave pitch phase amplitude; do tb <- build fuel (pitch *. factor) factor max_pitch phase amplitude; Val ((narrow pitch, w) :: tb)
      end
    else Val [].
  (* wavetable.rs:110: the largest absolute value so far *)
  Definition largest (tb : list (V * list V)) : V := fold_left (fun m t => fold_left (fun m x => nmax nv m (nabs nv x)) (snd t) m) tb (n0 nv).
  (* wavetable.rs:114-121 *)
  Definition normalize (tb : list (V * list V)) : list (V * list V) :=
    let m := largest tb in
    if nltb nv (n0 nv) m then map (fun t => (fst t, map (fun x => nmul nv x (ndiv nv (n1 nv) m)) (snd t))) tb else tb.
  (* wavetable.rs:93-123 Wavetable::new *)
  Definition table_new (fuel : nat) (min_pitch max_pitch per_octave : F) (phase : nat -> F) (amplitude : F -> nat -> F) : outcome (list (V * list V)) :=
    do tb <- build fuel min_pitch (pow_ (nofZ nf 2) (n1 nf /. per_octave)) max_pitch phase amplitude; Val (normalize tb).
  (* wavetable.rs:132-150 from_wave; rfft is fft.rs:10-29 real_fft, which gives half as many complex numbers; arg and norm are those of Complex32 *)
  Variables (rfft : list V -> list (V * V)) (arg norm : V * V -> V).
  (* wavetable.rs:132-150 *)
  Definition wave_phase (spectrum : list (V * V)) (i : nat) : F := match nth_error spectrum i with Some x => widen (arg x) /. tau | None => n0 nf end.
  (* wavetable.rs:132-150 *)
  Definition wave_amplitude (spectrum : list (V * V)) (_ : F) (i : nat) : F := match nth_error spectrum i with Some x => widen (norm x) | None => n0 nf end.
  (* wavetable.rs:132-150 *)
  Definition from_wave (fuel : nat) (min_pitch max_pitch per_octave : F) (wave : list V) : outcome (list (V * list V)) :=
    table_new fuel min_pitch max_pitch per_octave (wave_phase (rfft wave)) (wave_amplitude (rfft wave)).
End Build.
(* wavetable.rs:501-635: phases and relative amplitudes of the partials of the named tables, which all have pitches from 20 to 20000 Hz with 4 tables per octave *)
Section Named.
  Context {F : Type} (nf : num F).
  Notation one := (n1 nf).
  Notation "# z" := (nofZ nf z) (at level 1).
  Local Infix "/." := (ndiv nf) (at level 40, left associativity).
  (* wavetable.rs:501-555 *)
  Definition half_if (b : bool) : F := if b then one /. #2 else n0 nf.
  (* wavetable.rs:501-555 *)
  Definition inv (n : nat) : F := one /. #(Z.of_nat n).
  (* wavetable.rs:501-516 *)
  Definition saw_phase (i : nat) : F := half_if (Nat.even i).
  (* wavetable.rs:501-516 *)
  Definition saw_amplitude (_ : F) (i : nat) : F := inv i.
  (* wavetable.rs:518-532 *)
  Definition square_phase (_ : nat) : F := n0 nf.
  (* wavetable.rs:518-532 *)
  Definition square_amplitude (_ : F) (i : nat) : F := if Nat.odd i then inv i else n0 nf.
  (* wavetable.rs:534-555 *)
  Definition triangle_phase (i : nat) : F := half_if (Nat.eqb (Nat.modulo i 4) 3).
  (* wavetable.rs:534-555 *)
  Definition triangle_amplitude (_ : F) (i : nat) : F := if Nat.odd i then inv (i * i) else n0 nf.
End Named.
