(* Shared variables, timers and atomic wavetables: /repo/src/shared.rs. No proofs here. V is f32, T is f64; narrow is `as f32`. *)
From Verif Require Export TableModel DelayModel BufModel.
Local Open Scope nat_scope.

(* shared.rs:24-41 *)
Definition put {A} (f : nat -> A) (k : nat) (a : A) : nat -> A := fun j => if Nat.eqb j k then a else f j.

Section Memory.
  Context {V T : Type} (nt : num T) (zero : V) (narrow : T -> V) (default_sr : T).
  (* shared.rs:190-196 Timer; th_cell is the atomic number it shares *)
  Record timer := mkTimer { th_cell : nat; th_time : T; th_sd : T }.
  (* shared.rs:46-48, 192-196: All atomic numbers, by name, and all timers, by name. Shared, Var and VarFn hold nothing but a reference to an atomic number and, in VarFn, a function. *)
  Record memory := mkMem { m_cells : nat -> V; m_timers : nat -> option timer }.

  (* shared.rs:46-246: What threads do. Every call makes one access to one atomic number, so it takes effect at once; all accesses are relaxed,
     so the order of the list is, for each number, the order in which accesses to it take place. *)
  Inductive act :=
  | AStore (c : nat) (v : V)                                                         (* Shared::new, set, set_value, Var::set_value *)
  | ALoad (c : nat)                                                                  (* Shared::value, Var::value *)
  | ATick (c : nat) | ABlock (c size : nat) (out : list (list V))                     (* Var *)
  | AFnTick (c : nat) (f : V -> list V) | AFnBlock (c : nat) (f : V -> list V) (size : nat) (out : list (list V))  (* VarFn *)
  | ATimer (k c : nat) | AClone (k j : nat)                                          (* Timer: new; j is a clone of k *)
  | ATimerTick (k : nat) | ATimerBlock (k size : nat) | AReset (k : nat) | ARate (k : nat) (sr : T).
  (* shared.rs:46-246 *)
  Inductive result := RNothing | RValue (v : V) | RFrame (o : list V) | RBuf (o : list (list V)).

  (* shared.rs:32-41 store and get_stored *)
  Definition store (m : memory) (c : nat) (v : V) : memory := mkMem (put (m_cells m) c v) (m_timers m).
  (* shared.rs:32-41 *)
  Definition set_timer (m : memory) (k : nat) (t : timer) : memory := mkMem (m_cells m) (put (m_timers m) k (Some t)).
  (* shared.rs:116-120 Var::tick *)
  Definition var_tick (m : memory) (c : nat) : list V := [m_cells m c].
  (* shared.rs:122-125 Var::process *)
  Definition var_process (m : memory) (c size : nat) (out : list (list V)) : list (list V) :=
    let v := m_cells m c in upd out 0 (write_simd zero size (fun _ => v) (nth 0 out [])).
  (* shared.rs:171-174 VarFn::tick *)
  Definition varfn_tick (m : memory) (c : nat) (f : V -> list V) : list V := f (m_cells m c).
  (* shared.rs:176-182 VarFn::process; the number of outputs is that of the frame *)
  Definition varfn_process (m : memory) (c : nat) (f : V -> list V) (size : nat) (out : list (list V)) : list (list V) :=
    let frame := f (m_cells m c) in
    fold_left (fun out ch => upd out ch (write_simd zero size (fun _ => nth ch frame zero) (nth ch out []))) (seq 0 (length frame)) out.
  (* shared.rs:199-207 Timer::new *)
  Definition timer_new (m : memory) (k c : nat) : memory :=
    set_timer (store m c zero) k (mkTimer c (n0 nt) (ndiv nt (n1 nt) default_sr)).
  (* shared.rs:215-218 Timer::reset *)
  Definition timer_reset (m : memory) (k : nat) (t : timer) : memory :=
    store (set_timer m k (mkTimer (th_cell t) (n0 nt) (th_sd t))) (th_cell t) zero.
  (* shared.rs:220-222 Timer::set_sample_rate *)
  Definition timer_rate (m : memory) (k : nat) (t : timer) (sr : T) : memory :=
    set_timer m k (mkTimer (th_cell t) (th_time t) (ndiv nt (n1 nt) sr)).
  (* shared.rs:220-222 *)
  Definition timer_at (m : memory) (k : nat) (t : timer) (time : T) : memory :=
    store (set_timer m k (mkTimer (th_cell t) time (th_sd t))) (th_cell t) (narrow time).
  (* shared.rs:224-229 Timer::tick *)
  Definition timer_tick (m : memory) (k : nat) (t : timer) : memory := timer_at m k t (nadd nt (th_time t) (th_sd t)).
  (* shared.rs:231-234 Timer::process *)
  Definition timer_process (m : memory) (k : nat) (t : timer) (size : nat) : memory :=
    timer_at m k t (nadd nt (th_time t) (nmul nt (nofZ nt (Z.of_nat size)) (th_sd t))).

  (* shared.rs:198-246: There is no way to call a timer that has not been made; here such calls do nothing. *)
  Definition with_timer (m : memory) (k : nat) (f : timer -> memory) : memory := match m_timers m k with Some t => f t | None => m end.
  (* shared.rs:46-246 *)
  Definition act_step (m : memory) (a : act) : memory * result :=
    match a with
    | AStore c v => (store m c v, RNothing)
    | ALoad c => (m, RValue (m_cells m c))
    | ATick c => (m, RFrame (var_tick m c))
    | ABlock c size out => (m, RBuf (var_process m c size out))
    | AFnTick c f => (m, RFrame (varfn_tick m c f))
    | AFnBlock c f size out => (m, RBuf (varfn_process m c f size out))
    | ATimer k c => (timer_new m k c, RNothing)
    | AClone k j => (with_timer m k (fun t => set_timer m j t), RNothing)
    | ATimerTick k => (with_timer m k (timer_tick m k), RNothing)
    | ATimerBlock k size => (with_timer m k (fun t => timer_process m k t size), RNothing)
    | AReset k => (with_timer m k (timer_reset m k), RNothing)
    | ARate k sr => (with_timer m k (fun t => timer_rate m k t sr), RNothing)
    end.
  (* shared.rs:46-246 *)
  Fixpoint act_run (m : memory) (l : list act) : memory * list result :=
    match l with [] => (m, []) | a :: l => let (m, r) := act_step m a in let (m, rs) := act_run m l in (m, r :: rs) end.
  (* shared.rs:52-56: nothing stored yet: an atomic number is made with a value (52-56), which is the first AStore *)
  Definition memory_new : memory := mkMem (fun _ => zero) (fun _ => None).
End Memory.
Arguments timer : clear implicits. Arguments memory : clear implicits. Arguments act : clear implicits. Arguments result : clear implicits.

Section Atomic.
  Context {V : Type} (nv : num V) (floor_ : V -> V).
  Local Infix "+." := (nadd nv) (at level 50, left associativity).
  Local Infix "-." := (nsub nv) (at level 50, left associativity).
  Local Infix "*." := (nmul nv) (at level 40, left associativity).
  Notation one := (n1 nv).
  Notation "# z" := (nofZ nv z) (at level 1).
  (* shared.rs:257: is_power_of_two of a usize *)
  Definition power_of_two (n : nat) : bool := Nat.eqb n (2 ^ Nat.log2 n).
  (* shared.rs:255-263 AtomicTable::new *)
  Definition atomic_new (wave : list V) : outcome (list V) := if power_of_two (length wave) then Val wave else Panics.
  (* shared.rs:270-279 at and set *)
  Definition atomic_at (t : list V) (i : nat) : outcome V := index t i.
  (* shared.rs:277-279 *)
  Definition atomic_set (t : list V) (i : nat) (v : V) : outcome (list V) := if Nat.ltb i (length t) then Val (upd t i v) else Panics.
  (* Reading is not atomic: other threads may store between the loads. t0, t1, ... are the contents of the table at the time of the
     first, second, ... load. Their lengths are the same, since no one changes it; n is that length. *)
  Section Loads.
    Variable n : Z.
    (* shared.rs:282-314 *)
    Definition mask (i : Z) : Z := Z.land i (n - 1).
    (* shared.rs:272-274 *)
    Definition load (t : list V) (i : Z) : outcome V := atomic_at t (Z.to_nat i).
    (* shared.rs:280-293 read_cubic; wrapping_sub(1) of usize is taken as subtraction, which is the same after masking *)
    Definition read_cubic (t0 t1 t2 t3 : list V) (phase : V) : outcome V :=
      let p := #n *. phase in
      do i <- unchecked_usize nv p;
      let w := p -. #i in
      let i0 := mask (i - 1) in let i1 := mask i in let i2 := mask (i1 + 1) in let i3 := mask (i1 + 2) in
      do a0 <- load t0 i0; do a1 <- load t1 i1; do a2 <- load t2 i2; do a3 <- load t3 i3; Val (spline nv a0 a1 a2 a3 w).
    (* shared.rs:294-305 read_linear *)
    Definition read_linear (t0 t1 : list V) (phase : V) : outcome V :=
      let p := #n *. phase in
      do i <- unchecked_usize nv p;
      let w := p -. #i in
      let i0 := mask i in let i1 := mask (i0 + 1) in
      do a0 <- load t0 i0; do a1 <- load t1 i1; Val (lerp nv a0 a1 w).
    (* shared.rs:306-314 read_nearest *)
    Definition read_nearest (t0 : list V) (phase : V) : outcome V :=
      let p := #n *. phase in
      do i <- unchecked_usize nv p; load t0 (mask i).
  End Loads.

  (* shared.rs:241-247 Interpolation *)
  Inductive interpolation := Nearest | Linear | Cubic.
  (* shared.rs:317-329 AtomicSynth, without its table *)
  Record asynth := mkASynth { as_phase : V; as_init : V; as_sd : V; as_mode : interpolation }.
  (* shared.rs:332-343 new; sr is DEFAULT_SR as f32 *)
  Definition asynth_new (sr : V) : asynth := mkASynth #0 #0 (ndiv nv one sr) Nearest.
  (* shared.rs:348-351 set_interpolation *)
  Definition asynth_mode (s : asynth) (m : interpolation) : asynth := mkASynth (as_phase s) (as_init s) (as_sd s) m.
  (* shared.rs:359-361 reset *)
  Definition asynth_reset (s : asynth) : asynth := mkASynth (as_init s) (as_init s) (as_sd s) (as_mode s).
  (* shared.rs:363-366 set_sample_rate, of the rate as f32 *)
  Definition asynth_rate (s : asynth) (sr : V) : asynth := mkASynth (as_phase s) (as_init s) (ndiv nv one sr) (as_mode s).
  (* shared.rs:368-371 set_hash; p is rnd1(hash) as f32 *)
  Definition asynth_hash (s : asynth) (p : V) : asynth := mkASynth p p (as_sd s) (as_mode s).
  (* shared.rs:373-385 tick: the phase and then the reading of the table *)
  Definition asynth_advance (s : asynth) (frequency : V) : asynth :=
    let phase := as_phase s +. frequency *. as_sd s in
    mkASynth (phase -. floor_ phase) (as_init s) (as_sd s) (as_mode s).
  (* shared.rs:373-385 *)
  Definition asynth_tick (n : Z) (ts : list V * list V * list V * list V) (s : asynth) (frequency : V) : asynth * outcome V :=
    let '(t0, t1, t2, t3) := ts in
    let s := asynth_advance s frequency in
    (s, match as_mode s with
        | Nearest => read_nearest n t0 (as_phase s)
        | Linear => read_linear n t0 t1 (as_phase s)
        | Cubic => read_cubic n t0 t1 t2 t3 (as_phase s)
        end).
  (* shared.rs:354-390: What can be done to a synthesizer. Each tick has an input and the contents of the table at its loads. *)
  Inductive synth_act := STick (frequency : V) (ts : list V * list V * list V * list V) | SReset | SRate (sr : V) | SHash (p : V) | SMode (m : interpolation).
  (* shared.rs:354-390 *)
  Definition synth_step (n : Z) (s : asynth) (a : synth_act) : asynth * list (outcome V) :=
    match a with
    | STick f ts => let (s, o) := asynth_tick n ts s f in (s, [o])
    | SReset => (asynth_reset s, []) | SRate sr => (asynth_rate s sr, []) | SHash p => (asynth_hash s p, []) | SMode m => (asynth_mode s m, [])
    end.
  (* shared.rs:354-390 *)
  Fixpoint asynth_run (n : Z) (s : asynth) (l : list synth_act) : asynth * list (outcome V) :=
    match l with [] => (s, []) | a :: l => let (s, o) := synth_step n s a in let (s, os) := asynth_run n s l in (s, o ++ os) end.
End Atomic.
Arguments asynth : clear implicits. Arguments synth_act : clear implicits.
