(* Granular synthesizer: /repo/src/granular.rs. No proofs here. F stands for f32 and f64 alike: conversions between them are left out.
   Textures, random number generators, generator functions, units and the sequencer that plays the grains are arbitrary. *)
From Verif Require Export TableModel DelayModel.
Local Open Scope nat_scope.

(* granular.rs:128-167: A grain as given to Sequencer::push_duration (159-166); both fade times are the envelope length and fades are of equal power.
   gr_voice is not given to the sequencer; it is here to tell grains apart. *)
Record grain (F U : Type) := mkGrain { gr_voice : nat; gr_start : F; gr_length : F; gr_envelope : F; gr_unit : U }.
Arguments mkGrain {F U}. Arguments gr_voice {F U}. Arguments gr_start {F U}. Arguments gr_length {F U}. Arguments gr_envelope {F U}. Arguments gr_unit {F U}.

Section Granular.
  Context {F U Rn Sq Out : Type} (nm : num F).
  Local Infix "+." := (nadd nm) (at level 50, left associativity).
  Local Infix "-." := (nsub nm) (at level 50, left associativity).
  Local Infix "*." := (nmul nm) (at level 40, left associativity).
  Local Infix "/." := (ndiv nm) (at level 40, left associativity).
  Notation one := (n1 nm).
  Notation "# z" := (nofZ nm z) (at level 1).
  Notation of_nat n := (nofZ nm (Z.of_nat n)).
  Notation vec := (F * F * F)%type.
  (* math functions, random numbers, texture, units *)
  Variables (cos_ sin_ : F -> F) (tau : F) (rnd_f32 : Rn -> F * Rn) (rnd_u64 : Rn -> N * Rn) (rnd_from : N -> Rn).
  Variables (texture : vec -> vec) (ping : N -> U -> U).
  (* the generator function f(t, b, v, x, y, z) *)
  Variable generator : F -> F -> F -> F -> F -> F -> F * F * U.
  (* the sequencer *)
  Variables (push : Sq -> grain F U -> Sq) (stick : Sq -> Sq * Out) (sprocess : nat -> Sq -> Sq * Out) (sreset : Sq -> Sq) (srate : F -> Sq -> Sq).
  (* granular.rs:30-40: what does not change; texture_origin is zero *)
  Variables (voices : nat) (beat_length : F) (beats_per_cycle : nat) (inner_radius outer_radius jitter : F).

  (* granular.rs:17-21 Voice, 26-45 Granular; g_next are the next_time of the voices *)
  Record granular := mkGran { g_next : list F; g_seq : Sq; g_rate : F; g_time : F; g_seed : N; g_rnd : Rn }.

  (* granular.rs:183-190 reset *)
  Definition granular_reset (g : granular) : granular :=
    mkGran (map (fun _ => #0) (g_next g)) (sreset (g_seq g)) (g_rate g) #0 (g_seed g) (rnd_from (g_seed g)).
  (* granular.rs:67-100 new, with a new sequencer and DEFAULT_SR *)
  Definition granular_new (s : Sq) (sr : F) (texture_seed : N) : granular :=
    granular_reset (mkGran (repeat #0 voices) s sr #0 texture_seed (rnd_from texture_seed)).

  (* granular.rs:111-115, 132-136: the place of a voice in 0...1 *)
  Definition voice_place (voice : nat) : F := if Nat.eqb voices 1 then one /. #2 else of_nat voice /. of_nat (voices - 1).
  (* granular.rs:103-125 helix_position, without and with jitter *)
  Definition helix (voice : nat) (time : F) : vec :=
    let cycle_length := beat_length *. of_nat beats_per_cycle in
    let cycle := #(nfloor nm (time /. cycle_length)) in
    let cycle_start := cycle *. cycle_length in
    let cycle_d := (time -. cycle_start) /. cycle_length in
    let z := cycle_d *. one in
    let beat := cycle_d *. of_nat beats_per_cycle in
    let r := lerp nm inner_radius outer_radius (voice_place voice) in
    (cos_ (beat *. tau) *. r, sin_ (beat *. tau) *. r, z).
  (* granular.rs:103-125 *)
  Definition jittered (p : vec) (r1 r2 r3 : F) : vec :=
    let '(x, y, z) := p in let at_ a r := #0 +. a +. (r *. #2 -. one) *. jitter in (at_ x r1, at_ y r2, at_ z r3).
  (* granular.rs:103-125 *)
  Definition helix_position (rn : Rn) (voice : nat) (time : F) : vec * Rn :=
    let (r1, rn) := rnd_f32 rn in let (r2, rn) := rnd_f32 rn in let (r3, rn) := rnd_f32 rn in (jittered (helix voice time) r1 r2 r3, rn).
  (* granular.rs:103-160; math.rs:130-132 *)
  Definition clamp_ (lo hi x : F) : F := if nltb nm x lo then lo else if nltb nm hi x then hi else x.
  (* granular.rs:128-167; math.rs:142-144 *)
  Definition clamp11_ (x : F) : F := clamp_ (nneg nm one) one x.
  (* granular.rs:192-195 *)
  Definition equal (a b : F) : bool := nleb nm a b && nleb nm b a.
  (* granular.rs:137-144: the call of the generator *)
  Definition generate (voice : nat) (t : F) (v : vec) : F * F * U :=
    let '(x, y, z) := v in generator t (t /. beat_length) (voice_place voice *. #2 -. one) (clamp11_ x) (clamp11_ y) (clamp11_ z).
  (* granular.rs:147-155: the start times of the other voices, from the first grain *)
  Definition offsets (len env : F) (l : list F) : list F :=
    map (fun i => if Nat.eqb i 0 then nth 0 l #0 else (len -. env) *. of_nat i /. of_nat (length l)) (seq 0 (length l)).
  (* granular.rs:128-167 instantiate *)
  Definition instantiate (g : granular) (voice : nat) : outcome granular :=
    do t <- index (g_next g) voice;
    let (position, rn) := helix_position (g_rnd g) voice t in
    let '(len, env, u) := generate voice t (texture position) in
    if negb (nleb nm #0 env) then Panics else
    if negb (nltb nm env len) then Panics else
    do l <- (if equal t #0 then (if Nat.eqb voice 0 then Val (offsets len env (g_next g)) else Panics) else Val (g_next g));
    let l := upd l voice (t +. len -. env) in
    let (h, rn) := rnd_u64 rn in
    Val (mkGran l (push (g_seq g) (mkGrain voice t len env (ping h u))) (g_rate g) (g_time g) (g_seed g) rn).
  (* granular.rs:172-174: the loop of one voice; Undefined when there is not enough fuel *)
  Fixpoint fill_voice (fuel : nat) (g : granular) (voice : nat) (before : F) : outcome granular :=
    do t <- index (g_next g) voice;
    if nltb nm t before then match fuel with O => Undefined | S fuel => do g <- instantiate g voice; fill_voice fuel g voice before end
    else Val g.
  (* granular.rs:170-176 instantiate_voices *)
  Definition instantiate_voices (fuel : nat) (g : granular) (before : F) : outcome granular :=
    fold_left (fun o voice => do g <- o; fill_voice fuel g voice before) (seq 0 voices) (Val g).

  (* granular.rs:170-176 *)
  Definition g_at (g : granular) (t : F) : granular := mkGran (g_next g) (g_seq g) (g_rate g) t (g_seed g) (g_rnd g).
  (* granular.rs:170-176 *)
  Definition g_play (g : granular) (f : Sq -> Sq * Out) : granular * Out :=
    let (s, o) := f (g_seq g) in (mkGran (g_next g) s (g_rate g) (g_time g) (g_seed g) (g_rnd g), o).
  (* granular.rs:197-201 tick *)
  Definition granular_tick (fuel : nat) (g : granular) : outcome (granular * Out) :=
    let g := g_at g (g_time g +. one /. g_rate g) in
    do g <- instantiate_voices fuel g (g_time g); Val (g_play g stick).
  (* granular.rs:203-207 process *)
  Definition granular_process (fuel size : nat) (g : granular) : outcome (granular * Out) :=
    let g := g_at g (g_time g +. of_nat size /. g_rate g) in
    do g <- instantiate_voices fuel g (g_time g); Val (g_play g (sprocess size)).
  (* granular.rs:192-195 set_sample_rate *)
  Definition granular_rate (g : granular) (sr : F) : granular := mkGran (g_next g) (srate sr (g_seq g)) sr (g_time g) (g_seed g) (g_rnd g).
  (* granular.rs:214-217 set_hash *)
  Definition granular_hash (g : granular) (h : N) : granular := mkGran (g_next g) (g_seq g) (g_rate g) (g_time g) h (rnd_from h).

  (* granular.rs:183-217 *)
  Inductive gop := GTick | GBlock (size : nat) | GReset | GRate (sr : F) | GHash (h : N).
  (* granular.rs:183-217 *)
  Definition gran_step (fuel : nat) (g : granular) (a : gop) : outcome (granular * list Out) :=
    match a with
    | GTick => do (g, o) <- granular_tick fuel g; Val (g, [o])
    | GBlock size => do (g, o) <- granular_process fuel size g; Val (g, [o])
    | GReset => Val (granular_reset g, [])
    | GRate sr => Val (granular_rate g sr, [])
    | GHash h => Val (granular_hash g h, [])
    end.
  (* granular.rs:183-217 *)
  Fixpoint gran_run (fuel : nat) (g : granular) (l : list gop) : outcome (granular * list Out) :=
    match l with
    | [] => Val (g, [])
    | a :: l => do (g, o) <- gran_step fuel g a; do (g, os) <- gran_run fuel g l; Val (g, o ++ os)
    end.
End Granular.
Arguments granular : clear implicits. Arguments gop : clear implicits.
