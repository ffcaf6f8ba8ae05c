(* What a granular synthesizer should do, over the reals. *)
From Coq Require Import Reals.
From Verif Require Export GranModel.
Local Open Scope R_scope.

(* What its sequencer is told, newest first. *)
Inductive call (U : Type) := CPush (e : grain R U) | CTick | CBlock (size : nat) | CReset | CRate (sr : R).
Arguments CPush {U}. Arguments CTick {U}. Arguments CBlock {U}. Arguments CReset {U}. Arguments CRate {U}.
(* a sequencer that is told so, and its outputs *)
Section Replay.
  Context {U Sq Out : Type} (push : Sq -> grain R U -> Sq) (stick : Sq -> Sq * Out) (sprocess : nat -> Sq -> Sq * Out) (sreset : Sq -> Sq) (srate : R -> Sq -> Sq).
  Fixpoint replay (s : Sq) (l : list (call U)) : Sq * list Out :=
    match l with
    | [] => (s, [])
    | c :: l => let (s, o) := replay s l in
        match c with
        | CPush e => (push s e, o)
        | CTick => let (s, x) := stick s in (s, o ++ [x])
        | CBlock size => let (s, x) := sprocess size s in (s, o ++ [x])
        | CReset => (sreset s, o)
        | CRate sr => (srate sr s, o)
        end
    end.
End Replay.

(* what a sequencer is told in one operation: the new grains and then to play, or nothing but the operation *)
Definition told {U} (a : gop R) (new : list (grain R U)) : list (call U) :=
  match a with
  | GTick => CTick :: rev (map CPush new)
  | GBlock size => CBlock size :: rev (map CPush new)
  | GReset => [CReset]
  | GRate sr => [CRate sr]
  | GHash _ => []
  end.
(* the grains since the last reset, oldest first *)
Fixpoint recent {U} (l : list (call U)) : list (grain R U) := match l with [] => [] | CReset :: _ => [] | CPush e :: l => recent l ++ [e] | _ :: l => recent l end.
(* Each grain starts when the envelope of the one before in its voice sets in: they overlap by the length of the envelope. The first one starts at s; all those that start before `now` are there and no others. *)
Fixpoint tiles {U} (s now : R) (l : list (grain R U)) : Prop :=
  match l with [] => now <= s | e :: l => gr_start e = s /\ s < now /\ tiles (s + gr_length e - gr_envelope e) now l end.
Definition of_voice {U} (v : nat) (l : list (grain R U)) : list (grain R U) := filter (fun e => Nat.eqb (gr_voice e) v) l.
(* The voices divide the time from the first grain of the first voice to its second grain evenly. *)
Definition tiling {U} (voices : nat) (now : R) (l : list (grain R U)) : Prop :=
  match l with
  | [] => voices = 0%nat \/ now <= 0
  | e :: _ => gr_voice e = 0%nat /\ Forall (fun e => (gr_voice e < voices)%nat) l /\
      forall v, (v < voices)%nat -> tiles ((gr_length e - gr_envelope e) * INR v / INR voices) now (of_voice v l)
  end.

Notation gopR := (gop R).
(* sample rate and time since the last reset; the newest comes first *)
Fixpoint gran_rate (sr : R) (h : list gopR) : R := match h with [] => sr | GRate r :: _ => r | _ :: h => gran_rate sr h end.
Fixpoint gran_time (sr : R) (h : list gopR) : R :=
  match h with
  | [] => 0
  | GTick :: h => gran_time sr h + 1 / gran_rate sr h
  | GBlock size :: h => gran_time sr h + INR size / gran_rate sr h
  | GReset :: _ => 0
  | _ :: h => gran_time sr h
  end.
Definition gran_ok (a : gopR) : Prop := match a with GRate sr => 0 < sr | _ => True end.
(* no tick or block is longer than d *)
Fixpoint steps_within (d sr : R) (h : list gopR) : Prop :=
  match h with
  | [] => True
  | GTick :: h => 1 / gran_rate sr h <= d /\ steps_within d sr h
  | GBlock size :: h => INR size / gran_rate sr h <= d /\ steps_within d sr h
  | _ :: h => steps_within d sr h
  end.

Section Log.
  Context {U Rn : Type}.
  Variables (cos_ sin_ : R -> R) (tau : R) (rnd_f32 : Rn -> R * Rn) (rnd_u64 : Rn -> N * Rn) (rnd_from : N -> Rn).
  Variables (texture : R * R * R -> R * R * R) (ping : N -> U -> U) (generator : R -> R -> R -> R -> R -> R -> R * R * U).
  Variables (voices : nat) (beat_length : R) (beats_per_cycle : nat) (inner_radius outer_radius jitter : R).
  (* the synthesizer with a sequencer that only notes what it is told *)
  Definition log_run : nat -> granular R Rn (list (call U)) -> list gopR -> outcome (granular R Rn (list (call U)) * list unit) :=
    gran_run Rnum_ops cos_ sin_ tau rnd_f32 rnd_u64 rnd_from texture ping generator
      (fun l e => CPush e :: l) (fun l => (CTick :: l, tt)) (fun size l => (CBlock size :: l, tt)) (fun l => CReset :: l) (fun sr l => CRate sr :: l)
      voices beat_length beats_per_cycle inner_radius outer_radius jitter.
  Definition log_new (sr : R) (seed : N) : granular R Rn (list (call U)) := granular_new Rnum_ops rnd_from (fun l => CReset :: l) voices [] sr seed.
  (* envelopes are not negative and grains are longer than their envelopes, by d at least *)
  Definition generates (d : R) : Prop := forall t b v x y z, let '(len, env, _) := generator t b v x y z in 0 <= env /\ env + d <= len.
  (* the grain comes from the generator at its start and voice, at some point near the helix, with some hash *)
  Definition genuine (e : grain R U) : Prop := exists r1 r2 r3 h u,
    generate Rnum_ops generator voices beat_length (gr_voice e) (gr_start e) (texture (jittered Rnum_ops jitter (helix Rnum_ops cos_ sin_ tau voices beat_length beats_per_cycle inner_radius outer_radius (gr_voice e) (gr_start e)) r1 r2 r3))
    = (gr_length e, gr_envelope e, u) /\ gr_unit e = ping h u.
End Log.
(* when and how long *)
Definition times {U} (l : list (grain R U)) : list (R * R * R) := map (fun e => (gr_start e, gr_length e, gr_envelope e)) l.
(* the grains of a run, oldest first, computed on rational numbers: textures and hashes are such that a grain has its hash for a unit; the k-th random number is k *)
From Coq Require Import QArith.
Definition pushed (generator : Q -> Q * Q) (voices : nat) (jitter : Q) (l : list (gop Q)) : option (list (grain Q N)) :=
  match gran_run (Sq := list (grain Q N)) (Out := unit) Qnum_ops (fun x => x) (fun x => x) 6%Q (fun n : N => (Z.of_N n # 1, N.succ n)) (fun n : N => (n, N.succ n)) (fun n => n) (fun p => p) (fun h _ => h)
    (fun t _ _ _ _ _ => (generator t, 0%N)) (fun l e => l ++ [e]) (fun s => (s, tt)) (fun _ s => (s, tt)) (fun s => s) (fun _ s => s) voices 1%Q 4 1%Q 2%Q jitter 10
    (granular_new Qnum_ops (fun n => n) (fun s => s) voices [] 1%Q 0%N) l with Val (g, _) => Some (g_seq g) | _ => None end.
(* the seed in effect; the newest operation comes first *)
Fixpoint gran_seed (seed : N) (h : list gopR) : N := match h with [] => seed | GHash s :: _ => s | _ :: h => gran_seed seed h end.
