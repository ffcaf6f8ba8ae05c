(* What sample-and-hold is to do. *)
From Coq Require Import Reals Lra SpecFloat.
From Verif Require Export TuneModel FloatLink.
Local Open Scope R_scope.

(* Inputs are pairs of a sample and a frequency. The outputs fall into stretches: each stretch repeats the sample at its start, and it is the first stretch of n samples,
   sd seconds each, that is not shorter than a hold time. The hold time lies between (1 - v) / f and (1 + v) / f seconds, where f is the frequency at the start of the stretch;
   the random number of the stretch, rs 0 for the first, says where between them. The last stretch may be unfinished. *)
Inductive holding (v sd : R) : (nat -> R) -> list (R * R) -> list R -> Prop :=
| H_end rs : holding v sd rs [] []
| H_hold rs x f seg rest ys time : (1 - v) / f <= time <= (1 + v) / f -> time = (1 - v + 2 * v * rs O) / f ->
    INR (length seg) * sd < time \/ seg = [] -> rest = [] \/ time <= INR (S (length seg)) * sd ->
    holding v sd (fun k => rs (S k)) rest ys -> holding v sd rs ((x, f) :: seg ++ rest) (repeat x (S (length seg)) ++ ys).
(* the random numbers a generator gives, in order *)
Fixpoint draw {F G S X} (tl : tools F G S X) (g : G) (k : nat) : F :=
  match k with O => snd (tl_next tl g) | Datatypes.S k => draw tl (fst (tl_next tl g)) k end.
(* random numbers are in the unit interval *)
Definition random_ok {G S X} (tl : tools R G S X) : Prop := forall g, 0 <= snd (tl_next tl g) < 1.
(* the same for binary64 numbers *)
Definition random64 {G S X} (tl : tools spec_float G S X) : Prop := forall g, fin 53 1024 (snd (tl_next tl g)) /\ 0 <= real (snd (tl_next tl g)) < 1.
(* what is put into the node *)
Definition frames_of {F} (ins : list (F * F)) : list (act F) := map (fun p => ATick [fst p; snd p]) ins.
(* how many times the input was sampled in the first N samples, when the input at sample k is k *)
Definition samplings (out : nat -> R) (N : nat) : nat := length (filter (fun k => if Req_EM_T (out k) (INR k) then true else false) (seq 0 N)).
(* the input k at sample k, and a constant frequency *)
Definition ramp_in (f : R) (N : nat) : list (R * R) := map (fun k => (INR k, f)) (seq 0 N).
