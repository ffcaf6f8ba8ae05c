(* What a crossfade should do. *)
From Coq Require Import Reals.
From Verif Require Export FadeModel.
Local Open Scope R_scope.

Section Spec.
  Context {P U : Type}.
  Variable at_ : fade -> R -> R.
  Variable ops : unit_ops R P U.
  Variable sr : R.

  (* the crossfade of the frames a into the frames b over N samples, from its k-th sample on *)
  Definition mixed (f : fade) (N k : nat) (a b : list (list R)) : list (list R) :=
    map (fun j => if Nat.ltb (k + j) N
                  then zipw (fun x y => x * at_ f (1 - INR (k + j) / INR N) + y * at_ f (INR (k + j) / INR N)) (nth j a []) (nth j b [])
                  else nth j b []) (seq 0 (length b)).
  (* the frames a unit outputs by itself *)
  Definition alone (u : U) (ins : list (list R)) : list (list R) := snd (ticks (u_tick ops) u ins).
  Definition after (u : U) (ins : list (list R)) : U := fst (ticks (u_tick ops) u ins).

  (* x is in the middle of a crossfade of N samples, k of which are done, with nothing queued after it *)
  Definition fading (N k : nat) (e : nedit R U) (x : slotx R U) : Prop :=
    x_next x = Some e /\ x_latest x = None /\ ed_time e * sr = INR N /\ (k < N)%nat /\ x_phase x = INR k / INR N.
  (* the buffers and the arities fit *)
  Definition fits (x : slotx R U) : Prop :=
    shaped (u_outs ops (x_unit x)) (x_tmp x) /\
    forall e, x_next x = Some e -> u_ins ops (ed_unit e) = u_ins ops (x_unit x) /\ u_outs ops (ed_unit e) = u_outs ops (x_unit x).

  (* processing a list of blocks (size, input, previous contents of the output); the frames that come out *)
  Notation buf := (list (list R)).
  Fixpoint x_blocks (x : slotx R U) (bs : list (nat * buf * buf)) : slotx R U * list (list R) :=
    match bs with
    | [] => (x, [])
    | (size, inb, out) :: r =>
        let (x', out') := x_process Rnum_ops at_ ops sr x size inb out in
        let (x'', os) := x_blocks x' r in (x'', frames 0 out' size ++ os)
    end.
  Definition frames_in (bs : list (nat * buf * buf)) : list (list R) := concat (map (fun '(size, inb, _) => frames 0 inb size) bs).
  Definition fit_block (u : U) (b : nat * buf * buf) : Prop :=
    let '(size, inb, out) := b in (size <= MAXB)%nat /\ shaped (u_ins ops u) inb /\ shaped (u_outs ops u) out.
  (* the same state but for the scratch buffer *)
  Definition same_slot (x y : slotx R U) : Prop :=
    x_unit x = x_unit y /\ x_next x = x_next y /\ x_latest x = x_latest y /\ x_phase x = x_phase y.
End Spec.
