(* When all units of a network run at its sample rate. No proofs here. *)
From Verif Require Export NetRateModel.

Section NetRateSpec.
  Context {F P U : Type}.
  Variable nm : num F.
  Variable at_ : fade -> F -> F.
  Variable ops : unit_ops F P U.
  Variable uping : bool -> U -> N -> U * N.
  Variable ahash : N -> N -> N.
  Variable dummy : nat -> nat -> U.
  Variable urate : U -> F -> U.
  Variable narrow : F -> F.
  Variable default_sr : F.
  Variable rate_of : U -> F.           (* the sample rate at which a unit runs *)
  Notation rnet := (rnet F U).

  (* a unit runs at the rate it was given last: nothing else changes it *)
  Record rate_laws : Prop := {
    rl_rate : forall u sr, rate_of (urate u sr) = sr;
    rl_tick : forall u i, rate_of (fst (u_tick ops u i)) = rate_of u;
    rl_process : forall u size inb out, rate_of (fst (u_process ops u size inb out)) = rate_of u;
    rl_set : forall u s, rate_of (u_set ops u s) = rate_of u;
    rl_reset : forall u, rate_of (u_reset ops u) = rate_of u;
    rl_ping : forall b u h, rate_of (fst (uping b u h)) = rate_of u
  }.
  (* the units of a vertex: the one that plays, the one that is faded in, and the one that waits *)
  Definition units_of (x : slotx F U) : list U :=
    x_unit x :: match x_next x with Some e => [ed_unit e] | None => [] end ++ match x_latest x with Some e => [ed_unit e] | None => [] end.
  Definition at_rate (r : F) (x : slotx F U) : Prop := Forall (fun u => rate_of u = r) (units_of x).
  Definition in_tune (n : rnet) : Prop := Forall (fun v => at_rate (rn_rate n) (v_unit v)) (n_vertex (rn_net n)).
  (* nothing is being faded in *)
  Definition still (n : rnet) : Prop := Forall (fun v => x_next (v_unit v) = None /\ x_latest (v_unit v) = None) (n_vertex (rn_net n)).

  (* networks made by editing and playing, in which the sample rate is changed at times when nothing is faded in, and networks of the same sample rate are combined *)
  Inductive made : rnet -> Prop :=
  | m_new i o : made (rn_new narrow default_sr i o)
  | m_edit a n n' : made n -> rn_edit nm at_ ops uping ahash urate a n = Some n' -> made n'
  | m_crossfade id e n n' : made n -> rn_crossfade nm ops urate id e n = Some n' -> made n'
  | m_fade_in id e n n' : made n -> rn_fade_in nm at_ ops uping ahash dummy urate id e n = Some n' -> made n'
  | m_rate sr n n' : made n -> still n -> rn_set_rate nm uping ahash urate narrow sr n = Some n' -> made n'
  | m_thru n : made n -> made (rn_thru n)
  | m_pipe f n1 n2 n : made n1 -> made n2 -> rn_rate n1 = rn_rate n2 -> rn_pipe f n1 n2 = Some n -> made n
  | m_stack f n1 n2 n : made n1 -> made n2 -> rn_rate n1 = rn_rate n2 -> rn_stack f n1 n2 = Some n -> made n
  | m_branch f n1 n2 n : made n1 -> made n2 -> rn_rate n1 = rn_rate n2 -> rn_branch f n1 n2 = Some n -> made n
  | m_binop s f g b n1 n2 n : made n1 -> made n2 -> rn_rate n1 = rn_rate n2 -> rn_binop nm at_ ops urate s f g b n1 n2 = Some n -> made n.
End NetRateSpec.
