(* What the adapters should give. *)
From Verif Require Export AdaptModel Requests.
Section Spec.
  Context {A P U : Type}.
  Variables (zero : A) (ops : unit_ops A P U).
  (* a unit without inputs run in m blocks of 64, each written over the last: the unit, the last block and all samples *)
  Fixpoint block_stream (m : nat) (u : U) (b : list (list A)) : U * list (list A) * list (list A) :=
    match m with
    | O => (u, b, [])
    | S m' => let (u1, b1) := u_process ops u MAXB [] b in let '(u2, b2, l) := block_stream m' u1 b1 in (u2, b2, frames zero b1 MAXB ++ l)
    end.
  (* one call of process_big: the size, the input and what the output holds before *)
  Definition big_ok (ins outs : nat) (c : nat * list (list A) * list (list A)) : Prop :=
    let '(size, input, output) := c in length input = ins /\ length output = outs /\ Forall (fun ch => size <= length ch) input /\ Forall (fun ch => size <= length ch) output.
  Fixpoint big_calls (s : big A U) (cs : list (nat * list (list A) * list (list A))) : option (big A U * list (list (list A))) :=
    match cs with
    | [] => Some (s, [])
    | (size, input, output) :: r =>
        match process_big ops size s input output with
        | Some (s1, o) => match big_calls s1 r with Some (s2, os) => Some (s2, o :: os) | None => None end
        | None => None
        end
    end.
  (* what happens to a listener: a setting is sent, or samples are asked for *)
  Inductive event := Sent (p : setting P) | Asked (r : request (A := A)).
  Fixpoint listen_run (l : listener P U) (es : list event) : listener P U * list (list A) :=
    match es with
    | [] => (l, [])
    | Sent p :: es' => listen_run (fst (try_send l p)) es'
    | Asked r :: es' => let (l1, o) := serve zero (listener_tick ops) (listener_process ops) l r in let (l2, os) := listen_run l1 es' in (l2, o ++ os)
    end.
  Definition asked (es : list event) : list request := flat_map (fun e => match e with Sent _ => [] | Asked r => [r] end) es.
  Fixpoint sends (l : listener P U) (ps : list (setting P)) : listener P U * list bool :=
    match ps with [] => (l, []) | p :: r => let (l1, b) := try_send l p in let (l2, bs) := sends l1 r in (l2, b :: bs) end.
End Spec.
Arguments Sent {A P}. Arguments Asked {A P}.
