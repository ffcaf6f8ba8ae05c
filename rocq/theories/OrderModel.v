(* Node ordering, /repo/src/net.rs:857-917 Net::determine_order_in, on the connection structure alone.
   adj lists, for every vertex, the source vertices of its local inputs in channel order (one entry per Port::Local input).
   None is a panic: index out of bounds, underflow of the unplugged counter, or (excluded by the proofs) exhausted fuel. *)
From Verif Require Export Base.

Section Order.
  Variable adj : list (list nat).
  Notation n := (length adj).

  (* vertex.rs:17-51; net.rs:857-876: the fields Vertex::unplugged and Vertex::ordered of all vertices, and the order vector *)
  Record ostate := mkO { o_unplugged : list nat; o_ordered : list bool; o_order : list nat }.

  (* net.rs:865-868: reset; 870-876: count the consumers of each vertex *)
  Fixpoint count_edges (js : list nat) (cnt : list nat) : option (list nat) :=
    match js with
    | [] => Some cnt
    | j :: r => match nth_error cnt j with None => None | Some c => count_edges r (upd cnt j (S c)) end
    end.

  (* net.rs:883-884 and 896-897: mark as ordered and push *)
  Definition o_push (s : ostate) (j : nat) : ostate :=
    mkO (o_unplugged s) (upd (o_ordered s) j true) (o_order s ++ [j]).

  (* net.rs:878-889 propagate: the loop over the inputs js of a vertex. Recursion depth is bounded by fuel. *)
  Fixpoint propagate (fuel : nat) : list nat -> ostate -> option ostate :=
    fix go (js : list nat) (s : ostate) : option ostate :=
      match js with
      | [] => Some s
      | j :: r =>
          match nth_error (o_unplugged s) j with
          | None => None
          | Some O => None
          | Some (S c) =>
              let s1 := mkO (upd (o_unplugged s) j c) (o_ordered s) (o_order s) in
              if Nat.eqb c 0 then
                match fuel with
                | O => None
                | S f => match propagate f (nth j adj []) (o_push s1 j) with
                         | None => None
                         | Some s2 => go r s2
                         end
                end
              else go r s1
          end
      end.

  (* net.rs:891-900: the loop over all vertices *)
  Fixpoint order_loop (is : list nat) (s : ostate) : option ostate :=
    match is with
    | [] => Some s
    | i :: r =>
        if nth i (o_ordered s) false then order_loop r s
        else if Nat.eqb (nth i (o_unplugged s) 0) 0 then
          match propagate n (nth i adj []) (o_push s i) with
          | None => None
          | Some s' => order_loop r s'
          end
        else order_loop r s
    end.

  (* net.rs:857-917: the final order and whether it is free of cycles *)
  Definition determine_order_in : option (list nat * bool) :=
    match count_edges (concat adj) (repeat 0 n) with
    | None => None
    | Some cnt =>
        match order_loop (seq 0 n) (mkO cnt (repeat false n) []) with
        | None => None
        | Some s =>
            if Nat.ltb (length (o_order s)) n then
              let rest := filter (fun i => negb (nth i (o_ordered s) false)) (seq 0 n) in
              Some (rev (o_order s ++ rest), false)
            else Some (rev (o_order s), true)
        end
    end.
End Order.
