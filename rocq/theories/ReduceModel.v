(* Hierarchic reducer, /repo/src/dynamics.rs:59-121. *)
From Verif Require Export Base.

(* dynamics.rs:83: usize::next_power_of_two: the smallest power of two that is at least n (1 for n = 0). *)
Definition next_power_of_two (n : nat) : nat := 2 ^ Nat.log2_up n.

Section Reduce.
  Context {T : Type}.
  Variable zero : T.
  Variable binop : T -> T -> T.

  (* src/dynamics.rs:59-69 ReduceBuffer; the binop is the section variable. *)
  Record reduce_buffer := mkRB { rb_buffer : list T; rb_length : nat; rb_leaf_offset : nat }.

  (* src/dynamics.rs:82-94 ReduceBuffer::new *)
  Definition rb_new (length : nat) : reduce_buffer :=
    let leaf_offset := next_power_of_two length in
    mkRB (repeat zero (leaf_offset + length + Nat.land length 1)) length leaf_offset.

  (* src/dynamics.rs:102-104 total: None is the out-of-bounds panic. *)
  Definition rb_total (b : reduce_buffer) : option T := nth_error (rb_buffer b) 1.

  (* src/dynamics.rs:109-113: the while loop. None is an out-of-bounds panic or exhausted fuel. *)
  Fixpoint rb_up (fuel : nat) (buf : list T) (i : nat) : option (list T) :=
    match fuel with
    | O => None
    | S fuel' =>
        if Nat.ltb 1 i then
          match nth_error buf i, nth_error buf (Nat.lxor i 1) with
          | Some x, Some y =>
              let reduced := binop x y in
              let i := Nat.div2 i in
              if Nat.ltb i (length buf) then rb_up fuel' (upd buf i reduced) i else None
          | _, _ => None
          end
        else Some buf
    end.

  (* src/dynamics.rs:106-114 set *)
  Definition rb_set (b : reduce_buffer) (index : nat) (value : T) : option reduce_buffer :=
    let i := rb_leaf_offset b + index in
    if Nat.ltb i (length (rb_buffer b)) then
      match rb_up (S i) (upd (rb_buffer b) i value) i with
      | Some buf => Some (mkRB buf (rb_length b) (rb_leaf_offset b))
      | None => None
      end
    else None.

  (* src/dynamics.rs:116-120 clear *)
  Definition rb_clear (b : reduce_buffer) : reduce_buffer :=
    mkRB (map (fun _ => zero) (rb_buffer b)) (rb_length b) (rb_leaf_offset b).

  (* dynamics.rs:106-114: a sequence of set calls *)
  Fixpoint rb_sets (b : reduce_buffer) (ops : list (nat * T)) : option reduce_buffer :=
    match ops with
    | [] => Some b
    | (i, v) :: r => match rb_set b i v with Some b' => rb_sets b' r | None => None end
    end.
End Reduce.
Arguments reduce_buffer : clear implicits.
