(* Memory layout of audio buffers: /repo/src/buffer.rs. No proofs here.
   A SIMD word (F32x) is the list of its 8 lanes, memory the list of the words of a buffer. A is the type of samples, add_ its addition,
   zero the sample 0.0. None is a panic. debug says whether debug assertions are compiled in.
   SIMD_C = 3, SIMD_S = 3, SIMD_M = 7, SIMD_LEN = 8, MAX_BUFFER_SIZE = 64 (/repo/src/lib.rs:37-79). *)
From Verif Require Export Base BufModel.

Section Layout.
  Context {A : Type}.
  Variables (debug : bool) (zero : A) (add_ : A -> A -> A).
  Notation word := (list A).
  Notation mem := (list (list A)).
  (* buffer.rs:43-47 channels: len() >> SIMD_C *)
  Definition channels (b : mem) : nat := Nat.shiftr (length b) 3.
  (* buffer.rs:50-102: debug_assert! *)
  Definition asserts {X} (c : bool) (x : option X) : option X := if debug && negb c then None else x.
  (* buffer.rs:30-60: [from..to] *)
  Definition slice {X} (b : list X) (from to : nat) : option (list X) := if Nat.leb from to && Nat.leb to (length b) then Some (firstn (to - from) (skipn from b)) else None.
  (* buffer.rs:83-95: [i] = v *)
  Definition store {X} (b : list X) (i : nat) (v : X) : option (list X) := if Nat.ltb i (length b) then Some (upd b i v) else None.

  (* buffer.rs:97-102 at, 173-178 BufferRef::at, 222-227 BufferVec::at *)
  Definition at_ (b : mem) (c i : nat) : option word := asserts (Nat.ltb c (channels b)) (nth_error b (Nat.shiftl c 3 + i)).
  (* buffer.rs:111-116 at_f32 *)
  Definition at_f32 (b : mem) (c i : nat) : option A :=
    asserts (Nat.ltb c (channels b)) (match nth_error b (Nat.shiftl c 3 + Nat.shiftr i 3) with Some w => nth_error w (Nat.land i 7) | None => None end).
  (* buffer.rs:81-86 set *)
  Definition set_ (b : mem) (c i : nat) (v : word) : option mem := asserts (Nat.ltb c (channels b)) (store b (Nat.shiftl c 3 + i) v).
  (* buffer.rs:88-95 set_f32 *)
  Definition set_f32 (b : mem) (c i : nat) (v : A) : option mem :=
    asserts (Nat.ltb c (channels b))
      (match nth_error b (Nat.shiftl c 3 + Nat.shiftr i 3) with
       | Some w => match store w (Nat.land i 7) v with Some w' => store b (Nat.shiftl c 3 + Nat.shiftr i 3) w' | None => None end
       | None => None end).
  (* buffer.rs:118-122 add *)
  Definition add (b : mem) (c i : nat) (v : word) : option mem :=
    asserts (Nat.ltb c (channels b)) (match nth_error b (Nat.shiftl c 3 + i) with Some w => store b (Nat.shiftl c 3 + i) (zipw add_ w v) | None => None end).
  (* buffer.rs:49-54 channel *)
  Definition channel (b : mem) (c : nat) : option mem := asserts (Nat.ltb c (channels b)) (slice b (Nat.shiftl c 3) (Nat.shiftl (c + 1) 3)).
  (* buffer.rs:63-70 channel_f32: the 64 samples that start at the channel's first word *)
  Definition channel_f32 (b : mem) (c : nat) : option (list A) := asserts (Nat.ltb c (channels b)) (option_map (fun ws => firstn MAXB (concat ws)) (channel b c)).
  (* buffer.rs:72-79 channel_f32_mut()[i] = v: the words of the channel with the sample replaced *)
  Definition channel_f32_store (b : mem) (c i : nat) (v : A) : option mem :=
    asserts (Nat.ltb c (channels b))
      (match channel b c with
       | Some ws => match store (firstn MAXB (concat ws)) i v with
                    | Some flat => Some (firstn (Nat.shiftl c 3) b ++ slices 8 8 flat ++ skipn (Nat.shiftl (c + 1) 3) b)
                    | None => None end
       | None => None end).
  (* buffer.rs:28-35, 144-149 subset *)
  Definition subset (b : mem) (first n : nat) : option mem := asserts (Nat.leb (first + n) (channels b)) (slice b (Nat.shiftl first 3) (Nat.shiftl (first + n) 3)).
  (* buffer.rs:28-35 subset of a mutable buffer, on which f is called: f may panic; it cannot change the number of words *)
  Definition through_subset (b : mem) (first n : nat) (f : mem -> option mem) : option mem :=
    match subset b first n with
    | Some s => match f s with Some s' => Some (firstn (Nat.shiftl first 3) b ++ s' ++ skipn (Nat.shiftl (first + n) 3) b) | None => None end
    | None => None end.
  (* buffer.rs:196-201 BufferVec::new, 282-286 clear, 288-291 resize *)
  Definition vec_new (n : nat) : mem := repeat (repeat zero 8) (Nat.shiftl n 3).
  (* buffer.rs:284-286 *)
  Definition vec_clear (b : mem) : mem := repeat (repeat zero 8) (length b).
  (* buffer.rs:289-291 *)
  Definition vec_resize (b : mem) (n : nat) : mem := firstn (Nat.shiftl n 3) b ++ repeat (repeat zero 8) (Nat.shiftl n 3 - length b).
  (* buffer.rs:317-442 BufferArray: an array of channels of 8 words. at, at_f32, set, set_f32 index it by channel and then by word; the buffers
     that it lends are the whole array, whose channels are contiguous *)
  Definition arr_at (a : list mem) (c i : nat) : option word := match nth_error a c with Some ws => nth_error ws i | None => None end.
  (* buffer.rs:317-442 *)
  Definition arr_at_f32 (a : list mem) (c i : nat) : option A :=
    match nth_error a c with Some ws => match nth_error ws (Nat.shiftr i 3) with Some w => nth_error w (Nat.land i 7) | None => None end | None => None end.
  (* buffer.rs:317-442 *)
  Definition arr_set_f32 (a : list mem) (c i : nat) (v : A) : option (list mem) :=
    match nth_error a c with
    | Some ws => match nth_error ws (Nat.shiftr i 3) with
                 | Some w => match store w (Nat.land i 7) v with Some w' => match store ws (Nat.shiftr i 3) w' with Some ws' => store a c ws' | None => None end | None => None end
                 | None => None end
    | None => None end.
  (* buffer.rs:317-442 *)
  Definition arr_ref (a : list mem) : mem := concat a.
End Layout.
