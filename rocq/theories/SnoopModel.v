(* The snoop node (/repo/src/snoop.rs) and the ring node (/repo/src/ring.rs). No proofs here.
   A channel (thingbuf::mpsc::channel(capacity)) is the list of the values in it, the oldest first; each operation is one step.
   A is the sample type. *)
From Verif Require Export BufModel.

(* snoop.rs:134, 148: Sender::try_send: the value is refused if the channel is full *)
Definition try_send {X} (capacity : nat) (c : list X) (x : X) : list X * bool := if Nat.ltb (length c) capacity then (c ++ [x], true) else (c, false).
(* the capacity of the channels of snoop.rs:59 and slot.rs:38-39, 1024 *)
Definition CHANNEL : nat := 2 ^ 10.
(* snoop.rs:92; ring.rs:37: Receiver::try_recv *)
Definition try_recv {X} (c : list X) : option (X * list X) := match c with [] => None | x :: c' => Some (x, c') end.

Section Snoop.
  Context {A : Type}.
  Variable zero : A.
  (* snoop.rs:47-53 and 111-117; the receiver and the sender are the channel s_chan. total is a u64, here without a bound. *)
  Record front := mkFront { f_index : nat; f_total : nat; f_latest : list A }.
  (* snoop.rs:47-53 and 111-117 *)
  Record back := mkBack { b_index : nat; b_data : list A }.
  (* snoop.rs:47-53 and 111-117 *)
  Record snoop := mkSnoop { s_front : front; s_back : back; s_chan : list (list A) }.
  (* snoop.rs:58: usize::next_power_of_two, which takes 0 to 1 *)
  Definition next_power_of_two (n : nat) : nat := 2 ^ Nat.log2_up n.
  (* snoop.rs:57-72 new *)
  Definition snoop_new (capacity : nat) : snoop :=
    mkSnoop (mkFront 0 0 (repeat zero (next_power_of_two capacity))) (mkBack 0 (repeat zero MAXB)) [].
  (* snoop.rs:75-77 at. The indices are of type usize: an index over f_index + length - 1 panics in a debug build; None. *)
  Definition snoop_at (f : front) (index : nat) : option A :=
    let len := length (f_latest f) in
    if Nat.leb (f_index f + len) index then None else nth_error (f_latest f) (Nat.land (f_index f + len - index - 1) (len - 1)).
  (* snoop.rs:94-96: one sample is received *)
  Definition front_put (f : front) (x : A) : front :=
    mkFront (Nat.land (f_index f + 1) (length (f_latest f) - 1)) (f_total f + 1) (upd (f_latest f) (f_index f) x).
  (* snoop.rs:89-102 get *)
  Definition snoop_get (s : snoop) : snoop * option (list A) :=
    match try_recv (s_chan s) with
    | Some (b, c) => (mkSnoop (fold_left front_put b (s_front s)) (s_back s) c, Some b)
    | None => (s, None)
    end.
  (* snoop.rs:106-108 update: get until the channel is empty *)
  Fixpoint update_loop (fuel : nat) (s : snoop) : snoop :=
    match fuel with O => s | S k => match snoop_get s with (s', Some _) => update_loop k s' | (s', None) => s' end end.
  (* snoop.rs:106-108 *)
  Definition snoop_update (s : snoop) : snoop := update_loop (S (length (s_chan s))) s.
  (* snoop.rs:131-136 and 145-150: one sample passes the backend *)
  Definition back_put (s : snoop) (x : A) : snoop :=
    let b := s_back s in
    let data := upd (b_data b) (b_index b) x in
    let index := b_index b + 1 in
    if Nat.eqb index MAXB then mkSnoop (s_front s) (mkBack 0 data) (fst (try_send CHANNEL (s_chan s) data))
    else mkSnoop (s_front s) (mkBack index data) (s_chan s).
  (* snoop.rs:128-138 tick *)
  Definition snoop_tick (s : snoop) (input : list A) : snoop * list A := (back_put s (hd zero input), input).
  (* snoop.rs:140-152 process: the SIMD words that hold the first size samples are copied *)
  Definition snoop_process (s : snoop) (size : nat) (inb out : list (list A)) : snoop * list (list A) :=
    (fold_left (fun s i => back_put s (nth i (hd [] inb) zero)) (seq 0 size) s, copy_simd zero size inb out).
  (* snoop.rs:124-126 reset *)
  Definition snoop_reset (s : snoop) : snoop := mkSnoop (s_front s) (mkBack 0 (b_data (s_back s))) (s_chan s).
End Snoop.
Arguments mkFront {A}. Arguments mkBack {A}. Arguments mkSnoop {A}. Arguments f_index {A}. Arguments f_total {A}. Arguments f_latest {A}.
Arguments b_index {A}. Arguments b_data {A}. Arguments s_front {A}. Arguments s_back {A}. Arguments s_chan {A}.

Section Ring.
  Context {X : Type}.
  Variable zero : X.                   (* the frame of zeros *)
  (* ring.rs:23-27 new(capacity): the ring holds the receiver of the channel. A clone has a channel of its own to which nothing is sent
     (12-18) and is not modelled. *)
  Definition ring_new : list X := [].
  (* ring.rs:24-33: the frontend is the sender: try_send *)
  Definition ring_send (capacity : nat) (c : list X) (x : X) : list X * bool := try_send capacity c x.
  (* ring.rs:35-38 tick *)
  Definition ring_tick (c : list X) : list X * X := match try_recv c with Some (x, c') => (c', x) | None => (c, zero) end.
End Ring.
