(* Delay lines: /repo/src/delay.rs and FeedbackUnit of /repo/src/feedback.rs. No proofs here.
   Reads of a buffer out of range, which would be panics, give zero here; the theorems compare every read with the sample that
   should be read, and so exclude them. Resizing is modelled by its result. Route functions and denormals are not modelled. *)
From Coq Require Import ZArith.
From Verif Require Export Num UnitModel.

Section Fixed.
  Context {A : Type}.
  Variable zero : A.
  (* delay.rs:19-52 Tick: the state is the buffered frame *)
  Definition tick1_new (n : nat) : list A := repeat zero n.
  (* delay.rs:19-52 *)
  Definition tick1 (s input : list A) : list A * list A := (input, s).
  (* delay.rs:19-52 *)
  Definition tick1_reset (s : list A) : list A := repeat zero (length s).

  (* delay.rs:71-78 the buffer and index of Delay, and of the other lines *)
  Record line := mkLine { l_buf : list A; l_i : nat }.
  (* delay.rs:193-209: a line of the given length after resize and reset (103-106, 108-116) *)
  Definition line_new (len : nat) : line := mkLine (repeat zero len) 0.
  (* delay.rs:100-103, 193-196 *)
  Definition line_reset (s : line) : line := line_new (length (l_buf s)).
  (* delay.rs:116-124 tick *)
  Definition delay_tick (s : line) (input : list A) : line * list A :=
    let b := upd (l_buf s) (l_i s) (nth 0 input zero) in
    let i := if Nat.leb (length b) (S (l_i s)) then 0 else S (l_i s) in
    (mkLine b i, [nth i b zero]).
End Fixed.
Arguments line : clear implicits. Arguments mkLine {A}. Arguments l_buf {A}. Arguments l_i {A}.

Section Num.
  Context {F : Type}.
  Variable nm : num F.
  Local Infix "+." := (nadd nm) (at level 50, left associativity).
  Local Infix "-." := (nsub nm) (at level 50, left associativity).
  Local Infix "*." := (nmul nm) (at level 40, left associativity).
  Local Infix "/." := (ndiv nm) (at level 40, left associativity).
  Notation zero := (n0 nm).

  (* math.rs:52-54; delay.rs:105-113: round(x) as usize, of a number that is not negative *)
  Definition round_us (x : F) : nat :=
    let f := nfloor nm x in Z.to_nat (if nleb nm (n1 nm /. nofZ nm 2) (x -. nofZ nm f) then f + 1 else f)%Z.
  (* math.rs:46-48; delay.rs:204, 440 *)
  Definition ceilZ (x : F) : Z := (- nfloor nm (nneg nm x))%Z.

  (* delay.rs:71-124 Delay: times and samples have the same type here *)
  Record delay := mkDelay { d_time : F; d_sr : F; d_line : line F }.
  (* delay.rs:71-124 *)
  Definition delay_length (time sr : F) : nat := round_us (time *. sr).
  (* delay.rs:84-92 new: an assertion; Self::default() has sample rate 0 and set_sample_rate(DEFAULT_SR) follows *)
  Definition delay_new (default_sr time : F) : option delay :=
    if nleb nm zero time then Some (mkDelay time default_sr (line_new zero (delay_length time default_sr + 1))) else None.
  (* delay.rs:105-113 *)
  Definition fneq (a b : F) : bool := negb (nleb nm a b && nleb nm b a).
  (* delay.rs:105-113 set_sample_rate *)
  Definition delay_set_sample_rate (d : delay) (sr : F) : delay :=
    if fneq (d_sr d) sr then mkDelay (d_time d) sr (line_new zero (delay_length (d_time d) sr + 1)) else d.
  (* delay.rs:100-103 reset *)
  Definition delay_reset (d : delay) : delay := mkDelay (d_time d) (d_sr d) (line_reset zero (d_line d)).
  (* delay.rs:116-124 *)
  Definition delay_step (d : delay) (input : list F) : delay * list F :=
    let (l, o) := delay_tick zero (d_line d) input in (mkDelay (d_time d) (d_sr d) l, o).

  (* math.rs:130-132, 175-177, 359-365 *)
  Definition clamp (x0 x1 x : F) : F := nmin nm (nmax nm x x0) x1.
  (* math.rs:130-132, 175-177, 359-365 *)
  Definition lerp (a b t : F) : F := a *. (n1 nm -. t) +. b *. t.
  (* math.rs:130-132, 175-177, 359-365 *)
  Definition spline (y0 y1 y2 y3 x : F) : F :=
    y1 +. x *. (n1 nm /. nofZ nm 2) *.
      (y2 -. y0 +. x *. (nofZ nm 2 *. y0 -. nofZ nm 5 *. y1 +. nofZ nm 4 *. y2 -. y3 +. x *. (nofZ nm 3 *. (y1 -. y2) +. y3 -. y0))).

  (* delay.rs:205, 441: usize::next_power_of_two *)
  Definition next_pow2 (n : nat) : nat := 2 ^ Nat.log2_up n.
  (* delay.rs:212-235: z & mask for a buffer of the given length, in wrapping arithmetic *)
  Definition wrapi (len : nat) (z : Z) : nat := Z.to_nat (Z.land z (Z.of_nat len - 1)).
  (* delay.rs:212-235 *)
  Definition read (b : list F) (i : nat) : F := nth i b zero.

  (* delay.rs:217-232 (tick) and 249-274 (process): one tap of Tap, where z is the index of the current sample and dl the delay.
     In process, the clamping, truncation, masking and spline are done on eight lanes; here and there fast_max and fast_min are taken
     to be max and min, and the truncation of a number that is not negative to be its floor. *)
  Definition cubic (minc maxc sr : F) (b : list F) (z : Z) (dl : F) : F :=
    let tap := clamp minc maxc dl *. sr in
    let f := nfloor nm tap in
    let i1 := wrapi (length b) (z - f) in
    let i0 := wrapi (length b) (Z.of_nat i1 + 1) in
    let i2 := wrapi (length b) (Z.of_nat i1 - 1) in
    let i3 := wrapi (length b) (Z.of_nat i1 - 2) in
    spline (read b i0) (read b i1) (read b i2) (read b i3) (tap -. nofZ nm f).
  (* delay.rs:452-460 and 476-493: one tap of TapLinear *)
  Definition linear (min max sr : F) (b : list F) (z : Z) (dl : F) : F :=
    let tap := clamp min max dl *. sr in
    let f := nfloor nm tap in
    let i1 := wrapi (length b) (z - f) in
    let i2 := wrapi (length b) (Z.of_nat i1 - 1) in
    lerp (read b i1) (read b i2) (tap -. nofZ nm f).

  (* the parts that Tap and TapLinear share *)
  Section Taps.
    Variable at_ : list F -> Z -> F -> F.
    Notation line := (line F).
    (* delay.rs:212-235, 448-462: self.buffer[self.i] = x; self.i = (self.i + 1) & mask *)
    Definition write (s : line) (x : F) : line := mkLine (upd (l_buf s) (l_i s) x) (wrapi (length (l_buf s)) (Z.of_nat (l_i s) + 1)).
    (* delay.rs:212-235, 448-462 *)
    Definition sum_taps (b : list F) (z : Z) (dls : list F) : F := fold_left (fun a dl => a +. at_ b z dl) dls zero.
    (* delay.rs:212-236, 448-463 tick *)
    Definition taps_tick (s : line) (input : list F) : line * list F :=
      let s' := write s (nth 0 input zero) in
      (s', [sum_taps (l_buf s') (Z.of_nat (l_i s)) (tl input)]).
    (* delay.rs:243-276, 470-495: word w of eight samples *)
    Definition taps_word (s : line) (w : nat) (inb out : list (list F)) : line * list (list F) :=
      let s' := fold_left write (map (fun j => nth 0 (frame zero inb (8 * w + j)) zero) (seq 0 8)) s in
      (s', fold_left (fun o k => set_frame o (8 * w + k) [sum_taps (l_buf s') (Z.of_nat (l_i s') - (8 - Z.of_nat k)) (tl (frame zero inb (8 * w + k)))]) (seq 0 8) out).
    (* delay.rs:243-276, 470-495 *)
    Fixpoint taps_words (n w : nat) (s : line) (inb out : list (list F)) : line * list (list F) :=
      match n with O => (s, out) | S n' => let (s', out') := taps_word s w inb out in taps_words n' (S w) s' inb out' end.
    (* delay.rs:238-279, 465-498, and audionode.rs:104-120 process_remainder *)
    Definition taps_process (s : line) (size : nat) (inb out : list (list F)) : line * list (list F) :=
      let (s', out') := taps_words (size / 8) 0 s inb out in
      process_ticks zero taps_tick (size - 8 * (size / 8)) (8 * (size / 8)) s' inb out'.
  End Taps.

  (* delay.rs:147-161, 198-209 Tap and its set_sample_rate; 1.00001 is the f32 nearest to it. The length is computed in f32 by the
     code, which is exact up to 2^24. new (166-178) sets DEFAULT_SR. *)
  Definition c1_00001 : F := nofZ nm 100001 /. nofZ nm 100000.
  (* delay.rs:147-161, 198-209 *)
  Definition tap_min (sr min : F) : F := nmax nm min (c1_00001 /. sr).
  (* delay.rs:147-161, 198-209 *)
  Definition tap_max (sr max : F) : F := nmax nm max (c1_00001 /. sr).
  (* delay.rs:147-161, 198-209 *)
  Definition tap_length (sr max : F) : nat := next_pow2 (Z.to_nat (ceilZ (max *. sr) + 3 + 8)).
  (* delay.rs:147-161, 198-209 *)
  Definition tap_at (min max sr : F) := cubic (tap_min sr min) (tap_max sr max) sr.
  (* delay.rs:212-236 *)
  Definition tap_tick (min max sr : F) := taps_tick (tap_at min max sr).
  (* delay.rs:238-279 *)
  Definition tap_process (min max sr : F) := taps_process (tap_at min max sr).
  (* delay.rs:386-397, 436-445 TapLinear and its set_sample_rate *)
  Definition linear_length (sr max : F) : nat := next_pow2 (Z.to_nat (ceilZ (max *. sr) + 2)).
  (* delay.rs:448-463 *)
  Definition linear_tick (min max sr : F) := taps_tick (linear min max sr).
  (* delay.rs:465-498 *)
  Definition linear_process (min max sr : F) := taps_process (linear min max sr).

  (* delay.rs:288-377 AllNest with the coefficient as a parameter (one input). U is the enclosed node. *)
  Section AllNest.
    Context {P U : Type}.
    Variable ops : unit_ops F P U.
    (* delay.rs:288-377 *)
    Record allnest := mkAll { an_x : U; an_eta : F; an_z : F }.
    (* delay.rs:288-377 *)
    Definition all_tick (s : allnest) (input : list F) : allnest * list F :=
      let v := nth 0 input zero -. an_eta s *. an_z s in
      let y := an_eta s *. v +. an_z s in
      let (u, o) := u_tick ops (an_x s) [v] in
      (mkAll u (an_eta s) (nth 0 o zero), [y]).
    (* delay.rs:350-358: two inputs: the second is the coefficient *)
    Definition all_tick2 (s : allnest) (input : list F) : allnest * list F :=
      all_tick (mkAll (an_x s) (nth 1 input zero) (an_z s)) [nth 0 input zero].
    (* delay.rs:344-347 *)
    Definition all_reset (s : allnest) : allnest := mkAll (u_reset ops (an_x s)) (an_eta s) zero.
  End AllNest.
End Num.

(* feedback.rs:273-439 FeedbackUnit. A is the sample type, U the type of the enclosed units. *)
Section FeedbackUnit.
  Context {A P U : Type}.
  Variable zero : A.
  Variable add : A -> A -> A.
  Variable ops : unit_ops A P U.
  (* feedback.rs:275-298: the number of channels is the length of fb_line; mask + 1 is the common length of its channels; tick_buffer and tick_buffer2
     are overwritten before they are read *)
  Record fbunit := mkFb { fb_x : U; fb_samples : nat; fb_len : nat; fb_line : list (list A); fb_index : nat; fb_buf : list (list A) }.
  (* feedback.rs:305-323 new and 341-354 set_sample_rate, for a delay of the given number of samples, which is
     round(delay * sample_rate).max(1) *)
  Definition fb_new (u : U) (samples : nat) : fbunit :=
    let n := u_ins ops u in
    mkFb u samples (next_pow2 samples) (repeat (repeat zero (next_pow2 samples)) n) 0 (repeat (repeat zero MAXB) n).
  (* feedback.rs:327-329 *)
  Definition mask_i (len i : nat) : nat := Nat.land i (len - 1).
  (* feedback.rs:326-329 read_index *)
  Definition read_index (s : fbunit) : nat := mask_i (fb_len s) (fb_index s + fb_len s - fb_samples s).
  (* feedback.rs:333-339 reset *)
  Definition fb_reset (s : fbunit) : fbunit :=
    mkFb (u_reset ops (fb_x s)) (fb_samples s) (fb_len s) (map (fun ch => repeat zero (length ch)) (fb_line s)) 0 (fb_buf s).
  (* feedback.rs:356-367 tick *)
  Definition fb_tick (s : fbunit) (input : list A) : fbunit * list A :=
    let i := zipw add input (frame zero (fb_line s) (read_index s)) in
    let (u, o) := u_tick ops (fb_x s) i in
    (mkFb u (fb_samples s) (fb_len s) (set_frame (fb_line s) (fb_index s) o) (mask_i (fb_len s) (fb_index s + 1)) (fb_buf s), o).
  (* feedback.rs:369-409: the loops over the samples of a block: k samples at i, from read index r and write index w *)
  Fixpoint fb_gather (k i r : nat) (len : nat) (line inb buf : list (list A)) : list (list A) :=
    match k with
    | O => buf
    | S k' => fb_gather k' (S i) (mask_i len (r + 1)) len line inb (set_frame buf i (zipw add (frame zero inb i) (frame zero line r)))
    end.
  (* feedback.rs:369-409 *)
  Fixpoint fb_store (k i w : nat) (len : nat) (out line : list (list A)) : list (list A) :=
    match k with O => line | S k' => fb_store k' (S i) (mask_i len (w + 1)) len out (set_frame line w (frame zero out i)) end.
  (* feedback.rs:369-409 *)
  Fixpoint fb_each (k i r w : nat) (len : nat) (u : U) (line inb out : list (list A)) : U * list (list A) * list (list A) :=
    match k with
    | O => (u, line, out)
    | S k' => let (u', o) := u_tick ops u (zipw add (frame zero inb i) (frame zero line r)) in
              fb_each k' (S i) (mask_i len (r + 1)) (mask_i len (w + 1)) len u' (set_frame line w o) inb (set_frame out i o)
    end.
  (* feedback.rs:369-409 process; the loops over channels are inside those over samples here *)
  Definition fb_process (s : fbunit) (size : nat) (inb out : list (list A)) : fbunit * list (list A) :=
    let index := mask_i (fb_len s) (fb_index s + size) in
    if Nat.leb size (fb_samples s) then
      let buf := fb_gather size 0 (read_index s) (fb_len s) (fb_line s) inb (fb_buf s) in
      let (u, out') := u_process ops (fb_x s) size buf out in
      (mkFb u (fb_samples s) (fb_len s) (fb_store size 0 (fb_index s) (fb_len s) out' (fb_line s)) index buf, out')
    else
      let '(u, line, out') := fb_each size 0 (read_index s) (fb_index s) (fb_len s) (fb_x s) (fb_line s) inb out in
      (mkFb u (fb_samples s) (fb_len s) line index (fb_buf s), out').
End FeedbackUnit.
Arguments fbunit : clear implicits. Arguments mkFb {A U}. Arguments fb_x {A U}. Arguments fb_samples {A U}. Arguments fb_len {A U}.
Arguments fb_line {A U}. Arguments fb_index {A U}. Arguments fb_buf {A U}.
(* feedback.rs:341-354: the delay in samples *)
Definition fb_delay {F} (nm : num F) (delay sr : F) : nat := Nat.max 1 (round_us nm (nmul nm delay sr)).
