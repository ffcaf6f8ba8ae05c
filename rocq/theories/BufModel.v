(* Sample blocks as seen by AudioNode::process / AudioUnit::process.
   A channel of a buffer is the list of its 64 samples, a buffer the list of its channels
   (/repo/src/lib.rs:37-79 MAX_BUFFER_SIZE = 64, SIMD_N = 8; /repo/src/buffer.rs: at_f32, set_f32, at, set, add, subset).
   The layout in SIMD words is the subject of LayoutModel.v; here a channel is addressed by sample index.
   The sample type A is arbitrary. *)
From Verif Require Export Base.

(* lib.rs:48 *)
Definition MAXB : nat := 64.
(* lib.rs:77-79: simd_items(samples) = (samples + SIMD_S) >> 3 rounds up; samples covered by those items: *)
Definition simd_samples (size : nat) : nat := 8 * ((size + 7) / 8).
(* lib.rs:83-85: full_simd_items(samples) = samples >> 3; samples covered: *)
Definition full_simd_samples (size : nat) : nat := 8 * (size / 8).

(* audionode.rs:721-741 (zip of two frames in FrameBinop): pointwise combination, as long as both lists last *)
Fixpoint zipw {X Y Z} (f : X -> Y -> Z) (l : list X) (m : list Y) : list Z :=
  match l, m with x :: l', y :: m' => f x y :: zipw f l' m' | _, _ => [] end.

(* audionode.rs:2023-2032 (the input slices of the nodes of a MultiStack): consecutive slices: n slices of k elements each *)
Fixpoint slices {X} (n k : nat) (l : list X) : list (list X) :=
  match n with O => [] | S n' => firstn k l :: slices n' k (skipn k l) end.

Section Buf.
  Context {A : Type}.
  Variable zero : A.
  Notation channel := (list A).
  Notation buf := (list (list A)).

  (* buffer.rs:16-20, 132-136: n channels of 64 samples *)
  Definition shaped (n : nat) (b : buf) : Prop := length b = n /\ Forall (fun ch => length ch = MAXB) b.

  (* buffer.rs:182-185: at_f32 for every channel: the frame at sample i *)
  Definition frame (b : buf) (i : nat) : list A := map (fun ch => nth i ch zero) b.
  (* buffer.rs:182-185: the first n frames *)
  Definition frames (b : buf) (n : nat) : list (list A) := map (frame b) (seq 0 n).

  (* buffer.rs:90-95: set_f32 for every channel *)
  Definition set_frame (b : buf) (i : nat) (o : list A) : buf := zipw (fun ch v => upd ch i v) b o.

  (* buffer.rs:83-86; lib.rs:77-79: for i in 0..simd_items(size) { set(channel, i, ...) }: lane-wise writes cover simd_samples(size) samples *)
  Definition write_simd (size : nat) (f : nat -> A) (ch : channel) : channel :=
    map (fun k => if Nat.ltb k (simd_samples size) then f k else nth k ch zero) (seq 0 MAXB).

  (* buffer.rs:83-102; lib.rs:77-79: lane-wise combination of the channels of two buffers, written over the second *)
  Definition zip_simd (size : nat) (f : A -> A -> A) (src dst : buf) : buf :=
    zipw (fun s d => write_simd size (fun k => f (nth k s zero) (nth k d zero)) d) src dst.
  (* buffer.rs:83-102; lib.rs:77-79: the channels of dst overwritten by the channels of src *)
  Definition copy_simd (size : nat) (src dst : buf) : buf :=
    zipw (fun s d => write_simd size (fun k => nth k s zero) d) src dst.

  Section Machine.
    Context {X : Type}.
    Variable tick : X -> list A -> X * list A.

    (* audionode.rs:75, 104-116: repeated ticking *)
    Fixpoint ticks (x : X) (ins : list (list A)) : X * list (list A) :=
      match ins with
      | [] => (x, [])
      | i :: r => let (x', o) := tick x i in let (x'', os) := ticks x' r in (x'', o :: os)
      end.

    (* src/audionode.rs:79-99 the default block processing: tick sample by sample *)
    Fixpoint process_ticks (n i : nat) (x : X) (inb out : buf) : X * buf :=
      match n with
      | O => (x, out)
      | S n' => let (x', o) := tick x (frame inb i) in process_ticks n' (S i) x' inb (set_frame out i o)
      end.
    (* audionode.rs:79-99 *)
    Definition default_process (size : nat) (x : X) (inb out : buf) : X * buf := process_ticks size 0 x inb out.
  End Machine.
End Buf.
