(* Integer hashes and white noise: /repo/src/math.rs and /repo/src/noise.rs. Machine words are N with explicit wrap. *)
From Verif Require Export Base.
Open Scope N_scope.

(* math.rs:529-562: uN::wrapping_mul and uN::wrapping_add for word size w. *)
Definition wmul (w x c : N) : N := (x * c) mod 2 ^ w.
(* shared.rs:414-419; noise.rs:198-202 *)
Definition wadd (w x c : N) : N := (x + c) mod 2 ^ w.
(* math.rs:529-562: x ^ (x >> k) *)
Definition xsr (k x : N) : N := N.lxor x (N.shiftr x k).
(* math.rs:609-618: u64::rotate_left(5) *)
Definition rotl5 (x : N) : N := N.lor ((N.shiftl x 5) mod 2 ^ 64) (N.shiftr x 59).

(* src/math.rs:552-559 hash1 *)
Definition hash1 (x : N) : N :=
  let x := N.lxor x 0x5555555555555555 in
  let x := wmul 64 x 0x517cc1b727220a95 in
  let x := wmul 64 (xsr 32 x) 0xd6e8feb86659fd93 in
  let x := wmul 64 (xsr 32 x) 0xd6e8feb86659fd93 in
  xsr 32 x.

(* src/math.rs:529-536 rnd1: the integer before conversion to f64. *)
Definition rnd1_int (x : N) : N :=
  let x := N.lxor x 0x5555555555555555 in
  let x := wmul 64 x 0x9e3779b97f4a7c15 in
  let x := wmul 64 (xsr 30 x) 0xbf58476d1ce4e5b9 in
  let x := wmul 64 (xsr 27 x) 0x94d049bb133111eb in
  xsr 31 x.
(* src/math.rs:536: (x >> 11) as f64 * 2^-53. The result is the dyadic rnd1_num x / 2^53. A numerator
   below 2^53 converts to f64 without rounding and scaling by a power of two is exact. *)
Definition rnd1_num (x : N) : N := N.shiftr (rnd1_int x) 11.

(* src/math.rs:609-618 AttoHash::hash *)
Definition atto_hash (state data : N) : N := wmul 64 (N.lxor (rotl5 state) data) 0x517cc1b727220a95.

(* src/noise.rs:152-158 hash32x *)
Definition MUL_X : N := 0x45d9f3b.
(* noise.rs:152-158 *)
Definition hash32x (x : N) : N :=
  let x := wmul 32 (xsr 16 x) MUL_X in
  let x := wmul 32 (xsr 16 x) MUL_X in
  wmul 32 (xsr 16 x) MUL_X.

(* lib.rs:77-79: simd_items(n) = (n + 7) >> 3 *)
Definition simd_items (n : nat) : nat := (n + 7) / 8.

Section Noise.
  Context {A : Type}.
  (* (v as f32) * NOISE_Z - 1.0, src/noise.rs:201 and 214: any function of the 24-bit value. *)
  Variable conv : N -> A.

  (* src/noise.rs:197-202 Noise::tick *)
  Definition noise_tick (state : N) : N * A :=
    let state := wadd 32 state 1 in
    (state, conv (N.shiftr (hash32x state) 8)).

  (* src/noise.rs:211-217: one SIMD word of output. The lane states are a list of 8. *)
  Fixpoint noise_word (lanes : list N) (pos : nat) (out : list A) : list A :=
    match lanes with
    | [] => out
    | s :: r => noise_word r (S pos) (upd out pos (conv (N.shiftr (hash32x s) 8)))
    end.
  (* src/noise.rs:209-218: the loop over SIMD words; k words remain, word i is next. *)
  Fixpoint noise_words (k i : nat) (lanes : list N) (out : list A) : list A :=
    match k with
    | O => out
    | S k' => noise_words k' (S i) (map (fun s => wadd 32 s 8) lanes) (noise_word lanes (8 * i) out)
    end.
  (* src/noise.rs:204-218 Noise::process. [out] is the 64-sample channel with its previous contents. *)
  Definition noise_process (size : nat) (state : N) (out : list A) : N * list A :=
    let lanes := map (fun i => wadd 32 state (N.of_nat i + 1)) (seq 0 8) in
    (wadd 32 state (N.of_nat size), noise_words (simd_items size) 0 lanes out).
End Noise.

(* src/noise.rs:192-195 Noise::reset *)
Definition noise_reset (hash : N) : N := (N.lxor hash (N.shiftr hash 32)) mod 2 ^ 32.
