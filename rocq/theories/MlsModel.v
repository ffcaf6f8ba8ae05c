(* Maximum length sequence generator, /repo/src/noise.rs. All numbers are u32 values held in N. *)
From Verif Require Export Base.
Open Scope N_scope.

(* src/noise.rs:23-55 MLS_POLY. The binary literals 0b... are written in decimal. *)
Definition mls_poly : list N := [
  1;
  3;
  6;
  12;
  20;
  48;
  72;
  184;
  272;
  576;
  1280;
  3232;
  6912;
  12424;
  24576;
  53256;
  73728;
  132096;
  405504;
  589824;
  1310720;
  3145728;
  4325376;
  14745600;
  18874368;
  33554467;
  67108883;
  150994944;
  335544320;
  536870953;
  1207959552 ].

(* u32::count_ones, src/noise.rs:86: number of set bits. *)
Fixpoint popcount_pos (p : positive) : N :=
  match p with xH => 1 | xO q => popcount_pos q | xI q => N.succ (popcount_pos q) end.
(* noise.rs:86 *)
Definition count_ones (x : N) : N := match x with N0 => 0 | Npos p => popcount_pos p end.

(* src/noise.rs:60-63 MlsState::new. The assertion 1 <= n <= 31 is the error value None. *)
Definition mls_new (n : N) : option (N * N) :=
  if (1 <=? n) && (n <=? 31) then Some (n, 2 ^ n - 1) else None.

(* src/noise.rs:67-73 MlsState::new_with_seed. *)
Definition mls_new_with_seed (n seed : N) : option (N * N) :=
  if (1 <=? n) && (n <=? 31) then Some (n, 1 + seed mod (2 ^ n - 1)) else None.

(* src/noise.rs:76-79 MlsState::length. *)
Definition mls_length (n : N) : N := 2 ^ n - 1.

(* src/noise.rs:81-89 MlsState::next. (self.s << 1) is a u32 shift: the bit that would leave 32 bits
   is dropped, written as mod 2^32. *)
Definition mls_next (n s : N) : N :=
  let feedback := N.land (nth (N.to_nat (n - 1)) mls_poly 0) s in
  let parity := N.land (count_ones feedback) 1 in
  N.land (N.lor ((N.shiftl s 1) mod 2 ^ 32) parity) (mls_length n).

(* src/noise.rs:92-95 MlsState::value. *)
Definition mls_value (n s : N) : N := N.land (N.shiftr s (n - 1)) 1.

(* src/noise.rs:122-125 Mls::reset: the seed is folded to 32 bits. [hash] is a u64. *)
Definition mls_reset_seed (hash : N) : N := (N.lxor hash (N.shiftr hash 32)) mod 2 ^ 32.

(* noise.rs:82-89: State after k calls of next (spec helper: plain iteration). *)
Definition mls_iter (n : N) (k : nat) (s : N) : N := Nat.iter k (mls_next n) s.
