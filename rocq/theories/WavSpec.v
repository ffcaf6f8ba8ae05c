(* How to read a WAV file: the RIFF format with one format chunk of 16 bytes and one data chunk, as it is documented elsewhere. *)
From Coq Require Import ZArith List SpecFloat Bool.
From Verif Require Export WavModel.
Local Open Scope Z_scope.

(* little endian *)
Fixpoint le (l : list Z) : Z := match l with [] => 0 | b :: l => b + 256 * le l end.
Definition sub (l : list Z) (start n : nat) : list Z := firstn n (skipn start l).
Definition list_eqb (a b : list Z) : bool := if list_eq_dec Z.eq_dec a b then true else false.
Record wav := mkwav { wav_format : Z; wav_channels : nat; wav_hz : Z; wav_bits : Z; wav_frames : list (list Z) }.
(* None if it is no such file, or if what its header says does not agree with itself or with the length of the file *)
Definition parse (f : list Z) : option wav :=
  let n i k := le (sub f i k) in
  let channels := Z.to_nat (n 22%nat 2%nat) in let bytes := Z.to_nat (n 34%nat 2%nat / 8) in let align := (channels * bytes)%nat in let data := skipn 44 f in
  if list_eqb (sub f 0 4) b_riff && (n 4%nat 4%nat =? Z.of_nat (length f) - 8) && list_eqb (sub f 8 4) b_wave && list_eqb (sub f 12 4) b_fmt && (n 16%nat 4%nat =? 16) &&
     (n 32%nat 2%nat =? Z.of_nat align) && (n 28%nat 4%nat =? n 24%nat 4%nat * Z.of_nat align) && list_eqb (sub f 36 4) b_data && (n 40%nat 4%nat =? Z.of_nat (length data)) && Nat.ltb 0 align && (Z.of_nat (length data) mod Z.of_nat align =? 0)
  then Some (mkwav (n 20%nat 2%nat) channels (n 24%nat 4%nat) (n 34%nat 2%nat)
         (map (fun i => map (fun c => le (sub (sub data (i * align) align) (c * bytes) bytes)) (seq 0 channels)) (seq 0 (length data / align))))
  else None.
(* two's complement *)
Definition signed16 (x : Z) : Z := if x <? 2 ^ 15 then x else x - 2 ^ 16.
(* the binary32 number with these bits *)
Definition from_bits32 (x : Z) : spec_float :=
  let s := 2 ^ 31 <=? x in let e := x / 2 ^ 23 mod 256 in let m := x mod 2 ^ 23 in
  let finite m e := match m with Z.pos p => S754_finite s p e | _ => S754_zero s end in
  if e =? 255 then (if m =? 0 then S754_infinity s else S754_nan) else if e =? 0 then finite m (-149) else finite (m + 2 ^ 23) (e - 150).
(* a wave all of whose channels have its length *)
Definition wave_ok (w : wave spec_float spec_float) : Prop := (0 < channels w)%nat /\ Forall (fun c => length c = w_len w) (w_vec w).
(* frame i of a wave *)
Definition frame (w : wave spec_float spec_float) (i : nat) : list spec_float := map (fun c => nth i c S754_nan) (w_vec w).
(* the sizes that fit into the header *)
Definition fits (bytes : Z) (w : wave spec_float spec_float) : Prop :=
  let c := Z.of_nat (channels w) in bytes * c < 2 ^ 16 /\ bytes * c * Z.of_nat (w_len w) + 36 < 2 ^ 32 /\ wav_rate w * c * bytes < 2 ^ 32.
(* a device that does not fail *)
Definition reliable (d : device) : Prop := Forall (fun f => f = None) (d_fails d).
(* the bytes of the file: those that a device that does not fail gets *)
Definition file_of (write : device -> outcome (device * bool)) (f : list Z) : Prop := write (mkdevice [] []) = Val (mkdevice f [], true).
(* a wave of binary32 numbers *)
Definition valid_wave (w : wave spec_float spec_float) : Prop := forall i, (i < w_len w)%nat -> Forall (fun x => valid_binary 24 128 x = true) (frame w i).
(* either format *)
Definition write_as (sixteen checks : bool) := if sixteen then write_wav16 checks else write_wav32 checks.
Definition bytes_as (sixteen : bool) : Z := if sixteen then 2 else 4.
