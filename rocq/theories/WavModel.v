(* WAV files: /repo/src/write.rs. No proofs here. Bytes are integers from 0 to 255. Samples are binary32 numbers, the sample rate is a binary64 number.
   The model makes the list of calls of write_all first and then does them: at a panic, what was written before is not modelled. *)
From Coq Require Import ZArith List SpecFloat.
From Verif Require Export TableModel WaveModel.
Local Open Scope Z_scope.

(* round (lib.rs:220-222, 277-279), which rounds half away from 0, as an integer; 0 for NaN and infinities *)
Definition sf_round (x : spec_float) : Z :=
  match x with S754_finite s m e => let v := if 0 <=? e then Z.pos m * 2 ^ e else (Z.pos m + 2 ^ (- e - 1)) / 2 ^ (- e) in if s then - v else v | _ => 0 end.
(* write.rs:71-72: a float as an integer from lo to hi: saturating *)
Definition sf_cast (lo hi : Z) (x : spec_float) : Z := match x with S754_infinity s => if s then lo else hi | _ => Z.max lo (Z.min hi (sf_round x)) end.
(* math.rs:142-144 clamp11 *)
Definition clamp11 (x : spec_float) : spec_float := nmin f32_ops (nmax f32_ops x (nofZ f32_ops (-1))) (n1 f32_ops).
(* write.rs:71: the constant 32767.49 as binary32 *)
Definition full_scale : spec_float := S754_finite false 16776955 (-9).
(* write.rs:71-72: a sample as i16 *)
Definition sample16 (x : spec_float) : Z := sf_cast (- 32768) 32767 (nmul f32_ops (clamp11 x) full_scale).
(* write.rs:94: f32::to_bits; all NaNs are the same one here *)
Definition bits32 (x : spec_float) : Z :=
  match x with
  | S754_zero s => if s then 2 ^ 31 else 0
  | S754_infinity s => (if s then 2 ^ 31 else 0) + 255 * 2 ^ 23
  | S754_nan => 255 * 2 ^ 23 + 2 ^ 22
  | S754_finite s m e => (if s then 2 ^ 31 else 0) + (if Z.pos m <? 2 ^ 23 then Z.pos m else (e + 150) * 2 ^ 23 + (Z.pos m - 2 ^ 23))
  end.

(* write.rs:12-16 write32, 20-23 write16: the bytes *)
Definition bytes32 (x : Z) : list Z := [x mod 256; x / 2 ^ 8 mod 256; x / 2 ^ 16 mod 256; x / 2 ^ 24 mod 256].
(* write.rs:20-23 *)
Definition bytes16 (x : Z) : list Z := [x mod 256; x / 2 ^ 8 mod 256].
(* write.rs:26-54: the result x of an addition or multiplication of unsigned numbers of n bits: it panics or wraps, depending on how the code is compiled *)
Definition unsigned (checks : bool) (n x : Z) : outcome Z := if x <? 2 ^ n then Val x else if checks then Panics else Val (x mod 2 ^ n).
(* write.rs:12-54: x as an unsigned number of n bits *)
Definition as_unsigned (n x : Z) : Z := x mod 2 ^ n.
(* write.rs:33: byte strings *)
Definition b_riff : list Z := [82; 73; 70; 70].
(* write.rs:35 *)
Definition b_wave : list Z := [87; 65; 86; 69].
(* write.rs:36 *)
Definition b_fmt : list Z := [102; 109; 116; 32].
(* write.rs:50 *)
Definition b_data : list Z := [100; 97; 116; 97].
(* write.rs:26-54 write_wav_header: the calls of write_all *)
Definition header (checks : bool) (data_length format channels rate : Z) : outcome (list (list Z)) :=
  do riff <- unsigned checks 32 (as_unsigned 32 data_length + 36);
  let sample_bytes := if format =? 1 then 2 else 4 in
  do per_second <- unsigned checks 64 (rate * channels);
  do per_second <- unsigned checks 32 (as_unsigned 32 per_second * sample_bytes);
  do frame <- unsigned checks 16 (as_unsigned 16 channels * sample_bytes);
  Val [b_riff; bytes32 riff; b_wave; b_fmt; bytes32 16; bytes16 format; bytes16 (as_unsigned 16 channels); bytes32 (as_unsigned 32 rate); bytes32 per_second; bytes16 frame; bytes16 (sample_bytes * 8); b_data;
       bytes32 (as_unsigned 32 data_length)].
(* write.rs:69-74, 91-96: the samples, frame by frame *)
Fixpoint each_sample (enc : spec_float -> list Z) (w : wave spec_float spec_float) (l : list (nat * nat)) : outcome (list (list Z)) :=
  match l with [] => Val [] | (i, c) :: l => match w_at w c i with Some x => do r <- each_sample enc w l; Val (enc x :: r) | None => Panics end end.
(* write.rs:69-74, 91-96 *)
Definition body (enc : spec_float -> list Z) (w : wave spec_float spec_float) : outcome (list (list Z)) := each_sample enc w (list_prod (seq 0 (w_len w)) (seq 0 (channels w))).
(* write.rs:62-68, 84-90: round(sample_rate) as usize *)
Definition wav_rate (w : wave spec_float spec_float) : Z := sf_cast 0 (2 ^ 64 - 1) (w_rate w).

(* write.rs:59-61: What takes the bytes: what it has got, and when it fails. Each time that it is given bytes it takes them all, or k of them and then it fails (if there are more). When the list
   is over it fails no more. *)
Record device := mkdevice { d_got : list Z; d_fails : list (option nat) }.
(* write.rs:59-61 *)
Definition d_take (d : device) (l : list Z) : device * nat * bool :=
  let rest := tl (d_fails d) in
  match d_fails d with
  | Some k :: _ => if Nat.ltb k (length l) then (mkdevice (d_got d ++ firstn k l) rest, k, false) else (mkdevice (d_got d ++ l) rest, length l, true)
  | _ => (mkdevice (d_got d ++ l) rest, length l, true)
  end.
(* write.rs:61, 83: std::io::BufWriter with its default capacity of 8 KiB *)
Record bufwriter := mkbw { bw_buf : list Z; bw_dev : device }.
(* write.rs:61, 83 *)
Definition capacity : nat := 8 * 1024.
(* write.rs:61, 83: flush_buf: what was taken is removed from the buffer *)
Definition flush_buf (b : bufwriter) : bufwriter * bool := let '(d, k, ok) := d_take (bw_dev b) (bw_buf b) in (mkbw (skipn k (bw_buf b)) d, ok).
(* write.rs:14, 21, 33-36, 94: write_all, of fewer bytes than the capacity *)
Definition write_all (b : bufwriter) (l : list Z) : bufwriter * bool :=
  if Nat.leb (length l) (capacity - length (bw_buf b)) then (mkbw (bw_buf b ++ l) (bw_dev b), true)
  else let (b, ok) := flush_buf b in if ok then (mkbw (bw_buf b ++ l) (bw_dev b), true) else (b, false).
(* write.rs:26-54, 69-74 *)
Fixpoint write_each (b : bufwriter) (l : list (list Z)) : bufwriter * bool :=
  match l with [] => (b, true) | x :: l => let (b, ok) := write_all b x in if ok then write_each b l else (b, false) end.
(* write.rs:75, 97: drop: the buffer is flushed, and the result is ignored *)
Definition bw_drop (b : bufwriter) : device := bw_dev (fst (flush_buf b)).
(* write.rs:57-98 write_wav16 and write_wav32: the device after it, and whether the result is Ok *)
Definition write_wav (checks : bool) (format : Z) (bytes : nat) (enc : spec_float -> list Z) (w : wave spec_float spec_float) (d : device) : outcome (device * bool) :=
  if Nat.ltb 0 (channels w) then
    do h <- header checks (Z.of_nat bytes * Z.of_nat (channels w) * Z.of_nat (w_len w)) format (Z.of_nat (channels w)) (wav_rate w);
    do l <- body enc w;
    let (b, ok) := write_each (mkbw [] d) (h ++ l) in
    Val (bw_drop b, ok)
  else Panics.
(* write.rs:59-76 *)
Definition write_wav16 (checks : bool) := write_wav checks 1 2 (fun x => bytes16 (as_unsigned 16 (sample16 x))).
(* write.rs:81-98 *)
Definition write_wav32 (checks : bool) := write_wav checks 3 4 (fun x => bytes32 (bits32 x)).
