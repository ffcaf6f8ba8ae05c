(* C66: writing WAV files. Definitions are in WavModel.v (the code) and WavSpec.v (how such files are read). *)
From Coq Require Import Reals ZArith List SpecFloat Lra Lia.
From Verif Require Import FloatLink WavNumbers.
From Verif Require Import WavSpec.
Local Open Scope Z_scope.

Definition stereo : wave spec_float spec_float := mkWave [[nofZ f32_ops 1; S754_nan; ndiv f32_ops (nofZ f32_ops 1) (nofZ f32_ops 3)]; [S754_zero true; S754_infinity true; nofZ f32_ops (-7)]] (nofZ f64_ops 44100) 3.
Definition long_wave (n : nat) : wave spec_float spec_float := mkWave [repeat (S754_zero false) n] (nofZ f64_ops 44100) n.
(* A 32-bit file holds the number of channels, the sample rate as an integer and every sample of the wave exactly, whichever way the code is compiled, if the sizes fit into the header. *)
Theorem C66_wav32 : forall checks w, wave_ok w -> valid_wave w -> fits 4 w -> exists f, (forall d, reliable d -> exists d', write_wav32 checks w d = Val (d', true) /\ d_got d' = d_got d ++ f) /\
  exists v, parse f = Some v /\ wav_format v = 3 /\ wav_channels v = channels w /\ wav_hz v = wav_rate w /\ wav_bits v = 32 /\ map (map from_bits32) (wav_frames v) = map (frame w) (seq 0 (w_len w)).
Proof. exact wav32_ok. Qed.
Print Assumptions C66_wav32.
(* A 16-bit file holds the same, with its samples as 16-bit integers. *)
Theorem C66_wav16 : forall checks w, wave_ok w -> valid_wave w -> fits 2 w -> exists f, (forall d, reliable d -> exists d', write_wav16 checks w d = Val (d', true) /\ d_got d' = d_got d ++ f) /\
  exists v, parse f = Some v /\ wav_format v = 1 /\ wav_channels v = channels w /\ wav_hz v = wav_rate w /\ wav_bits v = 16 /\ map (map signed16) (wav_frames v) = map (fun i => map sample16 (frame w i)) (seq 0 (w_len w)).
Proof. exact wav16_ok. Qed.
Print Assumptions C66_wav16.
Example C66_wav_case : wave_ok stereo /\ valid_wave stereo /\ fits 4 stereo /\ fits 2 stereo.
Proof.
  split; [|split; [|split]].
  - split; [cbn; lia|]. repeat constructor.
  - intros [|[|[|i]]] H; cbn in H; try lia; repeat constructor.
  - vm_compute. repeat split.
  - vm_compute. repeat split.
Qed.
(* The 16-bit integer of a finite sample is the sample, clipped to -1 to 1, times 32767.49, to the nearest integer (but for the error of binary32 numbers); it keeps the order of samples;
   the integers are from -32767 to 32767 for all numbers. NaN is written as -32767, the value of -1. *)
Theorem C66_sample16 : (forall x, fin32 x -> Rabs (IZR (sample16 x) - 32767.49 * Rmax (-1) (Rmin 1 (real x))) <= 1 / 2 + 1 / 500)%R /\
  (forall x y, fin32 x -> fin32 y -> (real x <= real y)%R -> sample16 x <= sample16 y) /\ (forall x, valid_binary 24 128 x = true -> -32767 <= sample16 x <= 32767) /\
  sample16 (nofZ f32_ops 1) = 32767 /\ sample16 (nofZ f32_ops (-1)) = -32767 /\ sample16 (nofZ f32_ops 0) = 0 /\ sample16 S754_nan = -32767.
Proof. exact (conj sample_near (conj sample_mono (conj sample_range (conj eq_refl (conj eq_refl (conj eq_refl eq_refl)))))). Qed.
Print Assumptions C66_sample16.
(* The sample rate in the file is the nearest integer. *)
Theorem C66_rate : forall w, fin 53 1024 (w_rate w) -> (0 <= real (w_rate w) <= 4294967296)%R -> (Rabs (IZR (wav_rate w) - real (w_rate w)) <= / 2)%R.
Proof. intros w F. exact (rate_near w (proj1 F)). Qed.
Print Assumptions C66_rate.
(* Whenever what takes the bytes fails, and however often: it has got the beginning of the file, without gaps or repetitions; and if the result is Ok, at most the last 8192 bytes are missing.
   Missing to the full statement (Ok means that the file is complete): see C66_errors_refuted. *)
Theorem C66_errors_partial : forall sixteen checks w d, wave_ok w -> fits (bytes_as sixteen) w ->
  exists f d' okay pre post, file_of (write_as sixteen checks w) f /\ write_as sixteen checks w d = Val (d', okay) /\ f = pre ++ post /\ d_got d' = d_got d ++ pre /\ (okay = true -> (length post <= 8 * 1024)%nat).
Proof. exact prefix_ok. Qed.
Print Assumptions C66_errors_partial.
(* Errors are lost: the buffered writer is dropped without a flush, and the bytes in it are written then, ignoring errors. All files of up to 8192 bytes are reported to be written,
   whatever happens (a full disk, for example): here nothing at all is written, and the result is Ok. *)
Theorem C66_errors_refuted : forall sixteen checks w, wave_ok w -> fits (bytes_as sixteen) w -> 44 + bytes_as sixteen * Z.of_nat (channels w) * Z.of_nat (w_len w) <= 8192 ->
  (forall d, exists d', write_as sixteen checks w d = Val (d', true)) /\ forall got, write_as sixteen checks w (mkdevice got [Some 0%nat]) = Val (mkdevice got [], true).
Proof. intros sixteen checks w O F L. exact (conj (fun d => lost_ok sixteen checks w d O F L) (fun got => lost_nothing sixteen checks w got O F L)). Qed.
Print Assumptions C66_errors_refuted.
Example C66_errors_case : 44 + bytes_as true * Z.of_nat (channels stereo) * Z.of_nat (w_len stereo) <= 8192.
Proof. discriminate. Qed.
(* Waves that are too large for the format (4 GiB of data, or frames of 64 KiB) are written without an error, to a file whose header does not describe it; or, if overflow checks are on,
   some of them panic. *)
Theorem C66_sizes_refuted : forall sixteen checks w, wave_ok w -> 2 ^ 16 <= bytes_as sixteen * Z.of_nat (channels w) \/ 2 ^ 32 <= bytes_as sixteen * Z.of_nat (channels w) * Z.of_nat (w_len w) + 36 ->
  write_as sixteen checks w (mkdevice [] []) = Panics /\ checks = true \/ exists f, file_of (write_as sixteen checks w) f /\ forall v, parse f = Some v -> wav_channels v <> channels w.
Proof. exact sizes_ok. Qed.
Print Assumptions C66_sizes_refuted.
Example C66_sizes_case : forall n, 2 ^ 31 <= Z.of_nat n -> wave_ok (long_wave n) /\ 2 ^ 32 <= bytes_as true * Z.of_nat (channels (long_wave n)) * Z.of_nat (w_len (long_wave n)) + 36.
Proof.
  intros n H. split; [split; [apply Nat.lt_0_succ|]; constructor; [apply repeat_length|constructor]|]. unfold long_wave, channels, bytes_as. cbn [w_len w_vec length]. lia.
Qed.
