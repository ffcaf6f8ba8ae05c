(* C65: frequency domain resynthesis. Definitions are in ResynthModel.v (the code) and ResynthSpec.v (what it should do). *)
From Coq Require Import Reals Lra Lia.
From Verif Require Import ResynthCases TableFloat.
From Verif Require Import OverSpec TableSpec ResynthSpec.
Local Open Scope R_scope.

(* For windows of 4 to 32768 samples, any processing function (with a state) that sets only bins that there are, and any input: the processing function is given the spectra of windows of
   the input that begin every quarter of a window, in order; and the output is the sum of what it makes of them. *)
Theorem C65_overlap_add : forall (P : Type) (f : P -> @fwin R -> P * list (nat * nat * (R * R))) rfft ifft inputs outputs e sr p l, let N := (4 * 2 ^ e)%nat in
  is_packed_dft rfft -> is_inverse_dft ifft -> obeys f outputs N -> (e <= 13)%nat -> Forall (fun x => length x = inputs) l ->
  exists r r' o, resynth_newR inputs outputs N p = Val r /\ resynth_runR rfft ifft f outputs (resynth_set_srR r sr) l = Val (r', o) /\ length o = length l /\
    forall n, (n < length l)%nat -> length (nth n o []) = outputs /\ forall c, (c < outputs)%nat -> nth c (nth n o []) 0 = overlapped f inputs outputs N sr l p n c.
Proof. intros P f rfft ifft inputs outputs e sr p l N D I O E F. exact (overlap_add f rfft ifft inputs outputs e sr D I O p l E F). Qed.
Print Assumptions C65_overlap_add.
Example C65_overlap_add_case : is_packed_dft pdft /\ is_inverse_dft idft /\ obeys (fun (p : nat) (w : @fwin R) => (S p, [(1%nat, (p mod 8)%nat, (1, 2))])) 2 8.
Proof. refine (conj pdft_ok (conj idft_ok _)). intros p w W. cbn [snd]. constructor; [|constructor]. cbn [fst snd]. split; [lia|]. apply Nat.mod_upper_bound. discriminate. Qed.
(* If an output is a copy of an input, then the input is reconstructed exactly, late by the latency, which is the window length; it is from 3/4 of a window after that on (the documented
   time is a whole window after it), and during the latency the output is silent. *)
Theorem C65_reconstruct : forall (P : Type) (f : P -> @fwin R -> P * list (nat * nat * (R * R))) rfft ifft inputs outputs e sr p l i o, let N := (4 * 2 ^ e)%nat in
  is_packed_dft rfft -> is_inverse_dft ifft -> obeys f outputs N -> copies f N i o -> (e <= 13)%nat -> Forall (fun x => length x = inputs) l -> (i < inputs)%nat -> (o < outputs)%nat ->
  exists r r' y, resynth_newR inputs outputs N p = Val r /\ resynth_latency r = N /\ resynth_runR rfft ifft f outputs (resynth_set_srR r sr) l = Val (r', y) /\ length y = length l /\
    forall n, (n < length l)%nat -> ((n < N)%nat -> nth o (nth n y []) 0 = 0) /\ ((N + 3 * 2 ^ e <= n)%nat -> nth o (nth n y []) 0 = nth i (nth (n - N) l []) 0).
Proof. exact @reconstructs. Qed.
Print Assumptions C65_reconstruct.
(* The method that forwards a channel makes a copy of it. *)
Theorem C65_forward : forall (P : Type) i o outputs N, (2 <= N)%nat -> (o < outputs)%nat ->
  let f := fun (p : P) (w : @fwin R) => (p, forward Rnum_ops w i o) in obeys f outputs N /\ copies f N i o.
Proof. intros P i o outputs N H O. exact (conj (forward_obeys i o outputs N H O) (forward_copies i o N)). Qed.
Print Assumptions C65_forward.
Example C65_forward_case : obeys (fun (p : unit) (w : @fwin R) => (p, forward Rnum_ops w 1 0)) 2 16 /\ copies (fun (p : unit) (w : @fwin R) => (p, forward Rnum_ops w 1 0)) 16 1 0.
Proof. apply C65_forward; lia. Qed.
(* The processing function is told right times: of each sample of its window, of the middle of the window, the latency, the time from window to window, and the frequency of the last bin. *)
Theorem C65_times : forall inputs outputs e sr l k, sr <> 0 -> let N := (4 * 2 ^ e)%nat in let w := view inputs outputs N sr l k in
  (forall j, w_time_at Rnum_ops idR w j = INR (k * 2 ^ e + j) / sr) /\ w_time Rnum_ops idR w = w_time_at Rnum_ops idR w (N / 2) /\ w_latency Rnum_ops idR w = INR N / sr /\
  w_time Rnum_ops idR (view inputs outputs N sr l (S k)) - w_time Rnum_ops idR w = delta_time Rnum_ops idR w /\ delta_time Rnum_ops idR w * windows_per_second Rnum_ops idR w = 1 /\
  w_frequency Rnum_ops w (bins w - 1) = sr / 2.
Proof. exact times. Qed.
Print Assumptions C65_times.
(* A reset after any input makes it as new, at its sample rate and with the processing function in the state it is in. *)
Theorem C65_reset : forall (P : Type) (f : P -> @fwin R -> P * list (nat * nat * (R * R))) rfft ifft inputs outputs e sr p l r r' o, let N := (4 * 2 ^ e)%nat in
  is_packed_dft rfft -> is_inverse_dft ifft -> obeys f outputs N -> (e <= 13)%nat -> Forall (fun x => length x = inputs) l ->
  resynth_newR inputs outputs N p = Val r -> resynth_runR rfft ifft f outputs (resynth_set_srR r sr) l = Val (r', o) ->
  exists r0, resynth_newR inputs outputs N (r_state r') = Val r0 /\ resynth_reset Rnum_ops r' = resynth_set_srR r0 sr.
Proof. intros P f rfft ifft inputs outputs e sr p l r r' o N D I O. exact (reset_new f rfft ifft inputs outputs e sr D I O p l r r' o). Qed.
Print Assumptions C65_reset.
(* The resynth opcode (prelude.rs) is documented to take window lengths that are "a power of two and at least four". All longer powers of two are accepted too, and nothing fails for one whole
   window; but then the transform, which is there for at most 32768 samples, panics in the audio thread. *)
Theorem C65_long_window_refuted : forall (P : Type) (f : P -> @fwin R -> P * list (nat * nat * (R * R))) rfft ifft inputs outputs e sr p l, let N := (4 * 2 ^ e)%nat in
  is_packed_dft rfft -> is_inverse_dft ifft -> obeys f outputs N -> (13 < e)%nat -> (0 < inputs)%nat -> Forall (fun x => length x = inputs) l ->
  exists r, resynth_newR inputs outputs N p = Val r /\ ((length l < N)%nat -> exists r' o, resynth_runR rfft ifft f outputs (resynth_set_srR r sr) l = Val (r', o)) /\
    ((N <= length l)%nat -> resynth_runR rfft ifft f outputs (resynth_set_srR r sr) l = Panics).
Proof. intros P f rfft ifft inputs outputs e sr p l N D I O. exact (long_panics f rfft ifft inputs outputs e sr D I O p l). Qed.
Print Assumptions C65_long_window_refuted.
