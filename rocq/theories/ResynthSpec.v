(* What the resynthesizer should do, over the reals: transform windows of the input that overlap by three quarters, let the processing function make spectra of them,
   transform those back and add them up, one window length later. *)
From Coq Require Import Reals.
From Verif Require Export TableSpec ResynthModel OverSpec.
Local Open Scope R_scope.

(* the discrete Fourier transform of real numbers, half of it; the Nyquist frequency is where the imaginary part of DC would be *)
Definition is_packed_dft (rfft : list R -> list (R * R)) : Prop := forall x, let N := length x in length (rfft x) = (N / 2)%nat /\
  ((2 <= N)%nat -> nth 0 (rfft x) (0, 0) = (total N (fun n => nth n x 0), total N (fun n => nth n x 0 * cos (PI * INR n)))) /\
  forall k, (0 < k < N / 2)%nat -> nth k (rfft x) (0, 0) = (total N (fun n => nth n x 0 * cos (turn k n N)), - total N (fun n => nth n x 0 * sin (turn k n N))).
Notation resynth_newR := (resynth_new Rnum_ops Rnum_ops cos (2 * PI)).
Notation resynth_set_srR := (resynth_set_sr (V := R) idR).
Notation resynth_runR rfft ifft f := (resynth_run Rnum_ops rfft ifft f).
(* the Hann window *)
Definition hann_window (N j : nat) : R := sin (PI * (INR j / INR N)) ^ 2.
(* frequencies 0 to N/2 of the Fourier transform: real and imaginary parts *)
Definition spectrum (x : list R) : list R := let N := length x in
  flat_map (fun k => [total N (fun n => nth n x 0 * cos (turn k n N)); - total N (fun n => nth n x 0 * sin (turn k n N))]) (seq 0 (N / 2 + 1)).
Section Spec.
  Context {P : Type} (f : P -> @fwin R -> P * list (nat * nat * (R * R))) (inputs outputs N : nat) (sr : R) (l : list (list R)) (p : P).
  (* channel c of window k: the windows begin every N/4 samples *)
  Definition windowed (k c : nat) : list R := map (fun j => nth c (nth (k * (N / 4) + j) l []) 0 * hann_window N j) (seq 0 N).
  (* what the processing function sees of window k: spectra of N samples that end after the sample number it is told, and outputs of 0 *)
  Definition view (k : nat) : @fwin R := mkwin N (map (fun c => spectrum (windowed k c)) (seq 0 inputs)) (repeat (repeat (0, 0) N) outputs) sr 0 (k * (N / 4) + N).
  (* the state of the processing function before window k; the values that it sets *)
  Fixpoint state_at (k : nat) : P := match k with O => p | S k => fst (f (state_at k) (view k)) end.
  Definition values (k : nat) : list (nat * nat * (R * R)) := snd (f (state_at k) (view k)).
  (* the last value set of bin b of channel c *)
  Definition latest (v : list (nat * nat * (R * R))) (c b : nat) : R * R := fold_left (fun x s => if Nat.eqb (fst (fst s)) c && Nat.eqb (snd (fst s)) b then snd s else x) v (0, 0).
  (* negative frequencies *)
  Definition mirrored (v : list (nat * nat * (R * R))) (c b : nat) : R * R := if Nat.leb b (N / 2) then latest v c b else let x := latest v c (N - b) in (fst x, - snd x).
  (* sample j of channel c of what window k is made into *)
  Definition piece (k c j : nat) : R := total N (fun b => fst (mirrored (values k) c b) * cos (turn b j N) - snd (mirrored (values k) c b) * sin (turn b j N)) / INR N.
  (* sample n of the output: the sum of the windows that begin, one window length later, at most N samples before *)
  Definition overlapped (n c : nat) : R :=
    total n (fun k => let t := (k * (N / 4) + N)%nat in if Nat.leb t n && Nat.ltb n (t + N) then 2 / 3 * (hann_window N (n - t) * piece k c (n - t)) else 0).
End Spec.
(* a processing function that sets only bins that there are *)
Definition obeys {P} (f : P -> @fwin R -> P * list (nat * nat * (R * R))) (outputs N : nat) : Prop :=
  forall p w, w_length w = N -> Forall (fun s => (fst (fst s) < outputs)%nat /\ (snd (fst s) < N)%nat) (snd (f p w)).
(* a processing function that makes output o a copy of input i *)
Definition copies {P} (f : P -> @fwin R -> P * list (nat * nat * (R * R))) (N i o : nat) : Prop := forall p w b v, w_length w = N -> (b <= N / 2)%nat -> at_bin w i b = Val v -> latest (snd (f p w)) o b = v.
