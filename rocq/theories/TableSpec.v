(* What wavetable synthesis should do, over the reals. *)
From Coq Require Import Reals.
From Verif Require Export TableModel OscSpec.
Local Open Scope R_scope.

(* a table repeats *)
Definition cyclic (t : list R) (i : Z) : R := nth (Z.to_nat (i mod Z.of_nat (length t))) t 0.
(* the table at a phase: the interpolator at the four samples around it *)
Definition sample (t : list R) (phase : R) : R :=
  let p := INR (length t) * phase in let k := Int_part p in
  optimal4x44 Rnum_ops (cyclic t (k - 1)) (cyclic t k) (cyclic t (k + 1)) (cyclic t (k + 2)) (p - IZR k).
Definition limit01 (x : R) : R := if Rle_dec x 0 then 0 else if Rle_dec 1 x then 1 else x.
(* Tables in order of pitch: at frequency f between pitches p0 and p1, blend from the table of p1 to the next one. *)
Fixpoint level (tb : list (R * list R)) (f phase : R) : R :=
  match tb with
  | (p0, _) :: (((p1, t1) :: (p2, t2) :: more) as rest) =>
      if (if Rle_dec f p1 then true else match more with [] => true | _ => false end)
      then let w := limit01 ((f - p0) / (p1 - p0)) in (1 - w) * sample t1 phase + w * sample t2 phase
      else level rest f phase
  | _ => 0
  end.
Definition rising (tb : list (R * list R)) : Prop := forall i j, (i < j < length tb)%nat -> fst (nth i tb (0, [])) < fst (nth j tb (0, [])).
Definition tables_ok (tb : list (R * list R)) : Prop := (3 <= length tb)%nat /\ rising tb /\ Forall (fun t => exists k, (k <= 32)%nat /\ length (snd t) = (2 ^ k)%nat) tb.
(* a wavetable synthesizer after frequencies l *)
Definition phase_after (s : @synth R) (l : list R) : R := frac (sy_phase s + turns (sy_sd s) l).
Notation synth_runR := (synth_run Rnum_ops).
Notation synth_processR := (synth_process Rnum_ops).
Notation readR := (table_read Rnum_ops (at_ Rnum_ops)).
Notation psynth_runR := (psynth_run Rnum_ops).
(* distance of phases on the circle *)
Definition circular (p q : R) : R := let d := frac (p - q) in if Rle_dec d (1 / 2) then d else 1 - d.
Definition psynth_freqs (prev : option R) (p : R) : R := match prev with Some q => circular p q | None => 1 / 2 end.
(* a block in which every word of 8 samples has one frequency, up to sign, and phases that are not within 10^-7 below an integer *)
Fixpoint steady (n : nat) (l : list R) : Prop := match n with O => True | S n => Forall (fun f => Rabs f = Rabs (hd 0 l)) (firstn 8 l) /\ steady n (skipn 8 l) end.
Definition clear_of_end (s : @synth R) (l : list R) : Prop := forall n, (n <= length l)%nat -> phase_after s (firstn n l) < 9999999 / 10000000.

(* ---- construction ---- *)
(* the inverse discrete Fourier transform *)
Definition turn (k n N : nat) : R := 2 * PI * (INR k * INR n / INR N).
Definition is_inverse_dft (ifft : list (R * R) -> list (R * R)) : Prop := forall a, let N := length a in length (ifft a) = N /\
  forall n, (n < N)%nat -> let c k := nth k a (0, 0) in
    nth n (ifft a) (0, 0) = (total N (fun k => fst (c k) * cos (turn k n N) - snd (c k) * sin (turn k n N)) / INR N, total N (fun k => fst (c k) * sin (turn k n N) + snd (c k) * cos (turn k n N)) / INR N).
(* the first half of the discrete Fourier transform of real numbers; the Nyquist frequency is where the imaginary part of DC would be *)
Definition is_real_dft (rfft : list R -> list (R * R)) : Prop := forall x, let N := length x in length (rfft x) = (N / 2)%nat /\
  forall k, (0 < k < N / 2)%nat -> nth k (rfft x) (0, 0) = (total N (fun n => nth n x 0 * cos (turn k n N)), - total N (fun n => nth n x 0 * sin (turn k n N))).
Definition is_polar (norm arg : R * R -> R) : Prop := forall x, 0 <= norm x /\ norm x * cos (arg x) = fst x /\ norm x * sin (arg x) = snd x.
(* the amplitude with which a partial of frequency f sounds: faded out from 20000 to 22000 Hz, and not at all if it is negative *)
Definition fade (f : R) : R := let x := limit01 ((22000 - f) / 2000) in 6 * x ^ 5 - 15 * x ^ 4 + 10 * x ^ 3.
Definition sounding (a : R) : R := if Rlt_dec 0 a then a else 0.
(* the number of partials up to 22000 Hz *)
Definition top (pitch : R) : nat := Z.to_nat (Int_part (22000 / pitch)).
(* the sum of the partials of a pitch at time t of the period *)
Definition partials (phase : nat -> R) (amplitude : R -> nat -> R) (pitch t : R) : R :=
  total (top pitch) (fun i => let k := S i in sounding (amplitude pitch k) * fade (pitch * INR k) * sin (2 * PI * (INR k * t + phase k))).
(* the pitches of the tables: each one the factor above the one before, up to the maximum *)
Definition pitches (tb : list (R * list R)) (min_pitch factor max_pitch : R) : Prop :=
  forall k, ((k < length tb)%nat <-> min_pitch * factor ^ k <= max_pitch) /\ ((k < length tb)%nat -> fst (nth k tb (0, [])) = min_pitch * factor ^ k).
(* every number is in -1...1 and one of them is -1 or 1, or all are 0 *)
Definition normal (tb : list (R * list R)) : Prop :=
  (forall t x, In t tb -> In x (snd t) -> Rabs x <= 1) /\ ((exists t x, In t tb /\ In x (snd t) /\ Rabs x = 1) \/ (forall t x, In t tb -> In x (snd t) -> x = 0)).
(* every table is one period of its partials, all scaled alike *)
Definition filled (tb : list (R * list R)) (partial_sum : R -> R -> R) : Prop :=
  exists z, 0 < z /\ forall k, (k < length tb)%nat -> let p := fst (nth k tb (0, [])) in let t := snd (nth k tb (0, [])) in
    forall n, (n < length t)%nat -> nth n t 0 = z * partial_sum p (INR n / INR (length t)).
(* the sizes of the tables: powers of two, and 4 times the number of partials if there are at most 2048 *)
Definition sized (tb : list (R * list R)) : Prop :=
  forall t, In t tb -> (exists k, (5 <= k <= 13)%nat /\ length (snd t) = (2 ^ k)%nat) /\ ((top (fst t) <= 2 ^ 11)%nat -> (4 * top (fst t) <= length (snd t))%nat).
(* the cosine and sine coefficients of a wave *)
Definition cosine_part (x : list R) (k : nat) : R := total (length x) (fun n => nth n x 0 * cos (turn k n (length x))).
Definition sine_part (x : list R) (k : nat) : R := total (length x) (fun n => nth n x 0 * sin (turn k n (length x))).
Notation make_waveR ifft := (make_wave Rnum_ops Rnum_ops idR sin cos (2 * PI) ifft).
Notation table_newR ifft := (table_new Rnum_ops Rnum_ops idR sin cos Rpower (2 * PI) ifft).
Notation from_waveR ifft rfft arg norm := (from_wave Rnum_ops Rnum_ops idR idR sin cos Rpower (2 * PI) ifft rfft arg norm).
(* a wave of a single partial *)
Definition only (i : nat) (_ : R) (k : nat) : R := if Nat.eqb k i then 1 else 0.
