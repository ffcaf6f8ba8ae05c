(* C83: organ, soft saw and Hammond waves have their documented partials, and waves of one pitch can be mixed. *)
From Coq Require Import Reals Lra Lia.
From Verif Require Import OverSpec OscProofs TableProofs TableBuild TableFloat TableCases TimbreProofs.
From Verif Require Import TimbreSpec.
From Verif Require Import TableSpec.
Local Open Scope R_scope.

(* The number of trailing zeros of k and what is left after shifting them out: k is a power of two times an odd number. *)
Theorem C83_octave_part : forall k, (1 <= k)%nat -> k = (2 ^ trailing_zeros k * shifted k)%nat /\ Nat.odd (shifted k) = true.
Proof. exact shifted_is. Qed.
Print Assumptions C83_octave_part.
Example C83_octave_part_case : shifted 12 = 3%nat /\ shifted 7 = 7%nat /\ shifted 64 = 1%nat /\ trailing_zeros 12 = 2%nat. Proof. exact shifted_case. Qed.
(* Organ: partial k sounds with amplitude 1 / (k + j^3) where j is the odd part of k, upside down unless k is 1, 5, 9, ... *)
Theorem C83_organ : forall pitch t, partials (organ_phase Rnum_ops) (organ_amplitude Rnum_ops) pitch t =
  total (top pitch) (fun i => let k := S i in (if Nat.eqb (k mod 4) 1 then 1 else -1) / INR (k + shifted k ^ 3) * fade (pitch * INR k) * sin (2 * PI * (INR k * t))).
Proof. exact organ_partials. Qed.
Print Assumptions C83_organ.
(* Octave partials, whose numbers are powers of two, fall like 1/k, *)
Theorem C83_organ_octave : forall pitch z, organ_amplitude Rnum_ops pitch (2 ^ z) = 1 / (2 ^ z + 1).
Proof. exact organ_octave. Qed.
Print Assumptions C83_organ_octave.
(* and are emphasized: an octave partial is stronger than every other partial above it, and than those up to 25 below it. *)
Theorem C83_organ_emphasis : forall pitch i k, is_octave i -> (1 <= k)%nat -> ~ is_octave k -> (i < k + 26)%nat -> organ_amplitude Rnum_ops pitch k < organ_amplitude Rnum_ops pitch i.
Proof. exact organ_octaves. Qed.
Print Assumptions C83_organ_emphasis.
Example C83_organ_emphasis_case : is_octave 8 /\ ~ is_octave 6 /\ (8 < 6 + 26)%nat. Proof. exact octave_case. Qed.
(* Soft saw contains all partials, which fall off as 1/k^2, *)
Theorem C83_soft_saw : forall pitch t, partials (soft_saw_phase Rnum_ops) (soft_saw_amplitude Rnum_ops) pitch t =
  total (top pitch) (fun i => let k := S i in (if Nat.eqb (k mod 4) 1 then 1 else -1) / (INR k * INR k) * fade (pitch * INR k) * sin (2 * PI * (INR k * t))).
Proof. exact soft_saw_partials. Qed.
Print Assumptions C83_soft_saw.
(* like a triangle wave: it has the odd partials of the triangle wave. *)
Theorem C83_soft_saw_triangle : forall pitch k, Nat.odd k = true -> soft_saw_amplitude Rnum_ops pitch k = triangle_amplitude Rnum_ops pitch k /\ soft_saw_phase Rnum_ops k = triangle_phase Rnum_ops k.
Proof. exact soft_saw_triangle. Qed.
Print Assumptions C83_soft_saw_triangle.
Example C83_soft_saw_triangle_case : Nat.odd 3 = true /\ soft_saw_amplitude Rnum_ops 440 3 = triangle_amplitude Rnum_ops 440 3.
Proof. split; [reflexivity|]. now apply C83_soft_saw_triangle. Qed.
(* Hammond emphasizes the first three partials: they have amplitude 1, the rest at most 1/4. *)
Theorem C83_hammond : forall pitch, (forall t, partials (hammond_phase Rnum_ops) (hammond_amplitude Rnum_ops) pitch t =
    total (top pitch) (fun i => let k := S i in hammond_amplitude Rnum_ops pitch k * fade (pitch * INR k) * sin (2 * PI * (INR k * t)))) /\
  (forall k, (1 <= k <= 3)%nat -> hammond_amplitude Rnum_ops pitch k = 1) /\
  (forall k, (4 <= k)%nat -> 0 <= hammond_amplitude Rnum_ops pitch k <= 1 / 4).
Proof. exact (fun pitch => conj (hammond_partials pitch) (conj (hammond_first pitch) (hammond_range pitch))). Qed.
Print Assumptions C83_hammond.
(* It contains exactly the octaves of partials 1, 3 and 9. *)
Theorem C83_hammond_partials : forall pitch k, (1 <= k)%nat -> hammond_amplitude Rnum_ops pitch k <> 0 <-> exists z, (k = 2 ^ z \/ k = 3 * 2 ^ z \/ k = 9 * 2 ^ z)%nat.
Proof. exact hammond_silent. Qed.
Print Assumptions C83_hammond_partials.
Example C83_hammond_partials_case : hammond_amplitude Rnum_ops 440 12 <> 0 /\ hammond_amplitude Rnum_ops 440 1 = 1.
Proof. split; [apply (C83_hammond_partials 440 12); [lia|exists 2%nat; right; left; reflexivity]|apply C83_hammond; lia]. Qed.
(* The u32 arithmetic of the amplitudes does not overflow for any partial of any of the tables, whose pitches are at least 20 Hz. *)
Theorem C83_no_overflow : forall pitch k, 20 <= pitch -> (1 <= k <= top pitch)%nat -> (Z.of_nat (k + shifted k * shifted k * shifted k) < 2 ^ 32 /\ Z.of_nat (k * k) < 2 ^ 32)%Z.
Proof. exact no_overflow. Qed.
Print Assumptions C83_no_overflow.
Example C83_no_overflow_case : (1 <= 1100 <= top 20)%nat. Proof. exact top_case. Qed.
(* The tables of each of these waves are made without panic, can be played, and are filled with the partials, scaled together to a peak of 1. *)
Theorem C83_tables : forall ifft w, is_inverse_dft ifft -> exists n tb, (forall fuel, (n <= fuel)%nat -> table_newR ifft fuel 20 20000 4 (tm_phase w) (tm_amplitude w) = Val tb) /\
  tables_ok tb /\ pitches tb 20 (Rpower 2 (1 / 4)) 20000 /\ filled tb (partials (tm_phase w) (tm_amplitude w)) /\ normal tb.
Proof. exact timbre_tables. Qed.
Print Assumptions C83_tables.
Example C83_tables_case : is_inverse_dft idft. Proof. exact idft_ok. Qed.
(* Organ, soft saw and triangle waves can be mixed in any proportion: each partial of the mix has the mixed amplitude. *)
Theorem C83_mix : mixable organ_timbre soft_saw_timbre /\ mixable organ_timbre triangle_timbre /\ mixable soft_saw_timbre triangle_timbre.
Proof. exact good_mixes. Qed.
Print Assumptions C83_mix.
(* REFUTED: the organ and soft saw tables "set phase to enable interpolation with saw, triangle and soft saw wavetables" (wavetable.rs:566, 594), but not with saw: partials 3, 7, 11, ... of a saw wave have phase 0 and those of the other three waves phase 1/2, so they cancel. *)
Theorem C83_mix_saw_refuted : forall w, w = organ_timbre \/ w = soft_saw_timbre \/ w = triangle_timbre -> ~ mixable saw_timbre w.
Proof. exact bad_mix. Qed.
Print Assumptions C83_mix_saw_refuted.
(* REFUTED: whatever the loudness x and y of the two waves, and for each of the partials 3, 7, 11, ... there is a mix of a saw wave with an organ, soft saw or triangle wave in which the partial is absent though both waves have it. *)
Theorem C83_mix_saw_cancels_refuted : forall w x y pitch k, (k mod 4 = 3)%nat -> w = organ_timbre \/ w = soft_saw_timbre \/ w = triangle_timbre -> 0 < x -> 0 < y ->
  exists a, 0 < a < 1 /\ forall t, (1 - a) * (x * component saw_timbre pitch k t) + a * (y * component w pitch k t) = 0.
Proof. exact cancels. Qed.
Print Assumptions C83_mix_saw_cancels_refuted.
Example C83_mix_saw_cancels_case : forall pitch, 0 < tm_amplitude saw_timbre pitch 3 /\ 0 < tm_amplitude soft_saw_timbre pitch 3.
Proof. intros pitch. split; apply inv_pos; cbn; lia. Qed.
