(* C78: pebbles. *)
From Coq Require Import Reals Lra Lia.
From Verif Require Import PebbleModel PebbleProofs.
Import ListNotations.
Local Open Scope R_scope.

(* C78: the frequencies that pebbles writes to its 100 oscillators are positive in every update, however many there are, and the first is always 110 Hz. c is dt * speed / 1000 and may differ between updates; with the update interval of
   0.01 seconds it is below 1 for every speed below 100000. The pitches that it starts from are within 50 ... 5000 Hz. *)
Theorem C78_pebbles : forall seed cs n w, (seed < 2 ^ 64)%N -> Forall (fun c => 0 <= c <= 1) cs -> nth_error (pebbles Rnum_ops exp ln seed cs) n = Some w ->
  Forall (fun f => 0 < f) w /\ length w = 100%nat /\ nth 0 w 0 = 110.
Proof. exact pebbles_pitches. Qed.
Print Assumptions C78_pebbles.
Theorem C78_pebbles_start : forall seed i, (seed < 2 ^ 64)%N -> (i < 100)%nat -> 50 <= first_pitch Rnum_ops exp ln seed i <= 5000.
Proof. exact first_range. Qed.
Print Assumptions C78_pebbles_start.
(* C78: the gravity between two pitches moves their ratio towards the nearest integer, from below as from above; a ratio that is an integer is moved up. It moves no other pitch, changes either pitch by at most 0.6 c of itself, and
   always lowers the product of the two. A pitch that is compared with itself sinks by (c / 10)^2 of itself. *)
Theorem C78_pebbles_pull : forall c d i j, 0 < c <= 1 -> (i < length d)%nat -> (j < length d)%nat -> i <> j -> Forall (fun f => 0 < f) d -> nth j d 0 <= nth i d 0 ->
  let d' := pull Rnum_ops c d i j in let ratio := nth i d 0 / nth j d 0 in let ratio' := nth i d' 0 / nth j d' 0 in exists z, 1 <= IZR z /\ Rabs (ratio - IZR z) <= 1 / 2 /\
  (ratio <= IZR z -> ratio < ratio') /\ (IZR z < ratio -> ratio' < ratio) /\
  nth i d' 0 * nth j d' 0 < nth i d 0 * nth j d 0 /\ (forall k, k <> i -> k <> j -> nth k d' 0 = nth k d 0) /\ Rabs (nth i d' 0 - nth i d 0) <= 6 / 10 * c * nth i d 0 /\ Rabs (nth j d' 0 - nth j d 0) <= 6 / 10 * c * nth j d 0.
Proof. exact pull_pair. Qed.
Print Assumptions C78_pebbles_pull.
Theorem C78_pebbles_self : forall c d i, (i < length d)%nat -> Forall (fun f => 0 < f) d -> pull Rnum_ops c d i i = upd d i (nth i d 0 * (1 - (c / 10) * (c / 10))).
Proof. exact pull_self. Qed.
Print Assumptions C78_pebbles_self.
Example C78_pebbles_case : let d := [110; 250; 5000] in 0 < 1 / 100 <= 1 /\ Forall (fun f => 0 < f) d /\ nth 0 d 0 <= nth 1 d 0 /\ (nth 1 d 0 / nth 0 d 0 = 25 / 11) /\ exists w, nth_error (pebbles Rnum_ops exp ln 7 [1 / 100; 1 / 50]) 1 = Some w.
Proof.
  cbv zeta. split; [lra|]. split; [repeat (apply Forall_cons; [lra|]); apply Forall_nil|]. cbn [nth]. split; [lra|]. split; [lra|]. unfold pebbles. cbn [pebbles_run]. destruct (pebbles_update Rnum_ops (1 / 100) _) as [w d]. cbn [nth_error].
  destruct (pebbles_update Rnum_ops (1 / 50) d) as [w' d']. now exists w'.
Qed.
