(* Concrete values of the functions of MathModel.v. *)
From Coq Require Import QArith SpecFloat Reals.
From Verif Require Export MathNoise.
(* 1 - 38759/2^24, 1 - 10462/2^24 and 1 - 2899/2^24 *)
Definition near5 : spec_float := S754_finite false 16738457 (-24).
Definition near7 : spec_float := S754_finite false 16766754 (-24).
Definition near9 : spec_float := S754_finite false 16774317 (-24).
Definition f32_one : spec_float := nofZ f32_ops 1.
Definition constant_hash (x : N) : N := 12345678901234567890%N.
Lemma constant_word x : word 64 (constant_hash x).
Proof. vm_compute. reflexivity. Qed.
Example spline_quarter : (spline Qnum_ops (-1) 1 1 (-1) (1 # 2) == 5 # 4)%Q.
Proof. vm_compute. reflexivity. Qed.
Example mono_overshoot : (spline_mono Qnum_ops 3 2 1 0 (1 # 4) == 71 # 32)%Q.
Proof. vm_compute. reflexivity. Qed.
Example smooth_values : (smooth3 Qnum_ops (1 # 4) == 5 # 32 /\ smooth5 Qnum_ops (1 # 4) == 53 # 512 /\ smooth7 Qnum_ops (1 # 4) == 289 # 4096 /\ smooth9 Qnum_ops (1 # 2) == 1 # 2)%Q.
Proof. vm_compute. repeat split; reflexivity. Qed.
Lemma smooth3_keeps : keeps01 (Pair (Ease (smooth3 Rnum_ops)) (Ease (smooth9 Rnum_ops))) /\ starts0 (Pair (Ease (smooth3 Rnum_ops)) (Ease (smooth9 Rnum_ops))).
Proof. split; [split; [exact (e_range _ smooth3_eases)|exact (e_range _ smooth9_eases)]|split; cbn; [unfold smooth3|unfold smooth9]; cbn; ring]. Qed.
