(* Claim C48, continued: what resampling does to a tone. *)
From Coq Require Import Reals Lra.
From Verif Require Import TapToneSpec ResampleSpec.
From Verif Require ResampleTone ResampleProofs.
Local Open Scope R_scope.

(* At any speeds the output is the tone at the time in the generator, up to 3/32 of the cube of w. *)
Theorem C48_tone S (gen_tick : S -> S * list R) x k A w p l : (forall n, nth k (gen_frame gen_tick x n) 0 = tone A w p (INR n)) ->
  Rabs (gen_interp gen_tick x k (position l) - tone A w p (position l)) <= 3 / 32 * (Rabs A * Rabs w ^ 3).
Proof. exact (ResampleTone.interp_tone gen_tick x k A w p (position l) (ResampleProofs.position_ge l)). Qed.
Print Assumptions C48_tone.
(* At a steady speed v a tone of w radians per sample becomes a tone of v w radians per sample. *)
Theorem C48_pitch S (gen_tick : S -> S * list R) (gen_reset : S -> S) (r : resampler S R R) A w p v m :
  let x := gen_reset (r_x r) in res_shape r 1 -> (forall n, gen_frame gen_tick x n = [tone A w p (INR n)]) -> 0 <= v ->
  exists r' os, res_run Rnum_ops Rnum_ops idR idR gen_tick (res_reset Rnum_ops gen_reset r) (repeat v m) = Some (r', os) /\ length os = m /\
  forall n, (n < m)%nat -> exists y, nth n os [] = [y] /\ Rabs (y - tone A (v * w) (p + w) (INR n + 1)) <= 3 / 32 * (Rabs A * Rabs w ^ 3).
Proof. exact (ResampleTone.resampled_tone gen_tick gen_reset r A w p v m). Qed.
Print Assumptions C48_pitch.
(* a generator that plays a tone *)
Example C48_pitch_case : let gen := fun n : nat => (Datatypes.S n, [tone 1 (1 / 8) 0 (INR n)]) in
  res_shape (mkResampler (S := nat) 5%nat [repeat 0 128] 1 0) 1 /\ forall n, gen_frame gen 0%nat n = [tone 1 (1 / 8) 0 (INR n)].
Proof.
  split; [split; [reflexivity|]; intros b [<-|[]]; reflexivity|]. intros n. unfold gen_frame. cbn [snd]. assert (E : gen_at (fun n : nat => (Datatypes.S n, [tone 1 (1 / 8) 0 (INR n)])) 0%nat n = n) by (induction n as [|n IH]; [reflexivity|]; cbn [gen_at fst]; now rewrite IH). now rewrite E.
Qed.
