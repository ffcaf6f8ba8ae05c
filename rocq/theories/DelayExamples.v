(* Concrete cases for the delay theorems. *)
From Coq Require Import ZArith Lia QArith Reals Lra.
From Verif Require Export DelayReals FadeExamples.

(* a unit of one channel that multiplies by a constant; it keeps the number of samples it has seen *)
Definition scale_tick (u : Z * nat) (i : list Z) : Z * nat * list Z := ((fst u, S (snd u)), map (Z.mul (fst u)) i).
Definition scale_ops : unit_ops Z unit (Z * nat) :=
  mkUnit Z unit (Z * nat) (fun _ => 1%nat) (fun _ => 1%nat) scale_tick (fun u size i o => default_process 0%Z scale_tick size u i o) (fun u _ => u) (fun u => (fst u, O)) (fun _ => 0%N) (fun u _ => u).
Lemma scale_laws : unit_laws 0%Z scale_ops.
Proof.
  split; [reflexivity|reflexivity| |].
  - intros u i H. cbn in *. now rewrite map_length.
  - intros u. apply (default_process_contract 0%Z scale_tick 1 1 (fun _ => True)); [|exact I]. intros y i _ H. split; [exact I|]. cbn. now rewrite map_length.
Qed.
(* the one-sample delay as a unit *)
Definition t1_ops : unit_ops R unit (list R) :=
  mkUnit R unit (list R) (fun _ => 1%nat) (fun _ => 1%nat) tick1 (fun u size i o => default_process 0%R tick1 size u i o) (fun u _ => u) (@tick1_reset R 0%R) (fun _ => 0%N) (fun u _ => u).
Definition t1_held (u : list R) : R := (nth 0 u 0 * nth 0 u 0)%R.
Lemma t1_lossless u v : let (u', o) := u_tick t1_ops u [v] in (nth 0 o 0 * nth 0 o 0 + t1_held u' = v * v + t1_held u)%R.
Proof. cbn. unfold t1_held. cbn. lra. Qed.

(* blocks of TapLinear: a line for delays up to 1.4 ms at 44.1 kHz *)
Definition lin_sr : Q := 44100%Q.
Definition lin_max : Q := (14 # 10000)%Q.
Definition lin_new : line Q := line_new 0%Q (linear_length Qnum_ops lin_sr lin_max).
(* eight frames of the sample 1 and the delay of 1.4 ms *)
Definition lin_in : list (list Q) := [repeat 1%Q 64; repeat lin_max 64].
Definition lin_ticks : list (list Q) := snd (ticks (linear_tick Qnum_ops 0%Q lin_max lin_sr) lin_new (frames 0%Q lin_in 8)).
Definition lin_block : list (list Q) := frames 0%Q (snd (linear_process Qnum_ops 0%Q lin_max lin_sr lin_new 8 lin_in [repeat 0%Q 64])) 8.
(* an impulse through a cubic tap: delays of 1.5 samples, and of 9, which is clamped to 4 *)
Definition tap_ins : list (list Q) := [[16; 3 # 2]; [0; 9]; [0; 3 # 2]; [0; 3 # 2]; [0; 9]; [0; 9]]%Q.
Definition tap_outs : list (list Q) := snd (ticks (tap_tick Qnum_ops 0%Q 4%Q 1%Q) (line_new 0%Q (tap_length Qnum_ops 1%Q 4%Q)) tap_ins).
