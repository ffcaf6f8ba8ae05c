(* What is claimed of reverbs. *)
From Coq Require Import Reals.
From Verif Require Export RevModel NodeArith.
From Verif Require Export HadamardSpec.
Local Open Scope R_scope.

(* the energy of a stream of frames, where sample n counts r^(2n)-fold: if it is bounded then the level falls off as r^-n or faster *)
Fixpoint weighted (r : R) (l : list (list R)) : R := match l with [] => 0 | f :: l => energy f + r * r * weighted r l end.
(* the energy of a stream *)
Definition total (l : list (list R)) : R := weighted 1 l.

Section Gain.
  Context {P U : Type}.
  Variable ops : unit_ops R P U.
  (* at no time has the expression given more than g times the weighted energy that it was given *)
  Definition energy_gain (r g : R) (x : node R U) : Prop :=
    forall l, stream (ins ops x) l -> weighted r (outputs R_arith ops x l) <= g * weighted r l.
  (* the output of the next m samples after the input l and n samples of silence *)
  Definition tail_after (x : node R U) (l : list (list R)) (n m : nat) : list (list R) :=
    skipn (length l + n) (outputs R_arith ops x (l ++ repeat (repeat 0 (ins ops x)) (n + m))).
End Gain.

(* the opcodes over real numbers; the scale is that of FrameHadamard for 32 or 16 channels, as f32 *)
Definition gainR : R -> R -> R := pass_gain Rnum_ops Rpower (Rpower 10).
Definition stereoR : R -> R -> R -> R -> option (node R (rleaf R)) := reverb_stereo Rnum_ops Rpower (Rpower 10) cos sin (PI / 4) (f32_scale 5).
Definition stereo4R : R -> list R -> R -> option (node R (rleaf R)) := reverb4_stereo_delays Rnum_ops Rpower (Rpower 10) cos sin (PI / 4) (f32_scale 4).
Definition room4R : R -> R -> R -> option (node R (rleaf R)) := reverb4_stereo Rnum_ops Rpower (Rpower 10) cos sin (PI / 4) (f32_scale 4).
(* two inputs and outputs, and the weighted energy at most g times as large *)
Definition stereo_gain (r g : R) (x : node R (rleaf R)) : Prop :=
  wf (rl_ops Rnum_ops) x /\ ins (rl_ops Rnum_ops) x = 2%nat /\ outs (rl_ops Rnum_ops) x = 2%nat /\ energy_gain (rl_ops Rnum_ops) r g x.

(* ---- Reverb ---- *)
Section Loop.
  Context {P X : Type}.
  Variable xo : unit_ops R P X.
  Variable x_rate : X -> R -> X.
  (* what may happen to a reverb *)
  Inductive rev_op := RTick (i : list R) | RReset | RRate (sr : R).
  (* the output frames *)
  Fixpoint rev_run (r : reverb R X) (l : list rev_op) : list (list R) :=
    match l with
    | [] => []
    | RTick i :: l => let (r, o) := reverb_tick Rnum_ops xo r i in o :: rev_run r l
    | RReset :: l => rev_run (reverb_reset Rnum_ops xo r) l
    | RRate sr :: l => rev_run (reverb_rate Rnum_ops x_rate r sr) l
    end.
  (* the input frames *)
  Definition rev_inputs (l : list rev_op) : list (list R) := flat_map (fun o => match o with RTick i => [i] | _ => [] end) l.
  (* a filter that never gives more energy than it was given and holds: held is the energy that it holds, which reset and a new sample rate do not raise *)
  Definition passive (held : X -> R) : Prop :=
    (forall x, 0 <= held x) /\ (forall x v, let (x', o) := u_tick xo x [v] in nth 0 o 0 * nth 0 o 0 + held x' <= v * v + held x) /\
    (forall x, held (u_reset xo x) <= held x) /\ (forall x sr, held (x_rate x sr) <= held x).
End Loop.
Definition loopR {X} : R -> R -> X -> option (reverb R X) := reverb_new Rnum_ops Rpower (Rpower 10).
(* the attenuation of one stage of the loop *)
Definition loop_gainR (time : R) : R := Rpower (db_amp Rnum_ops (Rpower 10) (-60)) (35 / 1000 / time).
(* the filter that passes everything *)
Definition pass_ops : unit_ops R unit unit := mkUnit R unit unit (fun _ => 1%nat) (fun _ => 1%nat) (fun u i => (u, i)) (fun u size i o => default_process 0 (fun u i => (u, i)) size u i o) (fun u _ => u) (fun u => u) (fun _ => 0%N) (fun u _ => u).
(* a lowpole: y = (1 - c) x + c y' *)
Definition pole (c : R) : unit_ops R unit R := mkUnit R unit R (fun _ => 1%nat) (fun _ => 1%nat) (fun y i => let y := (1 - c) * nth 0 i 0 + c * y in (y, [y]))
  (fun y size i o => default_process 0 (fun y i => let y := (1 - c) * nth 0 i 0 + c * y in (y, [y])) size y i o) (fun y _ => y) (fun _ => 0) (fun _ => 0%N) (fun y _ => y).
