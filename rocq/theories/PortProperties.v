(* C68: the inputs of the units with settings and parameter inputs. *)
From Coq Require Import Reals Lra List.
From Verif Require Import TuneSpec ResetModel TunePorts.
Import ListNotations.
Local Open Scope nat_scope.

(* C68: the variants with inputs for their parameters have one input for the audio and one for each parameter, after any history, and a unit reads the inputs it declares and no others. *)
Theorem C68_ports : forall (F G S X : Type) (nm : num F) (tl : tools F G S X) w op n acts m os, (forall cs, op <> OBank cs) -> build nm tl w op = Some n -> t_run nm tl n acts = Some (m, os) ->
  t_inputs m = t_inputs n /\ (forall k, w = true -> arity op = Some k -> t_inputs n = k) /\
  forall i e, length i = t_inputs m -> t_tick nm tl m (i ++ e) = t_tick nm tl m i /\ length (snd (t_tick nm tl m i)) = t_outputs m.
Proof. intros F G S X. exact ports. Qed.
Example C68_ports_case : (forall cs : list (bicoefs R), (OSvf MBell 1000%R 1%R 2%R : opcode R unit R) <> OBank cs) /\ exists n, build Rnum_ops real_tools true (OSvf MBell 1000%R 1%R 2%R) = Some n /\ t_inputs n = 4.
Proof. split; [discriminate|]. eexists. split; reflexivity. Qed.
Print Assumptions C68_ports.
