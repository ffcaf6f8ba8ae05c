(* C56. *)
From Coq Require Import QArith Reals Lra.
From Verif Require Import FadeModel FadeExamples QueueProofs.
Close Scope R_scope. Close Scope Q_scope. Open Scope nat_scope.

(* A replacement that arrives while a crossfade is under way neither disturbs it nor starts before it is over: as long as the crossfade
   was still under way before the last of the samples, ticking and then queueing is the same as queueing and then ticking. So the sound
   up to the end of the crossfade is what it would be without the replacement, and the crossfade to the new unit starts right there. *)
Theorem C56_waits : forall (F P U : Type) (n : num F) (at_ : fade -> F -> F) (ops : unit_ops F P U) (sr : F) (x : slotx F U) (e : nedit F U) before last,
  let tick := x_tick n at_ ops sr in
  x_latest x = None -> x_next (fst (ticks tick x before)) <> None ->
  let (x', outputs) := ticks tick x (before ++ [last]) in ticks tick (enqueue n x e) (before ++ [last]) = (enqueue n x' e, outputs).
Proof. intros F P U n at_ ops sr x e b i tick L H. pose proof (ticks_wait n at_ ops sr b i x e L H) as E. fold tick in E. destruct (ticks tick x (b ++ [i])). exact E. Qed.
Print Assumptions C56_waits.
(* The same for a block in which the crossfade ends or goes on: the crossfade to the new unit starts after that block. *)
Theorem C56_waits_block : forall (F P U : Type) (n : num F) (at_ : fade -> F -> F) (ops : unit_ops F P U) (sr : F) (x : slotx F U) (e : nedit F U) size inb out,
  let process := x_process n at_ ops sr in
  x_latest x = None -> x_next x <> None ->
  let (x', out') := process x size inb out in process (enqueue n x e) size inb out = (enqueue n x' e, out').
Proof. intros F P U n at_ ops sr x e size inb out process L H. pose proof (process_waits n at_ ops sr x e size inb out H L) as E. fold process in E. destruct (process x size inb out). exact E. Qed.
Print Assumptions C56_waits_block.
(* Of several that arrive, the latest counts. *)
Theorem C56_latest : forall (F U : Type) (n : num F) (x : slotx F U) (es : list (nedit F U)) (e : nedit F U), x_next x <> None -> fold_left (enqueue n) (es ++ [e]) x = enqueue n x e.
Proof. intros F U n x es e. exact (all_latest_wins n x es e). Qed.
Print Assumptions C56_latest.
(* Without a crossfade under way the replacement starts at once, at phase zero. *)
Theorem C56_at_once : forall (F U : Type) (n : num F) (x : slotx F U) (e : nedit F U), x_next x = None ->
  x_next (enqueue n x e) = Some e /\ x_phase (enqueue n x e) = n0 n /\ x_unit (enqueue n x e) = x_unit x /\ x_latest (enqueue n x e) = x_latest x.
Proof. intros F U n x e H. unfold enqueue. rewrite H. repeat split. Qed.
Print Assumptions C56_at_once.
Example C56_case : let x := enqueue Qnum_ops (x_new Qnum_ops (const_ops Qnum_ops) (0#1)%Q) (mkEdit (1#1)%Q Smooth (4#1)%Q) in
  x_latest x = None /\ x_next (fst (ticks (x_tick Qnum_ops (fun _ p => p) (const_ops Qnum_ops) (1#1)%Q) x (repeat [] 3))) <> None /\
  x_next (fst (ticks (x_tick Qnum_ops (fun _ p => p) (const_ops Qnum_ops) (1#1)%Q) x (repeat [] 4))) = None.
Proof. vm_compute. repeat split. discriminate. Qed.
