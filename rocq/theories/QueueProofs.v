(* A replacement that arrives during a crossfade. *)
From Coq Require Import Lia.
From Verif Require Export FadeModel BufProofs.

Section Queue.
  Context {F P U : Type}.
  Variables (n : num F) (at_ : fade -> F -> F) (ops : unit_ops F P U) (sr : F).
  Notation tick := (x_tick n at_ ops sr). Notation process := (x_process n at_ ops sr).
  Lemma latest_wins (x : slotx F U) a b : x_next x <> None -> enqueue n (enqueue n x a) b = enqueue n x b.
  Proof. intros H. unfold enqueue. destruct (x_next x) as [e|] eqn:E; [|contradiction]. cbn [x_next]. reflexivity. Qed.
  Lemma all_latest_wins (x : slotx F U) es b : x_next x <> None -> fold_left (enqueue n) (es ++ [b]) x = enqueue n x b.
  Proof.
    intros H. rewrite fold_left_app. cbn [fold_left]. revert x H. induction es as [|a es IH]; intros x H; cbn [fold_left]; [reflexivity|]. rewrite IH; [now apply latest_wins|]. unfold enqueue. destruct (x_next x) as [e|] eqn:E; [|contradiction]. cbn [x_next]. congruence.
  Qed.
  Lemma tick_waits (x : slotx F U) a i : x_next x <> None -> x_latest x = None -> tick (enqueue n x a) i = (enqueue n (fst (tick x i)) a, snd (tick x i)).
  Proof.
    intros H L. unfold enqueue at 1. destruct (x_next x) as [e|] eqn:E; [|contradiction]. unfold x_tick. cbn [x_unit x_next x_latest x_phase x_tmp]. rewrite E, L. destruct (u_tick ops (x_unit x) i) as [u o]. destruct (u_tick ops (ed_unit e) i) as [w t]. cbv zeta.
    destruct (nleb n (n1 n) _); reflexivity.
  Qed.
  Lemma tick_no_latest (x : slotx F U) i : x_latest x = None -> x_latest (fst (tick x i)) = None.
  Proof.
    intros L. unfold x_tick. destruct (u_tick ops (x_unit x) i) as [u o]. destruct (x_next x) as [e|] eqn:E; [|exact L]. destruct (u_tick ops (ed_unit e) i) as [w t]. cbv zeta. destruct (nleb n (n1 n) _); [reflexivity|exact L].
  Qed.
  Lemma tick_idle (x : slotx F U) i : x_next x = None -> x_next (fst (tick x i)) = None.
  Proof. intros L. unfold x_tick. destruct (u_tick ops (x_unit x) i) as [u o]. rewrite L. reflexivity. Qed.
  Lemma ticks_idle ins : forall x : slotx F U, x_next x = None -> x_next (fst (ticks tick x ins)) = None.
  Proof. induction ins as [|i ins IH]; intros x H; cbn [ticks]; [exact H|]. pose proof (tick_idle x i H) as H'. destruct (tick x i) as [x1 o]. specialize (IH x1 H'). destruct (ticks tick x1 ins). exact IH. Qed.
  Lemma ticks_wait ins : forall i (x : slotx F U) a, x_latest x = None -> x_next (fst (ticks tick x ins)) <> None ->
    ticks tick (enqueue n x a) (ins ++ [i]) = (enqueue n (fst (ticks tick x (ins ++ [i]))) a, snd (ticks tick x (ins ++ [i]))).
  Proof.
    induction ins as [|j ins IH]; intros i x a L H; cbn [ticks app].
    - cbn in H. rewrite (tick_waits x a i H L). destruct (tick x i). reflexivity.
    - assert (Hx : x_next x <> None). { intros N. apply H. now apply (ticks_idle (j :: ins)). }
      rewrite (tick_waits x a j Hx L). pose proof (tick_no_latest x j L) as L1. cbn [ticks] in H. destruct (tick x j) as [x1 o]. cbn [fst snd] in *. rewrite (IH i x1 a L1); [|destruct (ticks tick x1 ins); exact H]. destruct (ticks tick x1 (ins ++ [i])). reflexivity.
  Qed.
  Lemma process_waits (x : slotx F U) a size inb out : x_next x <> None -> x_latest x = None -> process (enqueue n x a) size inb out = (enqueue n (fst (process x size inb out)) a, snd (process x size inb out)).
  Proof.
    intros H L. unfold enqueue at 1. destruct (x_next x) as [e|] eqn:E; [|contradiction]. unfold x_process. cbn [x_unit x_next x_latest x_phase x_tmp]. rewrite E, L. destruct (u_process ops (x_unit x) size inb out) as [u o]. destruct (u_process ops (ed_unit e) size inb (x_tmp x)) as [w t]. cbv zeta.
    destruct (Nat.leb _ _); reflexivity.
  Qed.
End Queue.
