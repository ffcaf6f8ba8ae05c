(* A unit whose blocks do what ticks do serves any mix of them as it would serve ticks. *)
From Coq Require Import Lia.
From Verif Require Export Requests UnitProofs.
Section Requests.
  Context {A X : Type}.
  Variables (zero : A) (tick : X -> list A -> X * list A) (process : X -> nat -> list (list A) -> list (list A) -> X * list (list A)) (ins outs : nat).
  Variable Inv : X -> Prop.
  Hypothesis keep : forall x i, Inv x -> length i = ins -> Inv (fst (tick x i)).
  Hypothesis contract : forall x, Inv x -> block_contract zero tick process ins outs x.
  Lemma ticks_keep l : forall x, Inv x -> Forall (fun i => length i = ins) l -> Inv (fst (ticks tick x l)).
  Proof.
    induction l as [|i l IH]; intros x Hx Hl; cbn [ticks]; [exact Hx|]. inversion Hl; subst. pose proof (keep x i Hx eq_refl) as K. destruct (tick x i) as [x1 o]. cbn [fst] in K. specialize (IH x1 K ltac:(assumption)). destruct (ticks tick x1 l). exact IH.
  Qed.
  Lemma fed_len r : request_ok ins outs r -> Forall (fun i => length i = ins) (fed zero r).
  Proof. destruct r as [i|size inb out]; cbn; intros H; [auto|]. destruct H as (_ & [H _] & _). apply Forall_forall. intros f Hf. unfold frames in Hf. apply in_map_iff in Hf as (k & <- & _). now rewrite frame_length. Qed.
  Lemma serve_ticks x r : Inv x -> request_ok ins outs r -> serve zero tick process x r = ticks tick x (fed zero r).
  Proof.
    intros Hx Hr. destruct r as [i|size inb out]; cbn [serve fed ticks].
    - now destruct (tick x i).
    - destruct Hr as (H1 & H2 & H3). pose proof (contract x Hx size inb out H1 H2 H3) as C. destruct (process x size inb out) as [x' out']. exact (proj1 C).
  Qed.
  Lemma requests_are_ticks rs : forall x, Inv x -> Forall (request_ok ins outs) rs -> serve_all zero tick process x rs = ticks tick x (concat (map (fed zero) rs)).
  Proof.
    induction rs as [|r rs IH]; intros x Hx Hr; cbn [serve_all map concat ticks]; [reflexivity|]. inversion Hr; subst. rewrite serve_ticks by assumption. rewrite ticks_app.
    pose proof (ticks_keep (fed zero r) x Hx (fed_len r ltac:(assumption))) as K. destruct (ticks tick x (fed zero r)) as [x1 o1]. cbn [fst] in K. rewrite IH by assumption. reflexivity.
  Qed.
End Requests.
