(* IdGenerator: runs that meet the hypotheses of IdProperties.v. *)
From Verif Require Export IdRuns.
Open Scope N_scope.

(* a single thread is never overtaken *)
Definition alone (s : gen) : Prop :=
  match g_threads s with
  | [Idle] => g_low s <= DANGER /\ g_begun s = g_bumps s * (DANGER + 1) + g_low s
  | [Low a _] => g_low s <= DANGER /\ g_begun s = g_bumps s * (DANGER + 1) + g_low s /\ a + 1 = g_begun s
  | [High a _ _] => g_low s <= DANGER /\ g_begun s = g_bumps s * (DANGER + 1) + g_low s /\ a + 1 = g_begun s
  | [Zone a _] => g_low s = DANGER + 1 /\ g_begun s = g_bumps s * (DANGER + 1) + g_low s /\ a + 1 = g_begun s
  | [Bumped a _ _] => g_low s = DANGER + 1 /\ g_begun s = g_bumps s * (DANGER + 1) /\ a + 1 = g_begun s
  | _ => False
  end.
Lemma alone_step s i : alone s -> alone (gen_step s i) /\ g_begun (gen_step s i) <= g_begun s + 1.
Proof.
  destruct s as [low high threads ids begun bumps]. unfold alone, gen_step. cbn [g_threads g_low g_high g_begun g_bumps g_ids].
  destruct threads as [|t [|? ?]]; try tauto. 2: { destruct t; tauto. } intros A. pose proof zonelo. pose proof zonehi.
  destruct i as [|i]; cbn [nth_error upd g_threads g_low g_high g_begun g_bumps g_ids]. 2: { destruct i; cbn [nth_error g_threads g_begun g_low g_bumps]; split; auto; lia. }
  destruct t; cbn [g_threads g_low g_high g_begun g_bumps g_ids].
  - assert (W : wadd 32 low 1 = low + 1) by (unfold wadd; apply N.mod_small; lia). rewrite W.
    destruct (N.ltb_spec low DANGER); cbn [g_threads g_low g_high g_begun g_bumps g_ids]; lia.
  - lia.
  - destruct ((low <? low0) || (DANGER <=? low)); cbn [g_threads g_low g_high g_begun g_bumps g_ids upd]; lia.
  - lia.
  - destruct (N.ltb_spec low DANGER); cbn [g_threads g_low g_high g_begun g_bumps g_ids]; lia.
Qed.
Lemma alone_run schedule : forall s, alone s -> alone (gen_run schedule s) /\ g_begun (gen_run schedule s) <= g_begun s + N.of_nat (length schedule).
Proof.
  induction schedule as [|i l IH]; intros s A; [cbn [length gen_run fold_left]; split; auto; lia|].
  change (gen_run (i :: l) s) with (gen_run l (gen_step s i)). destruct (alone_step s i A) as [B1 B2]. destruct (IH _ B1) as [C1 C2]. split; auto. cbn [length]. lia.
Qed.
Lemma bumps_of d k begun : 2 ^ 31 < d -> k * (d + 1) <= begun -> begun < 2 ^ 62 -> k < 2 ^ 32.
Proof. intros A B C. nia. Qed.
Lemma dangerbig : 2 ^ 31 < DANGER. Proof. reflexivity. Qed.
Lemma one_prompt schedule : N.of_nat (length schedule) < 2 ^ 62 -> prompt_run schedule (gen_new 1).
Proof.
  intros L n. assert (A0 : alone (gen_new 1)). { cbn. split; [lia|reflexivity]. }
  destruct (alone_run (firstn n schedule) _ A0) as [A B]. set (s := gen_run _ _) in *. change (g_begun (gen_new 1)) with 0 in B.
  assert (F : (length (firstn n schedule) <= length schedule)%nat) by (rewrite firstn_length; lia).
  assert (BB : g_begun s < 2 ^ 62) by lia. clear L F B. pose proof dangerbig as DB.
  unfold alone in A. destruct (g_threads s) as [|t [|? ?]] eqn:T; try contradiction. 2: { destruct t; contradiction. }
  split.
  - intros u a Hu Su. rewrite T in Hu. destruct Hu as [<-|[]]. destruct t; cbn in Su; try discriminate; injection Su as <-; cbn in A; lia.
  - apply (bumps_of DANGER _ (g_begun s)); auto. destruct t; lia.
Qed.
(* a decision *)
Definition promptb (s : gen) : bool :=
  forallb (fun t => match started t with None => true | Some a => g_begun s - a <? 2 ^ 20 end) (g_threads s) && (g_bumps s <? 2 ^ 32).
Lemma promptb_ok s : promptb s = true -> prompt s.
Proof.
  unfold promptb. intros H. apply andb_prop in H as [H1 H2]. split; [|now apply N.ltb_lt]. intros t a Ht Sa.
  rewrite forallb_forall in H1. specialize (H1 t Ht). rewrite Sa in H1. now apply N.ltb_lt.
Qed.
Lemma prompt_all schedule s : forallb (fun n => promptb (gen_run (firstn n schedule) s)) (seq 0 (S (length schedule))) = true -> prompt_run schedule s.
Proof.
  intros H n. rewrite forallb_forall in H. destruct (le_lt_dec n (length schedule)) as [G|G].
  - apply promptb_ok, H, in_seq. lia.
  - rewrite (firstn_all2 schedule) by lia. pose proof (H (length schedule)) as X. rewrite firstn_all in X. apply promptb_ok, X, in_seq. lia.
Qed.
(* three threads interleave, one of them twice *)
Definition weave : list nat := [0; 1; 0; 2; 1; 0; 0; 2; 1; 0; 2; 0]%nat.
Example interleaved_meets : prompt_run weave (gen_new 3) /\ g_ids (gen_run weave (gen_new 3)) = [3; 2; 1; 0] /\ g_begun (gen_run weave (gen_new 3)) <= DANGER.
Proof. split; [apply prompt_all; vm_compute; reflexivity|split; [vm_compute; reflexivity|vm_compute; discriminate]]. Qed.
(* beginning at DANGER - 1, a call takes the word before the zone, is refused, and takes the word in the zone *)
Example zone_meets : g_ids (gen_run (repeat 0%nat 9) (mkGen (DANGER - 1) 7 [Idle] [] 0 7)) = [id_of 0 8; id_of DANGER 7].
Proof. vm_compute. reflexivity. Qed.
