(* Units that output their sample rate, used by the examples and refutations of NetRateProperties.v. *)
From Coq Require Import QArith Lia.
From Verif Require Export NetRateProofs FadeExamples.
Local Open Scope nat_scope.

Inductive meter := Meter (r : Q) | Adder (r : Q) | Blank (r : Q) (i o : nat).
Definition meter_rate (u : meter) : Q := match u with Meter r => r | Adder r => r | Blank r _ _ => r end.
Definition meter_set (u : meter) (r : Q) : meter := match u with Meter _ => Meter r | Adder _ => Adder r | Blank _ i o => Blank r i o end.
Definition meter_tick (u : meter) (i : list Q) : meter * list Q :=
  match u with Meter r => (u, [r]) | Adder _ => (u, [Qred (nth 0 i 0 + nth 1 i 0)%Q]) | Blank _ _ o => (u, repeat 0%Q o) end.
Definition meter_ops : unit_ops Q Q meter :=
  mkUnit Q Q meter (fun u => match u with Meter _ => 0 | Adder _ => 2 | Blank _ i _ => i end) (fun u => match u with Blank _ _ o => o | _ => 1 end) meter_tick
    (fun u size inb out => (u, snd (default_process 0%Q meter_tick size u inb out))) (fun u _ => u) (fun u => u) (fun _ => 2%N) (fun u _ => u).
Definition meter_ping (probe : bool) (u : meter) (h : N) : meter * N := (u, h).
Definition mhash (a b : N) : N := a.
Definition same (q : Q) : Q := q.
Lemma meter_laws : rate_laws meter_ops meter_ping meter_set meter_rate.
Proof. constructor; try reflexivity; intros []; reflexivity. Qed.

Notation mmade := (made Qnum_ops Q_at meter_ops meter_ping mhash (Blank 0) meter_set same 44100%Q).
Notation medit := (rn_edit Qnum_ops Q_at meter_ops meter_ping mhash meter_set).
Notation mcross := (rn_crossfade Qnum_ops meter_ops meter_set).
Notation mrate := (rn_set_rate Qnum_ops meter_ping mhash meter_set same).
Notation mtick := (rn_tick Qnum_ops Q_at meter_ops meter_ping mhash).
Notation mbinop := (rn_binop Qnum_ops Q_at meter_ops meter_set).
Notation mnew := (rn_new same 44100%Q).
Notation mnet := (rnet Q meter).

Definition or_empty (o : option mnet) : mnet := match o with Some n => n | None => mnew 0 0 end.
(* a network that outputs its sample rate, at the rate sr *)
Definition meter_1 (sr : Q) : mnet := or_empty (mrate sr (mnew 0 1)).
Definition meter_2 (sr : Q) : mnet := or_empty (medit (Push 1%N (Meter 0)) (meter_1 sr)).
Definition meter_at (sr : Q) : mnet := or_empty (medit (PipeOutput 1%N) (meter_2 sr)).
Definition sum_net : mnet := or_empty (mbinop false (fun k => N.of_nat (k + 2)) (fun k => N.of_nat (k + 10)) (Adder 0) (meter_at 48000) (meter_at 44100)).
Definition equal_net : mnet := or_empty (mbinop false (fun k => N.of_nat (k + 2)) (fun k => N.of_nat (k + 10)) (Adder 0) (meter_at 48000) (meter_at 48000)).
Definition fader : nedit Q meter := mkEdit (Meter 0) Smooth (1 # 24000)%Q.
Definition fading_net : mnet := or_empty (mcross 1%N fader (meter_at 44100)).
Lemma meter_made sr : sr = 48000%Q \/ sr = 44100%Q -> mmade (meter_at sr).
Proof.
  intros H.
  assert (H1 : mrate sr (mnew 0 1) = Some (meter_1 sr)) by (destruct H as [-> | ->]; vm_compute; reflexivity).
  assert (H2 : medit (Push 1%N (Meter 0)) (meter_1 sr) = Some (meter_2 sr)) by (destruct H as [-> | ->]; vm_compute; reflexivity).
  assert (H3 : medit (PipeOutput 1%N) (meter_2 sr) = Some (meter_at sr)) by (destruct H as [-> | ->]; vm_compute; reflexivity).
  eapply m_edit; [|exact H3]. eapply m_edit; [|exact H2]. eapply m_rate; [apply m_new| |exact H1]. constructor.
Qed.
Lemma sum_made_of : exists f g, mbinop false f g (Adder 0) (meter_at 48000) (meter_at 44100) = Some sum_net.
Proof. exists (fun k => N.of_nat (k + 2)), (fun k => N.of_nat (k + 10)). vm_compute. reflexivity. Qed.
Lemma equal_made : mmade equal_net.
Proof.
  apply (m_binop Qnum_ops Q_at meter_ops meter_ping mhash (Blank 0) meter_set same 44100%Q false (fun k => N.of_nat (k + 2)) (fun k => N.of_nat (k + 10)) (Adder 0) (meter_at 48000) (meter_at 48000)); [apply meter_made; auto|apply meter_made; auto|vm_compute; reflexivity|vm_compute; reflexivity].
Qed.
Lemma fading_made : mmade fading_net.
Proof. apply (m_crossfade Qnum_ops Q_at meter_ops meter_ping mhash (Blank 0) meter_set same 44100%Q 1%N fader (meter_at 44100)); [apply meter_made; auto|vm_compute; reflexivity]. Qed.
(* what the network plays *)
Fixpoint play (k : nat) (n : mnet) : list Q := match k with O => [] | S k' => match mtick n [] with Some (n', o) => o ++ play k' n' | None => [] end end.
(* the rate of the unit that plays in vertex i, and of the one that is faded in *)
Definition playing (n : mnet) (i : nat) : option Q := option_map (fun v => meter_rate (x_unit (v_unit v))) (nth_error (n_vertex (rn_net n)) i).
Definition coming (n : mnet) (i : nat) : option Q := let? v := nth_error (n_vertex (rn_net n)) i in option_map (fun e => meter_rate (ed_unit e)) (x_next (v_unit v)).
Lemma playing_tune n i q : in_tune meter_rate n -> playing n i = Some q -> q = rn_rate n.
Proof.
  intros H E. red in H. rewrite Forall_forall in H. unfold playing in E. destruct (nth_error _ i) as [v|] eqn:Ev; [|discriminate]. injection E as <-. specialize (H v (nth_error_In _ _ Ev)). apply at_rate_iff in H. apply H.
Qed.
Lemma coming_tune n i q : in_tune meter_rate n -> coming n i = Some q -> q = rn_rate n.
Proof.
  intros H E. red in H. rewrite Forall_forall in H. unfold coming in E. destruct (nth_error _ i) as [v|] eqn:Ev; [|discriminate]. specialize (H v (nth_error_In _ _ Ev)). apply at_rate_iff in H as (_ & H & _).
  destruct (x_next (v_unit v)); [|discriminate]. injection E as <-. exact H.
Qed.
Lemma sum_out_of_tune : ~ in_tune meter_rate (or_empty (mrate 48000%Q sum_net)).
Proof. intros H. assert (E : playing (or_empty (mrate 48000%Q sum_net)) 1 = Some 44100%Q) by (vm_compute; reflexivity). apply (playing_tune _ _ _ H) in E. vm_compute in E. discriminate E. Qed.
Lemma fading_out_of_tune : ~ in_tune meter_rate (or_empty (mrate 48000%Q fading_net)).
Proof. intros H. assert (E : coming (or_empty (mrate 48000%Q fading_net)) 0 = Some 44100%Q) by (vm_compute; reflexivity). apply (coming_tune _ _ _ H) in E. vm_compute in E. discriminate E. Qed.
(* a frontend whose rate is changed between a crossfade and the commit *)
Definition front0 : rfront Q meter := mkRF (mkRN (bump (rn_net (meter_at 44100))) 44100%Q) [].
Definition front1 : rfront Q meter := rf_crossfade meter_set 1%N fader front0.
Definition with_rate (f : rfront Q meter) : rfront Q meter := match rf_set_rate Qnum_ops meter_ping mhash meter_set same 48000%Q f with Some f' => f' | None => f end.
Definition front2 : rfront Q meter := with_rate front1.
Definition commit_to (f : rfront Q meter) : mnet := or_empty (rf_commit Qnum_ops meter_ping mhash f (rn_net (meter_at 44100))).
Lemma front0_tune : in_tune meter_rate (rf_net front0).
Proof. exact (made_tune Qnum_ops Q_at meter_ops meter_ping mhash (Blank 0) meter_set same 44100%Q meter_rate meter_laws _ (meter_made 44100%Q (or_intror eq_refl))). Qed.
Lemma back_out_of_tune : ~ in_tune meter_rate (commit_to front2).
Proof. intros H. assert (E : coming (commit_to front2) 0 = Some 44100%Q) by (vm_compute; reflexivity). apply (coming_tune _ _ _ H) in E. vm_compute in E. discriminate E. Qed.
