(* C82: every unit of a network runs at the sample rate of the network. *)
From Coq Require Import QArith.
From Verif Require Import NetRateExamples.
Local Open Scope nat_scope.

(* However a network is edited and played - units pushed, chained, replaced, removed, crossfaded and faded in, settings, resets - all its units,
   those that play and those that are faded in or wait, run at the sample rate of the network, provided the sample rate is changed only while
   nothing is faded in and only networks of one sample rate are combined. *)
Theorem C82_in_tune {F P U} (nm : num F) at_ (ops : unit_ops F P U) uping ahash dummy urate narrow default_sr rate_of n :
  rate_laws ops uping urate rate_of -> made nm at_ ops uping ahash dummy urate narrow default_sr n -> in_tune rate_of n.
Proof. intros L H. eapply made_tune; eauto. Qed.
Print Assumptions C82_in_tune.
Example C82_in_tune_meets : rate_laws meter_ops meter_ping meter_set meter_rate /\ mmade equal_net /\ length (n_vertex (rn_net equal_net)) = 3 /\ play 2 equal_net = [96000%Q; 96000%Q].
Proof. split; [exact meter_laws|]. split; [exact equal_made|]. split; vm_compute; reflexivity. Qed.
Example C82_in_tune_fading : mmade fading_net /\ ~ still fading_net.
Proof. split; [exact fading_made|]. intros H. red in H. rewrite Forall_forall in H. destruct (H _ (or_introl eq_refl)) as [G _]. vm_compute in G. discriminate G. Qed.

(* A different sample rate set on a network, in whatever state, reaches every unit that plays. *)
Theorem C82_set_rate {F P U} (nm : num F) (ops : unit_ops F P U) uping ahash urate narrow rate_of sr n n' :
  rate_laws ops uping urate rate_of -> nleb nm (rn_rate n) (narrow sr) && nleb nm (narrow sr) (rn_rate n) = false ->
  rn_set_rate nm uping ahash urate narrow sr n = Some n' ->
  rn_rate n' = narrow sr /\ Forall (fun v => rate_of (x_unit (v_unit v)) = rn_rate n') (n_vertex (rn_net n')).
Proof. intros L. eapply set_rate_current; eauto. Qed.
Print Assumptions C82_set_rate.
Example C82_set_rate_meets : play 2 (or_empty (mrate 96000%Q sum_net)) = [192000%Q; 192000%Q].
Proof. vm_compute. reflexivity. Qed.

(* A commit gives the backend a network in tune, if the frontend is in tune, the crossfades that wait run at its rate, and so do the units of the backend. *)
Theorem C82_commit {F P U} (nm : num F) (ops : unit_ops F P U) uping ahash urate rate_of f old b :
  rate_laws ops uping urate rate_of -> rf_commit nm uping ahash f old = Some b -> in_tune rate_of (rf_net f) ->
  Forall (fun e => rate_of (ed_unit (snd e)) = rn_rate (rf_net f)) (rf_edits f) ->
  Forall (fun v => at_rate rate_of (rn_rate (rf_net f)) (v_unit v)) (n_vertex old) -> in_tune rate_of b.
Proof. intros L H HT HE HO. exact (commit_tune nm ops uping ahash urate rate_of L f old b H HT HE (or_introl HO)). Qed.
Print Assumptions C82_commit.
Example C82_commit_meets : in_tune meter_rate (rf_net front1) /\ rf_commit Qnum_ops meter_ping mhash front1 (rn_net (meter_at 44100)) = Some (commit_to front1) /\
  Forall (fun e => meter_rate (ed_unit (snd e)) = rn_rate (rf_net front1)) (rf_edits front1) /\ rf_edits front1 <> [] /\ coming (commit_to front1) 0 = Some 44100%Q.
Proof. split; [exact front0_tune|]. split; [vm_compute; reflexivity|]. split; [constructor; [reflexivity|constructor]|]. split; [discriminate|vm_compute; reflexivity]. Qed.

(* A change of the sample rate of a frontend, while nothing is faded in and no crossfade waits, reaches all units of the backend at the next commit,
   whatever rate they ran at. *)
Theorem C82_commit_rate {F P U} (nm : num F) (ops : unit_ops F P U) uping ahash urate narrow rate_of f f' sr old b :
  rate_laws ops uping urate rate_of -> in_tune rate_of (rf_net f) -> still (rf_net f) -> rf_edits f = [] -> (n_revision old < n_revision (rn_net (rf_net f)))%N ->
  nleb nm (rn_rate (rf_net f)) (narrow sr) && nleb nm (narrow sr) (rn_rate (rf_net f)) = false ->
  rf_set_rate nm uping ahash urate narrow sr f = Some f' -> rf_commit nm uping ahash f' old = Some b ->
  in_tune rate_of b /\ rn_rate b = narrow sr.
Proof. intros L. exact (commit_rate nm ops uping ahash urate narrow rate_of L f f' sr old b). Qed.
Print Assumptions C82_commit_rate.
Example C82_commit_rate_meets : in_tune meter_rate (rf_net front0) /\ still (rf_net front0) /\ rf_edits front0 = [] /\ (n_revision (rn_net (meter_at 44100)) < n_revision (rn_net (rf_net front0)))%N /\
  rf_set_rate Qnum_ops meter_ping mhash meter_set same 48000%Q front0 = Some (with_rate front0) /\
  rf_commit Qnum_ops meter_ping mhash (with_rate front0) (rn_net (meter_at 44100)) = Some (commit_to (with_rate front0)) /\ play 1 (commit_to (with_rate front0)) = [48000%Q].
Proof. split; [exact front0_tune|]. split; [vm_compute; repeat constructor|]. split; [reflexivity|]. split; [vm_compute; reflexivity|]. split; [vm_compute; reflexivity|]. split; vm_compute; reflexivity. Qed.

(* REFUTED: "After set_sample_rate all units of a network run at that sample rate." The operators on networks take over the units of the second
   network with the sample rate they have, while the result reports the sample rate of the first, and set_sample_rate does nothing when the rate it is
   given equals the one reported. A network at 48000 Hz plus one at the default 44100 Hz, told to run at 48000 Hz, keeps units at 44100 Hz, so that
   the sum of two units that output their sample rate is 92100. *)
Theorem C82_combine_refuted :
  rate_laws meter_ops meter_ping meter_set meter_rate /\
  ~ (forall shared f g b n1 n2 n sr n', mmade n1 -> mmade n2 -> mbinop shared f g b n1 n2 = Some n -> mrate sr n = Some n' -> in_tune meter_rate n').
Proof.
  split; [exact meter_laws|]. intros H. destruct sum_made_of as (f & g & E).
  refine (sum_out_of_tune (H false f g (Adder 0) _ _ _ 48000%Q (or_empty (mrate 48000%Q sum_net)) (meter_made _ (or_introl eq_refl)) (meter_made _ (or_intror eq_refl)) E _)). vm_compute. reflexivity.
Qed.
Print Assumptions C82_combine_refuted.
Example C82_combine_heard : play 2 (or_empty (mrate 48000%Q sum_net)) = [92100%Q; 92100%Q].
Proof. vm_compute. reflexivity. Qed.

(* REFUTED: "A change of the sample rate of a network reaches all its units, even during a crossfade." set_sample_rate passes the rate to the unit that
   is faded out only. The unit that is faded in keeps the old rate, also when it has replaced the other: setting the same rate again does nothing. *)
Theorem C82_fading_refuted :
  rate_laws meter_ops meter_ping meter_set meter_rate /\ ~ (forall n sr n', mmade n -> mrate sr n = Some n' -> in_tune meter_rate n').
Proof.
  split; [exact meter_laws|]. intros H. refine (fading_out_of_tune (H fading_net 48000%Q (or_empty (mrate 48000%Q fading_net)) fading_made _)). vm_compute. reflexivity.
Qed.
Print Assumptions C82_fading_refuted.
Example C82_fading_heard : nth 0 (play 5 (or_empty (mrate 48000%Q fading_net))) 0%Q = 48000%Q /\ skipn 3 (play 5 (or_empty (mrate 48000%Q fading_net))) = [44100%Q; 44100%Q].
Proof. split; vm_compute; reflexivity. Qed.

(* REFUTED: "A commit sends units at the sample rate of the frontend to the backend." A crossfade made before the change of the rate waits in the
   queue of edits, which set_sample_rate does not look at; it is then sent with the old rate. *)
Theorem C82_queue_refuted :
  rate_laws meter_ops meter_ping meter_set meter_rate /\
  ~ (forall f id e sr f' old b, in_tune meter_rate (rf_net f) -> rf_edits f = [] -> still (rf_net f) -> (n_revision old < n_revision (rn_net (rf_net f)))%N ->
       rf_set_rate Qnum_ops meter_ping mhash meter_set same sr (rf_crossfade meter_set id e f) = Some f' ->
       rf_commit Qnum_ops meter_ping mhash f' old = Some b -> in_tune meter_rate b).
Proof.
  split; [exact meter_laws|]. intros H.
  refine (back_out_of_tune (H front0 1%N fader 48000%Q front2 (rn_net (meter_at 44100)) (commit_to front2) front0_tune eq_refl _ _ _ _)); [vm_compute; repeat constructor|vm_compute; reflexivity|vm_compute; reflexivity|vm_compute; reflexivity].
Qed.
Print Assumptions C82_queue_refuted.
