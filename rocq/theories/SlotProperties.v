(* C42 and C59. *)
From Coq Require Import Reals Lra QArith SpecFloat Permutation.
From Verif Require Import SlotExamples.
Close Scope R_scope. Close Scope Q_scope. Open Scope nat_scope.

(* ------------------------------------------------------------------ C42 *)
(* With exact times and phases, positive fade times and positive sample rates: whatever calls of set, rendering, reset and set_sample_rate
   came before, if at most 1022 updates waited at every moment, then enough rendering leaves the slot playing the unit that was set
   last, with nothing waiting, and every other unit has come back to the frontend, exactly once, with none dropped on the way.
   Missing: more than 1022 waiting updates, where the statement is false (C42_refused_refuted and C42_dropped_refuted). *)
Theorem C42_latest_partial : forall (F P U : Type) (nf : num F) (cast : R -> F) (at_d : fade -> R -> R) (at_f : fade -> F -> F) (ops : unit_ops F P U) (set_rate : U -> R -> U) ins outs
  (tag : U -> nat), names ops set_rate tag ->
  let new := slot_new nf Rnum_ops ops set_rate in let run := slot_run nf Rnum_ops cast at_d at_f ops set_rate ins outs in
  forall rate first es s, (0 < rate)%R -> Forall (timely (fun x => (0 < x)%R)) es -> run es (new rate first) = Some s ->
  roomy nf Rnum_ops cast at_d at_f ops set_rate ins outs es (new rate first) ->
  exists K, forall rs s', Forall renders rs -> K <= length rs -> run rs s = Some s' ->
    plays tag s' (tag (last (sets es) first)) /\ sl_refused s' = [] /\ sl_dropped s' = [] /\
    Permutation (map tag (sl_returns s' ++ sl_freed s')) (map tag (removelast (first :: sets es))).
Proof.
  intros F P U nf cast at_d at_f ops set_rate ins outs tag Ht new run rate first es s R0 T R W. exact (in_the_end nf cast at_d at_f ops set_rate ins outs tag Ht first rate es s R0 T R W).
Qed.
Print Assumptions C42_latest_partial.
(* Whatever the arithmetic, no unit is ever lost or doubled: every unit that was passed to the slot is playing, waiting, on the way back,
   back, refused by a full channel, or dropped by the audio thread. *)
Theorem C42_conserved : forall (F D P U : Type) (nf : num F) (nd : num D) (cast : D -> F) (at_d : fade -> D -> D) (at_f : fade -> F -> F) (ops : unit_ops F P U) (set_rate : U -> D -> U) ins outs
  (tag : U -> nat), names ops set_rate tag ->
  forall rate first es s, slot_run nf nd cast at_d at_f ops set_rate ins outs es (slot_new nf nd ops set_rate rate first) = Some s ->
  Permutation (map tag (units s)) (map tag (sets es) ++ [tag first]).
Proof.
  intros F D P U nf nd cast at_d at_f ops set_rate ins outs tag Ht rate first es s R.
  destruct (run_perm nf nd cast at_d at_f ops set_rate ins outs tag Ht es _ _ R (fun _ => eq_refl)) as [_ H]. destruct Ht as (_ & _ & _ & T4). cbn in H. rewrite T4 in H. exact H.
Qed.
Print Assumptions C42_conserved.
(* Units of the right arity never make the slot panic. *)
Theorem C42_no_panic : forall (F D P U : Type) (nf : num F) (nd : num D) (cast : D -> F) (at_d : fade -> D -> D) (at_f : fade -> F -> F) (ops : unit_ops F P U) (set_rate : U -> D -> U) ins outs es,
  arities ops ins outs es -> forall s, slot_run nf nd cast at_d at_f ops set_rate ins outs es s <> None.
Proof. intros F D P U nf nd cast at_d at_f ops set_rate ins outs es A s. destruct (run_total nf nd cast at_d at_f ops set_rate ins outs es A s) as (s' & ->). discriminate. Qed.
Print Assumptions C42_no_panic.
(* Computed in one number type, a slot renders exactly what the vertex of a network renders with the waiting updates enqueued, and it
   is left in the same state. So the properties of crossfades (C11, C56) hold of slots. *)
Theorem C42_crossfades : forall (F P U : Type) (n : num F) (at_ : fade -> F -> F) (ops : unit_ops F P U) (s : @slot F F U),
  let vertex := fold_left (enqueue n) (sl_updates s) (core s) in let rate := sb_rate (sl_back s) in
  (forall input, let (s', o) := slot_tick n n (fun x => x) at_ ops s input in (core s', o) = x_tick n at_ ops rate vertex input) /\
  (forall size inb out, let (s', o) := slot_process n n (fun x => x) at_ ops s size inb out in (core s', o) = x_process n at_ ops rate vertex size inb out).
Proof.
  intros F P U n at_ ops s vertex rate. split; [intros i; pose proof (core_tick n at_ ops s i) as [A B]|intros size inb out; pose proof (core_process n at_ ops s size inb out) as [A B]]; fold vertex rate in A, B.
  - destruct (slot_tick n n (fun x => x) at_ ops s i). cbn [fst snd] in *. rewrite A, B. now destruct (x_tick n at_ ops rate vertex i).
  - destruct (slot_process n n (fun x => x) at_ ops s size inb out). cbn [fst snd] in *. rewrite A, B. now destruct (x_process n at_ ops rate vertex size inb out).
Qed.
Print Assumptions C42_crossfades.
(* set while 1024 updates wait: the update is dropped silently, and the unit that was set last never plays. *)
Theorem C42_refused_refuted :
  let new := slot_new Rnum_ops Rnum_ops (play_ops Rnum_ops) play_rate in let run := slot_run (F := R) Rnum_ops Rnum_ops (fun x => x) R_at R_at (play_ops Rnum_ops) play_rate 0 1 in
  ~ (forall es s, Forall (timely (fun x => (0 < x)%R)) es -> run es (new 1%R (0, 1%R)) = Some s ->
     exists K, forall rs s', Forall renders rs -> K <= length rs -> run rs s = Some s' -> plays fst s' (fst (last (sets es) (0, 1%R)))).
Proof.
  intros new run H. destruct last_lost as (s & R0 & L). fold run new in R0. destruct (H flood s) as (K & HK); auto.
  - unfold flood. apply Forall_app. split; [|repeat constructor; cbn; lra]. apply Forall_forall. intros e X. apply repeat_spec in X. subst e. cbn. lra.
  - assert (T : Forall renders (repeat (SlotSpec.Tick (@nil R)) K : list (slot_event R R (nat * R)))) by (apply Forall_forall; intros e X; apply repeat_spec in X; now subst e).
    destruct (run_total Rnum_ops Rnum_ops (fun x => x) R_at R_at (play_ops Rnum_ops) play_rate 0 1 (repeat (SlotSpec.Tick []) K)) with (s := s) as (s' & R'); [unfold arities; rewrite renders_sets by exact T; constructor|].
    destruct (HK _ s' T) as [C _]; [now rewrite repeat_length|exact R'|]. apply (L _ s' (renders_sets _ T) R'). rewrite C. unfold flood. rewrite sets_app. cbn. rewrite last_app. reflexivity.
Qed.
Print Assumptions C42_refused_refuted.
(* When a crossfade is under way, another unit waits behind it and 1024 updates wait, the returned units fill their channel, and the
   audio thread itself drops those that end next. *)
Theorem C42_dropped_refuted : option_map (fun s => (map fst (sl_dropped s), map fst (sl_refused s)))
  (slot_run (F := Q) Qnum_ops Qnum_ops (fun x => x) Q_at Q_at (play_ops Qnum_ops) play_rate 0 1 crowd q_new) = Some ([0; 1], []).
Proof. vm_compute. reflexivity. Qed.
Print Assumptions C42_dropped_refuted.
(* set during a crossfade, a block that ends it, set, a reset: unit 3 plays, and units 0, 1 and 2 are back *)
Example C42_case : let es := [q_set 1 4%Q; SlotSpec.Tick []; q_set 2 2%Q; Process 16 [] [repeat 0%Q 64]; q_set 3 2%Q; SlotSpec.Tick []; SlotSpec.Reset] in
  option_map (fun s => (fst (sb_current (sl_back s)), map fst (waiting s), map fst (sl_returns s ++ sl_freed s)))
    (slot_run (F := Q) Qnum_ops Qnum_ops (fun x => x) Q_at Q_at (play_ops Qnum_ops) play_rate 0 1 es q_new) = Some (3, [], [1; 2; 0]) /\
  arities (play_ops Qnum_ops) 0 1 es /\ names (play_ops (D := Q) Qnum_ops) play_rate fst.
Proof. split; [vm_compute; reflexivity|]. split; [repeat constructor|apply play_names]. Qed.
Example C42_case_roomy : let es := [Set_ (mkEdit (1, 1%R) Smooth 4%R); SlotSpec.Tick []; Set_ (mkEdit (2, 1%R) Power 1%R)] : list (slot_event R R (nat * R)) in
  Forall (timely (fun x => (0 < x)%R)) es /\
  roomy Rnum_ops Rnum_ops (fun x => x) R_at R_at (play_ops Rnum_ops) play_rate 0 1 es (slot_new Rnum_ops Rnum_ops (play_ops Rnum_ops) play_rate 1%R (0, 1%R)).
Proof.
  intros es. split; [repeat constructor; cbn; lra|]. assert (C : 3 + 2 <= CHANNEL) by (apply Nat.leb_le; reflexivity).
  assert (B : forall es s s', slot_run Rnum_ops Rnum_ops (fun x => x) R_at R_at (play_ops Rnum_ops) play_rate 0 1 es s = Some s' -> ordered s -> length (sl_updates s') <= length (sl_updates s) + length es).
  { clear. induction es as [|e es IH]; intros s s' R O; cbn [slot_run] in R; [injection R as <-; lia|]. destruct (slot_step _ _ _ _ _ _ _ _ _ s e) as [s1|] eqn:E; [|discriminate]. cbn [length].
    assert (X : length (sl_updates s1) <= length (sl_updates s) + 1 /\ ordered s1).
    { destruct e as [e|i|size inb out| |r]; [destruct (set_step Rnum_ops Rnum_ops (fun x => x) R_at R_at (play_ops Rnum_ops) play_rate 0 1 fst s e s1 E O) as [O1 _]; split; auto; cbn [slot_step] in E; apply set_cases in E as (_ & _ & _ & _ & [(_ & -> & _)|(_ & -> & _)]); rewrite ?app_length; cbn; lia| | | |];
      pose proof (step_moves Rnum_ops Rnum_ops (fun x => x) R_at R_at (play_ops Rnum_ops) play_rate 0 1 fst (play_names Rnum_ops) s _ s1 E O ltac:(discriminate)) as M; split; [pose proof (m_updates _ _ _ M); lia|apply (m_ordered _ _ _ M)|pose proof (m_updates _ _ _ M); lia|apply (m_ordered _ _ _ M)|pose proof (m_updates _ _ _ M); lia|apply (m_ordered _ _ _ M)|pose proof (m_updates _ _ _ M); lia|apply (m_ordered _ _ _ M)]. }
    destruct X as [X O1]. specialize (IH _ _ R O1). lia. }
  intros n s' R. specialize (B _ _ _ R (fun _ => eq_refl)). change (length (sl_updates (slot_new Rnum_ops Rnum_ops (play_ops Rnum_ops) play_rate 1%R (0, 1%R)))) with 0 in B.
  assert (length (firstn n es) <= 3) by (rewrite firstn_length; cbn; lia). lia.
Qed.
(* a fade time of zero: one tick or one block, in f64 *)
Example C42_case_zero : let new := slot_new f32_ops f64_ops (play_ops f32_ops) play_rate (nofZ f64_ops 44100) (0, nofZ f64_ops 44100) in
  let run := slot_run (F := spec_float) f32_ops f64_ops (fun _ => f32z 0) (fun _ x => x) (fun _ x => x) (play_ops f32_ops) play_rate 0 1 in
  let e := Set_ (mkEdit (1, nofZ f64_ops 44100) Smooth (nofZ f64_ops 0)) in
  option_map (fun s => (fst (sb_current (sl_back s)), map fst (waiting s))) (run [e; SlotSpec.Tick []] new) = Some (1, []) /\
  option_map (fun s => (fst (sb_current (sl_back s)), map fst (waiting s))) (run [e; Process 1 [] [repeat (f32z 0) 64]] new) = Some (1, []).
Proof. vm_compute. split; reflexivity. Qed.

(* ------------------------------------------------------------------ C59 *)
(* The units that a slot renders run at the slot's sample rate, if every unit was set to the slot's sample rate before it was passed to
   the slot, and the rate did not change while an update waited. Missing: units at another rate, where it is false (C59_rate_refuted). *)
Theorem C59_rate_partial : forall (F D P U : Type) (nf : num F) (nd : num D) (cast : D -> F) (at_d : fade -> D -> D) (at_f : fade -> F -> F) (ops : unit_ops F P U) (set_rate : U -> D -> U) ins outs
  (rate_of : U -> D), rates ops set_rate rate_of ->
  forall rate first es s, slot_run nf nd cast at_d at_f ops set_rate ins outs es (slot_new nf nd ops set_rate rate first) = Some s ->
  careful nf nd cast at_d at_f ops set_rate ins outs rate_of es (slot_new nf nd ops set_rate rate first) -> at_rate rate_of s.
Proof.
  intros F D P U nf nd cast at_d at_f ops set_rate ins outs rate_of Hr rate first es s R C.
  exact (proj1 (careful_rates nf nd cast at_d at_f ops set_rate ins outs rate_of Hr es _ _ R C (inv_new nf nd ops set_rate rate_of Hr rate first))).
Qed.
Print Assumptions C59_rate_partial.
(* set_sample_rate reaches the playing unit and those that the backend has received. *)
Theorem C59_now : forall (F D P U : Type) (ops : unit_ops F P U) (set_rate : U -> D -> U) (rate_of : U -> D), rates ops set_rate rate_of ->
  forall (s : @slot F D U) r, sb_rate (sl_back (slot_set_rate set_rate s r)) = r /\ at_rate rate_of (slot_set_rate set_rate s r).
Proof.
  intros F D P U ops set_rate rate_of (_ & _ & _ & H) s r. split; [reflexivity|]. unfold at_rate, slot_set_rate. cbn [with_back sl_back sb_current sb_rate sb_next sb_latest].
  constructor; [apply H|]. apply Forall_app. split; [destruct (sb_next (sl_back s))|destruct (sb_latest (sl_back s))]; repeat constructor; apply H.
Qed.
Print Assumptions C59_now.
(* A slot at 48 kHz that is passed a unit at the default rate of 44.1 kHz plays it at 44.1 kHz. *)
Theorem C59_rate_refuted : let es := [Rate 48000%Q; Set_ (mkEdit (1, 44100%Q) Smooth (1 # 48000)%Q); SlotSpec.Tick []; SlotSpec.Tick []] in
  option_map (fun s => (sb_rate (sl_back s), sb_current (sl_back s), waiting s))
    (slot_run (F := Q) Qnum_ops Qnum_ops (fun x => x) Q_at Q_at (play_ops Qnum_ops) play_rate 0 1 es (slot_new Qnum_ops Qnum_ops (play_ops Qnum_ops) play_rate 44100%Q (0, 44100%Q))) =
  Some (48000%Q, (1, 44100%Q), []).
Proof. vm_compute. reflexivity. Qed.
Print Assumptions C59_rate_refuted.
Example C59_case : let es := [Rate 48000%Q; Set_ (mkEdit (1, 48000%Q) Smooth (1 # 48000)%Q); SlotSpec.Tick []; SlotSpec.Tick []; Rate 96000%Q] in
  careful (F := Q) Qnum_ops Qnum_ops (fun x => x) Q_at Q_at (play_ops Qnum_ops) play_rate 0 1 snd es (slot_new Qnum_ops Qnum_ops (play_ops Qnum_ops) play_rate 44100%Q (0, 44100%Q)) /\
  rates (play_ops (D := Q) Qnum_ops) play_rate snd.
Proof. split; [vm_compute; repeat split|apply play_rates]. Qed.
