(* The groups of events and the handling of messages over histories, for any kind of numbers. *)
From Coq Require Import Lia Permutation.
From Verif Require Import SeqModel SeqSpec SeqGroups NetWf.

Section History.
  Context {F P U : Type}.
  Variables (nm : num F) (at_ : fade -> F -> F) (ops : unit_ops F P U) (usr : U -> F -> U) (pop : list (event F U) -> option (event F U * list (event F U))).
  Notation event := (event F U). Notation seqr := (seqr F U). Notation call := (call F U).
  Notation ids := (@ids F U).
  Hypothesis Hpop : heap_laws nm pop.

  Definition tidy_groups (s : seqr) : Prop := NoDup (all_ids s) /\ exact_map (q_map s) (q_active s).

  Lemma nodup_l {A} (l l' : list A) : NoDup (l ++ l') -> NoDup l.
  Proof. induction l as [|a l IH]; intros H; [constructor|]. cbn in H. inversion H; subst. constructor; [rewrite in_app_iff in *; tauto|auto]. Qed.
  Lemma nodup_r {A} (l l' : list A) : NoDup (l ++ l') -> NoDup l'.
  Proof. induction l as [|a l IH]; intros H; [exact H|]. cbn in H. inversion H; auto. Qed.
  Lemma perm_ids (l l' : list event) : Permutation l l' -> Permutation (ids l) (ids l').
  Proof. apply Permutation_map. Qed.
  Lemma ids_app (l l' : list event) : ids (l ++ l') = ids l ++ ids l'.
  Proof. apply map_app. Qed.

  Lemma ready_to_active_ok (s : seqr) t : tidy_groups s ->
    let s1 := ready_to_active nm pop s t in Permutation (ids (q_ready s1) ++ ids (q_active s1)) (ids (q_ready s) ++ ids (q_active s)) /\ exact_map (q_map s1) (q_active s1).
  Proof.
    intros [N H] s1. unfold all_ids in N. rewrite app_assoc in N. apply nodup_l in N. rewrite <- ids_app in N.
    destruct (activate_ok nm pop Hpop (nsub nm t (nmul nm (q_sd s) (half nm))) (length (q_ready s)) (q_ready s) (q_active s) (q_map s) (q_edits s) (le_n _) N H) as (ps & ready' & m' & ed' & Ea & Hps & Hm' & _).
    subst s1. unfold ready_to_active. rewrite Ea. cbn [q_ready q_active q_map]. split; [|exact Hm'].
    rewrite (perm_ids _ _ Hps). rewrite !ids_app. rewrite ids_edited. rewrite (Permutation_app_comm (ids ps)). rewrite <- !app_assoc. apply Permutation_app_head. apply Permutation_app_comm.
  Qed.
  (* playing: one sample or a block *)
  Lemma scan_groups {X} (s s1 : seqr) ended (play : event -> X -> option (event * X)) x active m past x' :
    (forall e x e' x', play e x = Some (e', x') -> ev_id e' = ev_id e) -> tidy_groups s ->
    Permutation (ids (q_ready s1) ++ ids (q_active s1)) (ids (q_ready s) ++ ids (q_active s)) -> exact_map (q_map s1) (q_active s1) ->
    scan ended play (length (q_active s1)) 0 (q_active s1) (q_map s1) (clear_past s) x = Some (active, m, past, x') ->
    Permutation (ids (q_ready s1) ++ ids active ++ ids past) (ids (q_ready s) ++ ids (q_active s) ++ ids (clear_past s)) /\ exact_map m active.
  Proof.
    intros Hid [N H] Hp Hm Hs. assert (Na : NoDup (ids (q_active s1))). { unfold all_ids in N. rewrite app_assoc in N. apply nodup_l in N. apply (Permutation_NoDup (Permutation_sym Hp)) in N. now apply nodup_r in N. }
    destruct (scan_ok ended play Hid (q_active s1) [] (q_map s1) (clear_past s) x Na Hm) as (ks & ds & Hkd & _ & _ & Hr). cbn [app length] in Hr. rewrite Hs in Hr.
    destruct (plays play ks x) as [[ks' y]|] eqn:Ep; [|discriminate]. destruct Hr as (m2 & E & Hm2). injection E as -> -> -> ->. split; [|exact Hm2].
    rewrite ids_app. rewrite (plays_ids _ Hid _ _ _ _ Ep). rewrite !app_assoc. rewrite <- (app_assoc _ (ids ks) (ids ds)). rewrite <- ids_app. rewrite <- (perm_ids _ _ Hkd). now apply Permutation_app_tail.
  Qed.
  Lemma play_tick_id t e x e' x' : play_tick nm at_ ops t e x = Some (e', x') -> ev_id e' = ev_id e.
  Proof. unfold play_tick. destruct (u_tick ops (ev_unit e) []) as [u o]. intros H. injection H as <- _. reflexivity. Qed.
  Lemma play_block_id (s : seqr) n e x e' x' : play_block nm at_ ops s n e x = Some (e', x') -> ev_id e' = ev_id e.
  Proof.
    unfold play_block. destruct x as [out b]. destruct (Nat.ltb _ _); [|intros H; injection H as <- _; reflexivity]. destruct (Nat.leb _ _); [|discriminate].
    destruct (u_process ops (ev_unit e) _ [] b) as [u b1]. destruct (fade_in_block _ _ _ _ _ _ _ _ _ _ _) as [b2|]; [|discriminate]. destruct (fade_out_block _ _ _ _ _ _ _ _ _ _) as [b3|]; [|discriminate]. intros H. injection H as <- _. reflexivity.
  Qed.
  Lemma tick_groups (s s' : seqr) o : tidy_groups s -> seq_tick nm at_ ops pop s = Some (s', o) -> Permutation (all_ids s') (ids (q_ready s) ++ ids (q_active s) ++ ids (clear_past s)) /\ exact_map (q_map s') (q_active s').
  Proof.
    intros T. unfold seq_tick. destruct (ready_to_active_ok s (nadd nm (q_time s) (q_sd s)) T) as [Hp Hm]. intros E.
    destruct (scan _ _ _ _ _ _ _ _) as [[[[active m] past] x]|] eqn:Es; [|discriminate]. injection E as <- _. unfold all_ids. cbn [q_ready q_active q_past q_map].
    exact (scan_groups s _ _ _ _ _ _ _ _ (play_tick_id _) T Hp Hm Es).
  Qed.
  Lemma process_groups (s s' : seqr) n out o : tidy_groups s -> seq_process nm at_ ops pop s n out = Some (s', o) -> Permutation (all_ids s') (ids (q_ready s) ++ ids (q_active s) ++ ids (clear_past s)) /\ exact_map (q_map s') (q_active s').
  Proof.
    intros T. unfold seq_process. destruct (ready_to_active_ok s (nadd nm (q_time s) (nmul nm (q_sd s) (nofZ nm (Z.of_nat n)))) T) as [Hp Hm]. intros E.
    destruct (scan _ _ _ _ _ _ _ _) as [[[[active m] past] x]|] eqn:Es; [|discriminate]. injection E as <- _. unfold all_ids. cbn [q_ready q_active q_past q_map].
    exact (scan_groups s _ _ _ _ _ _ _ _ (play_block_id _ _) T Hp Hm Es).
  Qed.
  Lemma tick_total (s : seqr) : tidy_groups s -> seq_tick nm at_ ops pop s <> None.
  Proof.
    intros T. unfold seq_tick. destruct (ready_to_active_ok s (nadd nm (q_time s) (q_sd s)) T) as [Hp Hm]. destruct T as [N _].
    set (s1 := ready_to_active nm pop s (nadd nm (q_time s) (q_sd s))) in *. assert (Na : NoDup (ids (q_active s1))). { unfold all_ids in N. rewrite app_assoc in N. apply nodup_l in N. apply (Permutation_NoDup (Permutation_sym Hp)) in N. now apply nodup_r in N. }
    cbv zeta. destruct (scan_ok (fun e => ends_by nm e (nadd nm (q_time s) (nmul nm (half nm) (q_sd s)))) (play_tick nm at_ ops (q_time s)) (play_tick_id _) (q_active s1) [] (q_map s1) (clear_past s) (repeat (n0 nm) (q_outs s)) Na Hm) as (ks & ds & _ & _ & _ & Hr). cbn [app length] in Hr.
    assert (Hpl : forall l x, plays (play_tick nm at_ ops (q_time s)) l x <> None).
    { induction l as [|e l IH]; intros x; cbn [plays]; [discriminate|]. unfold play_tick at 1. destruct (u_tick ops (ev_unit e) []) as [u o]. specialize (IH (zipw (fun a b => nadd nm a (tick_out nm at_ e (q_time s) (tick_in nm at_ e (q_time s) b))) x o)). destruct (plays _ l _) as [[l' x']|]; [discriminate|congruence]. }
    specialize (Hpl ks (repeat (n0 nm) (q_outs s))). destruct (plays _ ks _) as [[ks' x']|]; [|congruence]. destruct Hr as (m' & E & _). rewrite E. discriminate.
  Qed.

  Lemma place_groups (s : seqr) e : tidy_groups s -> ~ In (ev_id e) (all_ids s) -> Permutation (all_ids (place nm s e)) (ev_id e :: all_ids s) /\ exact_map (q_map (place nm s e)) (q_active (place nm s e)).
  Proof.
    intros [N H] Hn. unfold place. destruct (below nm (ev_start e) (q_thr s)); unfold all_ids in *; cbn [q_ready q_active q_past q_map].
    - split.
      + rewrite ids_app. cbn [map ids SeqSpec.ids]. rewrite <- !app_assoc. cbn [app]. rewrite (app_assoc (ids (q_ready s)) (ids (q_active s))). rewrite (app_assoc (ids (q_ready s)) (ids (q_active s)) (ids (q_past s))). symmetry. apply Permutation_middle.
      + apply exact_push; [exact H|]. rewrite !in_app_iff in Hn. tauto.
    - split; [reflexivity|exact H].
  Qed.
  Lemma edit_groups (s s' : seqr) id t o : tidy_groups s -> seq_edit nm s id t o = Some s' -> all_ids s' = all_ids s /\ exact_map (q_map s') (q_active s').
  Proof.
    intros [N H]. unfold seq_edit. destruct (lookup (q_map s) id) as [i|] eqn:El.
    - destruct (nth_error (q_active s) i) as [e|] eqn:Ee; [|discriminate]. intros E. injection E as <-. unfold all_ids. cbn [q_ready q_active q_past q_map].
      assert (Ei : ids (upd (q_active s) i (ev_set_end e t o)) = ids (q_active s)).
      { unfold SeqSpec.ids. apply nth_error_ext. intros j. rewrite !nth_error_map. destruct (Nat.eq_dec i j) as [<-|Hne]; [|now rewrite nth_error_upd_ne]. rewrite nth_error_upd_eq by (apply nth_error_Some; congruence). rewrite Ee. reflexivity. }
      rewrite Ei. split; [reflexivity|]. apply (exact_ids _ (q_active s)); [now symmetry|exact H].
    - destruct (end_below nm t (q_thr s)); intros E; injection E as <-; split; auto.
  Qed.
  Lemma edit_total (s : seqr) id t o : tidy_groups s -> seq_edit nm s id t o <> None.
  Proof.
    intros [N H]. unfold seq_edit. destruct (lookup (q_map s) id) as [i|] eqn:El; [|destruct (end_below nm t (q_thr s)); discriminate].
    apply H in El. unfold SeqSpec.ids in El. rewrite nth_error_map in El. destruct (nth_error (q_active s) i); discriminate.
  Qed.
  Lemma all_ready_ids (s : seqr) f : Permutation (ids (all_to_ready pop f s)) (all_ids s).
  Proof.
    unfold all_to_ready, all_ids. unfold SeqSpec.ids at 1. rewrite map_map. cbn [ev_id ev_set_unit]. change (map (fun x : event => ev_id x)) with ids. rewrite !ids_app.
    rewrite (perm_ids _ _ (pop_all_perm nm pop Hpop (length (q_ready s)) (q_ready s) eq_refl)). apply Permutation_app_swap_app.
  Qed.

  (* what one call does to the groups *)
  Definition fresh (s : seqr) (c : call) : Prop := match c with CPush e | CPushRelative e => ~ In (ev_id e) (all_ids s) | _ => True end.
  Definition left (s : seqr) (c : call) : list N :=
    match c with
    | CTick | CBlock _ _ => if q_replay s then [] else ids (q_past s)
    | CReset => if q_replay s then [] else all_ids s
    | _ => []
    end.
  Lemma step_groups (s s' : seqr) c o : tidy_groups s -> fresh s c -> step nm at_ ops usr pop s c = Some (s', o) ->
    tidy_groups s' /\ q_replay s' = q_replay s /\ Permutation (all_ids s' ++ left s c) (pushed [c] ++ all_ids s).
  Proof.
    intros T Hfr H. pose proof T as [N Hm]. unfold tidy_groups.
    assert (Cl : forall a, Permutation a (ids (q_ready s) ++ ids (q_active s) ++ ids (clear_past s)) -> NoDup a /\ Permutation (a ++ (if q_replay s then [] else ids (q_past s))) (all_ids s)).
    { intros a Ha. assert (Hp : Permutation (a ++ (if q_replay s then [] else ids (q_past s))) (all_ids s)). { rewrite Ha. unfold clear_past, all_ids. destruct (q_replay s); cbn [SeqSpec.ids map]; rewrite ?app_nil_r; [reflexivity|]. rewrite <- app_assoc. reflexivity. }
      split; [|exact Hp]. apply (Permutation_NoDup (Permutation_sym Hp)) in N. now apply nodup_l in N. }
    assert (Pl : forall e, ~ In (ev_id e) (all_ids s) -> tidy_groups (place nm s e) /\ Permutation (all_ids (place nm s e) ++ []) (ev_id e :: all_ids s)).
    { intros e He. destruct (place_groups s e T He) as [A B]. rewrite app_nil_r. split; [split; [|exact B]|exact A]. apply (Permutation_NoDup (Permutation_sym A)). now constructor. }
    destruct c as [e|e|id t d|id t d| |n out| |r]; cbn [step pushed flat_map app left fresh] in *.
    - unfold silent, seq_push in H. destruct (pushable nm ops s e); [|discriminate]. injection H as <- _. destruct (Pl (ev_set_unit e (usr (ev_unit e) (q_sr s))) Hfr) as [A B]. split; [exact A|]. split; [unfold push_event, place; destruct (below nm _ _); reflexivity|exact B].
    - unfold silent, seq_push_relative in H. destruct (pushable nm ops s e); [|discriminate]. injection H as <- _. unfold push_relative_event. match goal with |- context [place nm s ?x] => destruct (Pl x Hfr) as [A B] end. split; [exact A|]. split; [unfold place; destruct (below nm _ _); reflexivity|exact B].
    - unfold silent in H. destruct (seq_edit nm s id t d) as [s2|] eqn:E; [|discriminate]. injection H as <- _. destruct (edit_groups s s2 id t d T E) as [A B]. rewrite A, app_nil_r. split; [auto|]. split; [|reflexivity].
      unfold seq_edit in E. destruct (lookup (q_map s) id); [destruct (nth_error (q_active s) n); [|discriminate]|destruct (end_below nm t (q_thr s))]; injection E as <-; reflexivity.
    - unfold silent, seq_edit_relative in H. destruct (seq_edit nm s id _ d) as [s2|] eqn:E; [|discriminate]. injection H as <- _. destruct (edit_groups s s2 id _ d T E) as [A B]. rewrite A, app_nil_r. split; [auto|]. split; [|reflexivity].
      unfold seq_edit in E. destruct (lookup (q_map s) id); [destruct (nth_error (q_active s) n); [|discriminate]|destruct (end_below nm _ (q_thr s))]; injection E as <-; reflexivity.
    - destruct (seq_tick nm at_ ops pop s) as [[s2 x]|] eqn:E; [|discriminate]. injection H as <- _. destruct (tick_groups s s2 x T E) as [A B]. destruct (Cl _ A) as [C D]. split; [auto|]. split; [|exact D].
      unfold seq_tick in E. destruct (scan _ _ _ _ _ _ _ _) as [[[[? ?] ?] ?]|]; [|discriminate]. injection E as <- _. reflexivity.
    - destruct (seq_process nm at_ ops pop s n out) as [[s2 x]|] eqn:E; [|discriminate]. injection H as <- _. destruct (process_groups s s2 n out x T E) as [A B]. destruct (Cl _ A) as [C D]. split; [auto|]. split; [|exact D].
      unfold seq_process in E. destruct (scan _ _ _ _ _ _ _ _) as [[[[? ?] ?] ?]|]; [|discriminate]. injection E as <- _. reflexivity.
    - injection H as <- _. unfold seq_reset. destruct (q_replay s) eqn:Er; unfold all_ids; cbn [q_ready q_active q_past q_map q_replay SeqSpec.ids map app].
      + rewrite !app_nil_r. pose proof (all_ready_ids s (u_reset ops)) as A. split; [split; [exact (Permutation_NoDup (Permutation_sym A) N)|apply exact_nil]|]. split; [reflexivity|exact A].
      + split; [split; [constructor|apply exact_nil]|]. split; [reflexivity|apply Permutation_refl].
    - injection H as <- _. unfold seq_set_sample_rate. destruct (neqb nm (q_sr s) r); [rewrite app_nil_r; auto|]. unfold all_ids. cbn [q_ready q_active q_past q_map q_replay SeqSpec.ids map app].
      rewrite !app_nil_r. pose proof (all_ready_ids s (fun u => usr u r)) as A. split; [split; [exact (Permutation_NoDup (Permutation_sym A) N)|apply exact_nil]|]. split; [reflexivity|exact A].
  Qed.
  Lemma pushed_cons (c : call) cs : pushed (c :: cs) = pushed [c] ++ pushed cs.
  Proof. unfold pushed. cbn [flat_map]. now rewrite app_nil_r. Qed.
  Lemma fresh_ok (s : seqr) c : (forall x, In x (pushed [c]) -> ~ In x (all_ids s)) -> fresh s c.
  Proof. destruct c; cbn; auto. Qed.
  Lemma run_groups cs : forall (s s' : seqr) o, tidy_groups s -> NoDup (pushed cs) -> (forall x, In x (pushed cs) -> ~ In x (all_ids s)) -> run nm at_ ops usr pop s cs = Some (s', o) ->
    tidy_groups s' /\ q_replay s' = q_replay s /\ incl (all_ids s') (all_ids s ++ pushed cs) /\ (q_replay s = true -> Permutation (all_ids s') (all_ids s ++ pushed cs)).
  Proof.
    induction cs as [|c cs IH]; intros s s' o T Hp Hd H; cbn [run] in H.
    - injection H as <- _. cbn [pushed flat_map]. rewrite app_nil_r. split; [exact T|]. split; [reflexivity|]. split; [apply incl_refl|reflexivity].
    - destruct (step nm at_ ops usr pop s c) as [[s1 o1]|] eqn:E1; [|discriminate]. destruct (run nm at_ ops usr pop s1 cs) as [[s2 o2]|] eqn:E2; [|discriminate]. injection H as <- _.
      rewrite pushed_cons in *. assert (Hfr : fresh s c) by (apply fresh_ok; intros x Hx; apply Hd; apply in_or_app; now left).
      destruct (step_groups s s1 c o1 T Hfr E1) as (T1 & R1 & P1).
      assert (I1 : forall x, In x (all_ids s1) -> In x (pushed [c] ++ all_ids s)). { intros x Hx. eapply Permutation_in; [exact P1|]. apply in_or_app. now left. }
      destruct (IH s1 s2 o2 T1) as (T2 & R2 & I2 & P2); auto.
      { now apply nodup_r in Hp. }
      { intros x Hx X. apply I1 in X. apply in_app_iff in X. destruct X as [X|X]; [|apply (Hd x); [apply in_or_app; now right|exact X]].
        clear -Hp Hx X. induction (pushed [c]) as [|a l IH]; [contradiction|]. cbn in Hp. inversion Hp; subst. destruct X as [->|X]; [apply H1; apply in_or_app; now right|auto]. }
      split; [exact T2|]. split; [congruence|]. split.
      + intros x Hx. apply I2 in Hx. rewrite !in_app_iff in *. destruct Hx as [Hx|Hx]; [|tauto]. apply I1 in Hx. rewrite in_app_iff in Hx. tauto.
      + intros Hr. rewrite P2 by congruence. assert (L0 : left s c = []) by (unfold left; rewrite Hr; destruct c; reflexivity). rewrite L0, app_nil_r in P1. rewrite P1. rewrite <- app_assoc. apply Permutation_app_swap_app.
  Qed.
  Lemma new_groups sr replay outs : tidy_groups (seq_new nm sr replay outs).
  Proof. split; [constructor|apply exact_nil]. Qed.

  (* ---- messages ---- *)
  Lemma iter_swap {X} (f : X -> X) k x : Nat.iter k f (f x) = f (Nat.iter k f x).
  Proof. induction k as [|k IH]; [reflexivity|]. change (f (Nat.iter k f (f x)) = f (f (Nat.iter k f x))). now rewrite IH. Qed.
  Lemma resets_same q : Forall (eq (@MReset F U)) q -> forall s, handle nm ops pop q s = apply_msgs nm ops pop q s.
  Proof.
    intros H. assert (E : forall s, handle nm ops pop q s = Some (Nat.iter (length q) (seq_reset nm ops pop) s) /\ apply_msgs nm ops pop q s = Some (Nat.iter (length q) (seq_reset nm ops pop) s)).
    { induction H as [|m q <- H IH]; intros s; [split; reflexivity|]. cbn [handle apply_msgs apply_msg length]. destruct (IH s) as [A _]. destruct (IH (seq_reset nm ops pop s)) as [_ B]. rewrite A, B. split; [reflexivity|]. f_equal. rewrite iter_swap. reflexivity. }
    intros s. destruct (E s) as [A B]. congruence.
  Qed.
  Lemma handle_tidy q : tidy q -> forall s, handle nm ops pop q s = apply_msgs nm ops pop q s.
  Proof.
    induction q as [|m q IH]; intros H s; [reflexivity|]. destruct m as [|e|e|id t o|id t o]; cbn [tidy] in H.
    - apply (resets_same (MReset :: q)). now constructor.
    - cbn [handle apply_msgs apply_msg]. now apply IH.
    - cbn [handle apply_msgs apply_msg]. now apply IH.
    - cbn [handle apply_msgs apply_msg]. destruct (seq_edit nm s id t o); [now apply IH|reflexivity].
    - cbn [handle apply_msgs apply_msg]. destruct (seq_edit_relative nm s id t o); [now apply IH|reflexivity].
  Qed.
  Lemma send_past_idem (s : seqr) : send_past (send_past s) = send_past s.
  Proof. unfold send_past. destruct (q_replay s) eqn:E; cbn [q_replay]; [now rewrite E|reflexivity]. Qed.
  Lemma send_place (s : seqr) e : send_past (place nm s e) = place nm (send_past s) e.
  Proof. unfold send_past, place. destruct (q_replay s) eqn:E; destruct (below nm (ev_start e) (q_thr s)) eqn:B; cbn [q_replay q_thr q_active q_map q_ready q_past q_edits q_outs q_time q_sr q_sd q_buf]; rewrite ?E, ?B; reflexivity. Qed.
  Lemma send_time (s : seqr) : q_time (send_past s) = q_time s. Proof. unfold send_past. destruct (q_replay s); reflexivity. Qed.
  Lemma send_edit (s : seqr) id t o : seq_edit nm (send_past s) id t o = option_map send_past (seq_edit nm s id t o).
  Proof.
    unfold send_past, seq_edit. destruct (q_replay s) eqn:E; cbn [q_replay q_thr q_active q_map q_ready q_past q_edits q_outs q_time q_sr q_sd q_buf].
    - destruct (lookup (q_map s) id) as [i|]; [destruct (nth_error (q_active s) i)|destruct (end_below nm t (q_thr s))]; cbn [option_map q_replay]; rewrite ?E; reflexivity.
    - destruct (lookup (q_map s) id) as [i|]; [destruct (nth_error (q_active s) i)|destruct (end_below nm t (q_thr s))]; cbn [option_map q_replay q_thr q_active q_map q_ready q_past q_edits q_outs q_time q_sr q_sd q_buf]; rewrite ?E; reflexivity.
  Qed.
  Lemma send_reset (s : seqr) : seq_reset nm ops pop (send_past s) = send_past (seq_reset nm ops pop s).
  Proof. unfold send_past, seq_reset. destruct (q_replay s) eqn:E; cbn [q_replay q_thr q_active q_map q_ready q_past q_edits q_outs q_time q_sr q_sd q_buf]; rewrite ?E; reflexivity. Qed.
  Lemma send_msg (s : seqr) m : apply_msg nm ops pop (send_past s) m = option_map send_past (apply_msg nm ops pop s m).
  Proof.
    destruct m as [|e|e|id t o|id t o]; cbn [apply_msg option_map].
    - now rewrite send_reset.
    - unfold push_event. now rewrite send_place.
    - unfold push_relative_event. rewrite send_place, send_time. reflexivity.
    - apply send_edit.
    - unfold seq_edit_relative. rewrite send_time. apply send_edit.
  Qed.
  Lemma send_msgs q : forall s : seqr, apply_msgs nm ops pop q (send_past s) = option_map send_past (apply_msgs nm ops pop q s).
  Proof. induction q as [|m q IH]; intros s; cbn [apply_msgs]; [reflexivity|]. rewrite send_msg. destruct (apply_msg nm ops pop s m); cbn [option_map]; [apply IH|reflexivity]. Qed.
  Lemma send_tick (s : seqr) : seq_tick nm at_ ops pop (send_past s) = seq_tick nm at_ ops pop s.
  Proof. unfold seq_tick, ready_to_active, clear_past, send_past. destruct (q_replay s) eqn:E; [rewrite E; reflexivity|]. cbn [q_replay q_thr q_active q_map q_ready q_past q_edits q_outs q_time q_sr q_sd q_buf]. destruct (activate _ _ _ _ _ _ _ _) as [[[r a] m] ed]. reflexivity. Qed.
  Lemma send_process (s : seqr) n out : seq_process nm at_ ops pop (send_past s) n out = seq_process nm at_ ops pop s n out.
  Proof. unfold seq_process, ready_to_active, clear_past, send_past. destruct (q_replay s) eqn:E; [rewrite E; reflexivity|]. cbn [q_replay q_thr q_active q_map q_ready q_past q_edits q_outs q_time q_sr q_sd q_buf]. destruct (activate _ _ _ _ _ _ _ _) as [[[r a] m] ed]. reflexivity. Qed.
  Lemma backend_in_order bs : Forall (fun b => tidy (fst b)) bs -> forall s1 s2, send_past s1 = send_past s2 ->
    option_map snd (backend nm at_ ops pop bs s1) = option_map snd (in_order nm at_ ops pop bs s2).
  Proof.
    induction 1 as [|[q p] bs Hq Hbs IH]; intros s1 s2 E; [reflexivity|]. cbn [fst] in Hq. cbn [backend in_order].
    pose proof (send_msgs q s1) as M1. rewrite E, send_msgs in M1. unfold sback_tick, sback_process, sback_reset. rewrite (handle_tidy q Hq s1).
    destruct (apply_msgs nm ops pop q s1) as [a1|], (apply_msgs nm ops pop q s2) as [a2|]; cbn [option_map] in M1; try discriminate M1; [|destruct p; reflexivity]. injection M1 as M1.
    destruct p as [|n out|].
    - rewrite <- (send_tick a1), <- (send_tick a2), M1. destruct (seq_tick nm at_ ops pop (send_past a1)) as [[s3 o]|]; [|reflexivity].
      specialize (IH (send_past s3) s3 (send_past_idem s3)). destruct (backend nm at_ ops pop bs (send_past s3)) as [[? ?]|], (in_order nm at_ ops pop bs s3) as [[? ?]|]; cbn [option_map snd] in *; congruence.
    - rewrite <- (send_process a1), <- (send_process a2), M1. destruct (seq_process nm at_ ops pop (send_past a1) n out) as [[s3 o]|]; [|reflexivity].
      specialize (IH (send_past s3) s3 (send_past_idem s3)). destruct (backend nm at_ ops pop bs (send_past s3)) as [[? ?]|], (in_order nm at_ ops pop bs s3) as [[? ?]|]; cbn [option_map snd] in *; congruence.
    - assert (R : send_past (seq_reset nm ops pop a1) = send_past (seq_reset nm ops pop a2)) by (rewrite <- !send_reset; now rewrite M1).
      specialize (IH _ _ R). destruct (backend nm at_ ops pop bs (seq_reset nm ops pop a1)) as [[? ?]|], (in_order nm at_ ops pop bs (seq_reset nm ops pop a2)) as [[? ?]|]; cbn [option_map snd] in *; congruence.
  Qed.

  (* ---- an edit reaches its event ---- *)
  Lemma change_other id t o (l : list event) : ~ In id (ids l) -> map (change_end id t o) l = l.
  Proof. intros H. rewrite <- (map_id l) at 2. apply map_ext_in. intros e He. unfold change_end. destruct (N.eqb_spec (ev_id e) id) as [E|]; [|reflexivity]. exfalso. apply H. rewrite <- E. now apply in_map. Qed.
  Lemma change_upd id t o : forall (l : list event) i e, NoDup (ids l) -> nth_error l i = Some e -> ev_id e = id -> map (change_end id t o) l = upd l i (ev_set_end e t o).
  Proof.
    induction l as [|a l IH]; intros [|i] e N H E; try discriminate; cbn [map upd SeqSpec.ids] in *; inversion N; subst.
    - injection H as ->. rewrite change_other by assumption. unfold change_end. now rewrite N.eqb_refl.
    - cbn [nth_error] in H. rewrite (IH i e) by auto. f_equal. unfold change_end. destruct (N.eqb_spec (ev_id a) (ev_id e)) as [X|]; [|reflexivity]. exfalso. apply H2. rewrite X. apply nth_error_In in H. now apply in_map.
  Qed.
  Lemma edited_insert (m : emap) id t o (e : event) : edited (einsert m id (t, o)) e = change_end id t o (edited m e).
  Proof.
    unfold change_end. rewrite edited_id. unfold edited. rewrite elookup_einsert, N.eqb_sym. destruct (N.eqb_spec (ev_id e) id) as [E|Hne]; [|reflexivity]. destruct (elookup m (ev_id e)) as [[? ?]|]; reflexivity.
  Qed.
  Lemma edit_reaches (s : seqr) id t o : tidy_groups s -> In id (ids (q_active s)) \/ In id (ids (q_ready s)) /\ end_below nm t (q_thr s) = false ->
    exists s', seq_edit nm s id t o = Some s' /\ heard s' = map (change_end id t o) (heard s).
  Proof.
    intros [N H] Hin. unfold all_ids in N. unfold heard, seq_edit. destruct (lookup (q_map s) id) as [i|] eqn:El.
    - apply H in El. pose proof El as El'. unfold SeqSpec.ids in El'. rewrite nth_error_map in El'. destruct (nth_error (q_active s) i) as [e|] eqn:Ee; [|discriminate]. cbn in El'. injection El' as Eid. eexists. split; [reflexivity|]. cbn [q_ready q_active q_past q_edits].
      assert (Ha : In id (ids (q_active s))) by (eapply nth_error_In; exact El).
      rewrite !map_app. f_equal; [|f_equal].
      + symmetry. apply change_other. rewrite ids_edited. intros X. revert N X Ha. clear. induction (ids (q_ready s)) as [|x l IH]; [contradiction|]. cbn. intros N [->|X] Ha; inversion N; subst; [apply H1; apply in_or_app; right; apply in_or_app; now left|auto].
      + symmetry. apply change_upd; auto. now apply nodup_r in N; apply nodup_l in N.
      + symmetry. apply change_other. intros X. apply nodup_r in N. revert N X Ha. clear. induction (ids (q_active s)) as [|x l IH]; [contradiction|]. cbn. intros N X [->|Ha]; inversion N; subst; [apply H1; apply in_or_app; now right|auto].
    - assert (Hna : ~ In id (ids (q_active s))). { intros X. apply In_nth_error in X. destruct X as [i X]. apply H in X. congruence. }
      destruct Hin as [X|[Hr ->]]; [contradiction|]. eexists. split; [reflexivity|]. cbn [q_ready q_active q_past q_edits]. rewrite !map_app. f_equal; [|f_equal].
      + rewrite map_map. apply map_ext. intros e. apply edited_insert.
      + symmetry. now apply change_other.
      + symmetry. apply change_other. intros X. revert N X Hr. clear. induction (ids (q_ready s)) as [|x l IH]; [contradiction|]. cbn. intros N X [->|Ha]; inversion N; subst; [apply H1; apply in_or_app; right; apply in_or_app; now right|auto].
  Qed.
End History.
