(* What is expected of the sequencer. The score is an unordered list of events and a clock. Every sample, each event that covers the
   sample advances by one frame, is weighted by its fades, and is added to the output. *)
From Coq Require Import Reals List Lra.
From Verif Require Import SeqModel.

(* the calls of the API *)
Inductive call (F U : Type) :=
| CPush (e : event F U) | CPushRelative (e : event F U)
| CEdit (id : N) (t : option F) (o : F) | CEditRelative (id : N) (t : option F) (o : F)
| CTick | CBlock (size : nat) (out : list (list F)) | CReset | CRate (r : F).
Arguments CPush {F U}. Arguments CPushRelative {F U}. Arguments CEdit {F U}. Arguments CEditRelative {F U}.
Arguments CTick {F U}. Arguments CBlock {F U}. Arguments CReset {F U}. Arguments CRate {F U}.

Section Calls.
  Context {F P U : Type}.
  Variables (nm : num F) (at_ : fade -> F -> F) (ops : unit_ops F P U) (usr : U -> F -> U) (pop : list (event F U) -> option (event F U * list (event F U))).
  Definition silent {X} (o : option X) : option (X * list (list F)) := option_map (fun s => (s, [])) o.
  (* one call of the model, with the frames it outputs *)
  Definition step (s : seqr F U) (c : call F U) : option (seqr F U * list (list F)) :=
    match c with
    | CPush e => silent (seq_push nm ops usr s e)
    | CPushRelative e => silent (seq_push_relative nm ops usr s e)
    | CEdit id t o => silent (seq_edit nm s id t o)
    | CEditRelative id t o => silent (seq_edit_relative nm s id t o)
    | CTick => let? (s', o) := seq_tick nm at_ ops pop s in Some (s', [o])
    | CBlock size out => let? (s', o) := seq_process nm at_ ops pop s size out in Some (s', frames (n0 nm) o size)
    | CReset => Some (seq_reset nm ops pop s, [])
    | CRate r => Some (seq_set_sample_rate nm usr pop s r, [])
    end.
  Fixpoint run (s : seqr F U) (cs : list (call F U)) : option (seqr F U * list (list F)) :=
    match cs with
    | [] => Some (s, [])
    | c :: r => let? (s1, o1) := step s c in let? (s2, o2) := run s1 r in Some (s2, o1 ++ o2)
    end.
  (* the ids of the events of a sequencer: waiting, active and past *)
  Definition ids (l : list (event F U)) : list N := map ev_id l.
  Definition all_ids (s : seqr F U) : list N := ids (q_ready s) ++ ids (q_active s) ++ ids (q_past s).
  (* the event with the given id gets a new end time and fade out time *)
  Definition change_end (id : N) (t : option F) (o : F) (e : event F U) : event F U := if N.eqb (ev_id e) id then ev_set_end e t o else e.
  (* the events as they will be heard: the pending edits applied to the waiting ones *)
  Definition heard (s : seqr F U) : list (event F U) := map (edited (q_edits s)) (q_ready s) ++ q_active s ++ q_past s.
  (* the ids pushed by some calls *)
  Definition pushed (cs : list (call F U)) : list N := flat_map (fun c => match c with CPush e | CPushRelative e => [ev_id e] | _ => [] end) cs.

  (* a message of the frontend, applied by itself *)
  Definition apply_msg (s : seqr F U) (m : smsg F U) : option (seqr F U) :=
    match m with
    | MReset => Some (seq_reset nm ops pop s)
    | MPush e => Some (push_event nm s e)
    | MPushRelative e => Some (push_relative_event nm s e)
    | MEdit id t o => seq_edit nm s id t o
    | MEditRelative id t o => seq_edit_relative nm s id t o
    end.
  Fixpoint apply_msgs (q : list (smsg F U)) (s : seqr F U) : option (seqr F U) :=
    match q with [] => Some s | m :: r => let? s1 := apply_msg s m in apply_msgs r s1 end.
  (* what the backend is asked to do: play one sample, play a block, or start again *)
  Inductive play := PTick | PBlock (size : nat) (out : list (list F)) | PReset.
  (* the backend: before each play, the messages that have arrived are handled together *)
  Fixpoint backend (bs : list (list (smsg F U) * play)) (s : seqr F U) : option (seqr F U * list (list (list F))) :=
    match bs with
    | [] => Some (s, [])
    | (q, PTick) :: r => let? (s1, o) := sback_tick nm at_ ops pop q s in let? (s2, os) := backend r s1 in Some (s2, [o] :: os)
    | (q, PBlock size out) :: r => let? (s1, o) := sback_process nm at_ ops pop q s size out in let? (s2, os) := backend r s1 in Some (s2, o :: os)
    | (q, PReset) :: r => let? s1 := sback_reset nm ops pop q s in let? (s2, os) := backend r s1 in Some (s2, [] :: os)
    end.
  (* a plain sequencer: the messages are applied one by one as they arrive *)
  Fixpoint in_order (bs : list (list (smsg F U) * play)) (s : seqr F U) : option (seqr F U * list (list (list F))) :=
    match bs with
    | [] => Some (s, [])
    | (q, PTick) :: r => let? s0 := apply_msgs q s in let? (s1, o) := seq_tick nm at_ ops pop s0 in let? (s2, os) := in_order r s1 in Some (s2, [o] :: os)
    | (q, PBlock size out) :: r => let? s0 := apply_msgs q s in let? (s1, o) := seq_process nm at_ ops pop s0 size out in let? (s2, os) := in_order r s1 in Some (s2, o :: os)
    | (q, PReset) :: r => let? s0 := apply_msgs q s in let? (s2, os) := in_order r (seq_reset nm ops pop s0) in Some (s2, [] :: os)
    end.
  (* a batch in which nothing follows a reset but resets *)
  Fixpoint tidy (q : list (smsg F U)) : Prop :=
    match q with [] => True | MReset :: r => Forall (eq MReset) r | _ :: r => tidy r end.
End Calls.
Arguments PTick {F}. Arguments PBlock {F}. Arguments PReset {F}.

Section Score.
  Local Open Scope R_scope.
  Context {P U : Type}.
  Variables (at_ : fade -> R -> R) (ops : unit_ops R P U) (usr : U -> R -> U).
  Notation event := (event R U). Notation call := (call R U).

  (* does the event cover the sample at time T? The sample stands for the time from T - sd / 2 to T + sd / 2. *)
  Definition covers (sd : R) (e : event) (T : R) : Prop := ev_start e < T + sd / 2 /\ match ev_end e with Some x => T + sd / 2 < x | None => True end.
  Definition covers_dec sd e T : {covers sd e T} + {~ covers sd e T}.
  Proof. unfold covers. destruct (Rlt_dec (ev_start e) (T + sd / 2)); [|right; tauto]. destruct (ev_end e) as [x|]; [|left; tauto]. destruct (Rlt_dec (T + sd / 2) x); [left|right]; tauto. Defined.
  (* the fade weights at time T *)
  Definition weight_in (e : event) (T : R) : R :=
    if Rlt_dec 0 (ev_in e) then if Rlt_dec T (ev_start e + ev_in e) then at_ (ev_ease e) ((T - ev_start e) / ev_in e) else 1 else 1.
  Definition weight_out (e : event) (T : R) : R :=
    match ev_end e with
    | Some x => if Rlt_dec 0 (ev_out e) then if Rlt_dec (x - ev_out e) T then at_ (ev_ease e) ((x - T) / ev_out e) else 1 else 1
    | None => 1
    end.

  (* one sample of one event of so many outputs *)
  Definition sound (outs : nat) (sd T : R) (e : event) : event * list R :=
    if covers_dec sd e T then let (u, o) := u_tick ops (ev_unit e) [] in (ev_set_unit e u, map (fun v => v * weight_in e T * weight_out e T) o)
    else (e, repeat 0 outs).

  Record score := mkScore { sc_events : list event; sc_time : R; sc_sr : R; sc_outs : nat; sc_replay : bool }.
  Definition sum (l : list R) : R := fold_right Rplus 0 l.
  (* one sample of the score *)
  Definition sc_sample (p : score) : score * list R :=
    let played := map (sound (sc_outs p) (1 / sc_sr p) (sc_time p)) (sc_events p) in
    (mkScore (map fst played) (sc_time p + 1 / sc_sr p) (sc_sr p) (sc_outs p) (sc_replay p),
     map (fun c => sum (map (fun x => nth c (snd x) 0) played)) (seq 0 (sc_outs p))).
  Fixpoint sc_play (n : nat) (p : score) : score * list (list R) :=
    match n with O => (p, []) | S n' => let (p1, o) := sc_sample p in let (p2, os) := sc_play n' p1 in (p2, o :: os) end.

  Definition with_events (p : score) (l : list event) : score := mkScore l (sc_time p) (sc_sr p) (sc_outs p) (sc_replay p).
  Definition retune (f : U -> U) (e : event) : event := ev_set_unit e (f (ev_unit e)).
  Definition later (d : R) (t : option R) : option R := option_map (fun x => x + d) t.
  (* one call: the new score, and the frames of output *)
  Definition sc_step (p : score) (c : call) : score * list (list R) :=
    match c with
    | CPush e => (with_events p (retune (fun u => usr u (sc_sr p)) e :: sc_events p), [])
    | CPushRelative e => (with_events p (ev_set_times (retune (fun u => usr u (sc_sr p)) e) (ev_start e + sc_time p) (later (sc_time p) (ev_end e)) :: sc_events p), [])
    | CEdit id t o => (with_events p (map (change_end id t o) (sc_events p)), [])
    | CEditRelative id t o => (with_events p (map (change_end id (later (sc_time p) t) o) (sc_events p)), [])
    | CTick => sc_play 1 p
    | CBlock size _ => sc_play size p
    | CReset => (mkScore (if sc_replay p then map (retune (u_reset ops)) (sc_events p) else []) 0 (sc_sr p) (sc_outs p) (sc_replay p), [])
    | CRate r => (if Req_EM_T (sc_sr p) r then p else mkScore (map (retune (fun u => usr u r)) (sc_events p)) (sc_time p) r (sc_outs p) (sc_replay p), [])
    end.
  Fixpoint sc_run (p : score) (cs : list call) : score * list (list R) :=
    match cs with [] => (p, []) | c :: r => let (p1, o1) := sc_step p c in let (p2, o2) := sc_run p1 r in (p2, o1 ++ o2) end.

  (* the calls for which the sequencer is expected to follow the score *)
  (* the event has ended by the time t *)
  Definition over (sd t : R) (e : event) : Prop := match ev_end e with Some x => x <= t + sd / 2 | None => False end.
  (* an edit of an event that has not ended: the event has started, or the new end is not in the past *)
  Definition editable (p : score) (id : N) (t : option R) : Prop :=
    exists e, In e (sc_events p) /\ ev_id e = id /\ ~ over (1 / sc_sr p) (sc_time p) e /\
      (ev_start e < sc_time p - 1 / sc_sr p / 2 \/ match t with Some x => sc_time p - 1 / sc_sr p / 2 <= x | None => True end).
  Definition pushable_R (p : score) (e : event) : Prop :=
    u_ins ops (ev_unit e) = 0%nat /\ u_outs ops (ev_unit e) = sc_outs p /\
    match ev_end e with Some t => ev_in e <= t - ev_start e /\ ev_out e <= t - ev_start e | None => True end.
  (* a time on the sample grid *)
  Definition on_grid (sd t x : R) : Prop := exists j : Z, x = t + IZR j * sd.
  (* a block of n samples from time t treats the event as single samples do *)
  Definition fair (sd t : R) (n : nat) (e : event) : Prop :=
    over sd t e \/ t + INR n * sd - sd / 2 <= ev_start e \/
    (match ev_end e with Some x => ~ on_grid sd (t + sd / 2) x | None => True end) /\
    (ev_in e <= 0 \/ ev_start e + ev_in e <= t \/ t + INR n * sd <= ev_start e + ev_in e \/
     ev_start e < t + sd / 2 /\ on_grid sd t (ev_start e + ev_in e)) /\
    (ev_out e <= 0 \/
     match ev_end e with
     | Some x => t + INR n * sd <= x - ev_out e \/ ev_start e < t + sd / 2 /\ (x - ev_out e <= t \/ on_grid sd t (x - ev_out e))
     | None => True
     end).
  Definition allowed (p : score) (c : call) : Prop :=
    match c with
    | CPush e | CPushRelative e => pushable_R p e /\ ~ In (ev_id e) (map ev_id (sc_events p))
    | CEdit id t _ => editable p id t
    | CEditRelative id t _ => editable p id (later (sc_time p) t)
    | CTick | CReset => True
    | CBlock size out => (1 <= size <= MAXB)%nat /\ shaped (sc_outs p) out /\ Forall (fair (1 / sc_sr p) (sc_time p) size) (sc_events p)
    | CRate r => 0 < r
    end.
  Fixpoint all_allowed (p : score) (cs : list call) : Prop :=
    match cs with [] => True | c :: r => allowed p c /\ all_allowed (fst (sc_step p c)) r end.

  (* playing only, from time t on: the lengths of the blocks, and whether each of them is fair to the event *)
  Definition samples (c : call) : nat := match c with CTick => 1%nat | CBlock n _ => n | _ => 0%nat end.
  Definition total (ps : list call) : nat := fold_right (fun c n => (samples c + n)%nat) 0%nat ps.
  Definition plays_ok (outs : nat) (ps : list call) : Prop :=
    Forall (fun c => match c with CTick => True | CBlock n out => (1 <= n <= MAXB)%nat /\ shaped outs out | _ => False end) ps.
  Fixpoint fair_cut (sd t : R) (ps : list call) (e : event) : Prop :=
    match ps with [] => True | c :: r => match c with CBlock n _ => fair sd t n e | _ => True end /\ fair_cut sd (t + INR (samples c) * sd) r e end.
  (* the sample nearest to the given time, and the frames of a unit played alone *)
  Definition nearest (sr x : R) : Z := Int_part (x * sr + 1 / 2).
  Definition solo (u : U) (k : nat) : list R := nth k (snd (ticks (u_tick ops) u (repeat [] (S k)))) [].
  (* what an event adds to channel c at sample k, when it is pushed before anything is played *)
  Definition first_sample (sr : R) (e : event) : nat := Z.to_nat (nearest sr (ev_start e)).
  Definition within (sr : R) (e : event) (k : nat) : Prop :=
    (first_sample sr e <= k)%nat /\ match ev_end e with Some x => INR k + 1 / 2 < x * sr | None => True end.
  Definition within_dec sr e k : {within sr e k} + {~ within sr e k}.
  Proof.
    unfold within. destruct (Compare_dec.le_dec (first_sample sr e) k); [|right; tauto].
    destruct (ev_end e) as [x|]; [|left; tauto]. destruct (Rlt_dec (INR k + 1 / 2) (x * sr)); [left|right]; tauto.
  Defined.
  Definition part (sr : R) (e : event) (k c : nat) : R :=
    if within_dec sr e k then
      nth c (solo (usr (ev_unit e) sr) (k - first_sample sr e)) 0 * weight_in e (INR k / sr) * weight_out e (INR k / sr)
    else 0.

  (* units as the sequencer needs them *)
  Definition seq_unit_laws : Prop :=
    unit_laws 0 ops /\ (forall u r, u_ins ops (usr u r) = u_ins ops u) /\ (forall u r, u_outs ops (usr u r) = u_outs ops u) /\
    (forall u, u_ins ops (u_reset ops u) = u_ins ops u) /\ (forall u, u_outs ops (u_reset ops u) = u_outs ops u).
End Score.
Arguments score : clear implicits.
