(* A concrete heap, concrete scores, and wrong cases, used by SeqProperties.v. *)
From Coq Require Import Reals Lra Lia QArith SpecFloat Permutation.
From Verif Require Export FadeExamples SeqModel SeqSpec SeqGroups SeqProofs SeqHistory SeqSamples.
Local Open Scope nat_scope.

(* pop the first of the earliest events *)
Fixpoint pop_min {F U} (nm : num F) (l : list (event F U)) : option (event F U * list (event F U)) :=
  match l with
  | [] => None
  | e :: r => match pop_min nm r with
              | None => Some (e, [])
              | Some (m, r') => if nleb nm (ev_start e) (ev_start m) then Some (e, r) else Some (m, e :: r')
              end
  end.
Lemma pop_min_laws {F U} (nm : num F) : (forall a b, nleb nm a b = false -> nleb nm b a = true) -> (forall a b c, nleb nm a b = true -> nleb nm b c = true -> nleb nm a c = true) ->
  heap_laws nm (@pop_min F U nm).
Proof.
  intros tot tr. split; [reflexivity|]. induction l as [|e l IH]; intros Hl; [contradiction|]. cbn [pop_min]. destruct l as [|a l]; [exists e, []; split; [reflexivity|]; split; [reflexivity|contradiction]|].
  destruct IH as (m & r & E & Hp & Hm); [discriminate|]. rewrite E. destruct (nleb nm (ev_start e) (ev_start m)) eqn:B.
  - exists e, (a :: l). split; [reflexivity|]. split; [reflexivity|]. intros x Hx. apply (Permutation_in _ Hp) in Hx. destruct Hx as [<-|Hx]; [exact B|]. apply (tr _ (ev_start m)); auto.
  - exists m, (e :: r). split; [reflexivity|]. split; [rewrite Hp; apply perm_swap|]. intros x [<-|Hx]; [now apply tot|auto].
Qed.
Lemma Rpop_laws U : heap_laws Rnum_ops (@pop_min R U Rnum_ops).
Proof.
  apply pop_min_laws; cbn; intros.
  - destruct (Rle_dec a b); [discriminate|]. destruct (Rle_dec b a); [reflexivity|lra].
  - destruct (Rle_dec a b), (Rle_dec b c); try discriminate. destruct (Rle_dec a c); [reflexivity|lra].
Qed.
Lemma Qpop_laws U : heap_laws Qnum_ops (@pop_min Q U Qnum_ops).
Proof.
  apply pop_min_laws; cbn; intros.
  - destruct (Qlt_le_dec b a) as [H1|H1]; [apply Qle_bool_iff; now apply Qlt_le_weak|]. apply Qle_bool_iff in H1. congruence.
  - rewrite !Qle_bool_iff in *. now apply (Qle_trans _ b).
Qed.

Definition Qops := const_ops Qnum_ops.
Definition Qrate (u : Q) (_ : Q) : Q := u.
Definition Qrun := run Qnum_ops Q_at Qops Qrate (pop_min Qnum_ops) (seq_new Qnum_ops 8%Q false 1).
Definition Qev (v s : Q) (t : option Q) (i o : Q) (id : N) : event Q Q := mkEv v s t Smooth i o id.
Definition Qbuf : list (list Q) := [repeat 0%Q MAXB].
Definition outs {S} (r : option (S * list (list Q))) : option (list Q) := option_map (fun x => map (fun f => Qred (nth 0 f 0%Q)) (snd x)) r.

(* an event that ends at 1.5 samples *)
Definition tie : event Q Q := Qev 1%Q 0%Q (Some (3 # 16)) 0%Q 0%Q 7%N.
Example tie_ticks : outs (Qrun (CPush tie :: repeat CTick 3)) = Some [1; 0; 0]%Q. Proof. vm_compute. reflexivity. Qed.
Example tie_block : outs (Qrun [CPush tie; CBlock 3 Qbuf]) = Some [1; 1; 0]%Q. Proof. vm_compute. reflexivity. Qed.
(* an event that fades in over two samples from sample 2 on *)
Definition late_in : event Q Q := Qev 1%Q (2 # 8) None (2 # 8) 0%Q 7%N.
Example late_in_ticks : outs (Qrun (CPush late_in :: repeat CTick 6)) = Some [0; 0; 0; 1 # 2; 1; 1]%Q. Proof. vm_compute. reflexivity. Qed.
Example late_in_block : outs (Qrun [CPush late_in; CBlock 6 Qbuf]) = Some [0; 0; 0; 1 # 2; 1; 27 # 8]%Q. Proof. vm_compute. reflexivity. Qed.
(* an event from sample 2 to sample 6 that fades out over two samples *)
Definition late_out : event Q Q := Qev 1%Q (2 # 8) (Some (6 # 8)) 0%Q (2 # 8) 7%N.
Example late_out_ticks : outs (Qrun (CPush late_out :: repeat CTick 8)) = Some [0; 0; 1; 1; 1; 1 # 2; 0; 0]%Q. Proof. vm_compute. reflexivity. Qed.
Example late_out_block : outs (Qrun [CPush late_out; CBlock 8 Qbuf]) = Some [0; 0; 1; 1; 1; 1; 0; 0]%Q. Proof. vm_compute. reflexivity. Qed.
(* an event that starts at 2.25 samples *)
Definition between : event Q Q := Qev 1%Q (9 # 32) None (4 # 8) 0%Q 7%N.
Example between_ticks : outs (Qrun (CPush between :: repeat CTick 3)) = Some [0; 0; -1403 # 524288]%Q. Proof. vm_compute. reflexivity. Qed.
(* a waiting event whose end is moved to the past *)
Definition waiting : event Q Q := Qev 1%Q (6 # 8) (Some 1%Q) 0%Q 0%Q 7%N.
Example waiting_edited : outs (Qrun (CPush waiting :: repeat CTick 4 ++ CEdit 7%N (Some (1 # 8)) 0%Q :: repeat CTick 4)) = Some [0; 0; 0; 0; 0; 0; 1; 1]%Q. Proof. vm_compute. reflexivity. Qed.
(* an event that ends inside a block and is edited at the end of the block plays on *)
Definition short : event Q Q := Qev 1%Q 0%Q (Some (2 # 8)) 0%Q 0%Q 7%N.
Example revived : outs (Qrun [CPush short; CBlock 4 Qbuf; CEdit 7%N (Some 1%Q) 0%Q; CTick]) = Some [1; 1; 0; 0; 1]%Q. Proof. vm_compute. reflexivity. Qed.
Example not_revived : outs (Qrun (CPush short :: repeat CTick 4 ++ [CEdit 7%N (Some 1%Q) 0%Q; CTick])) = Some [1; 1; 0; 0; 0]%Q. Proof. vm_compute. reflexivity. Qed.
(* a reset and then a push, together in one batch or in two *)
Definition Qplays {X} (r : option (X * list (list (list Q)))) : option (list (list (list Q))) := option_map (fun x => map (map (map Qred)) (snd x)) r.
Definition Qseq : seqr Q Q := seq_new Qnum_ops 8%Q false 1.
Example reset_push_batch : Qplays (backend Qnum_ops Q_at Qops (pop_min Qnum_ops) [([MReset; MPush short], PTick)] Qseq) = Some [[[0%Q]]]. Proof. vm_compute. reflexivity. Qed.
Example reset_push_in_order : Qplays (in_order Qnum_ops Q_at Qops (pop_min Qnum_ops) [([MReset; MPush short], PTick)] Qseq) = Some [[[1%Q]]]. Proof. vm_compute. reflexivity. Qed.

(* f64: an event that ends at 4.5 samples, up to rounding, with a fade out of 1e-25 seconds *)
Definition f64z := nofZ f64_ops.
Definition f64_at : fade -> spec_float -> spec_float := fade_at f64_ops (f64z 1%Z) (f64z 1%Z) (f64z 1%Z).
Definition f64_end : spec_float := S754_finite false 6917529027641081 (-66).     (* 0x1.89374bc6a7ef9p-14 *)
Definition f64_tiny : spec_float := S754_finite false 4503599627370496 (-135).   (* 0x1p-83 *)
Definition f64_event : event spec_float spec_float := mkEv (f64z 1%Z) (f64z 0%Z) (Some f64_end) Smooth (f64z 0%Z) f64_tiny 7%N.
Definition f64_run := run f64_ops f64_at (const_ops f64_ops) (fun u _ => u) (pop_min f64_ops) (seq_new f64_ops (f64z 48000%Z) false 1).
Definition f64_buf := [repeat (f64z 0%Z) MAXB].

(* ---- cases that meet the hypotheses ---- *)
Local Open Scope R_scope.
Definition Rops := const_ops Rnum_ops.
Definition Rrate (u : R) (_ : R) : R := u.
Lemma const_seq_laws : seq_unit_laws Rops Rrate.
Proof. split; [exact const_laws|]. repeat split. Qed.
Lemma R_at_one f : R_at f 1 = 1.
Proof. destruct f; [rewrite power_eq; field|]. unfold R_at, fade_at, smooth5. cbn. ring. Qed.
Definition Rbuf : list (list R) := [repeat 0 MAXB].
(* two samples of fade in, from 0 to 5 samples, one sample of fade out *)
Definition ev_a : event R R := mkEv 1 0 (Some (5 / 8)) Smooth (2 / 8) (1 / 8) 3%N.
Definition score0 : score R := mkScore [] 0 8 1 true.
Definition history : list (call R R) := [CPush ev_a; CTick; CBlock 3 Rbuf].
Lemma half_grid (a j : Z) : IZR a = 2 * IZR j -> a = (2 * j)%Z.
Proof. intros H. rewrite <- mult_IZR in H. now apply eq_IZR in H. Qed.
Lemma play_one n (e : event R R) t r : exists e', fst (sc_play R_at Rops n (mkScore [e] t 8 1 r)) = mkScore [e'] (t + INR n * (1 / 8)) 8 1 r /\ same_plan e e'.
Proof. rewrite (sc_play_voices R_at Rops). cbn [fst sc_events sc_time sc_sr sc_outs sc_replay map]. eexists. split; [reflexivity|]. apply vplay_plan. Qed.
Lemma Rbuf_ok : shaped 1 Rbuf.
Proof. split; [reflexivity|]. constructor; [apply repeat_length|constructor]. Qed.
Lemma ev_a_fair e : same_plan ev_a e -> fair (1 / 8) (1 / 8) 3 e.
Proof.
  intros H. apply (fair_same _ _ _ ev_a); [exact H|]. right. right. cbn. split; [|split].
  - intros [j Hj]. assert (X : IZR 7 = 2 * IZR j) by lra. apply half_grid in X. lia.
  - right. right. right. split; [lra|]. exists 1%Z. lra.
  - right. left. lra.
Qed.
Lemma ev_a_fair2 e x : same_plan (ev_set_end ev_a (Some (7 / 8)) x) e -> x = 0 -> fair (1 / 8) (4 / 8) 4 e.
Proof.
  intros H ->. apply (fair_same _ _ _ (ev_set_end ev_a (Some (7 / 8)) 0)); [exact H|]. right. right. cbn. split; [|split].
  - intros [j Hj]. assert (X : IZR 5 = 2 * IZR j) by lra. apply half_grid in X. lia.
  - right. left. lra.
  - left. lra.
Qed.
(* the history is allowed, after it event 3 can be given the end 7/8, and four more samples can be played *)
Lemma history_ok : all_allowed R_at Rops Rrate score0 history /\
  let p := fst (sc_run R_at Rops Rrate score0 history) in
  editable p 3 (Some (7 / 8)) /\ all_allowed R_at Rops Rrate (with_events p (map (change_end 3%N (Some (7 / 8)) 0) (sc_events p))) [CBlock 4 Rbuf; CReset].
Proof.
  unfold history, score0. unfold with_events. cbn [all_allowed sc_run sc_step]. unfold with_events. cbn [sc_events sc_time sc_sr sc_outs sc_replay fst]. change (retune (fun u => Rrate u 8) ev_a) with ev_a.
  destruct (play_one 1 ev_a 0 true) as (e1 & E1 & S1). destruct (sc_play R_at Rops 1 (mkScore [ev_a] 0 8 1 true)) as [p1 o1]. cbn [fst] in E1. subst p1. cbn [INR] in *.
  replace (0 + 1 * (1 / 8)) with (1 / 8) by lra.
  destruct (play_one 3 e1 (1 / 8) true) as (e2 & E2 & S2). cbn [fst]. destruct (sc_play R_at Rops 3 (mkScore [e1] (1 / 8) 8 1 true)) as [p2 o2]. cbn [fst] in E2. subst p2. cbn [fst sc_events sc_time sc_sr sc_outs sc_replay map].
  replace (1 / 8 + INR 3 * (1 / 8)) with (4 / 8) by (cbn; lra).
  assert (S3 : same_plan ev_a e2). { destruct S1 as (? & ? & ? & ? & ? & ?), S2 as (? & ? & ? & ? & ? & ?). repeat split; congruence. } destruct S3 as (P1 & P2 & P3 & P4 & P5 & P6).
  split; [|split].
  - split; [split; [repeat split; cbn; lra|auto]|]. split; [exact I|]. split; [|exact I]. cbn [allowed sc_events sc_time sc_sr sc_outs]. split; [unfold MAXB; lia|]. split; [exact Rbuf_ok|]. constructor; [|constructor]. apply ev_a_fair. exact S1.
  - exists e2. cbn [sc_events sc_time sc_sr]. split; [now left|]. split; [exact P6|]. unfold over. rewrite P1, P2. cbn. split; [lra|]. left. lra.
  - split; [|split; [exact I|exact I]]. cbn [allowed sc_events sc_time sc_sr sc_outs]. split; [unfold MAXB; lia|]. split; [exact Rbuf_ok|]. constructor; [|constructor]. apply (ev_a_fair2 _ 0); [|reflexivity]. unfold change_end. rewrite P6. cbn. repeat split; cbn; assumption.
Qed.
