(* The groups of events of the sequencer: the loop over the active events, the heap, and the map of active ids. For any kind of numbers. *)
From Coq Require Import Lia Permutation.
From Verif Require Import SeqModel SeqSpec NetWf.

Section Groups.
  Context {F U : Type}.
  Variables (nm : num F) (pop : list (event F U) -> option (event F U * list (event F U))).
  Notation event := (event F U). Notation seqr := (seqr F U).
  Notation ids := (@ids F U).
  Hypothesis Hpop : heap_laws nm pop.

  (* the map gives exactly the positions of the active events *)
  Definition exact_map (m : imap) (l : list event) : Prop := forall id i, lookup m id = Some i <-> nth_error (ids l) i = Some id.

  Lemma exact_nil : exact_map [] [].
  Proof. intros id i. cbn. destruct i; cbn; split; discriminate. Qed.
  Lemma exact_ids m l l' : ids l = ids l' -> exact_map m l -> exact_map m l'.
  Proof. intros E H id i. rewrite <- E. apply H. Qed.
  Lemma nodup_nth (l : list N) i j x : NoDup l -> nth_error l i = Some x -> nth_error l j = Some x -> i = j.
  Proof. intros H Hi Hj. apply (proj1 (NoDup_nth_error l) H); [apply nth_error_Some; congruence|congruence]. Qed.
  Lemma exact_push m l e : exact_map m l -> ~ In (ev_id e) (ids l) -> exact_map (iinsert m (ev_id e) (length l)) (l ++ [e]).
  Proof.
    intros H Hn id i. rewrite lookup_iinsert. unfold ids in *. rewrite map_app. cbn [map]. destruct (N.eqb_spec (ev_id e) id) as [E|E].
    - subst id. split.
      + intros [= <-]. rewrite nth_error_app2 by (rewrite map_length; lia). rewrite map_length, Nat.sub_diag. reflexivity.
      + intros X. destruct (Nat.lt_ge_cases i (length (map ev_id l))) as [L|L].
        * rewrite nth_error_app1 in X by exact L. apply nth_error_In in X. contradiction.
        * rewrite nth_error_app2 in X by exact L. rewrite map_length in *. destruct (i - length l) as [|k] eqn:K; [f_equal; lia|]. destruct k; discriminate X.
    - rewrite (H id i). unfold SeqSpec.ids. destruct (Nat.lt_ge_cases i (length (map ev_id l))) as [L|L].
      + now rewrite nth_error_app1 by exact L.
      + rewrite nth_error_app2 by exact L. split; intros X.
        * assert (i < length (map (@ev_id F U) l)) by (apply nth_error_Some; congruence); lia.
        * destruct (i - length (map ev_id l)) as [|k]; cbn in X; [congruence|destruct k; discriminate X].
  Qed.

  Lemma last_cases {X} (l : list X) : l = [] \/ exists l0 x, l = l0 ++ [x].
  Proof. destruct l as [|a l]; [now left|]. right. destruct (exists_last (l := a :: l) ltac:(discriminate)) as (l0 & x & E). eauto. Qed.
  Lemma removelast_last {X} (l : list X) x : removelast (l ++ [x]) = l.
  Proof. rewrite removelast_app by discriminate. cbn. apply app_nil_r. Qed.
  Lemma swap_remove_end pre (e : event) : swap_remove (pre ++ [e]) (length pre) = pre.
  Proof.
    unfold swap_remove. rewrite app_length. cbn [length]. replace (length pre + 1 - 1) with (length pre) by lia.
    rewrite nth_error_app2, Nat.sub_diag by lia. cbn [nth_error]. rewrite upd_app_r by lia. rewrite Nat.sub_diag. cbn. apply removelast_last.
  Qed.
  Lemma swap_remove_mid pre (e l : event) tl : swap_remove (pre ++ e :: tl ++ [l]) (length pre) = pre ++ l :: tl.
  Proof.
    unfold swap_remove. replace (nth_error _ _) with (Some l).
    - rewrite upd_app_r by lia. rewrite Nat.sub_diag. cbn [upd]. change (pre ++ l :: tl ++ [l]) with (pre ++ (l :: tl) ++ [l]). rewrite app_assoc. apply removelast_last.
    - symmetry. change (e :: tl ++ [l]) with ((e :: tl) ++ [l]). rewrite app_assoc. rewrite nth_error_app2 by (rewrite (app_length _ [l]); cbn [length]; lia).
      rewrite (app_length _ [l]). cbn [length]. replace (_ - _) with 0 by lia. reflexivity.
  Qed.

  Section Loop.
    Context {Y : Type}.
    Variables (ended : event -> bool) (play : event -> Y -> option (event * Y)).
    Hypothesis play_id : forall e x e' x', play e x = Some (e', x') -> ev_id e' = ev_id e.
    Fixpoint plays (l : list event) (x : Y) : option (list event * Y) :=
      match l with [] => Some ([], x) | e :: r => let? (e', x1) := play e x in let? (r', x2) := plays r x1 in Some (e' :: r', x2) end.
    Lemma plays_ids l : forall x l' x', plays l x = Some (l', x') -> ids l' = ids l.
    Proof.
      induction l as [|e r IH]; cbn [plays]; intros x l' x' H; [injection H as <- <-; reflexivity|].
      destruct (play e x) as [[e1 x1]|] eqn:E; [|discriminate]. destruct (plays r x1) as [[r1 x2]|] eqn:R; [|discriminate]. injection H as <- <-.
      unfold SeqSpec.ids in *. cbn [map]. rewrite (IH _ _ _ R), (play_id _ _ _ _ E). reflexivity.
    Qed.

    Lemma exact_remove_end m pre e : NoDup (ids (pre ++ [e])) -> exact_map m (pre ++ [e]) -> exact_map (iremove m (ev_id e)) pre.
    Proof.
      intros N H id i. rewrite lookup_iremove. unfold SeqSpec.ids in *. rewrite map_app in N. cbn [map] in N. destruct (N.eqb_spec (ev_id e) id) as [E|E].
      - subst id. split; [discriminate|]. intros X. apply nth_error_In in X. apply NoDup_remove_2 in N. rewrite app_nil_r in N. contradiction.
      - rewrite (H id i). unfold SeqSpec.ids. rewrite map_app. cbn [map]. destruct (Nat.lt_ge_cases i (length (map (@ev_id F U) pre))) as [L|L].
        + now rewrite nth_error_app1 by exact L.
        + rewrite nth_error_app2 by exact L. split; intros X; [|apply nth_error_None in L; congruence].
          destruct (i - length (map ev_id pre)) as [|k]; cbn in X; [congruence|destruct k; discriminate X].
    Qed.
    Lemma exact_remove_mid m pre e l tl : NoDup (ids (pre ++ e :: tl ++ [l])) -> exact_map m (pre ++ e :: tl ++ [l]) ->
      exact_map (iinsert (iremove m (ev_id e)) (ev_id l) (length pre)) (pre ++ l :: tl).
    Proof.
      intros N H id i. rewrite lookup_iinsert, lookup_iremove. unfold SeqSpec.ids in *. rewrite !map_app in *. cbn [map] in *. rewrite map_app in N. cbn [map] in N.
      assert (N2 : NoDup (map ev_id pre ++ ev_id l :: map ev_id tl)).
      { apply (Permutation_NoDup (l := map (@ev_id F U) pre ++ map ev_id tl ++ [ev_id l])). { apply Permutation_app_head. symmetry. apply Permutation_cons_append. } now apply NoDup_remove_1 in N. }
      assert (Ne : forall k, nth_error (map ev_id pre ++ ev_id l :: map ev_id tl) k <> Some (ev_id e)).
      { intros k X. apply nth_error_In in X. apply NoDup_remove_2 in N. apply N. rewrite !in_app_iff in *. cbn in *. tauto. }
      destruct (N.eqb_spec (ev_id l) id) as [E|E].
      - subst id. assert (X : nth_error (map (@ev_id F U) pre ++ ev_id l :: map ev_id tl) (length pre) = Some (ev_id l)) by (rewrite nth_error_app2 by (rewrite map_length; lia); rewrite map_length, Nat.sub_diag; reflexivity).
        split; [intros [= <-]; exact X|]. intros X2. f_equal. exact (nodup_nth _ _ _ _ N2 X X2).
      - destruct (N.eqb_spec (ev_id e) id) as [E2|E2]; [subst id; split; [discriminate|intros X; now apply Ne in X]|].
        rewrite (H id i). unfold SeqSpec.ids. rewrite map_app. cbn [map]. rewrite map_app. cbn [map]. destruct (Nat.lt_ge_cases i (length (map (@ev_id F U) pre))) as [L|L].
        + now rewrite !nth_error_app1 by exact L.
        + rewrite !nth_error_app2 by exact L. destruct (i - length (map ev_id pre)) as [|k]; cbn [nth_error]; [split; congruence|].
          destruct (Nat.lt_ge_cases k (length (map (@ev_id F U) tl))) as [L2|L2]; [now rewrite nth_error_app1 by exact L2|].
          rewrite nth_error_app2 by exact L2. apply nth_error_None in L2. rewrite L2. split; [|discriminate].
          destruct (k - length (map ev_id tl)) as [|q]; cbn; [congruence|destruct q; discriminate].
    Qed.

    (* the loop plays the events that have not ended, in some order, and moves the others to the past *)
    Lemma scan_ok suf : forall pre m past x, NoDup (ids (pre ++ suf)) -> exact_map m (pre ++ suf) ->
      exists ks ds, Permutation suf (ks ++ ds) /\ Forall (fun e => ended e = false) ks /\ Forall (fun e => ended e = true) ds /\
        match plays ks x with
        | None => scan ended play (length suf) (length pre) (pre ++ suf) m past x = None
        | Some (ks', x') => exists m', scan ended play (length suf) (length pre) (pre ++ suf) m past x = Some (pre ++ ks', m', ds ++ past, x') /\ exact_map m' (pre ++ ks')
        end.
    Proof.
      remember (length suf) as k eqn:Hk. revert suf Hk. induction k as [|k IH]; intros suf Hk pre m past x N H.
      - destruct suf; [|discriminate]. exists [], []. cbn [plays scan]. split; [constructor|]. split; [constructor|]. split; [constructor|]. exists m. auto.
      - destruct suf as [|e tl]; [discriminate|]. cbn [length] in Hk. injection Hk as Hk. cbn [scan].
        rewrite nth_error_app2, Nat.sub_diag by lia. cbn [nth_error]. destruct (ended e) eqn:Ee.
        + destruct (last_cases tl) as [Et|[tl0 [l Et]]].
          * subst tl. replace (length (pre ++ [e])) with (length pre + 1) by (rewrite app_length; reflexivity). rewrite Nat.ltb_irrefl. rewrite swap_remove_end.
            subst k. cbn [scan length]. exists [], [e]. cbn [plays]. split; [constructor; constructor|]. split; [constructor|]. split; [repeat constructor; exact Ee|].
            eexists. split; [rewrite app_nil_r; reflexivity|]. rewrite app_nil_r. now apply exact_remove_end.
          * subst tl. replace (Nat.ltb (length pre + 1) _) with true by (symmetry; apply Nat.ltb_lt; rewrite app_length; cbn [length]; rewrite app_length; cbn [length]; lia).
            replace (nth_error (pre ++ e :: tl0 ++ [l]) _) with (Some l).
            2:{ symmetry. change (e :: tl0 ++ [l]) with ((e :: tl0) ++ [l]). rewrite app_assoc. rewrite nth_error_app2 by (rewrite (app_length _ [l]); cbn [length]; lia). rewrite (app_length _ [l]). cbn [length]. replace (_ - _) with 0 by lia. reflexivity. }
            rewrite swap_remove_mid. assert (Pm : Permutation (tl0 ++ [l]) (l :: tl0)) by (symmetry; apply Permutation_cons_append).
            destruct (IH (l :: tl0)) with (pre := pre) (m := iinsert (iremove m (ev_id e)) (ev_id l) (length pre)) (past := e :: past) (x := x) as (ks & ds & Hp & Hks & Hds & Hm).
            { rewrite app_length in Hk. cbn [length] in *. lia. }
            { unfold SeqSpec.ids in *. rewrite map_app in *. cbn [map] in *. rewrite map_app in N. cbn [map] in N. apply NoDup_remove_1 in N. eapply Permutation_NoDup; [|exact N]. apply Permutation_app_head. symmetry. apply Permutation_cons_append. }
            { now apply exact_remove_mid. }
            exists ks, (ds ++ [e]). split; [|split; [exact Hks|split; [apply Forall_app; auto|]]].
            { rewrite Pm. rewrite Hp. rewrite app_assoc. apply Permutation_cons_append. }
            destruct (plays ks x) as [[ks' x']|]; [|exact Hm]. destruct Hm as (m' & Hs & He). exists m'. rewrite <- app_assoc. cbn [app]. auto.
        + destruct (play e x) as [[e' x1]|] eqn:Ep.
          * assert (Hl : length pre < length (pre ++ e :: tl)) by (rewrite app_length; cbn [length]; lia).
            rewrite upd_app_r by lia. rewrite Nat.sub_diag. cbn [upd]. assert (Ea : pre ++ e' :: tl = (pre ++ [e']) ++ tl) by (rewrite <- app_assoc; reflexivity). rewrite Ea.
            assert (Ei : ids (pre ++ e :: tl) = ids ((pre ++ [e']) ++ tl)).
            { unfold SeqSpec.ids. rewrite <- app_assoc. rewrite !map_app. cbn [map app]. now rewrite (play_id _ _ _ _ Ep). }
            destruct (IH tl Hk (pre ++ [e']) m past x1) as (ks & ds & Hp & Hks & Hds & Hm). { now rewrite <- Ei. } { now apply (exact_ids _ _ _ Ei). }
            replace (length (pre ++ [e'])) with (S (length pre)) in Hm by (rewrite app_length; cbn; lia).
            exists (e :: ks), ds. split; [cbn; now constructor|]. split; [now constructor|]. split; [exact Hds|]. cbn [plays]. rewrite Ep.
            destruct (plays ks x1) as [[ks' x']|]; [|exact Hm]. destruct Hm as (m' & Hs & He). exists m'. replace (pre ++ e' :: ks') with ((pre ++ [e']) ++ ks') by (rewrite <- app_assoc; reflexivity). auto.
          * destruct (IH tl Hk (pre ++ [e]) m past x) as (ks & ds & Hp & Hks & Hds & _). { rewrite <- app_assoc. exact N. } { rewrite <- app_assoc. exact H. }
            exists (e :: ks), ds. split; [cbn; now constructor|]. split; [now constructor|]. split; [exact Hds|]. cbn [plays]. now rewrite Ep.
    Qed.
  End Loop.

  Lemma elookup_eremove (m : emap) id k : elookup (F := F) (eremove m id) k = if N.eqb id k then None else elookup m k.
  Proof.
    unfold eremove. induction m as [|[a i] m IH]; cbn; [now destruct (N.eqb id k)|]. destruct (N.eqb_spec a id) as [E|E]; cbn.
    - subst a. rewrite IH. destruct (N.eqb_spec id k); auto.
    - rewrite IH. destruct (N.eqb_spec a k), (N.eqb_spec id k); congruence.
  Qed.
  Lemma elookup_einsert (m : emap) id x k : elookup (F := F) (einsert m id x) k = if N.eqb id k then Some x else elookup m k.
  Proof. unfold einsert. cbn. destruct (N.eqb_spec id k); auto. rewrite elookup_eremove. destruct (N.eqb_spec id k); congruence. Qed.
  Lemma edited_id (m : emap) e : ev_id (@edited F U m e) = ev_id e.
  Proof. unfold edited. destruct (elookup m (ev_id e)) as [[t o]|]; reflexivity. Qed.
  Lemma edited_start (m : emap) e : ev_start (@edited F U m e) = ev_start e.
  Proof. unfold edited. destruct (elookup m (ev_id e)) as [[t o]|]; reflexivity. Qed.
  Lemma edited_unit (m : emap) e : ev_unit (@edited F U m e) = ev_unit e.
  Proof. unfold edited. destruct (elookup m (ev_id e)) as [[t o]|]; reflexivity. Qed.
  Lemma ids_edited (m : emap) l : ids (map (edited m) l) = ids l.
  Proof. unfold SeqSpec.ids. rewrite map_map. apply map_ext. intros. apply edited_id. Qed.

  Lemma pop_none l : pop l = None -> l = [].
  Proof. destruct l as [|e l]; auto. intros H. destruct (proj2 Hpop (e :: l) ltac:(discriminate)) as (x & r & E & _). congruence. Qed.
  Lemma pop_some l e r : pop l = Some (e, r) -> Permutation l (e :: r) /\ forall x, In x r -> nleb nm (ev_start e) (ev_start x) = true.
  Proof.
    intros H. assert (l <> []) by (intros ->; rewrite (proj1 Hpop) in H; discriminate). destruct (proj2 Hpop l H0) as (x & r' & E & Hp & Hm). rewrite H in E. injection E as <- <-. auto.
  Qed.
  Lemma pop_all_perm : forall k l, length l = k -> Permutation (pop_all pop k l) l.
  Proof.
    induction k as [|k IH]; intros l Hl; cbn [pop_all]; [destruct l; [constructor|discriminate]|].
    destruct (pop l) as [[e r]|] eqn:E; [|apply pop_none in E; subst l; discriminate]. destruct (pop_some _ _ _ E) as [Hp _].
    rewrite Hp. constructor. apply IH. apply Permutation_length in Hp. cbn in Hp. lia.
  Qed.

  (* the heap loop moves some events, edited, to the active ones *)
  Lemma activate_ok thr : forall k ready active m ed, length ready <= k -> NoDup (ids (ready ++ active)) -> exact_map m active ->
    exists ps ready' m' ed', activate nm pop k thr ready active m ed = (ready', active ++ map (edited ed) ps, m', ed') /\ Permutation ready (ps ++ ready') /\
      exact_map m' (active ++ map (edited ed) ps) /\ (forall e, In e ready' -> edited ed' e = edited ed e) /\ (forall id, elookup ed' id <> None -> elookup ed id <> None /\ ~ In id (ids ps)) /\
      Forall (fun e => nltb nm (ev_start e) thr = true) ps /\
      (ready' = [] \/ exists e, In e ready' /\ nltb nm (ev_start e) thr = false /\ forall x, In x ready' -> x = e \/ nleb nm (ev_start e) (ev_start x) = true).
  Proof.
    induction k as [|k IH]; intros ready active m ed Hl N Hx.
    - destruct ready; [|cbn in Hl; lia]. exists [], [], m, ed. cbn [activate map]. rewrite app_nil_r. split; [reflexivity|]. split; [constructor|]. split; [exact Hx|]. split; [auto|]. split; [auto|]. split; [constructor|now left].
    - cbn [activate]. destruct (pop ready) as [[e r]|] eqn:E.
      + destruct (pop_some _ _ _ E) as [Hp Hmin]. destruct (nltb nm (ev_start e) thr) eqn:Et.
        * assert (Nr : NoDup (ids ((e :: r) ++ active))). { eapply Permutation_NoDup; [|exact N]. apply Permutation_map. now apply Permutation_app_tail. }
          cbn in Nr. inversion Nr as [|? ? N1 N2]; subst. fold (ids (r ++ active)) in N1, N2.
          assert (Nea : ~ In (ev_id e) (ids active)) by (intros X; apply N1; unfold SeqSpec.ids; rewrite map_app, in_app_iff; now right).
          assert (Ner : ~ In (ev_id e) (ids r)) by (intros X; apply N1; unfold SeqSpec.ids; rewrite map_app, in_app_iff; now left).
          assert (Er : forall x, In x r -> edited (eremove ed (ev_id e)) x = edited ed x).
          { intros x Hx2. unfold edited. rewrite elookup_eremove. destruct (N.eqb_spec (ev_id e) (ev_id x)) as [Q|Q]; auto. exfalso. apply Ner. rewrite Q. now apply in_map. }
          destruct (IH r (active ++ [edited ed e]) (iinsert m (ev_id e) (length active)) (eremove ed (ev_id e))) as (ps & ready' & m' & ed' & Ea & Hp2 & Hx2 & Hed2 & Hk2 & Hps & Hr).
          { apply Permutation_length in Hp. cbn in Hp. lia. }
          { unfold SeqSpec.ids in *. rewrite app_assoc, map_app. cbn [map]. rewrite edited_id. eapply Permutation_NoDup; [apply Permutation_cons_append|]. now constructor. }
          { rewrite <- (edited_id ed e). apply exact_push; auto. now rewrite edited_id. }
          assert (Eps : map (edited (eremove ed (ev_id e))) ps = map (edited ed) ps). { apply map_ext_in. intros x Hi. apply Er. rewrite Hp2. apply in_or_app. now left. }
          rewrite Eps in *. exists (e :: ps), ready', m', ed'. rewrite Ea. cbn [map]. rewrite <- !app_assoc in *. cbn [app] in *.
          split; [reflexivity|]. split; [rewrite Hp; now constructor|]. split; [exact Hx2|]. split; [|split; [|split; [now constructor|exact Hr]]].
          2:{ intros id Hid. destruct (Hk2 id Hid) as [A B]. rewrite elookup_eremove in A. destruct (N.eqb_spec (ev_id e) id) as [Q|Q]; [congruence|]. split; [exact A|]. intros [X|X]; [congruence|exact (B X)]. }
          intros x Hi. rewrite Hed2 by exact Hi. apply Er. rewrite Hp2. apply in_or_app. now right.
        * exists [], ready, m, ed. cbn [map]. rewrite app_nil_r. split; [reflexivity|]. split; [reflexivity|]. split; [exact Hx|]. split; [auto|]. split; [auto|]. split; [constructor|].
          right. exists e. split; [rewrite Hp; now left|]. split; [exact Et|]. intros x Hi. rewrite Hp in Hi. destruct Hi as [<-|Hi]; auto.
      + apply pop_none in E. subst ready. exists [], [], m, ed. cbn [map]. rewrite app_nil_r. split; [reflexivity|]. split; [constructor|]. split; [exact Hx|]. split; [auto|]. split; [auto|]. split; [constructor|now left].
  Qed.
End Groups.
