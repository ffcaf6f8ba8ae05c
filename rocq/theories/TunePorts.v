(* The numbers of inputs and outputs of the nodes of TuneModel.v, and that they read no other inputs. *)
From Coq Require Import List Lia.
From Verif Require Import TuneProofs TuneSpec ResetModel.
Import ListNotations.
Local Open Scope nat_scope.

Section Ports.
  Context {F G S X : Type}.
  Variable nm : num F.
  Variable tl : tools F G S X.
  Definition fitted (n : tnode F G S X) : Prop := match n with TPan s => p_n s = 1 \/ p_n s = 2 | TBank _ => False | _ => True end.
  Lemma nth_more (i e : list F) k z : k < length i -> nth k (i ++ e) z = nth k i z. Proof. intros. now apply app_nth1. Qed.
  Ltac open_pairs := repeat match goal with |- context [let (_, _) := ?u in _] => destruct u end.
  Ltac near i e := rewrite ?(nth_more i e 0), ?(nth_more i e 1), ?(nth_more i e 2), ?(nth_more i e 3) by lia.
  Lemma reads n i e : fitted n -> length i = t_inputs n -> t_tick nm tl n (i ++ e) = t_tick nm tl n i /\ length (snd (t_tick nm tl n i)) = t_outputs n.
  Proof.
    intros Ft L. destruct n as [w ? ? ? ?|? ? ? ? ?|w ? ? ?|w ? ? ? ? ?|w ? ? ?|w ? ? ? ?|?|?|?|s ? ?|w ?|w ?|w s|? ? ?|? ? ? ?|?|s|?|w ?|w ? ? ?]; cbn [fitted] in Ft; try contradiction; cbn [t_inputs t_outputs t_tick] in *.
    - destruct w; cbn [andb]; near i e; split; reflexivity.
    - near i e. split; reflexivity.
    - destruct w; cbn [andb]; near i e; split; reflexivity.
    - destruct w; cbn [andb]; near i e; split; reflexivity.
    - destruct w; cbn [andb]; near i e; (split; [reflexivity|open_pairs; reflexivity]).
    - destruct w; cbn [andb]; near i e; (split; [reflexivity|open_pairs; reflexivity]).
    - near i e. split; [reflexivity|open_pairs; reflexivity].
    - near i e. split; [reflexivity|open_pairs; reflexivity].
    - unfold sv_inputs. destruct (sv_gained (vf_mode s)); near i e; (split; [reflexivity|open_pairs; reflexivity]).
    - destruct w; cbn [andb]; near i e; (split; [reflexivity|open_pairs; reflexivity]).
    - destruct w; cbn [andb]; near i e; (split; [reflexivity|open_pairs; reflexivity]).
    - unfold dirty_inputs. destruct w; [destruct (bi_gained (dt_mode s))|]; near i e; (split; [reflexivity|open_pairs; reflexivity]).
    - near i e. split; reflexivity.
    - near i e. split; reflexivity.
    - split; reflexivity.
    - unfold panner_tick. destruct Ft as [E|E]; rewrite E in *; cbn [Nat.ltb Nat.leb]; near i e; split; reflexivity.
    - near i e. split; [reflexivity|open_pairs; reflexivity].
    - destruct w; cbn [andb]; near i e; (split; [reflexivity|open_pairs; reflexivity]).
    - destruct w; cbn [andb]; near i e; (split; [reflexivity|open_pairs; reflexivity]).
  Qed.
  Definition kept (n m : tnode F G S X) : Prop := fitted n -> fitted m /\ t_inputs m = t_inputs n.
  Lemma svf_kind (s : svf F) x : vf_mode (fst (svf_step nm s x)) = vf_mode s. Proof. reflexivity. Qed.
  Lemma tick_kept n i : kept n (fst (t_tick nm tl n i)).
  Proof.
    intros Ft. destruct n as [w ? ? ? ?|? ? ? ? ?|w ? ? ?|w ? ? ? ? ?|w ? ? ?|w ? ? ? ?|?|?|?|s p c|w ?|w ?|w s|? ? ?|? ? ? ?|?|s|?|w ?|w ? ? ?]; cbn [fitted] in Ft; try contradiction; cbn [t_tick]; try (open_pairs; split; [exact I|reflexivity]).
    - assert (M : vf_mode (if Nat.leb p (c + 1) then sv_inputs nm tl s i else s) = vf_mode s). { destruct (Nat.leb p (c + 1)); [|reflexivity]. unfold sv_inputs. destruct (sv_gained _); destruct (orb _ _); reflexivity. }
      match goal with |- context [svf_step nm ?a ?b] => pose proof (svf_kind a b) as K; destruct (svf_step nm a b) as [s' y] end. cbn [fst] in *. split; [exact I|]. cbn [t_inputs]. rewrite K, M. reflexivity.
    - assert (M : dt_mode (if w then dirty_inputs nm tl s i else s) = dt_mode s). { destruct w; [|reflexivity]. unfold dirty_inputs. destruct (bi_gained _); destruct (neqb _ _ _); reflexivity. }
      match goal with |- context [dirty_step nm tl ?a ?b] => assert (K : dt_mode (fst (dirty_step nm tl a b)) = dt_mode a); [|destruct (dirty_step nm tl a b) as [s' y]] end.
      { unfold dirty_step. match goal with |- context [dt_fb ?a] => destruct (dt_fb a) end; open_pairs; reflexivity. } cbn [fst] in *. split; [exact I|]. cbn [t_inputs]. rewrite K, M. reflexivity.
    - cbn [fst snd]. unfold panner_tick. destruct (Nat.ltb 1 (p_n s)); cbn [fst]; [|split; [exact Ft|reflexivity]]. unfold set_pan. open_pairs. split; [exact Ft|reflexivity].
  Qed.
  Lemma act_kept n a : kept n (match a with ATick i => fst (t_tick nm tl n i) | ASet st => match t_set nm tl n st with Some m => m | None => n end | ARate sr => t_rate nm tl n sr | AReset => t_reset nm tl n end).
  Proof.
    destruct a as [i|st|sr|]; [apply tick_kept| | |]; intros Ft.
    - destruct n as [w ? ? ? ?|? ? ? ? ?|w ? ? ?|w ? ? ? ? ?|w ? ? ?|w ? ? ? ?|?|?|?|s p c|w ?|w ?|[] s|? ? ?|? ? ? ?|?|s|?|w ?|w ? ? ?]; cbn [fitted] in Ft; try contradiction; cbn [t_set]; destruct (s_par st); try (split; [exact Ft|reflexivity]).
    - destruct n; cbn [fitted] in Ft; try contradiction; cbn [t_rate]; split; try exact Ft; try exact I; try reflexivity.
    - destruct n; cbn [fitted] in Ft; try contradiction; cbn [t_reset]; split; try exact Ft; try exact I; try reflexivity.
  Qed.
  Lemma run_kept acts : forall n m os, t_run nm tl n acts = Some (m, os) -> kept n m.
  Proof.
    induction acts as [|a acts IH]; intros n m os E Ft; cbn [t_run] in E.
    - injection E as <- _. split; [exact Ft|reflexivity].
    - pose proof (act_kept n a Ft) as [A B]. destruct a as [i|st|sr|].
      + destruct (t_tick nm tl n i) as [n1 o]. destruct (t_run nm tl n1 acts) as [[n2 os2]|] eqn:E2; [|discriminate]. injection E as <- _. cbn [fst] in *. destruct (IH _ _ _ E2 A) as [C D]. split; [exact C|congruence].
      + destruct (t_set nm tl n st) as [n1|]; [|discriminate]. destruct (IH _ _ _ E A) as [C D]. split; [exact C|congruence].
      + destruct (IH _ _ _ E A) as [C D]. split; [exact C|congruence].
      + destruct (IH _ _ _ E A) as [C D]. split; [exact C|congruence].
  Qed.
  Lemma built_fits w op n : (forall cs, op <> OBank cs) -> build nm tl w op = Some n -> fitted n /\ (forall k, w = true -> arity op = Some k -> t_inputs n = k).
  Proof.
    intros Ho. destruct op; cbn [build]; try (intros E; injection E as <-); try (split; [exact I|intros k -> K; cbn in K; try discriminate; injection K as <-; reflexivity]).
    - destruct (nltb _ _ _); [|discriminate]. intros E. injection E as <-. split; [exact I|]. intros k -> K. injection K as <-. reflexivity.
    - now destruct (Ho cs).
    - destruct w; (split; [exact I|]); intros k W K; [|discriminate]. cbn in K. injection K as <-. destruct m; reflexivity.
    - split; [exact I|]. intros k -> K. cbn in K. injection K as <-. destruct m; reflexivity.
    - split; [cbn; destruct w; auto|]. intros k -> K. injection K as <-. reflexivity.
  Qed.
  Lemma ports w op n acts m os : (forall cs, op <> OBank cs) -> build nm tl w op = Some n -> t_run nm tl n acts = Some (m, os) ->
    t_inputs m = t_inputs n /\ (forall k, w = true -> arity op = Some k -> t_inputs n = k) /\ forall i e, length i = t_inputs m -> t_tick nm tl m (i ++ e) = t_tick nm tl m i /\ length (snd (t_tick nm tl m i)) = t_outputs m.
  Proof.
    intros Ho B E. destruct (built_fits w op n Ho B) as [Ft K]. destruct (run_kept acts n m os E Ft) as [Fm In]. split; [exact In|]. split; [exact K|]. intros i e L. now apply reads.
  Qed.
End Ports.
