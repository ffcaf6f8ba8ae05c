(* Composite nodes on endless streams in terms of their parts. *)
From Coq Require Import Reals Lia.
From Verif Require Import SignalSpec.
From Verif Require Export NodeProofs.

Section StreamProofs.
  Context {A P U : Type}.
  Variable ar : arith A.
  Variable ops : unit_ops A P U.
  Notation zero := (a_zero ar).
  Notation add := (a_add ar).
  Hypothesis Hu : unit_laws zero ops.
  Notation node := (node A U).
  Notation ins := (ins ops).
  Notation outs := (outs ops).
  Notation tick := (tick ar ops).
  Notation wf := (wf ops).
  Notation state := (state ar ops).
  Notation output := (output ar ops).

  Lemma state_ext x X Y t : (forall s, s < t -> X s = Y s) -> state x X t = state x Y t.
  Proof. induction t as [|t IH]; intros H; cbn; auto. rewrite IH by (intros; apply H; lia). now rewrite H by lia. Qed.
  Lemma output_causal x X Y t : (forall s, s <= t -> X s = Y s) -> output x X t = output x Y t.
  Proof. intros H. unfold SignalSpec.output. rewrite (state_ext x X Y) by (intros; apply H; lia). now rewrite H by lia. Qed.
  Lemma ins_state x X t : ins (state x X t) = ins x.
  Proof. induction t; cbn; auto. rewrite (ins_tick ar ops Hu). auto. Qed.
  Lemma outs_state x X t : outs (state x X t) = outs x.
  Proof. induction t; cbn; auto. rewrite (outs_tick ar ops Hu). auto. Qed.
  Lemma wf_state x X t : wf x -> width (ins x) X -> wf (state x X t).
  Proof. intros Hw HX. induction t; cbn; auto. apply (tick_wf ar ops Hu); auto. rewrite HX. now rewrite ins_state. Qed.
  Lemma output_width x X : wf x -> width (ins x) X -> width (outs x) (output x X).
  Proof.
    intros Hw HX t. unfold SignalSpec.output. rewrite <- (outs_state x X t).
    apply (tick_wf ar ops Hu); [apply wf_state; auto|]. rewrite HX. now rewrite ins_state.
  Qed.

  (* stateless nodes *)
  Lemma output_stateless x f : (forall i, tick x i = (x, f i)) -> forall X t, output x X t = f (X t).
  Proof.
    intros H X t. unfold SignalSpec.output. assert (E : state x X t = x) by (induction t; cbn; auto; rewrite IHt, H; auto).
    now rewrite E, H.
  Qed.

  Lemma state_Pipe x y X t : state (Pipe x y) X t = Pipe (state x X t) (state y (output x X) t).
  Proof. induction t as [|t IH]; cbn [SignalSpec.state]; auto. rewrite IH, tick_Pipe. reflexivity. Qed.
  Lemma output_Pipe x y X t : output (Pipe x y) X t = output y (output x X) t.
  Proof. unfold SignalSpec.output at 1. rewrite state_Pipe, tick_Pipe. reflexivity. Qed.
  Definition lo (n : nat) (X : nat -> list A) : nat -> list A := fun t => firstn n (X t).
  Definition hi (n : nat) (X : nat -> list A) : nat -> list A := fun t => skipn n (X t).
  Lemma state_Stack x y X t : state (Stack x y) X t = Stack (state x (lo (ins x) X) t) (state y (hi (ins x) X) t).
  Proof. induction t as [|t IH]; cbn [SignalSpec.state]; auto. rewrite IH, tick_Stack. rewrite ins_state. reflexivity. Qed.
  Lemma output_Stack x y X t : output (Stack x y) X t = output x (lo (ins x) X) t ++ output y (hi (ins x) X) t.
  Proof. unfold SignalSpec.output at 1. rewrite state_Stack, tick_Stack, ins_state. reflexivity. Qed.
  Lemma state_Binop b x y X t : state (Binop b x y) X t = Binop b (state x (lo (ins x) X) t) (state y (hi (ins x) X) t).
  Proof. induction t as [|t IH]; cbn [SignalSpec.state]; auto. rewrite IH, tick_Binop. rewrite ins_state. reflexivity. Qed.
  Lemma output_Binop b x y X t : output (Binop b x y) X t = zipw b (output x (lo (ins x) X) t) (output y (hi (ins x) X) t).
  Proof. unfold SignalSpec.output at 1. rewrite state_Binop, tick_Binop, ins_state. reflexivity. Qed.
  Lemma state_Unop f x X t : state (Unop f x) X t = Unop f (state x X t).
  Proof. induction t as [|t IH]; cbn [SignalSpec.state]; auto. rewrite IH, tick_Unop. reflexivity. Qed.
  Lemma output_Unop f x X t : output (Unop f x) X t = map f (output x X t).
  Proof. unfold SignalSpec.output at 1. rewrite state_Unop, tick_Unop. reflexivity. Qed.
  Lemma state_Branch x y X t : state (Branch x y) X t = Branch (state x X t) (state y X t).
  Proof. induction t as [|t IH]; cbn [SignalSpec.state]; auto. rewrite IH, tick_Branch. reflexivity. Qed.
  Lemma output_Branch x y X t : output (Branch x y) X t = output x X t ++ output y X t.
  Proof. unfold SignalSpec.output at 1. rewrite state_Branch, tick_Branch. reflexivity. Qed.
  Lemma state_Bus x y X t : state (Bus x y) X t = Bus (state x X t) (state y X t).
  Proof. induction t as [|t IH]; cbn [SignalSpec.state]; auto. rewrite IH, tick_Bus. reflexivity. Qed.
  Lemma output_Bus x y X t : output (Bus x y) X t = zipw add (output x X t) (output y X t).
  Proof. unfold SignalSpec.output at 1. rewrite state_Bus, tick_Bus. reflexivity. Qed.
  Lemma state_Thru x X t : state (Thru x) X t = Thru (state x X t).
  Proof. induction t as [|t IH]; cbn [SignalSpec.state]; auto. rewrite IH, tick_Thru. reflexivity. Qed.
  Lemma output_Thru x X t : output (Thru x) X t = thru_out ar (outs x) (ins x) (X t) (output x X t).
  Proof. unfold SignalSpec.output at 1. rewrite state_Thru, tick_Thru, ins_state, outs_state. reflexivity. Qed.

  (* several children, each with its own stream *)
  Definition states (xs : list node) (Xs : list (nat -> list A)) (t : nat) : list node := zipw (fun x X => state x X t) xs Xs.
  Definition all_outputs (xs : list node) (Xs : list (nat -> list A)) (t : nat) : list (list A) := zipw (fun x X => output x X t) xs Xs.
  Lemma tick_states xs Xs t : length Xs = length xs ->
    tick_all tick (states xs Xs t) (map (fun X => X t) Xs) = (states xs Xs (S t), all_outputs xs Xs t).
  Proof.
    unfold states, all_outputs. revert Xs; induction xs as [|x xs IH]; intros [|X Xs] H; cbn [length] in *; try discriminate; auto.
    cbn [zipw map]. rewrite tick_all_cons. rewrite IH by lia. reflexivity.
  Qed.
  Lemma states_0 xs Xs : length Xs = length xs -> states xs Xs 0 = xs.
  Proof. intros H. unfold states. cbn. apply zipw_fst. auto. Qed.
  Lemma states_length xs Xs t : length Xs = length xs -> length (states xs Xs t) = length xs.
  Proof. intros H. unfold states. rewrite zipw_length. lia. Qed.
  Lemma hd_ins_states xs Xs t : length Xs = length xs -> hd_ins ops (states xs Xs t) = hd_ins ops xs.
  Proof. destruct xs, Xs; cbn; try discriminate; auto. intros _. apply ins_state. Qed.
  Lemma hd_outs_states xs Xs t : length Xs = length xs -> hd_outs ops (states xs Xs t) = hd_outs ops xs.
  Proof. destruct xs, Xs; cbn; try discriminate; auto. intros _. apply outs_state. Qed.
  Lemma slices_seq {X} n k (l : list X) : slices n k l = map (fun i => firstn k (skipn (i * k) l)) (seq 0 n).
  Proof.
    revert l; induction n as [|n IH]; intros l; cbn [slices seq map]; auto. cbn [Nat.mul skipn]. f_equal.
    rewrite IH, <- seq_shift, map_map. apply map_ext. intros i. f_equal. cbn [Nat.mul].
    generalize (i * k) as m. clear. intros m. revert l; induction k as [|k IH]; intros l; cbn; auto.
    destruct l; cbn; auto. now rewrite skipn_nil.
  Qed.
  Definition parts (n k : nat) (X : nat -> list A) : list (nat -> list A) := map (fun i t => firstn k (skipn (i * k) (X t))) (seq 0 n).
  Lemma parts_length n k X : length (parts n k X) = n.
  Proof. unfold parts. now rewrite map_length, seq_length. Qed.
  Lemma parts_at n k X t : map (fun Y => Y t) (parts n k X) = slices n k (X t).
  Proof. unfold parts. rewrite map_map, slices_seq. reflexivity. Qed.
  Lemma copies_at (n : nat) (X : nat -> list A) t : map (fun Y => Y t) (repeat X n) = repeat (X t) n.
  Proof. induction n; cbn; congruence. Qed.

  Lemma state_MultiBus xs X t : state (MultiBus xs) X t = MultiBus (states xs (repeat X (length xs)) t).
  Proof.
    induction t as [|t IH]; cbn [SignalSpec.state]; [now rewrite states_0 by apply repeat_length|].
    rewrite IH, tick_MultiBus, map_const_repeat, states_length, <- (copies_at (length xs)) by apply repeat_length.
    rewrite tick_states by apply repeat_length. reflexivity.
  Qed.
  Lemma output_MultiBus xs X t : output (MultiBus xs) X t = fold_left (zipw add) (all_outputs xs (repeat X (length xs)) t) (repeat zero (hd_outs ops xs)).
  Proof.
    unfold SignalSpec.output. rewrite state_MultiBus, tick_MultiBus, map_const_repeat, states_length, <- (copies_at (length xs)) by apply repeat_length.
    rewrite tick_states by apply repeat_length. cbv zeta. cbn [snd]. now rewrite hd_outs_states by apply repeat_length.
  Qed.
  Lemma state_MultiBranch xs X t : state (MultiBranch xs) X t = MultiBranch (states xs (repeat X (length xs)) t).
  Proof.
    induction t as [|t IH]; cbn [SignalSpec.state]; [now rewrite states_0 by apply repeat_length|].
    rewrite IH, tick_MultiBranch, map_const_repeat, states_length, <- (copies_at (length xs)) by apply repeat_length.
    rewrite tick_states by apply repeat_length. reflexivity.
  Qed.
  Lemma output_MultiBranch xs X t : output (MultiBranch xs) X t = concat (all_outputs xs (repeat X (length xs)) t).
  Proof.
    unfold SignalSpec.output. rewrite state_MultiBranch, tick_MultiBranch, map_const_repeat, states_length, <- (copies_at (length xs)) by apply repeat_length.
    rewrite tick_states by apply repeat_length. reflexivity.
  Qed.
  Notation own xs X := (parts (length xs) (hd_ins ops xs) X).
  Lemma state_MultiStack xs X t : state (MultiStack xs) X t = MultiStack (states xs (own xs X) t).
  Proof.
    induction t as [|t IH]; cbn [SignalSpec.state]; [now rewrite states_0 by apply parts_length|].
    rewrite IH, tick_MultiStack, states_length, hd_ins_states, <- parts_at by apply parts_length.
    rewrite tick_states by apply parts_length. reflexivity.
  Qed.
  Lemma output_MultiStack xs X t : output (MultiStack xs) X t = concat (all_outputs xs (own xs X) t).
  Proof.
    unfold SignalSpec.output. rewrite state_MultiStack, tick_MultiStack, states_length, hd_ins_states, <- parts_at by apply parts_length.
    rewrite tick_states by apply parts_length. reflexivity.
  Qed.
  Lemma state_Reduce b xs X t : state (Reduce b xs) X t = Reduce b (states xs (own xs X) t).
  Proof.
    induction t as [|t IH]; cbn [SignalSpec.state]; [now rewrite states_0 by apply parts_length|].
    rewrite IH, tick_Reduce, states_length, hd_ins_states, <- parts_at by apply parts_length.
    rewrite tick_states by apply parts_length. reflexivity.
  Qed.
  Lemma output_Reduce b xs X t : output (Reduce b xs) X t = reduce_out ar b (hd_outs ops xs) (all_outputs xs (own xs X) t).
  Proof.
    unfold SignalSpec.output. rewrite state_Reduce, tick_Reduce, states_length, hd_ins_states, <- parts_at by apply parts_length.
    rewrite tick_states by apply parts_length. cbv zeta. cbn [snd]. now rewrite hd_outs_states by apply parts_length.
  Qed.

  (* a chain *)
  Fixpoint chain_states (xs : list node) (X : nat -> list A) (t : nat) : list node :=
    match xs with [] => [] | x :: r => state x X t :: chain_states r (output x X) t end.
  Fixpoint chain_output (xs : list node) (X : nat -> list A) : nat -> list A :=
    match xs with [] => X | x :: r => chain_output r (output x X) end.
  Lemma tick_chain_states xs X t : tick_chain tick (chain_states xs X t) (X t) = (chain_states xs X (S t), chain_output xs X t).
  Proof.
    revert X; induction xs as [|x xs IH]; intros X; cbn [chain_states chain_output]; auto.
    rewrite tick_chain_cons. change (snd (tick (state x X t) (X t))) with (output x X t). rewrite IH. reflexivity.
  Qed.
  Lemma state_Chain xs X t : state (Chain xs) X t = Chain (chain_states xs X t).
  Proof.
    induction t as [|t IH]; cbn [SignalSpec.state].
    - f_equal. revert X; induction xs; intros X; cbn; congruence.
    - rewrite IH, tick_Chain, tick_chain_states. reflexivity.
  Qed.
  Lemma output_Chain xs X t : output (Chain xs) X t = chain_output xs X t.
  Proof. unfold SignalSpec.output. rewrite state_Chain, tick_Chain, tick_chain_states. reflexivity. Qed.
End StreamProofs.
