(* What settings and parameter inputs should do: a setting makes a node the one that the opcode would construct with the new value in place of the old one.
   No proofs here. *)
From Coq Require Import Reals.
From Verif Require Export TuneModel.
Local Open Scope nat_scope.

Section TuneSpec.
  Context {F S X : Type}.
  Variable nm : num F.
  Notation opcode := (opcode F S X).
  Notation setting := (setting (param F)).

  (* The table of README.md:945-983 with the two sentences after it ("If a node responds to `center_q_gain`, then it also responds to `center_q` and `center`. If a node
     responds to `center_q`, then it also responds to `center`"), the documentation of lowrez_hz and bandrez_hz in rez.rs, of AllNest in delay.rs:323-324 (the coefficient)
     and of phase in combinator.rs:255-263. All other settings leave a node as it is. *)
  Definition documented (op : opcode) (st : setting) : opcode :=
    match op, s_par st with
    | OLowpole _, PCenter f => OLowpole f
    | ODcblock _, PCenter f => ODcblock f
    | OAllpole _, PDelay d => OAllpole d
    | OHighpole _, PCenter f => OHighpole f
    | OButter _, PCenter f => OButter f
    | OReson _ q, PCenter f => OReson f q
    | OReson _ _, PCenterQ f q => OReson f q
    | OBiquad _, PBiquad a1 a2 b0 b1 b2 => OBiquad (mkBi a1 a2 b0 b1 b2)
    | OBank cs, PBiquad a1 a2 b0 b1 b2 => match s_addr st with AIndex i :: _ => OBank (upd cs i (mkBi a1 a2 b0 b1 b2)) | _ => op end
    | OSvf m _ q g, PCenter f => OSvf m f q g
    | OSvf m _ _ g, PCenterQ f q => OSvf m f q g
    | OSvf m _ _ _, PCenterQGain f q g => OSvf m f q g
    | OMoog _ q, PCenter f => OMoog f q
    | OMoog _ _, PCenterQ f q => OMoog f q
    | ORez bp _ q, PCenter f => ORez bp f q
    | ORez bp _ _, PCenterQ f q => ORez bp f q
    | ODirty fb m sh _ q g, PCenter f => ODirty fb m sh f q g
    | ODirty fb m sh _ _ g, PCenterQ f q => ODirty fb m sh f q g
    | ODirty fb m sh _ _ _, PCenterQGain f q g => ODirty fb m sh f q g
    | OFollow _, PTime t => OFollow t
    | OAFollow _ _, PAttackRelease a r => OAFollow a r
    | OConst l, PValue v => OConst (map (fun _ => v) l)
    | OPan _, PPan p => OPan p
    | OHold _, PVariability v => OHold v
    | ODsf sp _ p, PRoughness r => ODsf sp r p
    | ODsf sp r _, PPhase p => ODsf sp r (Some p)
    | ONest _ x, PCoefficient c => ONest c x
    | _, _ => op
    end.
  (* the opcode that results from what is done with a node, and the sample rate that was set last *)
  Definition settle (op : opcode) (l : list (act F)) : opcode := fold_left (fun op a => match a with ASet st => documented op st | _ => op end) l op.
  Definition last_rate (l : list (act F)) : option F := fold_left (fun r a => match a with ARate sr => Some sr | _ => r end) l None.

  (* opcodes with a variant that has inputs for its parameters: the number of inputs, and the setting that stands for the values a, b and c of inputs 1, 2 and 3 *)
  Definition arity (op : opcode) : option nat :=
    match op with
    | OLowpole _ | OAllpole _ | OHighpole _ | OButter _ | OPan _ | ODsf _ _ _ | ONest _ _ => Some 2
    | OMoog _ _ | ORez _ _ _ => Some 3
    | OSvf m _ _ _ => Some (match m with MBell | MLowshelf | MHighshelf => 4 | _ => 3 end)
    | ODirty _ m _ _ _ _ => Some (match m with BBell => 4 | _ => 3 end)
    | _ => None
    end.
  Definition as_setting (op : opcode) (a b c : F) : setting :=
    mkSetting (match op with
      | OAllpole _ => PDelay a
      | OPan _ => PPan a
      | ODsf _ _ _ => PRoughness a
      | ONest _ _ => PCoefficient a
      | OMoog _ _ | ORez _ _ _ => PCenterQ a b
      | OSvf m _ _ _ => match m with MBell | MLowshelf | MHighshelf => PCenterQGain a b c | _ => PCenterQ a b end
      | ODirty _ m _ _ _ _ => match m with BBell => PCenterQGain a b c | _ => PCenterQ a b end
      | _ => PCenter a
      end) [].
  (* what is done with a pair of nodes, one with inputs for its parameters and one with settings *)
  Inductive wact := WTick (x a b c : F) | WRate (sr : F) | WReset.
  Definition by_input (n : nat) (w : wact) : list (act F) :=
    match w with WTick x a b c => [ATick (firstn n [x; a; b; c])] | WRate sr => [ARate sr] | WReset => [AReset] end.
  Definition by_setting (op : opcode) (w : wact) : list (act F) :=
    match w with WTick x a b c => [ASet (as_setting op a b c); ATick [x]] | WRate sr => [ARate sr] | WReset => [AReset] end.
  (* as above, with the same parameters in every sample *)
  Definition steady (w : wact) (a b c : F) : Prop := match w with WTick _ a' b' c' => a' = a /\ b' = b /\ c' = c | _ => True end.
  Definition plain (w : wact) : list (act F) := match w with WTick x _ _ _ => [ATick [x]] | WRate sr => [ARate sr] | WReset => [AReset] end.
End TuneSpec.

(* laws of the parts: resetting a shape undoes what its function did; resetting a node inside an AllNest undoes what tick did, and the last sample rate counts *)
Definition shape_law {F G S X} (tl : tools F G S X) : Prop := forall s x, tl_shape_reset tl (fst (tl_shape tl s x)) = tl_shape_reset tl s.
Definition inner_law {F G S X} (tl : tools F G S X) : Prop :=
  (forall x v, tl_reset tl (fst (tl_tick tl x v)) = tl_reset tl x) /\ (forall x, tl_reset tl (tl_reset tl x) = tl_reset tl x) /\
  (forall x sr, tl_reset tl (tl_rate tl x sr) = tl_rate tl (tl_reset tl x) sr) /\ (forall x a b, tl_rate tl (tl_rate tl x a) b = tl_rate tl x b).
(* a new part is in the state in which a reset leaves it *)
Definition fresh_parts {F G S X} (tl : tools F G S X) (op : opcode F S X) : Prop :=
  match op with ODirty _ _ sh _ _ _ => tl_shape_reset tl sh = sh | ONest _ x => tl_reset tl x = x | _ => True end.

(* what is done with a filter that has a cutoff frequency from lo to hi, a Q of at most Q and an input of at most B; sample rates stay *)
Definition tame (lo hi Q B : R) (a : act R) : Prop :=
  match a with
  | ATick i => (Rabs (nth 0 i 0) <= B /\ lo <= nth 1 i 0 <= hi /\ Rabs (nth 2 i 0) <= Q)%R
  | ASet st => match s_par st with PCenter f => (lo <= f <= hi)%R | PCenterQ f q => (lo <= f <= hi)%R /\ (Rabs q <= Q)%R | _ => True end
  | ARate _ => False
  | AReset => True
  end.
(* ticks with a first input of at most B, and resets *)
Definition quiet (B : R) (a : act R) : Prop := match a with ATick i => (Rabs (nth 0 i 0) <= B)%R | AReset => True | _ => False end.
(* what is done with lane i of a bank with n lanes *)
Definition framed {F} (n : nat) (a : act F) : Prop := match a with ATick x => length x = n | _ => True end.
Definition lane_act {F} (nm : num F) (i : nat) (a : act F) : list (act F) :=
  match a with
  | ATick x => [ATick [nth i x (n0 nm)]]
  | ASet st => match s_par st, direction st with PBiquad a1 a2 b0 b1 b2, AIndex j => if Nat.eqb j i then [ASet (mkSetting (PBiquad a1 a2 b0 b1 b2) [])] else [] | _, _ => [] end
  | a => [a]
  end.
(* the coefficients of the filters without shapes: those of the mode at a sample rate, cutoff or center, Q and gain *)
Definition plain_coefs (el : elem R) (m : bimode) (sr f q g : R) : bicoefs R :=
  match m with
  | BResonator => resonator Rnum_ops el sr f q
  | BLowpass => bi_lowpass Rnum_ops el sr f q
  | BHighpass => bi_highpass Rnum_ops el sr f q
  | BBell => bi_bell Rnum_ops el sr f q g
  end.
(* tools for examples: tanh as a shape, and a delay of one sample inside AllNest *)
Definition real_tools : tools R unit unit R :=
  mkTools R_elem tanh Rpower (fun x => IZR (Int_part x)) (fun x => (/ (1 + x))%R) (fun _ => tt) (fun g => (g, 1 / 2)%R) (fun s x => (s, tanh x)) (fun s => s)
    (fun x v => (v, x)) (fun _ => 0%R) (fun x _ => x).
