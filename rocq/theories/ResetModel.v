(* The nodes of TuneModel.v as units that expressions can be made of. No proofs here. *)
From Verif Require Export NodeModel TuneModel.
Local Open Scope nat_scope.

Section Units.
  Context {F G S X : Type}.
  Variable nm : num F.
  Variable tl : tools F G S X.
  (* the types Inputs: filter.rs:51, 131, 301, 384; biquad.rs:169, 256, 342, 425, 445, 465, 485, 526, 656, 735, 875; biquad_bank.rs:59; svf.rs:292, 342, 391, 440, 489, 539, 589, 643, 700,
     819, 997; moog.rs:62; rez.rs:51; follow.rs:85, 207; audionode.rs:466; pan.rs:51; noise.rs:278; oscillator.rs:162; delay.rs:337; and the types Outputs on the lines that follow *)
  Definition t_inputs (n : tnode F G S X) : nat :=
    match n with
    | TLow w _ _ _ _ | TAll w _ _ _ | THigh w _ _ _ _ _ | TButter w _ _ _ | TDsf w _ | TNest w _ _ _ => if w then 2 else 1
    | TReson w _ _ _ _ | TMoog w _ | TRez w _ => if w then 3 else 1
    | TDirty w s => if w then if bi_gained (dt_mode s) then 4 else 3 else 1
    | TSvf s _ _ => if sv_gained (vf_mode s) then 4 else 3
    | TBank s => length (bk_a1 s)
    | TConst _ => 0
    | TPan s => p_n s
    | THold _ => 2
    | TDc _ _ _ _ _ | TBiquad _ | TFix _ | TFollow _ _ _ | TAFollow _ _ _ _ => 1
    end.
  (* filter.rs:51, 131, 301, 384 *)
  Definition t_outputs (n : tnode F G S X) : nat :=
    match n with TBank s => length (bk_a1 s) | TConst l => length l | TPan _ => 2 | _ => 1 end.
  (* audionode.rs:25-170 (the trait AudioNode): blocks, identifiers and hashes are not used here; a setting that panics does nothing *)
  Definition t_ops : unit_ops F (param F) (tnode F G S X) :=
    mkUnit _ _ _ t_inputs t_outputs (t_tick nm tl) (fun u _ _ o => (u, o)) (fun u s => match t_set nm tl u s with Some u => u | None => u end) (t_reset nm tl)
      (fun _ => 0%N) (fun u _ => u).
End Units.
