(* Units as they are when they have been built or reset, kind by kind. No proofs here. *)
From Coq Require Import Reals.
From Verif Require Export ResetSpec ResetModel FxModel RevModel MeterModel TableSpec.
Import ListNotations.
Local Open Scope nat_scope.

(* ---- nodes with settings, TuneModel.v ---- *)
Section Tuned.
  Context {G S X : Type}.
  Variable tl : tools R G S X.
  (* Shapes, and the nodes inside AllNest, start from what their own reset() makes of them, whatever they have done *)
  Definition shapes_reset : Prop := (forall s x, tl_shape_reset tl (fst (tl_shape tl s x)) = tl_shape_reset tl s) /\ (forall s, tl_shape_reset tl (tl_shape_reset tl s) = tl_shape_reset tl s).
  Definition nests_reset : Prop := (forall s x, tl_reset tl (fst (tl_tick tl s x)) = tl_reset tl s) /\ (forall s, tl_reset tl (tl_reset tl s) = tl_reset tl s).
  (* what an opcode is given is at its start *)
  Definition new_parts (op : opcode R S X) : Prop := match op with ODirty _ _ sh _ _ _ => tl_shape_reset tl sh = sh | ONest _ x => tl_reset tl x = x | _ => True end.
  (* subsampling is left out: see C28_subsample_refuted *)
  Definition unsampled (st : setting (param R)) : Prop := match s_par st with PSubsample _ => False | _ => True end.
  (* calls that agree with the number of inputs *)
  Definition proper (k : nat) (a : act R) : Prop := match a with ATick i => length i = k | ASet st => unsampled st | _ => True end.
  (* a node that has been built, or that has been built, used in any way and then reset *)
  Definition as_new (n : tnode R G S X) : Prop := exists w op n0, TuneModel.build Rnum_ops tl w op = Some n0 /\
    (n = n0 /\ new_parts op \/ exists acts os, Forall (proper (t_inputs n0)) acts /\ t_run Rnum_ops tl n0 (acts ++ [AReset]) = Some (n, os)).
End Tuned.

(* ---- the units of the effects, FxModel.v ---- *)
Definition fx_ready (u : fx R) : Prop :=
  match u with
  | XLfo ch f s => (forall t, length (f t) = ch) /\ (e_t s = 0 /\ e_t0 s = 0 /\ e_t1 s = 0)%R /\ e_seed s = e_hash s /\ e_v0 s = f 0%R /\ e_v1 s = f 0%R
  | XTap _ _ _ _ s => s = line_new 0%R (length (l_buf s))
  | XTanh _ => True
  | XAll _ x1 y1 => (x1 = 0 /\ y1 = 0)%R
  end.

(* ---- generators, OpModel.v: the state is the one that the phase or seed, or else the hash, gives; a wavetable is not read beyond its range ---- *)
Section Voices.
  Context {X : Type} (rnd : N -> R) (tb : list (R * list R)) (xtick : X -> list R -> X * list R) (xreset : X -> X).
  Definition filters_reset : Prop := forall x l, length (snd (xtick x l)) = 1 /\ xreset (fst (xtick x l)) = xreset x.
  Definition voice_ready (u : voice R R X) : Prop :=
    match u with
    | SOsc _ s => os_phase s = match os_init s with Some p => p | None => EnvModel.rnd1 Rnum_ops (os_hash s) end
    | SDsf _ s => ds_phase s = match ds_init s with Some p => p | None => rnd (ds_hash s) end
    | SWave s => sy_phase s = match sy_init s with Some p => p | None => rnd (sy_hash s) end /\ sy_hint s <= length tb - 3
    | SNoise st sd h => st = noise_reset (match sd with Some s => s | None => h end)
    | SMls n s sd h => s = mls_start n (match sd with Some s => s | None => h end)
    | SFilter _ x => xreset x = x
    end.
End Voices.

(* ---- delays, FIR filters and panners, RevModel.v ---- *)
Definition rl_ready (u : rleaf R) : Prop :=
  match u with
  | LDelay d => d_line d = line_new 0%R (length (l_buf (d_line d)))
  | LFir f => f_v f = repeat 0%R (length (f_w f))
  | LPan _ => True
  end.
(* rl_ops without its type of settings *)
Definition line_ops {P} : unit_ops R P (rleaf R) :=
  mkUnit R P (rleaf R) (@rl_ins R) (@rl_outs R) (rl_tick Rnum_ops) (fun u size i o => default_process 0%R (rl_tick Rnum_ops) size u i o) (fun u _ => u) (rl_reset Rnum_ops) (fun _ => 0%N) (fun u _ => u).

(* ---- declickers and meters, MeterModel.v, and TapLinear, delay.rs:386-466, DelayModel.v ---- *)
Definition declick_ops {P} : unit_ops R P (declick R) :=
  machine 1 1 (fun d i => let (d, y) := declick_tick Rnum_ops Rnum_ops (fun x => x) d (nth 0 i 0%R) in (d, [y])) (declick_reset Rnum_ops).
Definition meter_ops {P} (m : meter R) : unit_ops R P (mstate R) :=
  machine 1 1 (fun s i => let (s, y) := mnode_tick Rnum_ops sqrt m s (nth 0 i 0%R) in (s, [y])) (meter_reset Rnum_ops).
Definition linear_ops {P} (n : nat) (lo hi sr : R) : unit_ops R P (DelayModel.line R) := machine (n + 1) 1 (linear_tick Rnum_ops lo hi sr) (line_reset 0%R).

(* ---- units around units: AllNest and FeedbackUnit, DelayModel.v ---- *)
Section Around.
  Context {P U : Type} (ops : unit_ops R P U).
  Definition nest_ops : unit_ops R P (@allnest R U) := machine 1 1 (all_tick Rnum_ops ops) (all_reset Rnum_ops ops).
  Definition nest2_ops : unit_ops R P (@allnest R U) := machine 2 1 (all_tick2 Rnum_ops ops) (all_reset Rnum_ops ops).
  Definition loop_ops : unit_ops R P (@fbunit R U) :=
    mkUnit _ _ _ (fun s => u_ins ops (fb_x s)) (fun s => u_outs ops (fb_x s)) (fb_tick 0%R Rplus ops) (fun s _ _ o => (s, o)) (fun s _ => s) (fb_reset 0%R ops) (fun _ => 0%N) (fun s _ => s).
End Around.

(* ---- all of them ---- *)
Section Together.
  Context {G S X Y : Type} (tl : tools R G S X) (tanh_ : R -> R) (rnd : N -> R) (tb : list (R * list R)) (conv bit : N -> R) (xtick : Y -> list R -> Y * list R) (xreset : Y -> Y).
  Definition voice_ops : unit_ops R (param R) (voice R R Y) :=
    src_ops Rnum_ops Rnum_ops (fun x => x) (fun x => x) (e_sin (tl_elem tl)) (e_cos (tl_elem tl)) (tl_floor tl) (tl_pow tl) (tau Rnum_ops (tl_elem tl)) rnd tb conv bit xtick xreset.
  Definition part : Type := tnode R G S X + (fx R + (voice R R Y + (rleaf R + declick R))).
  Definition part_ops : unit_ops R (param R) part :=
    either (t_ops Rnum_ops tl) (either (fx_ops Rnum_ops tanh_) (either voice_ops (either line_ops declick_ops))).
  Definition part_ready (u : part) : Prop :=
    match u with
    | inl n => as_new tl n
    | inr (inl u) => fx_ready u
    | inr (inr (inl u)) => voice_ready rnd tb xreset u
    | inr (inr (inr (inl u))) => rl_ready u
    | inr (inr (inr (inr d))) => dc_t d = 0%R
    end.
End Together.
