(* Meters, monitors and declickers, /repo/src/dynamics.rs:240-508. D stands for f64 and F for f32; `cast` is to_f32, pow_half is x -> pow(0.5, x).
   `route` is not modelled here. *)
From Coq Require Export List.
From Verif Require Export Num.
From Verif Require Import MathModel FadeModel.
Export ListNotations.

Section Meter.
  Context {F D : Type} (nf : num F) (nd : num D) (cast : D -> F) (pow_half : D -> D) (sqrt_ : F -> F).
  Notation "a +. b" := (nadd nf a b) (at level 50, left associativity).
  Notation "a -. b" := (nsub nf a b) (at level 50, left associativity).
  Notation "a *. b" := (nmul nf a b) (at level 40, left associativity).

  (* dynamics.rs:315-326 enum Meter *)
  Inductive meter := Sample | Peak (timescale : D) | Rms (timescale : D).
  (* dynamics.rs:330-332 latest_only *)
  Definition latest_only (m : meter) : bool := match m with Sample => true | _ => false end.
  (* dynamics.rs:336-341 struct MeterState *)
  Record mstate := mkMeter { m_smoothing : F; m_state : F }.
  (* dynamics.rs:360-369 set_sample_rate *)
  Definition meter_rate (m : meter) (sr : D) (s : mstate) : mstate :=
    match m with
    | Sample => s
    | Peak timescale | Rms timescale => mkMeter (cast (pow_half (ndiv nd (n1 nd) (nmul nd timescale sr)))) (m_state s)
    end.
  (* dynamics.rs:345-352 new, with DEFAULT_SR *)
  Definition meter_new (m : meter) (sr : D) : mstate := meter_rate m sr (mkMeter (n0 nf) (n0 nf)).
  (* dynamics.rs:355-357 reset *)
  Definition meter_reset (s : mstate) : mstate := mkMeter (m_smoothing s) (n0 nf).
  (* dynamics.rs:373-381 tick *)
  Definition meter_tick (m : meter) (s : mstate) (value : F) : mstate :=
    mkMeter (m_smoothing s)
      match m with
      | Sample => value
      | Peak _ => nmax nf (m_state s *. m_smoothing s) (nabs nf value)
      | Rms _ => m_state s *. m_smoothing s +. (value *. value) *. (n1 nf -. m_smoothing s)
      end.
  (* dynamics.rs:385-391 level *)
  Definition level (m : meter) (s : mstate) : F := match m with Sample | Peak _ => m_state s | Rms _ => sqrt_ (m_state s) end.

  (* dynamics.rs:398-437 MeterNode: tick; process is the default one, tick by tick *)
  Definition mnode_tick (m : meter) (s : mstate) (x : F) : mstate * F := let s := meter_tick m s x in (s, level m s).

  (* dynamics.rs:441-508 Monitor: the state and the shared variable, which only the monitor writes here *)
  Record monitor := mkMon { mo_state : mstate; mo_shared : F }.
  (* dynamics.rs:441-508 *)
  Definition monitor_tick (m : meter) (o : monitor) (x : F) : monitor * F := let s := meter_tick m (mo_state o) x in (mkMon s (level m s), x).
  (* dynamics.rs:488-503 process; the block is the list of its samples. Whole SIMD groups are copied, of which the samples after the size do not count. *)
  Definition monitor_process (m : meter) (o : monitor) (xs : list F) : monitor * list F :=
    match xs with
    | [] => (o, [])
    | _ => let s := if latest_only m then meter_tick m (mo_state o) (last xs (n0 nf)) else fold_left (meter_tick m) xs (mo_state o) in (mkMon s (level m s), xs)
    end.
  (* dynamics.rs:488-503 *)
  Inductive mop := MTick (x : F) | MBlock (xs : list F) | MReset | MRate (sr : D).
  (* dynamics.rs:488-503 *)
  Definition monitor_step (m : meter) (o : monitor) (a : mop) : monitor * list F :=
    match a with
    | MTick x => let (o, y) := monitor_tick m o x in (o, [y])
    | MBlock xs => monitor_process m o xs
    | MReset => (mkMon (meter_reset (mo_state o)) (mo_shared o), [])
    | MRate sr => (mkMon (meter_rate m sr (mo_state o)) (mo_shared o), [])
    end.
  (* dynamics.rs:488-503 *)
  Fixpoint monitor_run (m : meter) (o : monitor) (l : list mop) : monitor * list F :=
    match l with [] => (o, []) | a :: l => let (o, y) := monitor_step m o a in let (o, ys) := monitor_run m o l in (o, y ++ ys) end.
End Meter.
Arguments meter : clear implicits. Arguments mstate : clear implicits. Arguments monitor : clear implicits. Arguments mop : clear implicits.

(* dynamics.rs:245-313 Declick<F>; here D stands for its F, and `cast` is to_f32 *)
Section Declick.
  Context {F D : Type} (nf : num F) (nd : num D) (cast : D -> F).
  Notation "a +. b" := (nadd nd a b) (at level 50, left associativity).
  Notation "a -. b" := (nsub nd a b) (at level 50, left associativity).
  Notation "a *. b" := (nmul nd a b) (at level 40, left associativity).
  Notation "a /. b" := (ndiv nd a b) (at level 40, left associativity).
  (* dynamics.rs:245-250 struct Declick without sample_rate, which is not read *)
  Record declick := mkDeclick { dc_t : D; dc_duration : D; dc_sd : D }.
  (* dynamics.rs:272-275 set_sample_rate; the rate is given as D *)
  Definition declick_rate (sr : D) (d : declick) : declick := mkDeclick (dc_t d) (dc_duration d) (n1 nd /. sr).
  (* dynamics.rs:253-260 new, with DEFAULT_SR *)
  Definition declick_new (duration sr : D) : declick := declick_rate sr (mkDeclick (n0 nd) duration (n0 nd)).
  (* dynamics.rs:268-270 reset *)
  Definition declick_reset (d : declick) : declick := mkDeclick (n0 nd) (dc_duration d) (dc_sd d).
  (* dynamics.rs:278-287 tick *)
  Definition declick_tick (d : declick) (x : F) : declick * F :=
    if nltb nd (dc_t d) (dc_duration d) then
      let phase := delerp nd (n0 nd) (dc_duration d) (dc_t d) in
      let value := smooth5 nd phase in
      (mkDeclick (dc_t d +. dc_sd d) (dc_duration d) (dc_sd d), nmul nf x (cast value))
    else (d, x).
  (* dynamics.rs:297: the smallest integer that is not below x *)
  Definition nceil (x : D) : Z := Z.opp (nfloor nd (nneg nd x)).
  (* dynamics.rs:295-300: how many samples of the block are faded; a negative number would be a huge usize, -1 here *)
  Definition end_index (d : declick) (size : nat) : Z :=
    if nltb nd (dc_duration d) (dc_t d +. nofZ nd (Z.of_nat size) *. dc_sd d) then nceil ((dc_duration d -. dc_t d) /. dc_sd d) else Z.of_nat size.
  (* dynamics.rs:301-304: the loop over the faded samples *)
  Fixpoint faded (phase phase_d : D) (k : nat) (xs : list F) : list F :=
    match k, xs with S k, x :: xs => nmul nf x (cast (smooth5 nd phase)) :: faded (phase +. phase_d) phase_d k xs | _, _ => xs end.
  (* dynamics.rs:289-307 process: None when the slice [0..end_index] of the channel of MAX_BUFFER_SIZE samples is out of range. The block is the list of its samples; samples after the size do not count. *)
  Definition declick_process (d : declick) (xs : list F) : option (declick * list F) :=
    let size := length xs in
    if nltb nd (dc_t d) (dc_duration d) then
      let phase := delerp nd (n0 nd) (dc_duration d) (dc_t d) in
      let phase_d := dc_sd d /. dc_duration d in
      let e := end_index d size in
      if (0 <=? e)%Z && (e <=? 64)%Z then
        Some (mkDeclick (dc_t d +. nofZ nd (Z.of_nat size) *. dc_sd d) (dc_duration d) (dc_sd d), faded phase phase_d (Z.to_nat e) xs)
      else None
    else Some (d, xs).
  (* dynamics.rs:289-307 *)
  Inductive dop := DTick (x : F) | DBlock (xs : list F) | DReset | DRate (sr : D).
  (* dynamics.rs:289-307 *)
  Definition declick_step (d : declick) (a : dop) : option (declick * list F) :=
    match a with
    | DTick x => let (d, y) := declick_tick d x in Some (d, [y])
    | DBlock xs => declick_process d xs
    | DReset => Some (declick_reset d, [])
    | DRate sr => Some (declick_rate sr d, [])
    end.
  (* dynamics.rs:289-307 *)
  Fixpoint declick_run (d : declick) (l : list dop) : option (declick * list F) :=
    match l with
    | [] => Some (d, [])
    | a :: l => match declick_step d a with
        | Some (d, y) => match declick_run d l with Some (d, ys) => Some (d, y ++ ys) | None => None end
        | None => None
        end
    end.
End Declick.
Arguments declick : clear implicits. Arguments dop : clear implicits.
