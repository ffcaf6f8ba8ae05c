(* Crossfading of the unit of a network node, /repo/src/vertex.rs:126-248, the fade curves, and the placeholder unit.
   F is the sample and number type with operations n. U is the type of units.
   Units that are replaced are sent away for deallocation; that is not modelled. *)
From Verif Require Export Num UnitModel.

(* src/sequencer.rs:36-46 *)
Inductive fade := Power | Smooth.

Section Curves.
  Context {F : Type}.
  Variable n : num F.
  (* T::from_f64 of f64::PI * 0.5, f64::PI and 5.0 * f64::PI * f64::PI *)
  Variables half_pi pi five_pi2 : F.
  Local Infix "+." := (nadd n) (at level 50, left associativity).
  Local Infix "-." := (nsub n) (at level 50, left associativity).
  Local Infix "*." := (nmul n) (at level 40, left associativity).
  Local Infix "/." := (ndiv n) (at level 40, left associativity).
  (* src/math.rs:417-419 *)
  Definition smooth5 (x : F) : F := ((x *. nofZ n 6 -. nofZ n 15) *. x +. nofZ n 10) *. x *. x *. x.
  (* src/math.rs:452-457 *)
  Definition sine_ease (x : F) : F :=
    let x := x *. half_pi in nofZ n 16 *. x *. (pi -. x) /. (five_pi2 -. nofZ n 4 *. x *. (pi -. x)).
  (* src/sequencer.rs:51-56 Fade::at *)
  Definition fade_at (f : fade) (x : F) : F := match f with Power => sine_ease x | Smooth => smooth5 x end.
End Curves.

(* src/net.rs:64-72 NodeEdit, whose unit is present; id and index are kept apart *)
Record nedit (F U : Type) := mkEdit { ed_unit : U; ed_fade : fade; ed_time : F }.
Arguments mkEdit {F U}. Arguments ed_unit {F U}. Arguments ed_fade {F U}. Arguments ed_time {F U}.
(* src/vertex.rs:16-51: unit, next, latest, fade_phase and output_tmp. An edit without a unit is None. *)
Record slotx (F U : Type) := mkX { x_unit : U; x_next : option (nedit F U); x_latest : option (nedit F U); x_phase : F; x_tmp : list (list F) }.
Arguments mkX {F U}. Arguments x_unit {F U}. Arguments x_next {F U}. Arguments x_latest {F U}. Arguments x_phase {F U}. Arguments x_tmp {F U}.

Section Fade.
  Context {F P U : Type}.
  Variable n : num F.
  Variable at_ : fade -> F -> F.       (* the fade curves *)
  Variable ops : unit_ops F P U.
  Variable sr : F.                     (* the sample rate of the network *)
  Notation nedit := (nedit F U). Notation slotx := (slotx F U).
  Local Infix "+." := (nadd n) (at level 50, left associativity).
  Local Infix "-." := (nsub n) (at level 50, left associativity).
  Local Infix "*." := (nmul n) (at level 40, left associativity).
  Local Infix "/." := (ndiv n) (at level 40, left associativity).
  Notation zero := (n0 n).

  (* vertex.rs:233-249 (field update) *)
  Definition ed_set_unit (e : nedit) (u : U) : nedit := mkEdit u (ed_fade e) (ed_time e).
  (* src/vertex.rs:126-137 next_phase *)
  Definition next_phase (x : slotx) : slotx :=
    match x_next x with
    | Some e => mkX (ed_unit e) (x_latest x) None zero (x_tmp x)
    | None => x                        (* unwrap of None; not reached *)
    end.
  (* src/vertex.rs:140-159 tick *)
  Definition x_tick (x : slotx) (input : list F) : slotx * list F :=
    let (u, o) := u_tick ops (x_unit x) input in
    match x_next x with
    | None => (mkX u None (x_latest x) (x_phase x) (x_tmp x), o)
    | Some e =>
        let o1 := map (fun v => v *. at_ (ed_fade e) (n1 n -. x_phase x)) o in
        let (w, t) := u_tick ops (ed_unit e) input in
        let o2 := zipw (fun a b => a +. b *. at_ (ed_fade e) (x_phase x)) o1 t in
        let phase := x_phase x +. n1 n /. (ed_time e *. sr) in
        let x' := mkX u (Some (ed_set_unit e w)) (x_latest x) phase (x_tmp x) in
        (if nleb n (n1 n) phase then next_phase x' else x', o2)
    end.
  (* vertex.rs:163-231: fade += fade_d, k times *)
  Fixpoint ramp (p d : F) (k : nat) : F := match k with O => p | S k' => ramp (p +. d) d k' end.
  (* vertex.rs:163-231: as usize of a finite number: rounds towards zero, 0 if negative *)
  Definition to_usize (x : F) : nat := Z.to_nat (nfloor n x).
  (* src/vertex.rs:162-230 process. The first m samples are mixed, the rest are those of the next unit. *)
  Definition blend (e : nedit) (p d : F) (m size : nat) (a b : list F) : list F :=
    map (fun k => if Nat.ltb k m then nth k a zero *. at_ (ed_fade e) (n1 n -. ramp p d k) +. nth k b zero *. at_ (ed_fade e) (ramp p d k)
                  else if Nat.ltb k size then nth k b zero else nth k a zero) (seq 0 MAXB).
  (* vertex.rs:162-230 *)
  Definition x_process (x : slotx) (size : nat) (inb out : list (list F)) : slotx * list (list F) :=
    let (u, out1) := u_process ops (x_unit x) size inb out in
    match x_next x with
    | None => (mkX u None (x_latest x) (x_phase x) (x_tmp x), out1)
    | Some e =>
        let phase_left := to_usize ((n1 n -. x_phase x) *. ed_time e *. sr) in
        let m := Nat.min size phase_left in
        let fade_d := n1 n /. (ed_time e *. sr) in
        let (w, tmp) := u_process ops (ed_unit e) size inb (x_tmp x) in
        let out2 := zipw (blend e (x_phase x) fade_d m size) out1 tmp in
        let phase := x_phase x +. nofZ n (Z.of_nat m) /. (ed_time e *. sr) in
        let x' := mkX u (Some (ed_set_unit e w)) (x_latest x) phase tmp in
        (if Nat.leb phase_left size then next_phase x' else x', out2)
    end.
  (* src/vertex.rs:232-247 enqueue *)
  Definition enqueue (x : slotx) (e : nedit) : slotx :=
    match x_next x with
    | Some _ => mkX (x_unit x) (x_next x) (Some e) (x_phase x) (x_tmp x)
    | None => mkX (x_unit x) (Some e) (x_latest x) zero (x_tmp x)
    end.
  (* src/vertex.rs:54-79: the contents of a new vertex *)
  Definition x_new (u : U) : slotx := mkX u None None zero (repeat (repeat zero MAXB) (u_outs ops u)).
  (* vertex.rs:54-79 *)
  Definition x_set_unit (x : slotx) (u : U) : slotx := mkX u (x_next x) (x_latest x) (x_phase x) (x_tmp x).
  (* a vertex as a unit of the network: inputs and outputs are those of the first unit; set, reset, hash and id reach the current
     unit only (src/net.rs:1306-1425) *)
  Definition x_ops : unit_ops F P slotx :=
    mkUnit F P slotx (fun x => u_ins ops (x_unit x)) (fun x => u_outs ops (x_unit x)) x_tick x_process
      (fun x s => x_set_unit x (u_set ops (x_unit x) s)) (fun x => x_set_unit x (u_reset ops (x_unit x)))
      (fun x => u_id ops (x_unit x)) (fun x h => x_set_unit x (u_set_hash ops (x_unit x) h)).
End Fade.

(* src/audiounit.rs:653-704 DummyUnit: tick and process. simd_items(size) is (size + 7) >> 3 (src/lib.rs:77-79). *)
Section Dummy.
  Context {A : Type}.
  Variable zero : A.
  (* audiounit.rs:653-704 *)
  Definition dummy_tick (outputs : nat) (_ : list A) : list A := repeat zero outputs.
  (* audiounit.rs:653-704 *)
  Definition fill (k : nat) (v : A) (ch : list A) : list A := repeat v (Nat.min k (length ch)) ++ skipn k ch.
  (* audiounit.rs:653-704 *)
  Definition dummy_process (size : nat) (out : list (list A)) : list (list A) := map (fill ((size + 7) / 8) zero) out.
End Dummy.
