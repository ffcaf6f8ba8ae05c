(* Waveshapers: /repo/src/shape.rs. No proofs here. V is f32, F is f64. *)
From Verif Require Export TableModel.

Section Shape.
  Context {F V : Type} (nf : num F) (nv : num V) (widen : V -> F) (narrow : F -> V).
  (* tanh, atan, square root and power; pi_ is pi and two_pi is (2 / pi) *)
  Variables (tanh_ atan_ sqrt_ : V -> V) (pow_ : F -> F -> F) (pi_ two_pi : V).
  Local Infix "+." := (nadd nv) (at level 50, left associativity).
  Local Infix "-." := (nsub nv) (at level 50, left associativity).
  Local Infix "*." := (nmul nv) (at level 40, left associativity).
  Local Infix "/." := (ndiv nv) (at level 40, left associativity).
  Notation one := (n1 nv).
  Notation "# z" := (nofZ nv z) (at level 1).

  (* shape.rs:35-173: the shapes. Adaptive has timescale, smoothing and state. *)
  Inductive shape :=
  | ShapeFn (f : V -> V) | Clip (h : V) | ClipTo (lo hi : V) | Tanh (h : V) | Atan (h : V) | Softsign (h : V) | Crush (h : V) | SoftCrush (h : V)
  | Adaptive (inner : shape) (timescale smoothing state : V).

  (* shape.rs:52-70: f32::clamp, which panics unless lo <= hi *)
  Definition clamp_core (lo hi x : V) : V := if nltb nv x lo then lo else if nltb nv hi x then hi else x.
  (* shape.rs:130-150: f32::round: halfway cases away from 0 *)
  Definition round_away (x : V) : V :=
    let a := nabs nv x in let k := nfloor nv a in let r := if nltb nv (a -. #k) (one /. #2) then k else (k + 1)%Z in
    if nltb nv x #0 then nneg nv #r else #r.
  (* shape.rs:144-149, with either floor *)
  Definition soft_crush (h y x : V) : V := (y +. smooth9 nv (x -. y)) /. h.
  (* shape.rs:190-193 *)
  Definition micro : V := one /. #1000000.
  (* shape.rs:37-204: the functions shape; None is a panic *)
  Fixpoint shape_one (s : shape) (x : V) : option (shape * V) :=
    match s with
    | ShapeFn f => Some (s, f x)
    | Clip h => Some (s, clamp_core #(-1) one (x *. h))
    | ClipTo lo hi => if nleb nv lo hi then Some (s, clamp_core lo hi x) else None
    | Tanh h => Some (s, tanh_ (x *. h))
    | Atan h => Some (s, atan_ (x *. (h *. pi_ *. (one /. #2))) *. two_pi)
    | Softsign h => Some (s, softsign nv (x *. h))
    | Crush h => Some (s, round_away (x *. h) /. h)
    | SoftCrush h => let x := x *. h in Some (s, soft_crush h #(nfloor nv x) x)
    | Adaptive inner t m st =>
        let st := m *. st +. (one -. m) *. (micro +. x *. x) in
        match shape_one inner (x /. sqrt_ st) with Some (inner, y) => Some (Adaptive inner t m st, y) | None => None end
    end.
  (* shape.rs:16-27 *)
  Fixpoint shape_run (s : shape) (l : list V) : option (shape * list V) :=
    match l with
    | [] => Some (s, [])
    | x :: l => match shape_one s x with Some (s, y) => match shape_run s l with Some (s, o) => Some (s, y :: o) | None => None end | None => None end
    end.
  (* shape.rs:16-27, 56-60, 71-76, 103-108, 119-123, 134-138, 151-157: the functions simd of one word of samples: 16-27 by default *)
  Definition shape_word (s : shape) (l : list V) : option (shape * list V) :=
    match s with
    | Clip h => Some (s, map (fun x => nmin nv (nmax nv (x *. h) #(-1)) one) l)
    | ClipTo lo hi => Some (s, map (fun x => nmin nv (nmax nv x lo) hi) l)
    | Atan h => Some (s, map (fun x => atan_ (x *. (h *. pi_ *. (one /. #2))) *. two_pi) l)
    | Softsign h => Some (s, map (fun x => x *. h /. (one +. nabs nv x *. h)) l)
    | Crush h => Some (s, map (fun x => #(round_even nv (x *. h)) /. h) l)
    | SoftCrush h => Some (s, map (fun x => let x := x *. h in soft_crush h (floor_simd nv x) x) l)
    | ShapeFn _ | Tanh _ | Adaptive _ _ _ _ => shape_run s l
    end.
  (* shape.rs:188-203 *)
  Fixpoint shape_reset (s : shape) : shape := match s with Adaptive inner t m _ => Adaptive (shape_reset inner) t m (one /. #1000) | _ => s end.
  (* shape.rs:199-202 *)
  Fixpoint shape_set_sr (s : shape) (sr : F) : shape :=
    match s with
    | Adaptive inner t _ st => Adaptive (shape_set_sr inner sr) t (narrow (pow_ (ndiv nf (n1 nf) (nofZ nf 2)) (ndiv nf (n1 nf) (nmul nf (widen t) sr)))) st
    | _ => s
    end.
  (* shape.rs:176-185 Adaptive::new, with the default sample rate of 44100 Hz *)
  Definition adaptive_new (t : V) (inner : shape) : shape := shape_set_sr (Adaptive inner t #0 #0) (nofZ nf 44100).
  (* shape.rs:212-216 Shaper::new *)
  Definition shaper_new (s : shape) : shape := shape_set_sr s (nofZ nf 44100).
  (* shape.rs:237-242 process; process_remainder (audionode.rs) ticks the samples after the full words *)
  Fixpoint shape_words (n : nat) (s : shape) (l : list V) : option (shape * list V) :=
    match n with
    | O => Some (s, [])
    | S n => match shape_word s (firstn 8 l) with
             | Some (s, a) => match shape_words n s (skipn 8 l) with Some (s, b) => Some (s, a ++ b) | None => None end
             | None => None
             end
    end.
  (* shape.rs:237-242 *)
  Definition shape_process (s : shape) (l : list V) : option (shape * list V) :=
    let n := (length l / 8)%nat in
    match shape_words n s l with
    | Some (s, a) => match shape_run s (skipn (8 * n) l) with Some (s, b) => Some (s, a ++ b) | None => None end
    | None => None
    end.
End Shape.
