(* What meters and declickers should report, over the reals. *)
From Coq Require Import Reals Lra Lia.
From Flocq Require Import Core.Core.
From Verif Require Export MeterModel.
Import ListNotations.
Local Open Scope R_scope.

Definition half (x : R) : R := Rpower (1 / 2) x.
Notation mopR := (mop R R). Notation meterR := (meter R).
(* the samples since the last reset with the sample rates they came at; the newest operation and sample come first *)
Fixpoint rate_now (sr : R) (h : list mopR) : R := match h with [] => sr | MRate r :: _ => r | _ :: h => rate_now sr h end.
Fixpoint heard (sr : R) (h : list mopR) : list (R * R) :=
  match h with
  | [] => []
  | MTick x :: h => (rate_now sr h, x) :: heard sr h
  | MBlock xs :: h => map (fun x => (rate_now sr h, x)) (rev xs) ++ heard sr h
  | MReset :: _ => []
  | MRate _ :: h => heard sr h
  end.
Definition rate_ok (a : mopR) : Prop := match a with MRate sr => 0 < sr | _ => True end.
(* each sample lasts for a while: how long ago it ended and began, and its value; t is the age of the newest *)
Fixpoint ages (t : R) (l : list (R * R)) : list (R * R * R) := match l with [] => [] | (sr, x) :: l => (t, t + 1 / sr, x) :: ages (t + 1 / sr) l end.
(* the largest magnitude, where a sample counts half of its value after the time scale T *)
Definition is_peak (T : R) (l : list (R * R)) (p : R) : Prop :=
  (forall t0 t1 x, In (t0, t1, x) (ages 0 l) -> Rabs x * half (t0 / T) <= p) /\
  (p = 0 \/ exists t0 t1 x, In (t0, t1, x) (ages 0 l) /\ p = Rabs x * half (t0 / T)).
(* the mean of the squares, weighted by half (age / T) *)
Definition mean_square (T : R) (l : list (R * R)) : R := fold_right Rplus 0 (map (fun '(t0, t1, x) => x * x * (half (t0 / T) - half (t1 / T))) (ages 0 l)).
Definition reports (m : meterR) (l : list (R * R)) (v : R) : Prop :=
  match m with
  | Sample => v = match l with [] => 0 | (_, x) :: _ => x end
  | Peak T => is_peak T l v
  | Rms T => 0 <= v /\ v * v = mean_square T l
  end.
Definition scale_ok (m : meterR) : Prop := match m with Sample => True | Peak T | Rms T => 0 < T end.
Definition inputs_of (l : list mopR) : list R := flat_map (fun a => match a with MTick x => [x] | MBlock xs => xs | _ => [] end) l.
(* the node that outputs its reading, for each sample *)
Fixpoint mnode_run (m : meterR) (s : mstate R) (l : list mopR) : mstate R * list R :=
  match l with
  | [] => (s, [])
  | MTick x :: l => let (s, y) := mnode_tick Rnum_ops sqrt m s x in let (s, ys) := mnode_run m s l in (s, y :: ys)
  | MBlock xs :: l => let (s, y) := fold_left (fun '(s, ys) x => let (s, y) := mnode_tick Rnum_ops sqrt m s x in (s, ys ++ [y])) xs (s, []) in let (s, ys) := mnode_run m s l in (s, y ++ ys)
  | MReset :: l => mnode_run m (meter_reset Rnum_ops s) l
  | MRate sr :: l => mnode_run m (meter_rate Rnum_ops (fun x => x) half m sr s) l
  end.
(* how long samples last altogether *)
Definition heard_for (l : list (R * R)) : R := fold_right Rplus 0 (map (fun p => 1 / fst p) l).
Definition new_monitor (m : meterR) (sr v : R) : monitor R := mkMon (meter_new Rnum_ops Rnum_ops (fun x => x) half m sr) v.
Definition new_meter (m : meterR) (sr : R) : mstate R := meter_new Rnum_ops Rnum_ops (fun x => x) half m sr.

(* the gain of a declicker of duration T at time t *)
Definition gain (T t : R) : R := if Rlt_dec t T then let u := t / T in 6 * u ^ 5 - 15 * u ^ 4 + 10 * u ^ 3 else 1.
Fixpoint gained (T t sr : R) (xs : list R) : list R := match xs with [] => [] | x :: xs => x * gain T t :: gained T (t + 1 / sr) sr xs end.
(* what it puts out: the time t since the last reset goes on by 1 / sr with each sample *)
Fixpoint declicked (T t sr : R) (l : list (dop R R)) : list R :=
  match l with
  | [] => []
  | DTick x :: l => gained T t sr [x] ++ declicked T (t + 1 / sr) sr l
  | DBlock xs :: l => gained T t sr xs ++ declicked T (t + INR (length xs) / sr) sr l
  | DReset :: l => declicked T 0 sr l
  | DRate sr :: l => declicked T t sr l
  end.
Definition dop_ok (a : dop R R) : Prop := match a with DBlock xs => (length xs <= 64)%nat | DRate sr => 0 < sr | _ => True end.

(* arithmetic that rounds every result to the nearest number with prec digits and exponents from emin (no largest number) *)
Definition rounded_ops (emin prec : Z) : num R :=
  let rnd := round radix2 (FLT_exp emin prec) ZnearestE in
  {| nofZ := fun z => rnd (IZR z); nadd := fun a b => rnd (a + b); nsub := fun a b => rnd (a - b); nmul := fun a b => rnd (a * b); ndiv := fun a b => rnd (a / b); nneg := Ropp;
     nmax := Rmax; nmin := Rmin; nabs := Rabs; nltb := nltb Rnum_ops; nleb := nleb Rnum_ops; nfloor := Int_part |}.
Definition representable (emin prec : Z) (x : R) : Prop := generic_format radix2 (FLT_exp emin prec) x.
