(* Followers and the look-ahead limiter, /repo/src/follow.rs and /repo/src/dynamics.rs.
   Arithmetic is a parameter (Num.v). *)
From Verif Require Export Num ReduceModel.

Section Dyn.
  Context {F : Type} (n : num F).
  Notation "a +. b" := (nadd n a b) (at level 50, left associativity).
  Notation "a -. b" := (nsub n a b) (at level 50, left associativity).
  Notation "a *. b" := (nmul n a b) (at level 40, left associativity).
  Notation "a /. b" := (ndiv n a b) (at level 40, left associativity).

  (* src/follow.rs:31-41 struct Follow. The response time and the sample rate only determine coeff
     (see halfway_coeff below); the model keeps coeff alone. *)
  Record follow := mkFollow { fo_v1 : F; fo_v2 : F; fo_v3 : F; fo_coeff : F; fo_coeff_now : F }.

  (* src/follow.rs:62-68 set_response_time (also called by set_sample_rate 95-98), given the new coefficient *)
  Definition fo_set_coeff (f : follow) (c : F) : follow :=
    mkFollow (fo_v1 f) (fo_v2 f) (fo_v3 f) c (if nltb n (fo_coeff_now f) (n1 n) then c else fo_coeff_now f).
  (* src/follow.rs:88-93 reset *)
  Definition fo_reset (f : follow) : follow := mkFollow (n0 n) (n0 n) (n0 n) (fo_coeff f) (n1 n).
  (* src/follow.rs:46-54 new: default (all fields zero), reset, set_sample_rate *)
  Definition fo_new (c : F) : follow :=
    fo_set_coeff (fo_reset (mkFollow (n0 n) (n0 n) (n0 n) (n0 n) (n0 n))) c.
  (* src/follow.rs:76-80 set_value *)
  Definition fo_set_value (f : follow) (x : F) : follow := mkFollow x x x (fo_coeff f) (fo_coeff_now f).
  (* src/follow.rs:100-109 tick; returns the new state, whose v3 is the output *)
  Definition fo_tick (f : follow) (input : F) : follow :=
    let c := fo_coeff_now f in
    let rcoeff := n1 n -. c in
    let v1 := c *. input +. rcoeff *. fo_v1 f in
    let v2 := c *. v1 +. rcoeff *. fo_v2 f in
    let v3 := c *. v2 +. rcoeff *. fo_v3 f in
    mkFollow v1 v2 v3 (fo_coeff f) (fo_coeff f).

  (* src/combinator.rs:164-173 filter_pole for a pair of factors *)
  Definition filter_pole (input current afactor rfactor : F) : F :=
    current +. nmax n (n0 n) (input -. current) *. afactor -. nmax n (n0 n) (current -. input) *. rfactor.

  (* src/follow.rs:137-150 struct AFollow; times and sample rate are represented by the coefficients they give *)
  Record afollow := mkAF { af_v1 : F; af_v2 : F; af_v3 : F; af_a : F; af_r : F; af_a_now : F; af_r_now : F }.
  (* src/follow.rs:177-190 set_time (also called by set_sample_rate 218-222), given the new coefficients *)
  Definition af_set_coeffs (f : afollow) (a r : F) : afollow :=
    let b := nltb n (af_a_now f) (n1 n) in
    mkAF (af_v1 f) (af_v2 f) (af_v3 f) a r (if b then a else af_a_now f) (if b then r else af_r_now f).
  (* src/follow.rs:210-216 reset *)
  Definition af_reset (f : afollow) : afollow := mkAF (n0 n) (n0 n) (n0 n) (af_a f) (af_r f) (n1 n) (n1 n).
  (* src/follow.rs:155-164 new *)
  Definition af_new (a r : F) : afollow :=
    af_set_coeffs (af_reset (mkAF (n0 n) (n0 n) (n0 n) (n0 n) (n0 n) (n0 n) (n0 n))) a r.
  (* src/follow.rs:198-202 set_value *)
  Definition af_set_value (f : afollow) (x : F) : afollow := mkAF x x x (af_a f) (af_r f) (af_a_now f) (af_r_now f).
  (* src/follow.rs:225-245 tick; the output is v3 of the new state *)
  Definition af_tick (f : afollow) (v0 : F) : afollow :=
    let a := af_a_now f in let r := af_r_now f in
    let v1 := filter_pole v0 (af_v1 f) a r in
    let v2 := filter_pole v1 (af_v2 f) a r in
    let v3 := filter_pole v2 (af_v3 f) a r in
    mkAF v1 v2 v3 (af_a f) (af_r f) (af_a f) (af_r f).

  (* src/dynamics.rs:124-137 struct Limiter; lookahead, release and sample rate are represented by what is computed from them:
     the reducer length and the two follower coefficients. *)
  Record limiter := mkLim { li_reducer : reduce_buffer F; li_follower : afollow; li_buffer : list (list F); li_index : nat }.

  (* src/dynamics.rs:144-149 advance *)
  Definition li_advance (len i : nat) : nat := if Nat.leb len (i + 1) then 0 else i + 1.
  (* src/dynamics.rs:159-171 new, with buffer_length (153) = len *)
  Definition li_new (len : nat) (a r : F) : limiter :=
    mkLim (rb_new (n0 n) len) (af_set_coeffs (af_new a r) a r) [] 0.
  (* src/dynamics.rs:186-196 set_sample_rate, given the length and coefficients for that rate *)
  Definition li_set_sample_rate (l : limiter) (len : nat) (a r : F) : limiter :=
    let red := if Nat.eqb len (rb_length (li_reducer l)) then li_reducer l else rb_new (n0 n) len in
    mkLim (rb_clear (n0 n) red) (af_set_coeffs (li_follower l) a r) [] 0.
  (* src/dynamics.rs:182-184 reset = set_sample_rate(self.sample_rate): same length, same coefficients *)
  Definition li_reset (l : limiter) : limiter :=
    li_set_sample_rate l (rb_length (li_reducer l)) (af_a (li_follower l)) (af_r (li_follower l)).

  (* src/dynamics.rs:201 *)
  Definition amplitude (input : list F) : F := fold_left (fun amp x => nmax n amp (nabs n x)) input (n0 n).
  (* src/dynamics.rs:213 the constant 1.10 *)
  Definition headroom : F := nofZ n 11 /. nofZ n 10.

  (* src/dynamics.rs:199-221 tick. A frame is a list of channel values. None is a panic (index out of bounds). *)
  Definition li_tick (l : limiter) (input : list F) : option (limiter * list F) :=
    match rb_set (nmax n) (li_reducer l) (li_index l) (amplitude input) with
    | None => None
    | Some red =>
        let len := rb_length red in
        match rb_total red with
        | None => None
        | Some total =>
            if Nat.ltb (length (li_buffer l)) len then
              let buffer := li_buffer l ++ [input] in
              let fol := if Nat.eqb (length buffer) len then af_set_value (li_follower l) total else li_follower l in
              Some (mkLim red fol buffer (li_advance len (li_index l)), map (fun _ => n0 n) input)
            else
              match nth_error (li_buffer l) (li_index l) with
              | None => None
              | Some output =>
                  let fol := af_tick (li_follower l) (nmax n (n1 n) (total *. headroom)) in
                  Some (mkLim red fol (upd (li_buffer l) (li_index l) input) (li_advance len (li_index l)),
                        map (fun y => y *. (n1 n /. af_v3 fol)) output)
              end
        end
    end.

  (* dynamics.rs:199-221 *)
  Fixpoint li_run (l : limiter) (xs : list (list F)) : option (limiter * list (list F)) :=
    match xs with
    | [] => Some (l, [])
    | x :: r => match li_tick l x with
                | None => None
                | Some (l', y) => match li_run l' r with None => None | Some (l'', ys) => Some (l'', y :: ys) end
                end
    end.
End Dyn.

(* src/follow.rs:12-24 logistic and halfway_coeff, over the reals (f64 rounding not modelled). *)
From Coq Require Import Reals.
(* follow.rs:14-16 *)
Definition logistic (x : R) : R := (1 / (1 + exp (0 - x)))%R.
(* follow.rs:18-24 *)
Definition halfway_coeff (samples : R) : R :=
  let r0 := (ln (Rmax 1 samples) - 0.861624594696583)%R in
  let r1 := logistic r0 in
  let r2 := (r1 * 1.13228543863477 - 0.1322853859)%R in
  (1 - Rmin 0.9999999 r2)%R.
