(* The dynamical system node of /repo/src/system.rs. *)
From Verif Require Export Base Num UnitModel.

(* system.rs:11-22 System<X, F>: the closure f is FnMut and may keep a state of its own, y_st. *)
Record system (F S X : Type) := mkSys { y_x : X; y_st : S; y_time : F; y_delta : F; y_interval : F; y_sr : F }.
Arguments mkSys {F S X}. Arguments y_x {F S X}. Arguments y_st {F S X}. Arguments y_time {F S X}. Arguments y_delta {F S X}. Arguments y_interval {F S X}. Arguments y_sr {F S X}.
Section Sys.
  Context {F A P S X : Type}.
  Variable nm : num F.
  Variable xo : unit_ops A P X.
  Variable x_rate : X -> F -> X.                (* its set_sample_rate; the rate is f64 in the code and one number type here *)
  Variable f : S -> F -> F -> X -> S * X.       (* time, time since the last update, node *)
  (* system.rs:25-39 new; ping, which gives the enclosed node its hash, is left out: x is the node after it *)
  Definition sys_new (x : X) (dt : F) (st : S) : system F S X := mkSys x st (n0 nm) (n0 nm) dt (nofZ nm 44100).
  (* system.rs:47-51 reset *)
  Definition sys_reset (s : system F S X) : system F S X := mkSys (u_reset xo (y_x s)) (y_st s) (n0 nm) (n0 nm) (y_interval s) (y_sr s).
  (* system.rs:53-56 set_sample_rate *)
  Definition sys_rate (s : system F S X) (sr : F) : system F S X := mkSys (x_rate (y_x s) sr) (y_st s) (y_time s) (y_delta s) (y_interval s) sr.
  (* system.rs:59-81: a == b of floats *)
  Definition feq (a b : F) : bool := nleb nm a b && nleb nm b a.
  (* system.rs:61-67 and 74-80: the update if it is due, and the advance of time by size samples *)
  Definition sys_update (s : system F S X) (size : nat) : system F S X :=
    let now := ndiv nm (nofZ nm (Z.of_nat size)) (y_sr s) in
    let '(st, x, d) :=
      if nleb nm (y_interval s) (y_delta s) || (feq (y_time s) (n0 nm) && Nat.ltb 0 size)
      then let (st, x) := f (y_st s) (y_time s) (y_delta s) (y_x s) in (st, x, n0 nm)
      else (y_st s, y_x s, y_delta s) in
    mkSys x st (nadd nm (y_time s) now) (nadd nm d now) (y_interval s) (y_sr s).
  (* system.rs:58-69 tick: delta_now is 1.0 / sample_rate *)
  Definition sys_tick (s : system F S X) (input : list A) : system F S X * list A :=
    let s := sys_update s 1 in
    let (x, o) := u_tick xo (y_x s) input in (mkSys x (y_st s) (y_time s) (y_delta s) (y_interval s) (y_sr s), o).
  (* system.rs:71-81 process *)
  Definition sys_process (s : system F S X) (size : nat) (input output : list (list A)) : system F S X * list (list A) :=
    let s := sys_update s size in
    let (x, o) := u_process xo (y_x s) size input output in (mkSys x (y_st s) (y_time s) (y_delta s) (y_interval s) (y_sr s), o).
  (* system.rs:83-85 set *)
  Definition sys_set (s : system F S X) (v : setting P) : system F S X := mkSys (u_set xo (y_x s) v) (y_st s) (y_time s) (y_delta s) (y_interval s) (y_sr s).
End Sys.
