(* The variable speed resampler: /repo/src/resample.rs. S is the state of the enclosed generator, F the type of positions (f64), V the type of samples (f32).
   A frame is a list, and the buffer is a list of rings, one for each channel. *)
From Verif Require Export Base Num DelayModel.
Local Open Scope nat_scope.

(* buffer[channel][i] = frame[channel] for all channels: 78-80, and oversample.rs:257-259, 263-265, 273-275 *)
Definition put_frame {V} (b : list (list V)) (i : nat) (f : list V) : list (list V) := map (fun p => upd (fst p) i (snd p)) (combine b f).
(* resample.rs:75-96: i & 0x7f *)
Definition mask (i : nat) : nat := Nat.land i 127.

Section Resample.
  Context {S F V : Type} (nf : num F) (nv : num V) (widen : V -> F) (narrow : F -> V) (gen_tick : S -> S * list V) (gen_reset : S -> S).
  (* resample.rs:9-19 *)
  Record resampler := mkResampler { r_x : S; r_buf : list (list V); r_cons : F; r_prod : nat }.
  (* resample.rs:28-38 new, for the node after set_sample_rate and ping, with ch output channels *)
  Definition res_new (x : S) (ch : nat) : resampler := mkResampler x (repeat (repeat (n0 nv) 128) ch) (n1 nf) 0.
  (* resample.rs:63-68 reset *)
  Definition res_reset (r : resampler) : resampler := mkResampler (gen_reset (r_x r)) (r_buf r) (n1 nf) 0.
  (* resample.rs:79-85: the while loop; None when fuel iterations do not suffice *)
  Fixpoint res_fill (fuel : nat) (ci : nat) (r : resampler) : option resampler :=
    if r_prod r <=? ci + 2 then
      match fuel with
      | 0 => None
      | Datatypes.S fuel => let (x, inner) := gen_tick (r_x r) in res_fill fuel ci (mkResampler x (put_frame (r_buf r) (mask (r_prod r)) inner) (r_cons r) (r_prod r + 1))
      end
    else Some r.
  (* resample.rs:75-96 tick. (self.consumer - d) as usize is the floor, which is not negative. max ignores NaN, as nmax does. *)
  Definition res_tick (r : resampler) (speed : V) : option (resampler * list V) :=
    let c := nadd nf (r_cons r) (widen (nmax nv (n0 nv) speed)) in
    let d := nsub nf c (nofZ nf (nfloor nf c)) in
    let ci := Z.to_nat (nfloor nf (nsub nf c d)) in
    match res_fill (ci + 3) ci (mkResampler (r_x r) (r_buf r) c (r_prod r)) with
    | None => None
    | Some r => Some (r, map (fun b => spline nv (nth (mask (ci + 127)) b (n0 nv)) (nth (mask ci) b (n0 nv)) (nth (mask (ci + 1)) b (n0 nv)) (nth (mask (ci + 2)) b (n0 nv)) (narrow d)) (r_buf r))
    end.
  (* resample.rs:75-96 *)
  Fixpoint res_run (r : resampler) (speeds : list V) : option (resampler * list (list V)) :=
    match speeds with
    | [] => Some (r, [])
    | v :: speeds => match res_tick r v with Some (r, o) => match res_run r speeds with Some (r, os) => Some (r, o :: os) | None => None end | None => None end
    end.
End Resample.
Arguments resampler : clear implicits.
