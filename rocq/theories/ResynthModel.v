(* Frequency domain resynthesis: /repo/src/resynth.rs and /repo/src/fft.rs. No proofs here. V is f32, F is f64. *)
From Verif Require Export TableModel.
Local Open Scope nat_scope.

Section Resynth.
  Context {V F P : Type} (nv : num V) (nf : num F) (widen : V -> F) (narrow : F -> V).
  (* cosine; tau is f32::TAU *)
  Variables (cos_ : V -> V) (tau : V).
  (* fft.rs:10-29 real_fft, which gives half as many complex numbers, and fft.rs:51-100 inverse_fft, for lengths which they accept *)
  Variables (rfft : list V -> list (V * V)) (ifft : list (V * V) -> list (V * V)).
  Local Infix "+." := (nadd nv) (at level 50, left associativity).
  Local Infix "*." := (nmul nv) (at level 40, left associativity).
  Local Infix "/." := (ndiv nv) (at level 40, left associativity).
  Notation one := (n1 nv).
  Notation "# z" := (nofZ nv z) (at level 1).
  Notation zero2 := (n0 nv, n0 nv).

  (* resynth.rs:278: is_power_of_two *)
  Definition is_pow2 (n : nat) : bool := Nat.eqb n (2 ^ Nat.log2 n).
  (* fft.rs:10-29, 51-100: powers of two from 2 to 32768; other lengths panic *)
  Definition fft_accepts (n : nat) : bool := is_pow2 n && Nat.leb 1 (Nat.log2 n) && Nat.leb (Nat.log2 n) 15.

  (* resynth.rs:22-36 FftWindow. The sample rate is that of all windows; numbers of samples do not overflow. *)
  Record fwin := mkwin { w_length : nat; w_input : list (list V); w_output : list (list (V * V)); w_sr : V; w_index : nat; w_samples : nat }.
  (* resynth.rs:120-136 bins, at *)
  Definition bins (w : fwin) : nat := w_length w / 2 + 1.
  (* resynth.rs:134-136 *)
  Definition at_bin (w : fwin) (c i : nat) : outcome (V * V) := do x <- index (w_input w) c; do a <- index x (i * 2); do b <- index x (i * 2 + 1); Val (a, b).
  (* resynth.rs:59-97 latency, time, time_at, windows_per_second, delta_time; samples are not subtracted below 0 in the processing function *)
  Definition w_latency (w : fwin) : F := ndiv nf (nofZ nf (Z.of_nat (w_length w))) (widen (w_sr w)).
  (* resynth.rs:71-73 *)
  Definition w_time (w : fwin) : F := ndiv nf (nofZ nf (Z.of_nat (w_samples w - w_length w / 2))) (widen (w_sr w)).
  (* resynth.rs:82-84 *)
  Definition w_time_at (w : fwin) (i : nat) : F := ndiv nf (nofZ nf (Z.of_nat (w_samples w - w_length w + i))) (widen (w_sr w)).
  (* resynth.rs:89-91 *)
  Definition windows_per_second (w : fwin) : F := ndiv nf (nmul nf (nofZ nf 4) (widen (w_sr w))) (nofZ nf (Z.of_nat (w_length w))).
  (* resynth.rs:95-97 *)
  Definition delta_time (w : fwin) : F := ndiv nf (nofZ nf (Z.of_nat (w_length w))) (nmul nf (nofZ nf 4) (widen (w_sr w))).
  (* resynth.rs:127-130 frequency *)
  Definition w_frequency (w : fwin) (i : nat) : V := w_sr w /. #(Z.of_nat (w_length w)) *. #(Z.of_nat i).
  (* resynth.rs:158-167 FftWindow::new, and 170-172 set_sample_rate *)
  Definition win_new (n i inputs outputs : nat) (sr : V) : fwin := mkwin n (repeat (repeat (n0 nv) (n + 2)) inputs) (repeat (repeat zero2 n) outputs) sr i 0.
  (* resynth.rs:175-180 write *)
  Definition win_write (w : fwin) (frame : list V) (v : V) : outcome fwin :=
    if Nat.leb (length frame) (length (w_input w)) && forallb (fun x => Nat.ltb (w_index w) (length x)) (firstn (length frame) (w_input w))
    then Val (mkwin (w_length w) (map (fun p => upd (fst p) (w_index w) (snd p *. v)) (combine (w_input w) frame) ++ skipn (length frame) (w_input w)) (w_output w) (w_sr w) (w_index w) (w_samples w))
    else Panics.
  (* resynth.rs:183-186 read, for the number of outputs *)
  Fixpoint win_read (out : list (list (V * V))) (i : nat) (v : V) : outcome (list V) :=
    match out with [] => Val [] | o :: out => do x <- index o i; do l <- win_read out i v; Val (fst x *. v :: l) end.
  (* resynth.rs:189-193 clear_output *)
  Definition clear_output (w : fwin) : fwin := mkwin (w_length w) (w_input w) (map (fun o => repeat zero2 (length o)) (w_output w)) (w_sr w) (w_index w) (w_samples w).
  (* resynth.rs:202-211 reset *)
  Definition win_reset (w : fwin) (i : nat) : fwin :=
    mkwin (w_length w) (map (fun x => repeat (n0 nv) (length x)) (w_input w)) (map (fun o => repeat zero2 (length o)) (w_output w)) (w_sr w) i 0.
  (* resynth.rs:215-218 advance; the length is a power of two *)
  Definition advance (w : fwin) : fwin := mkwin (w_length w) (w_input w) (w_output w) (w_sr w) (Nat.land (w_index w + 1) (w_length w - 1)) (w_samples w + 1).
  (* resynth.rs:222-224 is_fft_time *)
  Definition is_fft_time (w : fwin) : bool := Nat.eqb (w_index w) 0 && Nat.leb (w_length w) (w_samples w).
  (* resynth.rs:145-148 set, of bin i of channel c to x *)
  Definition win_set (out : list (list (V * V))) (s : nat * nat * (V * V)) : outcome (list (list (V * V))) :=
    let '(c, i, x) := s in do o <- index out c; if Nat.ltb i (length o) then Val (upd out c (upd o i x)) else Panics.
  (* resynth.rs:145-148 *)
  Fixpoint win_sets (out : list (list (V * V))) (l : list (nat * nat * (V * V))) : outcome (list (list (V * V))) :=
    match l with [] => Val out | s :: l => do out <- win_set out s; win_sets out l end.
  (* resynth.rs:150-155 forward of channel i to channel o: the values it sets (at, which is in range, does not panic) *)
  Definition forward (w : fwin) (i o : nat) : list (nat * nat * (V * V)) := map (fun b => (o, b, match at_bin w i b with Val x => x | _ => zero2 end)) (seq 0 (bins w)).

  (* fft.rs:33-38 fix_nyquist, of at least 2 numbers *)
  Definition fix_nyquist (x : list V) : list V := let n := length x in upd (upd (upd x (n - 2) (nth 1 x (n0 nv))) (n - 1) (n0 nv)) 1 (n0 nv).
  (* fft.rs:41-46 fix_negative. The numbers read are in the half that is not written. *)
  Definition fix_negative (x : list (V * V)) : list (V * V) :=
    let n := length x in fold_left (fun a i => let y := nth (n - i) a zero2 in upd a i (fst y, nneg nv (snd y))) (seq (n / 2 + 1) (n - (n / 2 + 1))) x.
  (* fft.rs:41-46 *)
  Definition flat (x : list (V * V)) : list V := flat_map (fun p => [fst p; snd p]) x.
  (* resynth.rs:354-359: the forward transform in place of a channel of n + 2 numbers *)
  Definition transform (x : list V) : outcome (list V) :=
    let n := length x - 2 in if fft_accepts n then Val (fix_nyquist (flat (rfft (firstn n x)) ++ skipn n x)) else Panics.
  (* resynth.rs:365-369 *)
  Definition untransform (x : list (V * V)) : outcome (list (V * V)) := if fft_accepts (length x) then Val (ifft (fix_negative x)) else Panics.
  (* resynth.rs:365-369 *)
  Fixpoint each {A B} (f : A -> outcome B) (l : list A) : outcome (list B) := match l with [] => Val [] | a :: l => do b <- f a; do r <- each f l; Val (b :: r) end.

  (* The processing function: a state, and the window it is given; it sets bins of outputs. Reading outputs (at_output) and clear_output give and do nothing that it
     does not know, so they are left out. *)
  Variable processing : P -> fwin -> P * list (nat * nat * (V * V)).
  (* resynth.rs:353-370: the transforms of one window *)
  Definition win_process (p : P) (w : fwin) : outcome (P * fwin) :=
    do input <- each transform (w_input w);
    let w := clear_output (mkwin (w_length w) input (w_output w) (w_sr w) (w_index w) (w_samples w)) in
    let '(p, l) := processing p w in
    do out <- win_sets (w_output w) l;
    do out <- each untransform out;
    Val (p, mkwin (w_length w) (w_input w) out (w_sr w) (w_index w) (w_samples w)).
  (* resynth.rs:353-370 *)
  Fixpoint wins_process (p : P) (ws : list fwin) : outcome (P * list fwin) :=
    match ws with
    | [] => Val (p, [])
    | w :: ws => do (p, w) <- (if is_fft_time w then win_process p w else Val (p, w)); do (p, ws) <- wins_process p ws; Val (p, w :: ws)
    end.

  (* resynth.rs:235-256 Resynth; r_z is the constant 2/3 *)
  Record resynth := mkresynth { r_windows : list fwin; r_length : nat; r_function : list V; r_state : P; r_sr : F; r_samples : nat; r_z : V }.
  (* resynth.rs:282-288: the Hann window; the differences are those of i32 *)
  Definition hann (n i : nat) : V := one /. #2 +. one /. #2 *. cos_ (#(Z.of_nat i - Z.of_nat (n / 2)) *. tau /. #(Z.of_nat n)).
  (* resynth.rs:277-312 new, for numbers of inputs and outputs *)
  Definition resynth_new (inputs outputs n : nat) (p : P) : outcome resynth :=
    if Nat.leb 4 n && is_pow2 n then
      let w i := win_new n i inputs outputs #44100 in
      Val (mkresynth [w 0; w (n / 4); w (n / 2); w (n / 2 + n / 4)] n (map (hann n) (seq 0 n)) p (nofZ nf 44100) 0 (#2 /. #3))
    else Panics.
  (* resynth.rs:325-330 set_sample_rate *)
  Definition resynth_set_sr (r : resynth) (sr : F) : resynth :=
    mkresynth (map (fun w => mkwin (w_length w) (w_input w) (w_output w) (narrow sr) (w_index w) (w_samples w)) (r_windows r)) (r_length r) (r_function r) (r_state r) sr (r_samples r) (r_z r).
  (* resynth.rs:332-337 reset *)
  Definition resynth_reset (r : resynth) : resynth :=
    mkresynth (map (fun p => win_reset (fst p) (snd p * (r_length r / 4))) (combine (r_windows r) (seq 0 4))) (r_length r) (r_function r) (r_state r) (r_sr r) 0 (r_z r).
  (* resynth.rs:342-347: one window, and the sum of outputs so far *)
  Definition win_tick (r : resynth) (frame : list V) (w : fwin) : outcome (fwin * list V) :=
    do v <- index (r_function r) (w_index w);
    do w <- win_write w frame v;
    do o <- win_read (w_output w) (w_index w) (v *. r_z r);
    Val (advance w, o).
  (* resynth.rs:342-347 *)
  Fixpoint wins_tick (r : resynth) (frame : list V) (ws : list fwin) (sum : list V) : outcome (list fwin * list V) :=
    match ws with
    | [] => Val ([], sum)
    | w :: ws => do (w, o) <- win_tick r frame w; do (ws, sum) <- wins_tick r frame ws (map (fun p => fst p +. snd p) (combine sum o)); Val (w :: ws, sum)
    end.
  (* resynth.rs:339-374 tick, for the number of outputs *)
  Definition resynth_tick (outputs : nat) (r : resynth) (frame : list V) : outcome (resynth * list V) :=
    do (ws, o) <- wins_tick r frame (r_windows r) (repeat (n0 nv) outputs);
    let samples := r_samples r + 1 in
    do (p, ws) <- (if Nat.eqb (Nat.land samples (r_length r / 4 - 1)) 0 then wins_process (r_state r) ws else Val (r_state r, ws));
    Val (mkresynth ws (r_length r) (r_function r) p (r_sr r) samples (r_z r), o).
  (* resynth.rs:339-374 *)
  Fixpoint resynth_run (outputs : nat) (r : resynth) (l : list (list V)) : outcome (resynth * list (list V)) :=
    match l with [] => Val (r, []) | x :: l => do (r, y) <- resynth_tick outputs r x; do (r, o) <- resynth_run outputs r l; Val (r, y :: o) end.
  (* resynth.rs:376-378 route: the latency in samples *)
  Definition resynth_latency (r : resynth) : nat := r_length r.
End Resynth.
