(* Subsampled control functions and the live ADSR envelope: /repo/src/envelope.rs and /repo/src/adsr.rs.
   F is the type of times, V the type of samples and C the state of the control function, which is a FnMut.
   A frame is a list. Functions that write channel by channel into a buffer return the list of frames instead:
   the channels do not affect one another. *)
From Verif Require Export MathModel DelayModel HashModel.
Local Open Scope nat_scope.

Section Env.
  Context {F V C : Type} (nf : num F) (nv : num V) (conv : F -> V).
  (* envelope.rs:17-48 Envelope and 184-218 EnvelopeIn: the fields envelope (its state), t, t_0, t_1, t_hash, value_0, value_1, value, value_d, interval, sample_duration, hash *)
  Record env := mkEnv {
    e_st : C; e_t : F; e_t0 : F; e_t1 : F; e_seed : N; e_v0 : list V; e_v1 : list V; e_v : list V; e_d : list V; e_int : F; e_sd : F; e_hash : N }.
  (* math.rs:529-536: rnd1 converted from f64: its argument is below 2^53, see HashModel.rnd1_num *)
  Definition rnd1 (x : N) : F := nmul nf (nofZ nf (Z.of_N (rnd1_num x))) (ndiv nf (n1 nf) (nofZ nf (2 ^ 53))).
  (* envelope.rs:129-136 *)
  Definition zip2 {X} (f : X -> X -> X) (a b : list X) : list X := map (fun p => f (fst p) (snd p)) (combine a b).
  (* envelope.rs:83-99 and 261-277: the part of next_segment after the start of the segment has been set to t0 and v0; f is the control function at that point *)
  Definition segment_from (s : env) (t0 : F) (v0 : list V) (f : C -> F -> C * list F) : env :=
    let interval := nmul nf (lerp nf (ndiv nf (nofZ nf 3) (nofZ nf 4)) (ndiv nf (nofZ nf 5) (nofZ nf 4)) (rnd1 (e_seed s))) (e_int s) in
    let t1 := nadd nf t0 interval in
    let (st, y) := f (e_st s) t1 in
    let v1 := map conv y in
    let seed := wadd 64 (wmul 64 (e_seed s) 6364136223846793005) 1 in
    let u := delerp nf t0 t1 (e_t s) in
    let v := zip2 (fun a b => lerp nv a b (conv u)) v0 v1 in
    let samples := ndiv nf interval (e_sd s) in
    let d := zip2 (fun a b => ndiv nv (nsub nv b a) (conv samples)) v0 v1 in
    mkEnv st (e_t s) t0 t1 seed v0 v1 v d (e_int s) (e_sd s) (e_hash s).
  (* envelope.rs:139-163: n samples of a line: the value after them, and the frames. The inner loops of process: 148-156 and 327-335 *)
  Fixpoint line (v d : list V) (n : nat) : list V * list (list V) :=
    match n with 0 => (v, []) | S n => let (v', o) := line (zip2 (nadd nv) v d) d n in (v', v :: o) end.
  (* envelope.rs:146, 325: Float::ceil, then to_i64() as usize, which takes -1 to 2^64 - 1 *)
  Definition ceil_usize (x : F) : Z := Z.modulo (- nfloor nf (nneg nf x)) (2 ^ 64).
  (* envelope.rs:145-146 and 324-325 segment_samples_left *)
  Definition samples_left (s : env) : Z := ceil_usize (ndiv nf (nsub nf (e_t1 s) (e_t s)) (e_sd s)).
  (* envelope.rs:133-136 and 309-312: the tick after the segment has been chosen *)
  Definition step (s : env) : env * list V :=
    (mkEnv (e_st s) (nadd nf (e_t s) (e_sd s)) (e_t0 s) (e_t1 s) (e_seed s) (e_v0 s) (e_v1 s) (zip2 (nadd nv) (e_v s) (e_d s)) (e_d s) (e_int s) (e_sd s) (e_hash s), e_v s).
  (* envelope.rs:148-158 and 327-337: k samples of the segment *)
  Definition run (s : env) (k : Z) : env * list (list V) :=
    let (v, o) := line (e_v s) (e_d s) (Z.to_nat k) in
    (mkEnv (e_st s) (nadd nf (e_t s) (nmul nf (nofZ nf k) (e_sd s))) (e_t0 s) (e_t1 s) (e_seed s) (e_v0 s) (e_v1 s) v (e_d s) (e_int s) (e_sd s) (e_hash s), o).
  (* envelope.rs:124-126 and 300-302 set_sample_rate, with the duration of a sample; 165-169 and 344-348 set; 171-174 and 350-353 set_hash *)
  Definition set_duration (s : env) (sd : F) : env := mkEnv (e_st s) (e_t s) (e_t0 s) (e_t1 s) (e_seed s) (e_v0 s) (e_v1 s) (e_v s) (e_d s) (e_int s) sd (e_hash s).
  (* envelope.rs:124-126 and 300-302 *)
  Definition set_interval (s : env) (i : F) : env := mkEnv (e_st s) (e_t s) (e_t0 s) (e_t1 s) (e_seed s) (e_v0 s) (e_v1 s) (e_v s) (e_d s) i (e_sd s) (e_hash s).
  (* envelope.rs:171-174, 350-353 *)
  Definition set_hash (s : env) (h : N) : env := mkEnv (e_st s) (e_t s) (e_t0 s) (e_t1 s) h (e_v0 s) (e_v1 s) (e_v s) (e_d s) (e_int s) (e_sd s) h.

  (* ---- Envelope ---- *)
  Section NoInput.
    Variable f : C -> F -> C * list F.
    (* envelope.rs:114-122 reset *)
    Definition env_reset (s : env) : env :=
      let (st, y) := f (e_st s) (n0 nf) in
      let v := map conv y in
      mkEnv st (n0 nf) (n0 nf) (n0 nf) (e_hash s) v v (e_v s) (e_d s) (e_int s) (e_sd s) (e_hash s).
    (* envelope.rs:58-77 new, without the assertion that the interval is positive; sd is the duration of a sample at DEFAULT_SR, and ch the number of channels *)
    Definition env_new (st : C) (ch : nat) (sd interval : F) : env :=
      let z := repeat (n0 nv) ch in env_reset (mkEnv st (n0 nf) (n0 nf) (n0 nf) 0 z z z z interval sd 0).
    (* envelope.rs:80-100 next_segment *)
    Definition env_next (s : env) : env := segment_from s (e_t1 s) (e_v1 s) f.
    (* envelope.rs:129-137 tick *)
    Definition env_tick (s : env) : env * list V := step (if nleb nf (e_t1 s) (e_t s) then env_next s else s).
    (* envelope.rs:143-162: the while loop; None when fuel iterations do not suffice *)
    Fixpoint env_loop (fuel : nat) (s : env) (left : nat) : option (env * list (list V)) :=
      match left, fuel with
      | 0, _ => Some (s, [])
      | _, 0 => None
      | _, S fuel =>
          let k := Z.min (Z.of_nat left) (samples_left s) in
          let (s', o) := run s k in
          let s'' := if (k =? samples_left s)%Z then env_next s' else s' in
          match env_loop fuel s'' (left - Z.to_nat k) with Some (r, o') => Some (r, o ++ o') | None => None end
      end.
    (* envelope.rs:139-163 process *)
    Definition env_process (fuel : nat) (s : env) (size : nat) : option (env * list (list V)) :=
      env_loop fuel (if nleb nf (e_t1 s) (e_t s) then env_next s else s) size.
  End NoInput.

  (* ---- EnvelopeIn ---- *)
  Section Input.
    Variable f : C -> F -> list V -> C * list F.
    (* envelope.rs:80-100 *)
    Definition is_zero (x : F) : bool := nleb nf x (n0 nf) && nleb nf (n0 nf) x.
    (* envelope.rs:293-298 reset *)
    Definition envin_reset (s : env) : env := mkEnv (e_st s) (n0 nf) (n0 nf) (n0 nf) (e_hash s) (e_v0 s) (e_v1 s) (e_v s) (e_d s) (e_int s) (e_sd s) (e_hash s).
    (* envelope.rs:229-249 new *)
    Definition envin_new (st : C) (ch : nat) (sd interval : F) : env :=
      let z := repeat (n0 nv) ch in mkEnv st (n0 nf) (n0 nf) (n0 nf) 0 z z z z interval sd 0.
    (* envelope.rs:252-278 next_segment *)
    Definition envin_next (s : env) (i : list V) : env :=
      let g := fun st t => f st t i in
      if is_zero (e_t0 s) && is_zero (e_t1 s) then
        let (st, y) := g (e_st s) (e_t0 s) in
        segment_from (mkEnv st (e_t s) (e_t0 s) (e_t1 s) (e_seed s) (e_v0 s) (e_v1 s) (e_v s) (e_d s) (e_int s) (e_sd s) (e_hash s)) (e_t0 s) (map conv y) g
      else segment_from s (e_t1 s) (e_v1 s) g.
    (* envelope.rs:305-313 tick *)
    Definition envin_tick (s : env) (i : list V) : env * list V := step (if nleb nf (e_t1 s) (e_t s) then envin_next s i else s).
    (* envelope.rs:322-341: the while loop, on the remaining input frames *)
    Fixpoint envin_loop (fuel : nat) (s : env) (left : list (list V)) : option (env * list (list V)) :=
      match left, fuel with
      | [], _ => Some (s, [])
      | _, 0 => None
      | _, S fuel =>
          let k := Z.min (Z.of_nat (length left)) (samples_left s) in
          let (s', o) := run s k in
          let rest := skipn (Z.to_nat k) left in
          let s'' := match rest with i :: _ => if (k =? samples_left s)%Z then envin_next s' i else s' | [] => s' end in
          match envin_loop fuel s'' rest with Some (r, o') => Some (r, o ++ o') | None => None end
      end.
    (* envelope.rs:315-342 process *)
    Definition envin_process (fuel : nat) (s : env) (ins : list (list V)) : option (env * list (list V)) :=
      match ins with
      | [] => Some (s, [])
      | i :: _ => envin_loop fuel (if nleb nf (e_t1 s) (e_t s) then envin_next s i else s) ins
      end.
  End Input.
End Env.
Arguments env : clear implicits.

Section Adsr.
  Context {F : Type} (nf : num F).
  (* adsr.rs:54-65 ads *)
  Definition ads (attack decay sustain time : F) : F :=
    if nltb nf time attack then lerp nf (n0 nf) (n1 nf) (ndiv nf time attack)
    else let decay_time := nsub nf time attack in
      if nltb nf decay_time decay then lerp nf (n1 nf) sustain (ndiv nf decay_time decay) else sustain.
  (* adsr.rs:33-51: the closure; its state is attack_start and release_start. Shared values are f32, as are the times *)
  Definition adsr_fn (attack decay sustain release : F) (st : F * F) (time : F) (i : list F) : (F * F) * list F :=
    let control := nth 0 i (n0 nf) in
    let st :=
      if nleb nf (n0 nf) (snd st) && nltb nf (n0 nf) control then (time, nofZ nf (-1))
      else if nltb nf (snd st) (n0 nf) && nleb nf control (n0 nf) then (fst st, time)
      else st in
    let v := ads attack decay sustain (nsub nf time (fst st)) in
    (st, [if nltb nf (snd st) (n0 nf) then v else nmul nf v (clamp01 nf (delerp nf (nadd nf (snd st) release) (snd st) time))]).
  (* adsr.rs:27-32: the initial state of the closure *)
  Definition adsr_start : F * F := (n0 nf, nofZ nf (-1)).
End Adsr.
