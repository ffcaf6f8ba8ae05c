(* Wave and WavePlayer: /repo/src/wave.rs:20-655. No proofs here.
   A panic is None. Files, interleaved iteration and Debug output are not modelled. *)
From Coq Require Import ZArith.
From Verif Require Export DelayModel FadeModel.

(* wave.rs:20-28 Wave: the channels, the sample rate and the length *)
Record wave (A F : Type) := mkWave { w_vec : list (list A); w_rate : F; w_len : nat }.
Arguments mkWave {A F}. Arguments w_vec {A F}. Arguments w_rate {A F}. Arguments w_len {A F}.

Section Edit.
  Context {A F : Type}.
  Variables (zero : A) (add : A -> A -> A).
  Notation wave := (wave A F).
  (* wave.rs:38-48 new (and 58-68 with_capacity) *)
  Definition w_new (channels : nat) (rate : F) : wave := mkWave (repeat [] channels) rate 0.
  (* wave.rs:79-93 zero, of the given length in samples *)
  Definition w_zero (channels : nat) (rate : F) (length : nat) : option wave :=
    if Nat.ltb 0 channels || Nat.eqb length 0 then Some (mkWave (repeat (repeat zero length) channels) rate length) else None.
  (* wave.rs:103-109 from_samples *)
  Definition w_from (rate : F) (samples : list A) : wave := mkWave [samples] rate (length samples).
  (* wave.rs:124-126 *)
  Definition channels (w : wave) : nat := length (w_vec w).
  (* wave.rs:144-150 push_channel *)
  Definition push_channel (w : wave) (samples : list A) : option wave :=
    if Nat.eqb (channels w) 0 || Nat.eqb (w_len w) (length samples)
    then Some (mkWave (w_vec w ++ [samples]) (w_rate w) (if Nat.eqb (channels w) 0 then length samples else w_len w)) else None.
  (* wave.rs:156-163 insert_channel *)
  Definition insert_channel (w : wave) (c : nat) (samples : list A) : option wave :=
    if Nat.eqb (channels w) 0 || Nat.eqb (w_len w) (length samples) then
      if Nat.leb c (channels w)
      then Some (mkWave (firstn c (w_vec w) ++ samples :: skipn c (w_vec w)) (w_rate w) (if Nat.eqb (channels w) 0 then length samples else w_len w)) else None
    else None.
  (* wave.rs:199-213 at, set, mix *)
  Definition w_at (w : wave) (c i : nat) : option A := match nth_error (w_vec w) c with Some ch => nth_error ch i | None => None end.
  (* wave.rs:205-207 *)
  Definition w_set (w : wave) (c i : nat) (v : A) : option wave :=
    match nth_error (w_vec w) c with
    | Some ch => if Nat.ltb i (length ch) then Some (mkWave (upd (w_vec w) c (upd ch i v)) (w_rate w) (w_len w)) else None
    | None => None
    end.
  (* wave.rs:211-213 *)
  Definition w_mix (w : wave) (c i : nat) (v : A) : option wave := match w_at w c i with Some x => w_set w c i (add x v) | None => None end.
  (* wave.rs:168-172 mix_channel: the loop over i from lo, n times *)
  Fixpoint mix_loop (n : nat) (i : Z) (w : wave) (c : nat) (offset : Z) (samples : list A) : option wave :=
    match n with
    | O => Some w
    | S n' => match nth_error samples (Z.to_nat (i - offset)) with
              | Some v => match w_mix w c (Z.to_nat i) v with Some w' => mix_loop n' (i + 1) w' c offset samples | None => None end
              | None => None
              end
    end.
  (* wave.rs:168-172 *)
  Definition mix_channel (w : wave) (c : nat) (offset : Z) (samples : list A) : option wave :=
    let lo := Z.max offset 0 in let hi := Z.min (offset + Z.of_nat (length samples)) (Z.of_nat (w_len w)) in
    mix_loop (Z.to_nat (hi - lo)) lo w c offset samples.
  (* wave.rs:175-182 remove_channel, with the removed channel *)
  Definition remove_channel (w : wave) (c : nat) : option (wave * list A) :=
    match nth_error (w_vec w) c with
    | Some ch => Some (mkWave (firstn c (w_vec w) ++ skipn (S c) (w_vec w)) (w_rate w) (if Nat.eqb (channels w) 1 then 0 else w_len w), ch)
    | None => None
    end.
  (* wave.rs:294-302: Vec::resize with 0.0 *)
  Definition vec_resize (n : nat) (ch : list A) : list A := firstn n ch ++ repeat zero (n - length ch).
  (* wave.rs:294-302 resize *)
  Definition resize (w : wave) (n : nat) : option wave :=
    if Nat.ltb 0 (channels w) then Some (mkWave (if Nat.eqb n (w_len w) then w_vec w else map (vec_resize n) (w_vec w)) (w_rate w) n) else None.
  (* wave.rs:188-195 append *)
  Fixpoint append_loop (n c : nat) (w : wave) (offset : nat) (source : wave) : option wave :=
    match n with
    | O => Some w
    | S n' => match nth_error (w_vec source) c with
              | Some s => match mix_channel w c (Z.of_nat offset) s with Some w' => append_loop n' (S c) w' offset source | None => None end
              | None => None
              end
    end.
  (* wave.rs:188-195 *)
  Definition append (w source : wave) : option wave :=
    if Nat.eqb (channels w) (channels source) then
      match resize w (w_len w + w_len source) with Some w' => append_loop (channels w') 0 w' (w_len w) source | None => None end
    else None.
  (* wave.rs:229-244 push, of a frame: a scalar is broadcast *)
  Definition push (w : wave) (f : list A) : option wave :=
    let len := if Nat.ltb 0 (channels w) then S (w_len w) else w_len w in
    match f with
    | [v] => Some (mkWave (map (fun ch => ch ++ [v]) (w_vec w)) (w_rate w) len)
    | _ => if Nat.eqb (channels w) (length f) then Some (mkWave (zipw (fun ch v => ch ++ [v]) (w_vec w) f) (w_rate w) len) else None
    end.
  (* wave.rs:169, 309: usize as isize, on 64 bits, and isize addition, whose overflow is a panic in debug builds (it wraps in release builds) *)
  Definition as_isize (n : Z) : Z := if (n <? 2 ^ 63)%Z then n else (n - 2 ^ 64)%Z.
  (* wave.rs:169, 309 *)
  Definition isize_add (a b : Z) : option Z := let s := (a + b)%Z in if ((- 2 ^ 63 <=? s) && (s <? 2 ^ 63))%Z then Some s else None.
  (* wave.rs:313-317: move the samples i0 .. i1 of a channel to its beginning *)
  Fixpoint shift_down (n i i0 : nat) (ch : list A) : list A :=
    match n with O => ch | S n' => shift_down n' (S i) i0 (upd ch (i - i0) (nth i ch zero)) end.
  (* wave.rs:307-318 retain; the subtraction i1 - i0 panics in debug builds when it underflows (in release builds the resize then fails for
     want of memory). The reads and writes in shift_down are in range, as i < i1 <= len. *)
  Definition retain (w : wave) (start length : Z) : option wave :=
    match isize_add start (as_isize length) with
    | None => None
    | Some e =>
        let i0 := Z.to_nat (Z.max start 0) in
        let i1 := Nat.min (w_len w) (Z.to_nat (Z.max 0 e)) in
        let v := if Nat.ltb 0 i0 then map (shift_down (i1 - i0) i0 i0) (w_vec w) else w_vec w in
        if Nat.ltb i1 i0 then None else resize (mkWave v (w_rate w) (w_len w)) (i1 - i0)
    end.

  (* wave.rs:598-626 WavePlayer: the channel of the wave is kept as its samples *)
  Record player := mkPlayer { p_samples : list A; p_index : nat; p_start : nat; p_end : nat; p_loop : option nat }.
  (* wave.rs:608-625 *)
  Definition player_new (w : wave) (channel start end_ : nat) (loop_ : option nat) : option player :=
    match nth_error (w_vec w) channel with
    | Some ch => if Nat.leb end_ (w_len w) then Some (mkPlayer ch start start end_ loop_) else None
    | None => None
    end.
  (* wave.rs:633-635 reset *)
  Definition player_reset (p : player) : player := mkPlayer (p_samples p) (p_start p) (p_start p) (p_end p) (p_loop p).
  (* wave.rs:638-651 tick; None is a read outside of the wave *)
  Definition player_tick (p : player) : option (player * A) :=
    if Nat.ltb (p_index p) (p_end p) then
      match nth_error (p_samples p) (p_index p) with
      | Some v =>
          let i := S (p_index p) in
          let i' := if Nat.eqb i (p_end p) then match p_loop p with Some q => q | None => i end else i in
          Some (mkPlayer (p_samples p) i' (p_start p) (p_end p) (p_loop p), v)
      | None => None
      end
    else Some (p, zero).
End Edit.
Arguments player : clear implicits.

Section Levels.
  Context {F : Type}.
  Variable nm : num F.
  Notation wave := (wave F F).
  Notation zero := (n0 nm).
  (* wave.rs:329-337 amplitude; the reads are in range in a rectangular wave *)
  Definition amplitude (w : wave) : F := fold_left (fun p ch => fold_left (fun p x => nmax nm p (nabs nm x)) ch p) (w_vec w) zero.
  (* wave.rs:340-346 amplify *)
  Definition amplify (w : wave) (a : F) : wave := mkWave (map (map (fun x => nmul nm x a)) (w_vec w)) (w_rate w) (w_len w).
  (* wave.rs:357-368 normalize *)
  Definition feq (a b : F) : bool := nleb nm a b && nleb nm b a.
  (* wave.rs:357-368 *)
  Definition normalize (w : wave) : wave :=
    let a := amplitude w in if feq a zero || feq a (n1 nm) then w else amplify w (ndiv nm (n1 nm) a).
  (* wave.rs:280-282 duration *)
  Definition duration (w : wave) : F := ndiv nm (nofZ nm (Z.of_nat (w_len w))) (w_rate w).
  (* wave.rs:380-418: fade_n, which is a float and an integer: min(time, duration) * sample_rate, rounded *)
  Definition fade_n (w : wave) (time : F) : nat := round_us nm (nmul nm (nmin nm time (duration w)) (w_rate w)).
  (* wave.rs:380-418: multiply sample i of every channel by a; None if there is no such sample *)
  Definition scale_at (w : wave) (i : nat) (a : F) : option wave :=
    if forallb (fun ch => Nat.ltb i (length ch)) (w_vec w) then Some (mkWave (map (fun ch => upd ch i (nmul nm (nth i ch zero) a)) (w_vec w)) (w_rate w) (w_len w)) else None.
  (* wave.rs:380-418 *)
  Definition ofn (n : nat) : F := nofZ nm (Z.of_nat n).
  (* wave.rs:380-389 fade_in *)
  Fixpoint fade_in_loop (k i n : nat) (w : wave) : option wave :=
    match k with
    | O => Some w
    | S k' => match scale_at w i (smooth5 nm (ndiv nm (ofn (i + 1)) (nadd nm (ofn n) (n1 nm)))) with Some w' => fade_in_loop k' (S i) n w' | None => None end
    end.
  (* wave.rs:380-389 *)
  Definition fade_in (w : wave) (time : F) : option wave := let n := fade_n w time in fade_in_loop n 0 n w.
  (* wave.rs:401-412 fade_out; the subtraction len - fade_i underflows, which is a panic, if the fade is longer than the wave *)
  Fixpoint fade_out_loop (k i n : nat) (w : wave) : option wave :=
    match k with
    | O => Some w
    | S k' => if Nat.ltb (w_len w) n then None else
              match scale_at w (w_len w - n + i) (smooth5 nm (ndiv nm (nsub nm (ofn n) (ofn i)) (nadd nm (ofn n) (n1 nm)))) with Some w' => fade_out_loop k' (S i) n w' | None => None end
    end.
  (* wave.rs:401-412 *)
  Definition fade_out (w : wave) (time : F) : option wave := let n := fade_n w time in fade_out_loop n 0 n w.
  (* wave.rs:424-427 fade *)
  Definition fade_both (w : wave) (time : F) : option wave := match fade_in w time with Some w' => fade_out w' time | None => None end.

  (* Rendering. set_sr and latency are those of the unit; samples and times have the same type here. *)
  Section Render.
    Context {P U : Type}.
    Variable ops : unit_ops F P U.
    Variable set_sr : U -> F -> U.
    Variable latency : U -> option F.
    (* wave.rs:453-460: full words, then the rest *)
    Definition block_samples (n : nat) (ch : list F) : list F :=
      flat_map (fun j => map (fun k => nth (8 * j + k) ch zero) (seq 0 8)) (seq 0 (n / 8)) ++ map (fun j => nth (8 * (n / 8) + j) ch zero) (seq 0 (n mod 8)).
    (* wave.rs:449-462; fuel bounds the number of blocks, length blocks are enough *)
    Fixpoint render_loop (fuel i length : nat) (u : U) (buf vec : list (list F)) : U * list (list F) :=
      if Nat.ltb i length then
        match fuel with
        | O => (u, vec)
        | S fuel' =>
            let n := Nat.min (length - i) MAXB in
            let (u1, buf1) := u_process ops u n [] buf in
            render_loop fuel' (i + n) length u1 buf1 (zipw (fun v ch => v ++ block_samples n ch) vec buf1)
        end
      else (u, vec).
    (* wave.rs:449-462 *)
    Definition blank (n : nat) : list (list F) := repeat (repeat zero MAXB) n.
    (* wave.rs:439-464 render *)
    Definition render (sr dur : F) (u : U) : option (U * wave) :=
      if Nat.eqb (u_ins ops u) 0 && Nat.ltb 0 (u_outs ops u) && nleb nm zero dur then
        let u0 := set_sr u sr in
        let length := round_us nm (nmul nm dur sr) in
        let (u1, vec) := render_loop length 0 length u0 (blank (u_outs ops u)) (repeat [] (u_outs ops u)) in
        Some (u1, mkWave vec sr length)
      else None.
    (* wave.rs:476-499 *)
    Definition latency_samples (u : U) : nat := Z.to_nat (nfloor nm (match latency u with Some l => l | None => zero end)).
    (* wave.rs:488-494, 583-589: a wave of zlen samples, the first d of them set to the samples from number l on; None is an index out of range *)
    Definition drop (w : wave) (zlen l d : nat) : option wave :=
      if Nat.leb d zlen && forallb (fun ch => Nat.eqb d 0 || Nat.leb (d + l) (length ch)) (w_vec w) then
        Some (mkWave (map (fun ch => map (fun i => nth (i + l) ch zero) (seq 0 d) ++ repeat zero (zlen - d)) (w_vec w)) (w_rate w) zlen) else None.
    (* wave.rs:476-499 render_latency *)
    Definition render_latency (sr dur : F) (u : U) : option (U * wave) :=
      if Nat.eqb (u_ins ops u) 0 && Nat.ltb 0 (u_outs ops u) && nleb nm zero dur then
        let l := latency_samples u in
        let ldur := ndiv nm (ofn l) sr in
        let d := round_us nm (nmul nm dur sr) in
        let dur' := ndiv nm (ofn d) sr in
        if Nat.ltb 0 l then match render sr (nadd nm dur' ldur) u with Some (u1, w) => match drop w (round_us nm (nmul nm dur' sr)) l d with Some w' => Some (u1, w') | None => None end | None => None end
        else render sr dur' u
      else None.
    (* wave.rs:529-546: from this wave *)
    Fixpoint filter_loop (fuel i length : nat) (u : U) (w : wave) (inb outb vec : list (list F)) : U * list (list F) * list (list F) * list (list F) :=
      if Nat.ltb i length then
        match fuel with
        | O => (u, inb, outb, vec)
        | S fuel' =>
            let n := Nat.min (length - i) MAXB in
            let inb1 := zipw (fun ch b => map (fun k => if Nat.ltb k n then nth (i + k) ch zero else nth k b zero) (seq 0 MAXB)) (w_vec w) inb in
            let (u1, outb1) := u_process ops u n inb1 outb in
            filter_loop fuel' (i + n) length u1 w inb1 outb1 (zipw (fun v ch => v ++ firstn n ch) vec outb1)
        end
      else (u, inb, outb, vec).
    (* wave.rs:548-562: from zeros; the input buffer is cleared *)
    Fixpoint tail_loop (fuel i length : nat) (u : U) (inb outb vec : list (list F)) : U * list (list F) :=
      if Nat.ltb i length then
        match fuel with
        | O => (u, vec)
        | S fuel' =>
            let n := Nat.min (length - i) MAXB in
            let (u1, outb1) := u_process ops u n inb outb in
            tail_loop fuel' (i + n) length u1 inb outb1 (zipw (fun v ch => v ++ firstn n ch) vec outb1)
        end
      else (u, vec).
    (* wave.rs:516-563 filter *)
    Definition w_filter (w : wave) (dur : F) (u : U) : option (U * wave) :=
      if Nat.eqb (u_ins ops u) (channels w) && Nat.ltb 0 (u_outs ops u) && nleb nm zero dur then
        let u0 := set_sr u (w_rate w) in
        let total := round_us nm (nmul nm dur (w_rate w)) in
        let len := Nat.min total (w_len w) in
        let '(u1, inb, outb, vec) := filter_loop len 0 len u0 w (blank (channels w)) (blank (u_outs ops u)) (repeat [] (u_outs ops u)) in
        let (u2, vec2) := tail_loop total len total u1 (blank (channels w)) outb vec in
        Some (u2, mkWave vec2 (w_rate w) total)
      else None.
    (* wave.rs:571-594 filter_latency *)
    Definition filter_latency (w : wave) (dur : F) (u : U) : option (U * wave) :=
      if Nat.eqb (u_ins ops u) (channels w) && Nat.ltb 0 (u_outs ops u) && nleb nm zero dur then
        let l := latency_samples u in
        let ldur := ndiv nm (ofn l) (w_rate w) in
        let d := round_us nm (nmul nm dur (w_rate w)) in
        let dur' := ndiv nm (ofn d) (w_rate w) in
        if Nat.ltb 0 l then match w_filter w (nadd nm dur' ldur) u with Some (u1, w1) => match drop w1 (round_us nm (nmul nm dur' (w_rate w))) l d with Some w' => Some (u1, w') | None => None end | None => None end
        else w_filter w dur' u
      else None.
  End Render.
End Levels.
