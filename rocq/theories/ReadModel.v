(* Loading of audio files: /repo/src/read.rs:23-198. Symphonia is a parameter: what its probe, decoder registry, reader and decoder return.
   A chunk is what a packet decodes to, after conversion to f32; all of its channels have the same number of frames. Opening of files is not modelled. *)
From Verif Require Export WaveModel.

(* read.rs:67-107 *)
Record track (C : Type) := mkTrack { t_id : N; t_known : bool; t_codec : C }.      (* id, whether the codec is known, and codec parameters *)
Arguments mkTrack {C}. Arguments t_id {C}. Arguments t_known {C}. Arguments t_codec {C}.
(* read.rs:135-187 *)
Record chunk (A F : Type) := mkChunk { c_rate : F; c_frames : nat; c_data : list (list A) }.
Arguments mkChunk {A F}. Arguments c_rate {A F}. Arguments c_frames {A F}. Arguments c_data {A F}.
(* read.rs:67-197 *)
Inductive loaded (E W : Type) := Loaded (w : W) | Failed (e : E) | Panicked.
Arguments Loaded {E W}. Arguments Failed {E W}. Arguments Panicked {E W}.

Section Read.
  Context {A F E C P : Type}.            (* samples, sample rates, errors, codec parameters, packet contents *)
  Variables (zero : A) (no_track : E).
  Notation wave := (wave A F). Notation chunk := (chunk A F).
  (* read.rs:181-187: write the samples of a channel at the end of the wave. The subtraction of the length panics on underflow, `set` out of range. *)
  Fixpoint write_channel (c i : nat) (frames : nat) (xs : list A) (w : wave) : option wave :=
    match xs with
    | [] => Some w
    | x :: xs => if Nat.ltb (w_len w) frames then None else
        match w_set w c (w_len w - frames + i) x with Some w => write_channel c (S i) frames xs w | None => None end
    end.
  (* read.rs:176-180: make room, with the first channel *)
  Fixpoint push_silence (n : nat) (w : wave) : option wave :=
    match n with O => Some w | S n => match push w [zero] with Some w => push_silence n w | None => None end end.
  (* read.rs:174-188: the loop over the channels of a chunk *)
  Fixpoint write_channels (c frames : nat) (chs : list (list A)) (w : wave) : option wave :=
    match chs with
    | [] => Some w
    | xs :: chs =>
        match (if Nat.eqb c 0 then push_silence frames w else Some w) with
        | Some w => match write_channel c 0 frames xs w with Some w => write_channels (S c) frames chs w | None => None end
        | None => None
        end
    end.
  (* read.rs:125-189: the wave is created with the first chunk *)
  Definition add_chunk (o : option wave) (k : chunk) : option wave :=
    let w := match o with Some w => w | None => w_new (length (c_data k)) (c_rate k) end in write_channels 0 (c_frames k) (c_data k) w.

  (* read.rs:106-193: the loop over packets. `packets` are those until next_packet returns an error; a packet has the id of its track and its contents,
     and the decoder is given by what it makes of the contents of the packets before and of this one. *)
  Variable decode : C -> list P -> P -> E + chunk.
  (* read.rs:106-193 *)
  Fixpoint read_loop (codec : C) (id : N) (past : list P) (wave_ : option wave) (packets : list (N * P)) (end_ : E) : loaded E wave :=
    match packets with
    | [] => match wave_ with Some w => Loaded w | None => Failed end_ end
    | (pid, p) :: packets =>
        if negb (N.eqb pid id) then read_loop codec id past wave_ packets end_
        else match decode codec past p with
             | inl e => Failed e
             | inr k => match add_chunk wave_ k with Some w => read_loop codec id (past ++ [p]) (Some w) packets end_ | None => Panicked end
             end
    end.
  (* read.rs:84-89: the track that is asked for, if there is one, or else the first one with a known codec *)
  Definition select (tracks : list (track C)) (t : option nat) : option (track C) :=
    match (match t with Some i => nth_error tracks i | None => None end) with
    | Some t => Some t
    | None => find t_known tracks
    end.
  (* read.rs:67-197 decode. `probe` is an error or the reader: its tracks, its packets and the error that ends them. `make` is the registry of codecs. *)
  Definition load (probe : E + (list (track C) * list (N * P) * E)) (make : C -> option E) (t : option nat) : loaded E wave :=
    match probe with
    | inl e => Failed e
    | inr (tracks, packets, end_) =>
        match select tracks t with
        | None => Failed no_track
        | Some tr =>
            match find (fun x => N.eqb (t_id x) (t_id tr)) tracks with
            | None => Failed no_track
            | Some tr' => match make (t_codec tr') with
                          | Some e => Failed e
                          | None => read_loop (t_codec tr') (t_id tr) [] None packets end_
                          end
            end
        end
    end.
End Read.
