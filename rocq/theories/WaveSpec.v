(* What the documentation of Wave promises, without reference to how it is done. *)
From Coq Require Import Reals.
From Verif Require Export WaveModel.

Section Edits.
  Context {A F : Type}.
  Variables (zero : A) (add : A -> A -> A).
  Notation wave := (wave A F).
  (* every channel has the length of the wave, which is zero if there are no channels *)
  Definition rect (w : wave) : Prop := Forall (fun ch => length ch = w_len w) (w_vec w) /\ (w_vec w = [] -> w_len w = 0).
  (* the part of a list in the span start .. start + length *)
  Definition span (start length : Z) (l : list A) : list A :=
    map snd (filter (fun p => Z.leb start (Z.of_nat (fst p)) && Z.ltb (Z.of_nat (fst p)) (start + length)) (combine (seq 0 (List.length l)) l)).
  (* a list with other samples added from offset on; what does not fit is ignored *)
  Definition mixed (offset : Z) (samples l : list A) : list A :=
    map (fun p => let j := (Z.of_nat (fst p) - offset)%Z in
                  if (j <? 0)%Z then snd p else match nth_error samples (Z.to_nat j) with Some v => add (snd p) v | None => snd p end) (combine (seq 0 (length l)) l).
  Inductive wedit :=
  | PushChannel (samples : list A) | InsertChannel (c : nat) (samples : list A) | RemoveChannel (c : nat)
  | MixChannel (c : nat) (offset : Z) (samples : list A) | Append (source : wave) | PushFrame (f : list A)
  | Resize (n : nat) | Retain (start length : Z) | SetSample (c i : nat) (v : A) | MixSample (c i : nat) (v : A).
  Definition do_edit (w : wave) (e : wedit) : option wave :=
    match e with
    | PushChannel s => push_channel w s
    | InsertChannel c s => insert_channel w c s
    | RemoveChannel c => match remove_channel w c with Some (w', _) => Some w' | None => None end
    | MixChannel c o s => mix_channel add w c o s
    | Append v => append zero add w v
    | PushFrame f => push w f
    | Resize n => resize zero w n
    | Retain s l => retain zero w s l
    | SetSample c i v => w_set w c i v
    | MixSample c i v => w_mix add w c i v
    end.
  Fixpoint do_edits (w : wave) (es : list wedit) : option wave :=
    match es with [] => Some w | e :: es' => match do_edit w e with Some w' => do_edits w' es' | None => None end end.
  (* when an edit is allowed *)
  Definition allowed (w : wave) (e : wedit) : Prop :=
    match e with
    | PushChannel s => w_vec w = [] \/ length s = w_len w
    | InsertChannel c s => (w_vec w = [] \/ length s = w_len w) /\ c <= length (w_vec w)
    | RemoveChannel c => c < length (w_vec w)
    | MixChannel c o s => c < length (w_vec w)
    | Append v => rect v /\ length (w_vec v) = length (w_vec w) /\ w_vec w <> []
    | PushFrame f => length f = 1 \/ length f = length (w_vec w)
    | Resize n => w_vec w <> []
    | Retain s l => w_vec w <> [] /\ (s <= Z.of_nat (w_len w))%Z /\ (- 2 ^ 63 <= s)%Z /\ (0 <= l < 2 ^ 63)%Z /\ (s + l < 2 ^ 63)%Z
    | SetSample c i _ | MixSample c i _ => c < length (w_vec w) /\ i < w_len w
    end.
  (* the channels afterwards *)
  Definition edited (w : wave) (e : wedit) : list (list A) :=
    let v := w_vec w in
    match e with
    | PushChannel s => v ++ [s]
    | InsertChannel c s => firstn c v ++ [s] ++ skipn c v
    | RemoveChannel c => firstn c v ++ skipn (S c) v
    | MixChannel c o s => firstn c v ++ [mixed o s (nth c v [])] ++ skipn (S c) v
    | Append u => map (fun p => fst p ++ snd p) (combine v (w_vec u))
    | PushFrame [x] => map (fun ch => ch ++ [x]) v
    | PushFrame f => map (fun p => fst p ++ [snd p]) (combine v f)
    | Resize n => map (fun ch => firstn n (ch ++ repeat zero n)) v
    | Retain s l => map (span s l) v
    | SetSample c i x => firstn c v ++ [firstn i (nth c v []) ++ [x] ++ skipn (S i) (nth c v [])] ++ skipn (S c) v
    | MixSample c i x => firstn c v ++ [firstn i (nth c v []) ++ [add (nth i (nth c v []) zero) x] ++ skipn (S i) (nth c v [])] ++ skipn (S c) v
    end.
  (* what the player plays at time n: a position of the wave, or silence *)
  Definition played (start end_ : nat) (loop_ : option nat) (n : nat) : option nat :=
    if Nat.ltb (start + n) end_ then Some (start + n)
    else if Nat.ltb start end_ then
      match loop_ with
      | Some q => if Nat.ltb q end_ then Some (q + (n - (end_ - start)) mod (end_ - q)) else None
      | None => None
      end
    else None.
  (* n ticks of a player *)
  Fixpoint play (n : nat) (p : player A) : option (player A * list A) :=
    match n with
    | O => Some (p, [])
    | S n' => match player_tick zero p with
              | Some (p', v) => match play n' p' with Some (p'', l) => Some (p'', v :: l) | None => None end
              | None => None
              end
    end.
End Edits.
Arguments wedit : clear implicits.

(* channel c of a list of frames *)
Definition channel_of {A} (zero : A) (c : nat) (fs : list (list A)) : list A := map (fun f => nth c f zero) fs.
(* the channels of a list of frames of n samples each *)
Definition transpose {A} (zero : A) (n : nat) (fs : list (list A)) : list (list A) := map (fun c => channel_of zero c fs) (seq 0 n).
(* the input of a filter: the frames of a wave, then zeros *)
Definition wave_frames {A F} (zero : A) (w : wave A F) (n : nat) : list (list A) := map (fun i => map (fun ch => nth i ch zero) (w_vec w)) (seq 0 n).
