(* What a snoop frontend and a ring should show. *)
From Verif Require Export SnoopModel.

Section Spec.
  Context {A : Type}.
  Variable zero : A.
  (* what can happen to a snoop: a tick, a block, a reset of the backend, a get and an update of the frontend *)
  Inductive snoop_event := Tick (x : A) | Block (size : nat) (inb out : list (list A)) | Reset | Get | Update.
  Definition snoop_step (s : snoop) (e : snoop_event) : snoop :=
    match e with
    | Tick x => fst (snoop_tick zero s [x])
    | Block size inb out => fst (snoop_process zero s size inb out)
    | Reset => snoop_reset s
    | Get => fst (snoop_get s)
    | Update => snoop_update s
    end.
  Definition snoop_run (es : list snoop_event) (s : snoop) : snoop := fold_left snoop_step es s.
  (* the samples that pass the backend *)
  Definition passing (e : snoop_event) : list A := match e with Tick x => [x] | Block size inb _ => firstn size (hd [] inb) | _ => [] end.
  Definition stream (es : list snoop_event) : list A := concat (map passing es).
  (* blocks of at most 64 samples, one channel *)
  Definition proper (e : snoop_event) : Prop := match e with Block size inb _ => size <= MAXB /\ shaped 1 inb | _ => True end.
  (* the frontend holds exactly this history *)
  Definition shows (f : front) (history : list A) : Prop :=
    f_total f = length history /\ forall i, i < length (f_latest f) -> snoop_at f i = Some (nth i (rev history) zero).

  (* What is delivered, sample by sample: the samples of the unfinished block, the blocks that wait, and all that has been received. A
     finished block waits to be received unless 1024 others do; a reset discards the unfinished block. *)
  Record delivery := mkDelivery { d_part : list A; d_waiting : list (list A); d_seen : list A }.
  Definition pass (d : delivery) (x : A) : delivery :=
    let p := d_part d ++ [x] in
    if Nat.eqb (length p) 64 then mkDelivery [] (if Nat.ltb (length (d_waiting d)) CHANNEL then d_waiting d ++ [p] else d_waiting d) (d_seen d)
    else mkDelivery p (d_waiting d) (d_seen d).
  Definition deliver (d : delivery) (e : snoop_event) : delivery :=
    match e with
    | Tick x => pass d x
    | Block size inb _ => fold_left pass (firstn size (hd [] inb)) d
    | Reset => mkDelivery [] (d_waiting d) (d_seen d)
    | Get => mkDelivery (d_part d) (tl (d_waiting d)) (d_seen d ++ hd [] (d_waiting d))
    | Update => mkDelivery (d_part d) [] (d_seen d ++ concat (d_waiting d))
    end.
  Definition delivered (es : list snoop_event) : list A := d_seen (fold_left deliver es (mkDelivery [] [] [])).
End Spec.
Arguments snoop_event A : clear implicits.

Section Ring.
  Context {X : Type}.
  Variable zero : X.
  (* sends by the frontend and ticks; the outputs of the ticks and the answers of the sends *)
  Inductive ring_event := Send (x : X) | Play.
  Fixpoint ring_run (capacity : nat) (es : list ring_event) (c : list X) : list X * list X * list bool :=
    match es with
    | [] => (c, [], [])
    | Send x :: r => let (c', ok) := ring_send capacity c x in let '(c'', os, oks) := ring_run capacity r c' in (c'', os, ok :: oks)
    | Play :: r => let (c', o) := ring_tick zero c in let '(c'', os, oks) := ring_run capacity r c' in (c'', o :: os, oks)
    end.
  (* With numbered frames: of the frames accepted so far, the first r have been played. A tick plays frame number r, or zeros when there is
     none; a frame is accepted when fewer than capacity frames wait. *)
  Fixpoint fifo (capacity : nat) (es : list ring_event) (accepted : list X) (r : nat) : list X * list bool :=
    match es with
    | [] => ([], [])
    | Send x :: es' => let ok := Nat.ltb (length accepted - r) capacity in
        let (os, oks) := fifo capacity es' (if ok then accepted ++ [x] else accepted) r in (os, ok :: oks)
    | Play :: es' => let (os, oks) := fifo capacity es' accepted (if Nat.ltb r (length accepted) then S r else r) in (nth r accepted zero :: os, oks)
    end.
End Ring.
Arguments ring_event X : clear implicits.
