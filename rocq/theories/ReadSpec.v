(* What loading of an audio file should give. *)
From Verif Require Export ReadModel.

Section Spec.
  Context {A F E C P : Type}.
  Definition chunk_ok (k : chunk A F) : Prop := Forall (fun xs => length xs = c_frames k) (c_data k).
  (* the contents of the packets of a track *)
  Definition contents (id : N) (packets : list (N * P)) : list P := map snd (filter (fun p => N.eqb (fst p) id) packets).
  (* what they decode to, until the first one that does not *)
  Fixpoint decoded (decode : C -> list P -> P -> E + chunk A F) (codec : C) (past ps : list P) : list (chunk A F) * option E :=
    match ps with
    | [] => ([], None)
    | p :: ps => match decode codec past p with inl e => ([], Some e) | inr k => let (ks, e) := decoded decode codec (past ++ [p]) ps in (k :: ks, e) end
    end.
  (* chunks one after the other: channel c *)
  Definition joined (ks : list (chunk A F)) (c : nat) : list A := flat_map (fun k => nth c (c_data k) []) ks.
  Definition total_frames (ks : list (chunk A F)) : nat := fold_right (fun k n => c_frames k + n) 0 ks.
End Spec.
