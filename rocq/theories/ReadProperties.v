(* C74: loading of audio files. *)
From Coq Require Import Lia.
From Verif Require Import ReadSpec ReadProofs.

(* The track that is loaded: the one that is asked for, if it exists, or else the first with a known codec. Its packets, and no others, are decoded in order; their samples are joined channel by channel.
   The first packet that cannot be decoded makes loading fail; if there is no packet at all, it fails with the error that ended reading. All this provided that all chunks have the same number of channels. *)
Theorem C74_load : forall (A F E C P : Type) (zero : A) (no_track : E) decode make (tracks : list (track C)) (packets : list (N * P)) end_ t tr,
  NoDup (map t_id tracks) ->
  (match t with Some i => nth_error tracks i = Some tr | None => exists before after, tracks = before ++ tr :: after /\ t_known tr = true /\ Forall (fun x => t_known x = false) before end) ->
  make (t_codec tr) = None ->
  let (ds, e) := decoded (F := F) decode (t_codec tr) [] (contents (t_id tr) packets) in
  Forall chunk_ok ds -> (forall k k', In k ds -> In k' ds -> length (c_data k) = length (c_data k')) ->
  load zero no_track decode (inr (tracks, packets, end_)) make t =
  match e, ds with
  | Some e, _ => Failed e
  | None, [] => Failed end_
  | None, k :: _ => Loaded (mkWave (map (joined ds) (seq 0 (length (c_data k)))) (c_rate k) (if Nat.eqb (length (c_data k)) 0 then 0 else total_frames ds))
  end.
Proof.
  intros A F E C P zero no_track decode make tracks packets end_ t tr ND HT HM. pose proof (loop_start (A := A) zero decode (t_codec tr) (t_id tr) end_ packets) as L. destruct (decoded decode (t_codec tr) [] _) as [ds e]. intros H1 H2. specialize (L H1 H2).
  assert (S0 : select tracks t = Some tr).
  { unfold select. destruct t as [i|]; [now rewrite HT|]. destruct HT as (b & a & -> & K & B). clear -K B. induction b as [|x b IH]; cbn; [now rewrite K|]. apply Forall_cons_iff in B as [-> B]. auto. }
  assert (IN : In tr tracks) by (destruct t as [i|]; [now apply nth_error_In in HT|destruct HT as (b & a & -> & _); apply in_elt]).
  assert (FD : find (fun x => N.eqb (t_id x) (t_id tr)) tracks = Some tr).
  { clear -ND IN. induction tracks as [|x l IH]; [destruct IN|]. cbn [find]. cbn [map] in ND. apply NoDup_cons_iff in ND as [N1 N2]. destruct (N.eqb_spec (t_id x) (t_id tr)) as [Q|Q].
    - destruct IN as [->|IN]; [reflexivity|]. exfalso. apply N1. rewrite Q. now apply in_map.
    - destruct IN as [->|IN]; [now elim Q|auto]. }
  unfold load. rewrite S0, FD, HM, L. destruct e, ds; reflexivity.
Qed.
Print Assumptions C74_load.
Example C74_load_case : load (A := nat) (F := nat) (E := nat) 0 7 (fun _ past p => inr (mkChunk 44 2 [[p; p + 1]; [p + length past; p]]))
  (inr ([mkTrack 3 false tt; mkTrack 5 true tt], [(5%N, 10); (3%N, 20); (5%N, 30)], 9)) (fun _ => None) None = Loaded (mkWave [[10; 11; 30; 31]; [10; 10; 31; 30]] 44 4).
Proof. reflexivity. Qed.

(* Errors: of the probe, of the registry of codecs, and when there is no track with a known codec. *)
Theorem C74_errors : forall (A F E C P : Type) (zero : A) (no_track : E) (decode : C -> list P -> P -> E + chunk A F) make t,
  (forall e, load zero no_track decode (inl e) make t = Failed e) /\
  (forall tracks packets end_, (match t with Some i => length tracks <= i | None => True end) -> Forall (fun x => t_known x = false) tracks -> load zero no_track decode (inr (tracks, packets, end_)) make t = Failed no_track).
Proof.
  intros A F E C P zero no_track decode make t. split; [reflexivity|]. intros tracks packets end_ HT HK. unfold load.
  assert (FN : find t_known tracks = None) by (clear -HK; induction tracks as [|x l IH]; [reflexivity|]; apply Forall_cons_iff in HK as [K1 K2]; cbn; rewrite K1; auto).
  assert (S0 : select tracks t = None) by (unfold select; destruct t as [i|]; [rewrite (proj2 (nth_error_None tracks i) HT)|]; exact FN). now rewrite S0.
Qed.
Print Assumptions C74_errors.

(* A read error in the middle of a file is not reported: what has been read so far is returned as if it were the whole. *)
Theorem C74_truncated_refuted : ~ (forall (end_of_stream other : nat) (packets : list (N * nat)) w, end_of_stream <> other ->
  load (A := nat) (F := nat) 0 0 (fun (_ : unit) _ p => inr (mkChunk 44 1 [[p]])) (inr ([mkTrack 1%N true tt], packets, other)) (fun _ => None) None <> Loaded w).
Proof. intros H. exact (H 0 1 [(1%N, 5)] _ ltac:(discriminate) eq_refl). Qed.
Print Assumptions C74_truncated_refuted.

(* A file whose number of channels grows from one packet to the next makes loading panic, instead of returning an error. *)
Theorem C74_channels_refuted : ~ (forall (ks : list (chunk nat nat)), Forall chunk_ok ks ->
  load 0 0 (fun (_ : unit) _ p => inr (nth p ks (mkChunk 44 0 []))) (inr ([mkTrack 1%N true tt], map (fun i => (1%N, i)) (seq 0 (length ks)), 1)) (fun _ => None) None <> Panicked).
Proof. intros H. apply (H [mkChunk 44 1 [[1]]; mkChunk 44 1 [[2]; [3]]]); [repeat constructor|reflexivity]. Qed.
Print Assumptions C74_channels_refuted.

(* A file whose sample rate changes from one packet to the next is loaded at the first rate, without conversion or error: the samples of the other chunks play at a wrong speed. *)
Theorem C74_rate_refuted : ~ (forall (ks : list (chunk nat nat)) w, Forall chunk_ok ks ->
  load 0 0 (fun (_ : unit) _ p => inr (nth p ks (mkChunk 44 0 []))) (inr ([mkTrack 1%N true tt], map (fun i => (1%N, i)) (seq 0 (length ks)), 1)) (fun _ => None) None = Loaded w ->
  Forall (fun k => c_rate k = w_rate w) ks).
Proof. intros H. specialize (H [mkChunk 44 1 [[1]]; mkChunk 48 1 [[2]]] (mkWave [[1; 2]] 44 2) ltac:(repeat constructor) eq_refl). apply Forall_cons_iff in H as [_ H]. apply Forall_cons_iff in H as [H _]. discriminate H. Qed.
Print Assumptions C74_rate_refuted.

(* A track that is asked for but does not exist is not an error: another one is loaded. *)
Theorem C74_track_refuted : ~ (forall (tracks : list (track unit)) packets i w,
  load (A := nat) (F := nat) 0 0 (fun (_ : unit) _ p => inr (mkChunk 44 1 [[p]])) (inr (tracks, packets, 1)) (fun _ => None) (Some i) = Loaded w -> i < length tracks).
Proof. intros H. specialize (H [mkTrack 1%N true tt] [(1%N, 5)] 7 _ eq_refl). cbn in H. lia. Qed.
Print Assumptions C74_track_refuted.
