(* C43. In every theorem, n is the number of channels, c a channel, and d whether debug assertions are on. *)
From Verif Require Import LayoutProofs.

(* Writing a sample changes exactly that sample, through set_f32 and through the mutable scalar slice of the channel. *)
Theorem C43_scalar_write : forall (A : Type) d n (b : list (list A)) c i v, well n b -> c < n -> i < 64 ->
  (exists b', set_f32 d b c i v = Some b' /\ changes n b b' c i [v]) /\ (exists b', channel_f32_store d b c i v = Some b' /\ changes n b b' c i [v]).
Proof. intros A d n b c i v H Hc Hi. split; [now apply set_f32_ok|now apply channel_store_ok]. Qed.
Print Assumptions C43_scalar_write.
(* Writing or adding a SIMD word changes exactly its 8 samples. *)
Theorem C43_word_write : forall (A : Type) (add_ : A -> A -> A) d n (b : list (list A)) c i w, well n b -> c < n -> i < 8 -> length w = 8 ->
  (exists b', set_ d b c i w = Some b' /\ changes n b b' c (8 * i) w) /\
  (exists old b', at_ d b c i = Some old /\ add d add_ b c i w = Some b' /\ changes n b b' c (8 * i) (zipw add_ old w)).
Proof. intros A add_ d n b c i w H Hc Hi Hw. split; [now apply set_ok|now apply add_ok]. Qed.
Print Assumptions C43_word_write.
(* All views read the same samples, and every sample in range can be read. *)
Theorem C43_views : forall (A : Type) d n (b : list (list A)) c, well n b -> c < n ->
  (forall i, i < 64 -> at_f32 d b c i = sample b c i /\ sample b c i <> None) /\
  (forall i, i < 8 -> exists w, at_ d b c i = Some w /\ length w = 8 /\ forall k, k < 8 -> nth_error w k = sample b c (8 * i + k)) /\
  (exists ch, channel_f32 d b c = Some ch /\ length ch = 64 /\ forall i, i < 64 -> nth_error ch i = sample b c i).
Proof.
  intros A d n b c H Hc. split; [|split].
  - intros i Hi. split; [now apply (at_f32_ok d n)|now apply (sample_defined n)].
  - intros i Hi. now apply (at_ok d n).
  - now apply (channel_f32_ok d n).
Qed.
Print Assumptions C43_views.
(* A subset reads exactly its channels; what is done to a subset is done to exactly these channels, whatever is done. *)
Theorem C43_subset : forall (A : Type) d n (b : list (list A)) first m, well n b -> first + m <= n ->
  (exists s, subset d b first m = Some s /\ well m s /\ forall c i, c < m -> i < 64 -> sample s c i = sample b (first + c) i) /\
  (forall f, (forall s, well m s -> exists s', f s = Some s' /\ well m s') ->
   exists s s' b', subset d b first m = Some s /\ f s = Some s' /\ through_subset d b first m f = Some b' /\ well n b' /\
     forall c i, c < n -> i < 64 -> sample b' c i = if Nat.leb first c && Nat.ltb c (first + m) then sample s' (c - first) i else sample b c i).
Proof. intros A d n b first m H L. split; [now apply (subset_ok d n)|]. intros f Hf. now apply (through_ok d n). Qed.
Print Assumptions C43_subset.
(* A new or cleared buffer is silent; resizing keeps the common channels and silences new ones. *)
Theorem C43_owned : forall (A : Type) (zero : A) n,
  (well n (vec_new zero n) /\ forall c i, c < n -> i < 64 -> sample (vec_new zero n) c i = Some zero) /\
  (forall b, well n b -> (well n (vec_clear zero b) /\ forall c i, c < n -> i < 64 -> sample (vec_clear zero b) c i = Some zero) /\
   forall m, well m (vec_resize zero b m) /\ forall c i, c < m -> i < 64 -> sample (vec_resize zero b m) c i = if Nat.ltb c n then sample b c i else Some zero).
Proof. intros A zero n. split; [apply new_ok|]. intros b H. split; [now apply clear_ok|]. intros m. now apply resize_ok. Qed.
Print Assumptions C43_owned.
(* An inline array buffer reads and writes like the buffer that it lends. *)
Theorem C43_array : forall (A : Type) d n (a : list (list (list A))) c, well_array n a -> c < n ->
  well n (arr_ref a) /\ (forall i, i < 8 -> arr_at a c i = at_ d (arr_ref a) c i) /\ (forall i, i < 64 -> arr_at_f32 a c i = at_f32 d (arr_ref a) c i) /\
  (forall i v, i < 64 -> exists a', arr_set_f32 a c i v = Some a' /\ well_array n a' /\ set_f32 d (arr_ref a) c i v = Some (arr_ref a')).
Proof.
  intros A d n a c H Hc. split; [now apply array_well|]. split; [intros i Hi; now apply (arr_at_ok d n)|]. split; [intros i Hi; now apply (arr_at_f32_ok d n)|]. intros i v Hi. now apply arr_set_f32_ok.
Qed.
Print Assumptions C43_array.
(* The rest of the model takes a buffer to be the list of its channels. That view agrees with memory in reading and writing. *)
Theorem C43_as_channels : forall (A : Type) d n (b : list (list A)), well n b -> shaped n (as_channels n b) /\
  (forall c i, c < n -> i < 64 -> nth_error (nth c (as_channels n b) []) i = at_f32 d b c i) /\
  (forall c i v, c < n -> i < 64 -> exists b', set_f32 d b c i v = Some b' /\ as_channels n b' = upd (as_channels n b) c (upd (nth c (as_channels n b) []) i v)).
Proof.
  intros A d n b H. destruct (as_channels_ok n b H) as [S R]. split; auto. split.
  - intros c i Hc Hi. rewrite (at_f32_ok d n) by auto. now apply R.
  - intros c i v Hc Hi. destruct (set_f32_ok d n b c i v H Hc Hi) as (b' & E & C). exists b'. split; auto. now apply changes_abstract.
Qed.
Print Assumptions C43_as_channels.
(* The index is not checked, not even with debug assertions: index 64 of a channel that is not the last is index 0 of the next one. *)
Theorem C43_overrun : forall (A : Type) d n (b : list (list A)) c v, well n b -> S c < n ->
  exists b', set_f32 d b c 64 v = Some b' /\ changes n b b' (S c) 0 [v].
Proof.
  intros A d n b c v H Hc. destruct (set_f32_ok d n b (S c) 0 v H Hc ltac:(lia)) as (b' & E & C). exists b'. split; auto. rewrite <- E. unfold set_f32. rewrite !asserted by (apply (ltb_well n); auto; lia).
  shifts. change (64 / 8) with 8. change (0 / 8) with 0. change (64 mod 8) with 0. change (0 mod 8) with 0. replace (8 * c + 8) with (8 * S c + 0) by lia. reflexivity.
Qed.
Print Assumptions C43_overrun.
Example C43_case : let b := slices 24 8 (seq 0 192) in well 3 b /\ option_map (fun b' => (sample b' 1 19, sample b' 1 20, sample b' 2 19)) (set_f32 true b 1 19 1000) = Some (Some 1000, Some 84, Some 147) /\
  well_array 3 (slices 3 8 b) /\ subset true b 1 2 = Some (skipn 8 b) /\ at_ true b 2 3 = Some (seq 152 8).
Proof. vm_compute. repeat split; repeat constructor. Qed.
