(* WAV files: devices, bytes, headers and frames. *)
From Coq Require Import ZArith List SpecFloat Bool Lia.
From Verif Require Import Base.
From Verif Require Export WavSpec.
Local Open Scope Z_scope.

(* ---- what the device gets ---- *)
Definition winv (got done : list Z) (b : bufwriter) : Prop := got ++ done = d_got (bw_dev b) ++ bw_buf b /\ (length (bw_buf b) <= capacity)%nat.
Definition small (l : list Z) : Prop := (length l <= 4)%nat.
Lemma cap_4 : (4 <= capacity)%nat. Proof. unfold capacity. apply Nat.leb_le. reflexivity. Qed.
Lemma take_ok d l d' k ok : d_take d l = (d', k, ok) -> d_got d' = d_got d ++ firstn k l /\ (k <= length l)%nat /\ (ok = true -> k = length l) /\ (reliable d -> ok = true /\ reliable d').
Proof.
  unfold d_take. assert (T : reliable d -> reliable (mkdevice (d_got d ++ l) (tl (d_fails d)))). { unfold reliable. cbn [d_fails]. intros H. destruct (d_fails d); [constructor|]. now inversion H. }
  destruct (d_fails d) as [|[j|] r] eqn:F.
  - intros E. injection E as <- <- <-. cbn [d_got]. rewrite firstn_all. split; [reflexivity|]. split; [lia|]. split; [auto|]. intros R. split; [reflexivity|exact (T R)].
  - destruct (Nat.ltb_spec j (length l)); intros E; injection E as <- <- <-; cbn [d_got].
    + split; [reflexivity|]. split; [lia|]. split; [discriminate|]. intros R. unfold reliable in R. rewrite F in R. inversion R. discriminate.
    + rewrite firstn_all. split; [reflexivity|]. split; [lia|]. split; [auto|]. intros R. split; [reflexivity|exact (T R)].
  - intros E. injection E as <- <- <-. cbn [d_got]. rewrite firstn_all. split; [reflexivity|]. split; [lia|]. split; [auto|]. intros R. split; [reflexivity|exact (T R)].
Qed.
Lemma flush_ok got done b b' ok : winv got done b -> flush_buf b = (b', ok) -> winv got done b' /\ (ok = true -> bw_buf b' = []) /\ (reliable (bw_dev b) -> ok = true /\ reliable (bw_dev b')).
Proof.
  intros [E L] H. unfold flush_buf in H. destruct (d_take (bw_dev b) (bw_buf b)) as [[d k] o] eqn:T. destruct (take_ok _ _ _ _ _ T) as (G & K & F & R). injection H as <- <-. unfold winv. cbn [bw_dev bw_buf]. split; [split|].
  - rewrite E, G, <- app_assoc, firstn_skipn. reflexivity.
  - rewrite skipn_length. lia.
  - split; [|exact R]. intros O. rewrite (F O). apply skipn_all.
Qed.
Lemma write_all_ok got done b l b' ok : small l -> winv got done b -> write_all b l = (b', ok) -> winv got (if ok then done ++ l else done) b' /\ (reliable (bw_dev b) -> ok = true /\ reliable (bw_dev b')).
Proof.
  intros S [E L]. unfold write_all. destruct (Nat.leb_spec (length l) (capacity - length (bw_buf b))).
  - intros H1. injection H1 as <- <-. unfold winv. cbn [bw_dev bw_buf]. split; [|auto]. split; [now rewrite !app_assoc, E|]. rewrite app_length. pose proof cap_4. unfold small in S. lia.
  - destruct (flush_buf b) as [b1 o1] eqn:F. destruct (flush_ok got done b b1 o1 (conj E L) F) as ([E1 L1] & N & R). destruct o1; intros H1; injection H1 as <- <-.
    + unfold winv. cbn [bw_dev bw_buf]. split; [|auto]. rewrite (N eq_refl) in *. cbn [app]. rewrite app_nil_r in E1. split; [now rewrite app_assoc, E1|]. pose proof cap_4. unfold small in S. lia.
    + split; [split; assumption|exact R].
Qed.
Lemma write_each_ok got l : forall done b b' ok, Forall small l -> winv got done b -> write_each b l = (b', ok) ->
  exists k, winv got (done ++ concat (firstn k l)) b' /\ (ok = true -> k = length l) /\ (reliable (bw_dev b) -> ok = true /\ reliable (bw_dev b')).
Proof.
  induction l as [|x l IH]; intros done b b' ok S W H; cbn [write_each] in H.
  - injection H as <- <-. exists 0%nat. cbn [firstn concat]. rewrite app_nil_r. split; [exact W|]. split; [reflexivity|]. auto.
  - inversion S as [|? ? Sx Sl]; subst. destruct (write_all b x) as [b1 o1] eqn:E. destruct (write_all_ok got done b x b1 o1 Sx W E) as [W1 R1]. destruct o1.
    + destruct (IH (done ++ x) b1 b' ok Sl W1 H) as (k & Wk & Lk & Rk). exists (Datatypes.S k). cbn [firstn concat length]. rewrite app_assoc. split; [exact Wk|]. split; [intros O; now rewrite (Lk O)|]. intros R. apply Rk. now apply R1.
    + injection H as <- <-. exists 0%nat. cbn [firstn concat]. rewrite app_nil_r. split; [exact W1|]. split; [discriminate|]. intros R. now destruct (R1 R).
Qed.
(* the device gets the beginning of the file *)
Lemma written d l b ok : Forall small l -> write_each (mkbw [] d) l = (b, ok) ->
  (exists pre post, concat l = pre ++ post /\ d_got (bw_drop b) = d_got d ++ pre /\ (ok = true -> (length post <= capacity)%nat)) /\ (reliable d -> ok = true /\ d_got (bw_drop b) = d_got d ++ concat l /\ reliable (bw_drop b)).
Proof.
  intros S H. assert (W : winv (d_got d) [] (mkbw [] d)) by (split; [reflexivity|apply Nat.le_0_l]). destruct (write_each_ok (d_got d) l [] _ _ _ S W H) as (k & Wk & Lk & Rk). cbn [app] in Wk. unfold bw_drop. destruct (flush_buf b) as [b1 o1] eqn:F. cbn [fst].
  destruct (flush_ok _ _ _ _ _ Wk F) as ([E L] & N & R). split.
  - assert (P : exists pre, d_got (bw_dev b1) = d_got d ++ pre).
    { pose proof (flush_ok _ _ _ _ _ Wk F) as _. unfold flush_buf in F. destruct (d_take (bw_dev b) (bw_buf b)) as [[d1 k1] o2] eqn:T. injection F as <- <-. destruct (take_ok _ _ _ _ _ T) as (G & _). cbn [bw_dev].
      assert (Q : forall l1 b2 b3 o3 pre, d_got (bw_dev b2) = d_got d ++ pre -> write_each b2 l1 = (b3, o3) -> exists pre3, d_got (bw_dev b3) = d_got d ++ pre3).
      { induction l1 as [|x l1 IH]; intros b2 b3 o3 pre Hp Hw; cbn [write_each] in Hw; [injection Hw as <- <-; eauto|]. destruct (write_all b2 x) as [b4 o4] eqn:Ew. assert (exists pre4, d_got (bw_dev b4) = d_got d ++ pre4) as [pre4 P4].
        { unfold write_all in Ew. destruct (Nat.leb _ _); [injection Ew as <- <-; cbn [bw_dev]; eauto|]. destruct (flush_buf b2) as [b5 o5] eqn:F5. unfold flush_buf in F5. destruct (d_take (bw_dev b2) (bw_buf b2)) as [[d6 k6] o6] eqn:T6. injection F5 as <- <-. destruct (take_ok _ _ _ _ _ T6) as (G6 & _).
          destruct o6; injection Ew as <- <-; cbn [bw_dev]; rewrite G6, Hp, <- app_assoc; eauto. }
        destruct o4; [eapply IH; eauto|]. injection Hw as <- <-. eauto. }
      destruct (Q l (mkbw [] d) b ok [] ltac:(cbn; now rewrite app_nil_r) H) as [p Hp]. rewrite G, Hp, <- app_assoc. eauto. }
    destruct P as [pre P]. exists pre, (bw_buf b1 ++ concat (skipn k l)). split; [|split; [exact P|]].
    + rewrite P, <- app_assoc in E. apply app_inv_head in E. rewrite app_assoc, <- E, <- concat_app, firstn_skipn. reflexivity.
    + intros O. rewrite (Lk O), skipn_all. cbn [concat]. rewrite app_nil_r. exact L.
  - intros Rd. destruct (Rk Rd) as [O Rb]. destruct (R Rb) as [O1 R1]. split; [exact O|]. split; [|exact R1]. rewrite (N O1), app_nil_r, (Lk O), firstn_all in E. now symmetry.
Qed.
(* a small file never fails *)
Lemma small_file d l : (length (concat l) <= capacity)%nat -> forall done, (length done + length (concat l) <= capacity)%nat -> write_each (mkbw done d) l = (mkbw (done ++ concat l) d, true).
Proof.
  induction l as [|x l IH]; intros H done D; cbn [write_each concat].
  - now rewrite app_nil_r.
  - cbn [concat] in H, D. rewrite app_length in H, D. unfold write_all. cbn [bw_buf bw_dev]. destruct (Nat.leb_spec (length x) (capacity - length done)); [|lia]. rewrite IH by (rewrite ?app_length; lia). now rewrite app_assoc.
Qed.

(* ---- numbers ---- *)
Lemma le32 x : 0 <= x < 2 ^ 32 -> le (bytes32 x) = x.
Proof.
  intros H. unfold bytes32, le. pose proof (Z.div_mod x 256 ltac:(lia)) as A. pose proof (Z.div_mod (x / 256) 256 ltac:(lia)) as B. pose proof (Z.div_mod (x / 256 / 256) 256 ltac:(lia)) as C.
  replace (2 ^ 8) with 256 by reflexivity. replace (2 ^ 16) with (256 * 256) by reflexivity. replace (2 ^ 24) with (256 * 256 * 256) by reflexivity. rewrite <- !Z.div_div by lia.
  assert (D : x / 256 / 256 / 256 mod 256 = x / 256 / 256 / 256). { apply Z.mod_small. rewrite !Z.div_div by lia. split; [apply Z.div_pos; lia|]. apply Z.div_lt_upper_bound; lia. } rewrite D. lia.
Qed.
Lemma le16 x : 0 <= x < 2 ^ 16 -> le (bytes16 x) = x.
Proof.
  intros H. unfold bytes16, le. pose proof (Z.div_mod x 256 ltac:(lia)) as A. replace (2 ^ 8) with 256 by reflexivity. rewrite (Z.mod_small (x / 256)); [lia|]. split; [apply Z.div_pos; lia|]. apply Z.div_lt_upper_bound; lia.
Qed.
Lemma eqb_refl l : list_eqb l l = true.
Proof. unfold list_eqb. destruct (list_eq_dec Z.eq_dec l l); congruence. Qed.

(* ---- frames ---- *)
Lemma sub_concat b (ls : list (list Z)) i : Forall (fun l => length l = b) ls -> (i < length ls)%nat -> sub (concat ls) (i * b) b = nth i ls [].
Proof.
  revert i. induction ls as [|l ls IH]; intros i F H; [cbn in H; lia|]. inversion F as [|? ? Fl Fs]; subst. cbn [concat]. destruct i as [|i]; unfold sub.
  - cbn [Nat.mul skipn nth]. now rewrite firstn_app, Nat.sub_diag, firstn_all, firstn_O, app_nil_r.
  - cbn [nth]. cbn [Nat.mul]. rewrite skipn_app. replace (length l + i * length l - length l)%nat with (i * length l)%nat by lia. rewrite skipn_all2 by lia. cbn [app]. apply IH; [exact Fs|]. cbn in H. lia.
Qed.
Lemma length_concat b (ls : list (list Z)) : Forall (fun l => length l = b) ls -> length (concat ls) = (length ls * b)%nat.
Proof. induction 1 as [|l ls H F IH]; [reflexivity|]. cbn [concat length]. rewrite app_length, IH, H. lia. Qed.
Section Body.
  Variables (enc : spec_float -> list Z) (b : nat) (w : wave spec_float spec_float).
  Hypothesis Henc : forall x, length (enc x) = b.
  Hypothesis ok : wave_ok w.
  Definition chunks (i : nat) : list (list Z) := map enc (frame w i).
  Definition row (i : nat) : list Z := concat (chunks i).
  Lemma frame_length i : length (frame w i) = channels w. Proof using. unfold frame. now rewrite map_length. Qed.
  Lemma at_frame i c : (i < w_len w)%nat -> (c < channels w)%nat -> w_at w c i = Some (nth c (frame w i) S754_nan).
  Proof using ok.
    intros I C. destruct ok as [_ F]. unfold w_at, frame. unfold channels in C. destruct (nth_error (w_vec w) c) as [ch|] eqn:E; [|apply nth_error_None in E; lia]. assert (L : length ch = w_len w) by (rewrite Forall_forall in F; apply F; eapply nth_error_In; eauto).
    rewrite (nth_error_nth' ch i S754_nan) by lia. f_equal. pose proof (map_nth (fun c => nth i c S754_nan) (w_vec w) [] c) as M. cbn beta in M. rewrite (nth_indep (map _ _) S754_nan (nth i [] S754_nan)) by (now rewrite map_length). rewrite M. now rewrite (nth_error_nth (w_vec w) c [] E).
  Qed.
  Lemma each_frame i rest : (i < w_len w)%nat -> each_sample enc w (map (fun c => (i, c)) (seq 0 (channels w)) ++ rest) = bind (each_sample enc w rest) (fun r => Val (chunks i ++ r)).
  Proof using ok.
    intros I. assert (G : forall m c0, (c0 + m <= channels w)%nat -> each_sample enc w (map (fun c => (i, c)) (seq c0 m) ++ rest) = bind (each_sample enc w rest) (fun r => Val (map enc (firstn m (skipn c0 (frame w i))) ++ r))).
    { induction m as [|m IH]; intros c0 H; cbn [seq map app each_sample].
      - destruct (each_sample enc w rest); reflexivity.
      - rewrite at_frame by lia. rewrite IH by lia. destruct (each_sample enc w rest) as [r| |]; cbn [bind]; try reflexivity. do 2 f_equal. assert (K : skipn c0 (frame w i) = nth c0 (frame w i) S754_nan :: skipn (S c0) (frame w i)).
        { assert (c0 < length (frame w i))%nat by (rewrite frame_length; lia). revert H0. generalize (frame w i). clear. intros l. revert c0. induction l as [|y k IHk]; intros n L; [cbn in L; lia|]. destruct n; [reflexivity|]. cbn [skipn nth]. apply IHk. cbn in L. lia. }
        rewrite K. reflexivity. }
    rewrite G by lia. cbn [skipn]. rewrite <- (frame_length i), firstn_all. reflexivity.
  Qed.
  Lemma body_ok : body enc w = Val (concat (map chunks (seq 0 (w_len w)))).
  Proof using ok.
    unfold body. clear b Henc. assert (G : forall m n, (n + m <= w_len w)%nat -> each_sample enc w (list_prod (seq n m) (seq 0 (channels w))) = Val (concat (map chunks (seq n m)))).
    { induction m as [|m IH]; intros n H; [reflexivity|]. cbn [seq list_prod map concat]. rewrite each_frame by lia. now rewrite IH by lia. }
    apply G. lia.
  Qed.
  Lemma chunk_length i : Forall (fun l => length l = b) (chunks i).
  Proof using Henc. apply Forall_forall. intros l H. apply in_map_iff in H. destruct H as (x & <- & _). apply Henc. Qed.
  Lemma row_length i : length (row i) = (channels w * b)%nat.
  Proof using Henc. unfold row. rewrite (length_concat b) by apply chunk_length. unfold chunks. now rewrite map_length, frame_length. Qed.
  Lemma concat_chunks l : concat (concat (map chunks l)) = concat (map row l).
  Proof using. induction l as [|i l IH]; [reflexivity|]. cbn [map concat]. now rewrite concat_app, IH. Qed.
  Definition data : list Z := concat (map row (seq 0 (w_len w))).
  Lemma rows_length : Forall (fun l => length l = (channels w * b)%nat) (map row (seq 0 (w_len w))).
  Proof using Henc. apply Forall_forall. intros l H. apply in_map_iff in H. destruct H as (x & <- & _). apply row_length. Qed.
  Lemma data_length : length data = (w_len w * (channels w * b))%nat.
  Proof using Henc. unfold data. rewrite (length_concat (channels w * b)) by apply rows_length. now rewrite map_length, seq_length. Qed.
  Lemma data_frames : map (fun i => map (fun c => le (sub (sub data (i * (channels w * b)) (channels w * b)) (c * b) b)) (seq 0 (channels w))) (seq 0 (w_len w)) = map (fun i => map (fun x => le (enc x)) (frame w i)) (seq 0 (w_len w)).
  Proof using Henc.
    apply map_ext_in. intros i I. apply in_seq in I. unfold data. rewrite sub_concat; [|apply rows_length|rewrite map_length, seq_length; lia]. rewrite (nth_indep _ [] (row 0)) by (rewrite map_length, seq_length; lia). rewrite (map_nth row), seq_nth by lia. cbn [Nat.add].
    apply (nth_ext _ _ (le (sub (row i) (0 * b) b)) (le (enc S754_nan))); [now rewrite !map_length, seq_length, frame_length|]. rewrite map_length, seq_length. intros c C. rewrite (map_nth (fun c => le (sub (row i) (c * b) b))), seq_nth by lia. cbn [Nat.add]. unfold row. rewrite sub_concat; [|apply chunk_length|unfold chunks; rewrite map_length, frame_length; lia].
    unfold chunks. rewrite (nth_indep _ [] (enc S754_nan)) by (rewrite map_length, frame_length; lia). rewrite (map_nth enc). symmetry. apply (map_nth (fun x => le (enc x))).
  Qed.
End Body.
