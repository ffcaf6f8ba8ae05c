(* Properties of crossfades and of the silent placeholder. *)
From Coq Require Import Reals Lra QArith SpecFloat.
From Verif Require Import FadeExamples.
Local Open Scope R_scope.

(* ------------------------------------------------------------------ C11 *)
(* With exact arithmetic, a crossfade of N samples queued on a node that is not fading outputs, at sample j < N,
   old * w(1 - j/N) + new * w(j/N), from sample N on the new unit alone, and has dropped the old unit after N samples. *)
Theorem C11_crossfade : forall (P U : Type) (at_ : fade -> R -> R) (ops : unit_ops R P U) sr, unit_laws 0 ops ->
  forall (x : slotx R U) (e : nedit R U) N, x_next x = None -> x_latest x = None -> (1 <= N)%nat -> ed_time e * sr = INR N ->
  forall ins, let (x', outs) := ticks (x_tick Rnum_ops at_ ops sr) (enqueue Rnum_ops x e) ins in
  outs = mixed at_ (ed_fade e) N 0 (alone ops (x_unit x) ins) (alone ops (ed_unit e) ins) /\
  ((N <= length ins)%nat -> x_unit x' = after ops (ed_unit e) ins /\ x_next x' = None /\ x_latest x' = None).
Proof.
  intros P U at_ ops sr Hl x e N Hn Hla HN Ht ins. unfold enqueue. rewrite Hn, Hla. rewrite (ticks_fading at_ ops sr ins _ N 0 e).
  - cbn [x_unit]. split; auto. intros H. destruct (Nat.ltb_spec (0 + length ins) N); [lia|]. auto.
  - repeat split; cbn; auto; try lia. unfold Rdiv. now rewrite Rmult_0_l.
Qed.
Print Assumptions C11_crossfade.

(* However the signal is cut into blocks, block processing gives the same samples and the same state, at any point of the crossfade. *)
Theorem C11_blocks : forall (P U : Type) (at_ : fade -> R -> R) (ops : unit_ops R P U) sr, unit_laws 0 ops ->
  forall (x : slotx R U), fits ops x -> x_latest x = None -> (x_next x = None \/ exists N k e, fading sr N k e x) ->
  forall bs, Forall (fit_block ops (x_unit x)) bs ->
  snd (x_blocks at_ ops sr x bs) = snd (ticks (x_tick Rnum_ops at_ ops sr) x (frames_in bs)) /\
  same_slot (fst (x_blocks at_ ops sr x bs)) (fst (ticks (x_tick Rnum_ops at_ ops sr) x (frames_in bs))).
Proof. intros P U at_ ops sr Hl x Hf Hla Hx bs. exact (blocks_exact at_ ops sr Hl bs x (conj Hla Hx) Hf). Qed.
Print Assumptions C11_blocks.

(* The weights are in [0, 1], rise from 0 to 1, and those of the smooth fade sum to one. *)
Theorem C11_weights :
  (forall f p, 0 <= p <= 1 -> 0 <= R_at f p <= 1) /\ (forall f, R_at f 0 = 0 /\ R_at f 1 = 1) /\
  (forall f p q, 0 <= p -> p <= q -> q <= 1 -> R_at f p <= R_at f q) /\ (forall p, R_at Smooth (1 - p) + R_at Smooth p = 1).
Proof.
  split; [|split; [|split]].
  - intros [|] p H; [now apply power_01|now apply smooth5_01].
  - intros [|]; [rewrite !power_eq; split; field|]. unfold R_at, fade_at, smooth5. cbn. split; ring.
  - intros [|] p q; [apply power_mono|apply smooth5_mono].
  - exact smooth5_sum.
Qed.
Print Assumptions C11_weights.
Example C11_example : fading 1 4 0 (mkEdit 1 Smooth 4) (enqueue Rnum_ops (x_new Rnum_ops (const_ops Rnum_ops) 3) (mkEdit 1 Smooth 4)) /\
  fits (const_ops Rnum_ops) (enqueue Rnum_ops (x_new Rnum_ops (const_ops Rnum_ops) 3) (mkEdit 1 Smooth 4)) /\ unit_laws 0 (const_ops Rnum_ops).
Proof.
  split; [unfold fading; cbn [x_next x_latest x_phase ed_time x_new enqueue]; rewrite ?INR_IZR_INZ; cbn; repeat apply conj; auto; try lra; unfold Rdiv; lra|]. split; [|exact const_laws]. split; [|cbn; intros e [= <-]; auto]. cbn [x_unit x_tmp x_new enqueue x_next]. split; auto. repeat constructor.
Qed.

(* In f32 arithmetic neither mode keeps the length: a crossfade of 12 samples takes 13 ticks, and one of 3 samples, in blocks of one
   sample, takes 2. *)
Theorem C11_f32_length_refuted :
  let tick := x_tick f32_ops f32_at (const_ops f32_ops) (f32z 1) in
  let process := x_process f32_ops f32_at (const_ops f32_ops) (f32z 1) in
  let x12 := enqueue f32_ops (x_new f32_ops (const_ops f32_ops) (f32z 0)) (mkEdit (f32z 1) Smooth (f32z 12)) in
  let x3 := enqueue f32_ops (x_new f32_ops (const_ops f32_ops) (f32z 0)) (mkEdit (f32z 1) Smooth (f32z 3)) in
  let o := [repeat (f32z 0) MAXB] in
  x_next (fst (ticks tick x12 (repeat [] 12))) <> None /\ x_next (fst (ticks tick x12 (repeat [] 13))) = None /\
  x_next (fst (ticks tick x3 (repeat [] 2))) <> None /\ x_next (fst (process (fst (process x3 1%nat [] o)) 1%nat [] o)) = None.
Proof. vm_compute. repeat split; discriminate. Qed.
Print Assumptions C11_f32_length_refuted.

(* If another crossfade is queued behind the current one, ticks start it at once but blocks only at the next block. *)
Theorem C11_queued_refuted :
  let ops := const_ops Qnum_ops in
  let x := enqueue Qnum_ops (enqueue Qnum_ops (x_new Qnum_ops ops 0%Q) (mkEdit 1%Q Smooth 2%Q)) (mkEdit 3%Q Smooth 2%Q) in
  let o := [repeat 0%Q MAXB] in
  let by_ticks := snd (ticks (x_tick Qnum_ops Q_at ops 1%Q) x (repeat [] 8)) in
  let by_block := frames 0%Q (snd (x_process Qnum_ops Q_at ops 1%Q x 8 [] o)) 8 in
  map (map Qred) by_ticks = [[0]; [1 # 2]; [1]; [2]; [3]; [3]; [3]; [3]]%Q /\
  map (map Qred) by_block = [[0]; [1 # 2]; [1]; [1]; [1]; [1]; [1]; [1]]%Q.
Proof. vm_compute. split; reflexivity. Qed.
Print Assumptions C11_queued_refuted.

(* ------------------------------------------------------------------ C12 *)
(* The placeholder is silent in ticks; in blocks it silences the first simd_items(size) samples and leaves the others as they were. *)
Theorem C12_dummy_partial : forall (A : Type) (zero : A) outputs input size (out : list (list A)) c k,
  dummy_tick zero outputs input = repeat zero outputs /\
  (shaped outputs out -> (c < outputs)%nat -> (k < MAXB)%nat ->
   nth k (nth c (dummy_process zero size out) []) zero = if Nat.ltb k ((size + 7) / 8) then zero else nth k (nth c out []) zero).
Proof. intros A zero outputs input size out c k. split; [reflexivity|]. exact (dummy_process_nth zero outputs size out c k). Qed.
Print Assumptions C12_dummy_partial.
Example C12_dummy_case : shaped 2 [repeat 7%Z 64; repeat 8%Z 64] /\ nth 3 (nth 1 (dummy_process 0%Z 30 [repeat 7%Z 64; repeat 8%Z 64]) []) 0%Z = 0%Z /\ nth 4 (nth 1 (dummy_process 0%Z 30 [repeat 7%Z 64; repeat 8%Z 64]) []) 0%Z = 8%Z.
Proof. split; [repeat constructor|]. split; reflexivity. Qed.
(* So, started on a silent buffer, it stays silent. *)
Theorem C12_dummy_silent_partial : forall (A : Type) (zero : A) outputs size, dummy_process zero size (repeat (repeat zero MAXB) outputs) = repeat (repeat zero MAXB) outputs.
Proof. intros A zero outputs size. exact (dummy_process_silent zero outputs size). Qed.
Print Assumptions C12_dummy_silent_partial.

(* But during a fade-in the buffer holds the previous block. Fading in the constant 1 over 128 samples in two blocks of 64 outputs,
   at sample 84, the previous block's value on top of the fade-in, where ticks output the fade-in alone. *)
Theorem C12_fade_in_refuted :
  let ops := fade_in_ops Qnum_ops in
  let x := enqueue Qnum_ops (x_new Qnum_ops ops None) (mkEdit (Some 1%Q) Smooth 128%Q) in
  let o := [repeat 0%Q MAXB] in
  let (x1, o1) := x_process Qnum_ops Q_at ops 1%Q x 64 [] o in
  let (x2, o2) := x_process Qnum_ops Q_at ops 1%Q x1 64 [] o1 in
  map Qred (nth 84 (snd (ticks (x_tick Qnum_ops Q_at ops 1%Q) x (repeat [] 128))) []) = [Qred (Q_at Smooth (84 # 128))] /\
  map Qred (frame 0%Q o2 20) = [Qred (Q_at Smooth (84 # 128) + Q_at Smooth (20 # 128) * Q_at Smooth (44 # 128))] /\
  map Qred (frame 0%Q o2 20) <> map Qred (nth 84 (snd (ticks (x_tick Qnum_ops Q_at ops 1%Q) x (repeat [] 128))) []).
Proof. vm_compute. repeat split; discriminate. Qed.
Print Assumptions C12_fade_in_refuted.
