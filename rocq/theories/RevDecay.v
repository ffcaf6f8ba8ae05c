(* How fast reverb_stereo and reverb4_stereo fall silent. *)
From Coq Require Import Reals Lra.
From Verif Require Export RevSpec.
From Verif Require Import Base BufProofs DelayReals RevProofs RevGraph RevStereo.
From Verif Require Import RevSpec.
Local Open Scope R_scope.

Lemma delay_length_le t sr D : 0 <= t * sr <= INR D -> (delay_length Rnum_ops t sr <= D)%nat.
Proof.
  intros [H0 H1]. unfold delay_length. cbn [nmul Rnum_ops]. fold Rnum_ops. destruct (round_us_near (t * sr) H0) as [H _]. set (k := round_us _ _) in *. assert (k < D + 1)%nat by (apply INR_lt; rewrite plus_INR; cbn; lra). lia.
Qed.
Lemma stereo_lengths sr room D : 0 < room -> 0 < sr -> 82923 / 1000000 * room / 10 * sr <= INR D ->
  Forall (fun d => (delay_length Rnum_ops (dec Rnum_ops d 1000000 * room / 10)%R sr <= D)%nat) stereo_delays.
Proof.
  intros Hr Hs H. assert (P : 0 < room * sr) by (apply Rmult_lt_0_compat; assumption). assert (F : Forall (fun d => (0 <= d <= 82923)%Z) stereo_delays) by (repeat constructor; discriminate). eapply Forall_impl; [|exact F]. cbv beta. intros d [D0 D1]. apply IZR_le in D0, D1. apply delay_length_le.
  unfold dec. cbn [ndiv nofZ Rnum_ops]. replace (IZR d / 1000000 * room / 10 * sr) with (IZR d / 10000000 * (room * sr)) by field. replace (82923 / 1000000 * room / 10 * sr) with (82923 / 10000000 * (room * sr)) in H by field. split; [apply Rmult_le_pos; lra|]. eapply Rle_trans; [|exact H]. apply Rmult_le_compat_r; lra.
Qed.
Lemma stereo_within sr room time damping r D : 0 < sr -> 0 < room -> 0 < time -> 0 <= damping <= 2 -> 82923 / 1000000 * room / 10 * sr <= INR D -> 1 <= r -> let a := gainR room time in a * r ^ (D + 3) < 1 ->
  exists x, stereoR sr room time damping = Some x /\ let k := a * r ^ (D + 2) / (1 - a * r ^ (D + 3)) in stereo_gain r (2 * (k * k)) x.
Proof. intros Hs Hr Ht Hd HD H1 a Ha. apply stereo_ok; auto. apply stereo_lengths; assumption. Qed.
Lemma room4_within sr room time r D : 0 < sr -> 0 < time -> 6995449 / 100000000 * (Rmax room 15 / 10) * sr <= INR D -> 1 <= r -> let a := gainR 10 time in a * r ^ (D + 3) < 1 ->
  exists x, room4R sr room time = Some x /\ let k := a * r ^ (D + 2) / (1 - a * r ^ (D + 3)) in stereo_gain r (8 * (k * k * (k * k))) x.
Proof.
  intros Hs Ht HD H1 a Ha. unfold room4R, reverb4_stereo. fold (stereo4R sr). cbn [nmax ndiv nmul nofZ Rnum_ops]. fold Rnum_ops. apply stereo4_ok; auto.
  apply Forall_map. assert (M : 15 <= Rmax room 15) by apply Rmax_r. set (w := Rmax room 15) in *. assert (P : 0 < w * sr) by (apply Rmult_lt_0_compat; lra).
  assert (F : Forall (fun d => (0 <= d <= 69954490)%Z) optimized_delays) by (repeat constructor; discriminate). eapply Forall_impl; [|exact F]. cbv beta. intros d [D0 D1]. apply IZR_le in D0, D1. unfold dec. cbn [ndiv nofZ nmul Rnum_ops].
  split; [apply Rmult_le_pos; [|lra]; unfold Rdiv; lra|]. apply delay_length_le. replace (IZR d / 1000000000 * (w / 10) * sr) with (IZR d / 10000000000 * (w * sr)) by field. replace (6995449 / 100000000 * (w / 10) * sr) with (69954490 / 10000000000 * (w * sr)) in HD by field.
  split; [apply Rmult_le_pos; lra|]. eapply Rle_trans; [|exact HD]. apply Rmult_le_compat_r; lra.
Qed.
Lemma ceil_nat x : 0 <= x -> exists D, x <= INR D < x + 2.
Proof.
  intros H. exists (Z.to_nat (up x)). destruct (archimed x) as [A B]. assert (0 <= up x)%Z by (apply le_IZR; lra). rewrite INR_IZR_INZ, Z2Nat.id by assumption. lra.
Qed.
Lemma Rpower_pow' p n : Rpower 10 p ^ n = Rpower 10 (p * INR n). Proof. rewrite <- Rpower_pow by apply exp_pos. apply Rpower_mult. Qed.
Lemma Rpower_lt1 q : q < 0 -> Rpower 10 q < 1. Proof. intros H. rewrite <- (Rpower_O 10) by lra. apply Rpower_lt; lra. Qed.
Lemma Rpower_ge1 q : 0 <= q -> 1 <= Rpower 10 q. Proof. intros H. rewrite <- (Rpower_O 10) by lra. apply Rle_Rpower; lra. Qed.
(* from the weighted bound to the level after n samples *)
Lemma falls p g x : 0 <= p -> 0 <= g -> stereo_gain (Rpower 10 p) g x -> forall l n m, stream 2 l -> total (tail_after rops x l n m) <= g * Rpower 10 (- 2 * p * INR n) * total l.
Proof.
  intros Hp Hg (_ & I & _ & G) l n m L. pose proof (tail_energy rops (Rpower 10 p) g x l n m (Rpower_ge1 p Hp) G ltac:(rewrite I; exact L)) as T. rewrite Rpower_pow' in T. rewrite mult_INR in T. cbn [INR] in T. 
  set (t := total (tail_after rops x l n m)) in *. set (q := p * ((1 + 1) * INR n)) in *. replace (- 2 * p * INR n) with (- q) by (unfold q; ring). rewrite Rpower_Ropp. pose proof (exp_pos (q * ln 10)) as E. fold (Rpower 10 q) in E. set (w := Rpower 10 q) in *.
  apply Rmult_le_reg_l with w; [exact E|]. replace (w * (g * / w * total l)) with (g * total l) by (field; lra). exact T.
Qed.
Lemma stereo_falls sr room time damping : 0 < sr -> 0 < time -> 0 <= damping <= 2 -> 8000 <= room * sr ->
  exists x g, stereoR sr room time damping = Some x /\ ins rops x = 2%nat /\ outs rops x = 2%nat /\ forall l n m, stream 2 l -> total (tail_after rops x l n m) <= g * Rpower 10 (- 2 * (INR n / (time * sr))) * total l.
Proof.
  intros Hs Ht Hd Hrs. assert (Hr : 0 < room) by (apply Rmult_lt_reg_r with sr; [exact Hs|]; lra). destruct (ceil_nat (82923 / 1000000 * room / 10 * sr)) as (D & D0 & D1); [replace (82923 / 1000000 * room / 10 * sr) with (82923 / 10000000 * (room * sr)) by field; lra|].
  assert (Hts : 0 < time * sr) by (apply Rmult_lt_0_compat; assumption). set (p := / (time * sr)). assert (P : 0 < p) by (apply Rinv_0_lt_compat; exact Hts).
  destruct (stereo_within sr room time damping (Rpower 10 p) D Hs Hr Ht Hd D0 (Rpower_ge1 p ltac:(lra))) as (x & E & G).
  { rewrite gainR_eq by lra. rewrite Rpower_pow', <- Rpower_plus. apply Rpower_lt1. rewrite plus_INR. cbn [INR]. replace (- (9 / 1000) * room / time) with (- (9 / 1000) * (room * sr) * p) by (unfold p; field; lra).
    replace (- (9 / 1000) * (room * sr) * p + p * (INR D + (1 + 1 + 1))) with (- (p * (9 / 1000 * (room * sr) - INR D - 3))) by ring. apply Ropp_lt_gt_0_contravar, Rmult_lt_0_compat; [exact P|].
    replace (82923 / 1000000 * room / 10 * sr) with (82923 / 10000000 * (room * sr)) in D1 by field. lra. }
  eexists x, _. split; [exact E|]. split; [apply G|]. split; [apply G|]. intros l n m L. replace (- 2 * (INR n / (time * sr))) with (- 2 * p * INR n) by (unfold p, Rdiv; ring). apply falls; [lra| |exact G|exact L].
  cbv zeta. set (k := _ / _). pose proof (sq_nonneg k). lra.
Qed.
Lemma room4_falls sr room time : 0 < time -> 1000 <= sr ->
  exists x g, room4R sr room time = Some x /\ ins rops x = 2%nat /\ outs rops x = 2%nat /\ forall l n m, stream 2 l -> total (tail_after rops x l n m) <= g * Rpower 10 (- 2 * (12 / Rmax room 15) * (INR n / (time * sr))) * total l.
Proof.
  intros Ht Hs. assert (M : 15 <= Rmax room 15) by apply Rmax_r. destruct (ceil_nat (6995449 / 100000000 * (Rmax room 15 / 10) * sr)) as (D & D0 & D1); [apply Rmult_le_pos; lra|].
  assert (Hts : 0 < time * sr) by (apply Rmult_lt_0_compat; lra). set (w := Rmax room 15) in *. set (p := 12 / w * / (time * sr)). assert (P : 0 < p). { apply Rmult_lt_0_compat; [|apply Rinv_0_lt_compat; exact Hts]. apply Rmult_lt_0_compat; [lra|]. apply Rinv_0_lt_compat. lra. }
  destruct (room4_within sr room time (Rpower 10 p) D ltac:(lra) Ht D0 (Rpower_ge1 p ltac:(lra))) as (x & E & G).
  { rewrite gainR_eq by lra. rewrite Rpower_pow', <- Rpower_plus. apply Rpower_lt1. rewrite plus_INR. cbn [INR]. replace (- (9 / 1000) * 10 / time) with (- (p * (9 / 1200 * (w * sr)))) by (unfold p; field; split; lra).
    replace (- (p * (9 / 1200 * (w * sr))) + p * (INR D + (1 + 1 + 1))) with (- (p * (9 / 1200 * (w * sr) - INR D - 3))) by ring. apply Ropp_lt_gt_0_contravar, Rmult_lt_0_compat; [exact P|].
    replace (6995449 / 100000000 * (w / 10) * sr) with (6995449 / 1000000000 * (w * sr)) in D1 by field. assert (15 * 1000 <= w * sr) by (apply Rmult_le_compat; lra). lra. }
  eexists x, _. split; [exact E|]. split; [apply G|]. split; [apply G|]. intros l n m L. replace (- 2 * (12 / w) * (INR n / (time * sr))) with (- 2 * p * INR n) by (unfold p, Rdiv; ring). apply falls; [lra| |exact G|exact L].
  cbv zeta. set (k := _ / _). pose proof (sq_nonneg (k * k)). lra.
Qed.
