(* Proofs about the sounds of DrumModel.v. *)
From Coq Require Import Reals Lra Lia FunctionalExtensionality Psatz.
From Verif Require Import EnvProofs OscProofs MeterProofs FxProofs PreProofs SoundProofs SoundCurves.
From Verif Require Import DrumSpec.
Import ListNotations.
Local Open Scope R_scope.
Local Notation nR := Rnum_ops.
Local Notation tickS := (NodeModel.tick R_arith soundR).
Local Notation tickD := (NodeModel.tick R_arith drumR).
Local Notation nodeD := (NodeModel.node R (du R unit unit R)).

(* outputs of a node whose states are described by Inv, for any inputs *)
Lemma driven_outputs (Inv : nat -> nodeD -> Prop) (out : nat -> list R) (inp : nat -> list R) :
  (forall n x, Inv n x -> exists y, tickD x (inp n) = (y, out n) /\ Inv (S n) y) ->
  forall N x n, Inv 0%nat x -> (n < N)%nat -> nth n (drums_out x (map inp (seq 0 N))) [] = out n.
Proof.
  intros St. assert (G : forall N x k n, Inv k x -> (n < N)%nat -> nth n (drums_out x (map inp (seq k N))) [] = out (k + n)%nat).
  { induction N as [|N IH]; intros x k n H Hn; [lia|]. destruct (St k x H) as (y & E & H'). unfold NodeSpec.outputs in *. cbn [seq map BufModel.ticks]. rewrite E.
    specialize (IH y (S k)). destruct (BufModel.ticks tickD y (map inp (seq (S k) N))) as [z o] eqn:Eo. cbn [snd] in *. destruct n as [|n]; [now rewrite Nat.add_0_r|].
    cbn [nth]. rewrite IH; [f_equal; lia|exact H'|lia]. }
  intros N x n H Hn. now rewrite (G N x 0%nat n H Hn).
Qed.
Lemma undriven N : repeat (@nil R) N = map (fun _ => []) (seq 0 N).
Proof. generalize 0%nat. induction N as [|N IH]; intros k; [reflexivity|]. cbn [repeat seq map]. now rewrite <- IH. Qed.

(* ---- leaves of SoundModel.v ---- *)
Lemma tau_R : tau nR R_elem = 2 * PI. Proof. reflexivity. Qed.
Lemma leaf_step u u' i o : tickS (Leaf u) i = (Leaf u', o) -> tickD (Leaf (DSu u)) i = (Leaf (DSu u'), o).
Proof.
  cbn [tick soundR su_ops u_tick drumR du_ops du_tick]. change (e_sin (tl_elem real_tools)) with sin. change (e_cos (tl_elem real_tools)) with cos. change (tau nR (tl_elem real_tools)) with (2 * PI).
  destruct (su_tick nR sin cos (2 * PI) u i) as [v y]. intros E. injection E as -> ->. reflexivity.
Qed.
Definition lifted (x : NodeModel.node R (su R)) : nodeD := leaf_of x.
Lemma lfo_step' sr h ch E n i : tickD (lifted (lfo_at sr h ch E n)) i = (lifted (lfo_at sr h ch E (S n)), lfo_of sr h ch E n).
Proof. unfold lifted, lfo_at, leaf_of. apply leaf_step. exact (lfo_step sr h ch E n i). Qed.
Lemma sine_step' sr h f n i : nth 0 i 0 = f n -> tickD (lifted (sine_at sr h f n)) i = (lifted (sine_at sr h f (S n)), [sine_of sr h f n]).
Proof. intros H. unfold lifted, sine_at, leaf_of. apply leaf_step. exact (sine_step sr h f n i H). Qed.

(* ---- white noise ---- *)
Definition white_st (h : N) (n : nat) : nodeD := Leaf (DNoise ((noise_reset h + N.of_nat n) mod 2 ^ 32) h).
Lemma white_0 h : white_new nR h = white_st h 0.
Proof. unfold white_new, white_st, du_set_hash. rewrite N.add_0_r. do 2 f_equal. unfold noise_reset. rewrite N.mod_mod by discriminate. reflexivity. Qed.
Lemma white_step h n i : tickD (white_st h n) i = (white_st h (S n), [white_at h n]).
Proof.
  unfold white_st. cbn [tick drumR du_ops u_tick du_tick]. unfold noise_tick, wadd. cbv zeta. rewrite N.add_mod_idemp_l by discriminate.
  replace (noise_reset h + N.of_nat n + 1)%N with (noise_reset h + N.of_nat (S n))%N by lia. do 2 f_equal. unfold white_at, noise_value. replace (noise_reset h + N.of_nat n + 1)%N with (noise_reset h + N.of_nat (S n))%N by lia.
  cbn [nsub nmul ndiv nofZ Rnum_ops n1]. unfold n1. cbn [nofZ Rnum_ops]. f_equal. unfold Rdiv. ring.
Qed.

(* ---- the pinking filter ---- *)
Definition late (p c : R) (x : nat -> R) (n : nat) : R := before (leaky p c x) n.
Definition pink_st (x : nat -> R) (n : nat) : pink R :=
  mkPink (late 0.99886 0.0555179 x n) (late 0.99332 0.0750759 x n) (late 0.969 0.153852 x n) (late 0.8665 0.3104856 x n) (late 0.55 0.5329522 x n) (- late (- (0.7616)) 0.016898 x n) (0.115926 * before x n).
Lemma leaky_late p c x n : leaky p c x n = p * late p c x n + c * x n.
Proof. destruct n as [|n]; unfold late; cbn [leaky before]; ring. Qed.
Lemma pink_at x n : pink_step nR (pink_st x n) (x n) = (pink_st x (S n), pinked x n).
Proof.
  unfold pink_step, pink_st. cbn [k0 k1 k2 k3 k4 k5 k6 nadd nsub nmul ndiv nneg nofZ Rnum_ops]. cbv zeta. apply f_equal2.
  - unfold late at 7 8 9 10 11 12. cbn [before]. rewrite !leaky_late. f_equal; lra.
  - unfold pinked. rewrite !leaky_late. lra.
Qed.
Definition pink_leaf (x : nat -> R) (n : nat) : nodeD := Leaf (DPink (pink_st x n)).
Lemma pinkpass_step x n i : nth 0 i 0 = x n -> tickD (pink_leaf x n) i = (pink_leaf x (S n), [pinked x n]).
Proof. intros H. unfold pink_leaf. cbn [tick drumR du_ops u_tick du_tick]. change (n0 nR) with 0. rewrite H, pink_at. reflexivity. Qed.
Lemma pinkpass_0 x : pinkpass_new nR = pink_leaf x 0 :> nodeD.
Proof. unfold pinkpass_new, pink_leaf, pink_st, late. cbn [before]. change (n0 nR) with 0. do 3 f_equal; ring. Qed.
Lemma pinkpass_outputs x N n : (n < N)%nat -> nth n (drums_out pinkpassR (map (fun k => [x k]) (seq 0 N))) [] = [pinked x n].
Proof.
  intros H. apply (driven_outputs (fun k y => y = pink_leaf x k) (fun n => [pinked x n]) (fun k => [x k])); [|apply pinkpass_0|exact H].
  intros k y ->. eexists. split; [apply pinkpass_step|]; reflexivity.
Qed.
Definition pink_node h n : nodeD := Pipe (white_st h n) (pink_leaf (white_at h) n).
Lemma pink_step' h n i : tickD (pink_node h n) i = (pink_node h (S n), [pinked (white_at h) n]).
Proof. unfold pink_node. cbn [tick]. rewrite (white_step h n i). rewrite (pinkpass_step (white_at h)) by reflexivity. reflexivity. Qed.
Lemma pink_0 h : pinkR h = pink_node h 0.
Proof. unfold pinkR, pink_noise, pink_node. rewrite white_0, (pinkpass_0 (white_at h)). reflexivity. Qed.
Lemma pink_outputs h N n : (n < N)%nat -> nth n (drums_out (pinkR h) (repeat [] N)) [] = [pinked (white_at h) n].
Proof.
  intros H. rewrite undriven. apply (driven_outputs (fun k y => y = pink_node h k) (fun n => [pinked (white_at h) n]) (fun _ => [])); [|apply pink_0|exact H].
  intros k y ->. eexists. split; [apply pink_step'|]; reflexivity.
Qed.

(* ---- levels ---- *)
Lemma white_range h n : -1 <= white_at h n <= 1.
Proof.
  unfold white_at. set (v := N.shiftr _ 8). assert (V : (v < 2 ^ 24)%N).
  { unfold v. rewrite N.shiftr_div_pow2. apply N.div_lt_upper_bound; [discriminate|]. change (2 ^ 8 * 2 ^ 24)%N with (2 ^ 32)%N. apply N.mod_lt. discriminate. }
  assert (0 <= IZR (Z.of_N v) <= 16777215). { split; [apply IZR_le; lia|]. apply IZR_le. change (2 ^ 24)%N with 16777216%N in V. lia. }
  lra.
Qed.
Lemma leaky_bound p c x b n : 0 <= c -> Rabs p < 1 -> (forall k, Rabs (x k) <= b) -> Rabs (leaky p c x n) <= c / (1 - Rabs p) * b.
Proof.
  intros C P X. assert (B : 0 <= b) by (eapply Rle_trans; [apply Rabs_pos|apply (X 0%nat)]). pose proof (Rabs_pos p) as P0. set (K := c / (1 - Rabs p)).
  assert (EK : K = c + Rabs p * K) by (unfold K; field; lra). assert (K0 : 0 <= K) by (apply Rle_mult_inv_pos; lra).
  assert (XC : forall k, Rabs (c * x k) <= c * b) by (intros k; rewrite Rabs_mult, (Rabs_pos_eq c) by lra; apply Rmult_le_compat_l; auto).
  induction n as [|n IH]; cbn [leaky].
  - eapply Rle_trans; [apply XC|]. rewrite EK. assert (0 <= Rabs p * K * b) by (apply Rmult_le_pos; [apply Rmult_le_pos|]; lra). lra.
  - eapply Rle_trans; [apply Rabs_triang|]. specialize (XC (S n)). rewrite Rabs_mult. assert (Rabs p * Rabs (leaky p c x n) <= Rabs p * (K * b)) by (apply Rmult_le_compat_l; lra).
    rewrite EK. lra.
Qed.
Lemma pinked_bound x b n : (forall k, Rabs (x k) <= b) -> Rabs (pinked x n) <= 8.01 * b.
Proof.
  intros X. assert (B : 0 <= b) by (eapply Rle_trans; [apply Rabs_pos|apply (X 0%nat)]). unfold pinked.
  assert (L : forall p c, 0 <= c -> -1 < p < 1 -> Rabs (leaky p c x n) <= c / (1 - Rabs p) * b) by (intros p c C P; apply leaky_bound; [exact C|apply Rabs_def1; lra|exact X]).
  assert (Y : Rabs (before x n) <= b) by (destruct n; cbn [before]; [rewrite Rabs_R0; exact B|apply X]). specialize (X n).
  pose proof (L 0.99886 0.0555179 ltac:(lra) ltac:(lra)) as L0. pose proof (L 0.99332 0.0750759 ltac:(lra) ltac:(lra)) as L1. pose proof (L 0.969 0.153852 ltac:(lra) ltac:(lra)) as L2.
  pose proof (L 0.8665 0.3104856 ltac:(lra) ltac:(lra)) as L3. pose proof (L 0.55 0.5329522 ltac:(lra) ltac:(lra)) as L4. pose proof (L (- (0.7616)) 0.016898 ltac:(lra) ltac:(lra)) as L5.
  rewrite Rabs_Ropp in L5. rewrite (Rabs_pos_eq 0.99886) in L0 by lra. rewrite (Rabs_pos_eq 0.99332) in L1 by lra. rewrite (Rabs_pos_eq 0.969) in L2 by lra. rewrite (Rabs_pos_eq 0.8665) in L3 by lra.
  rewrite (Rabs_pos_eq 0.55) in L4 by lra. rewrite (Rabs_pos_eq 0.7616) in L5 by lra.
  assert (D : forall u m, Rabs u <= m -> - m <= u <= m) by (intros u m; unfold Rabs; destruct (Rcase_abs u); lra).
  apply D in L0, L1, L2, L3, L4, L5, X, Y. apply Rabs_le.
  replace (0.0555179 / (1 - 0.99886)) with (555179 / 11400) in L0 by lra. replace (0.0750759 / (1 - 0.99332)) with (750759 / 66800) in L1 by lra. replace (0.153852 / (1 - 0.969)) with (153852 / 31000) in L2 by lra.
  replace (0.3104856 / (1 - 0.8665)) with (3104856 / 1335000) in L3 by lra. replace (0.5329522 / (1 - 0.55)) with (5329522 / 4500000) in L4 by lra. replace (0.016898 / (1 - 0.7616)) with (16898 / 238400) in L5 by lra.
  lra.
Qed.
Lemma pink_level h n : Rabs (pinked (white_at h) n) <= 8.01.
Proof. replace 8.01 with (8.01 * 1) by ring. apply pinked_bound. intros k. apply Rabs_le. apply white_range. Qed.
(* a constant signal comes close to that *)
Lemma leaky_one p c n : p <> 1 -> leaky p c (fun _ => 1) n = c / (1 - p) * (1 - p ^ S n).
Proof. intros H. induction n as [|n IH]; cbn [leaky]; [|rewrite IH]; cbn [pow]; field; lra. Qed.
Lemma pinked_one : exists n, 7.99 < pinked (fun _ => 1) n.
Proof.
  assert (V : forall p, 0 <= p < 1 -> exists N, forall n, (N <= n)%nat -> 0 <= p ^ n < 1 / 100000).
  { intros p P. destruct (pow_lt_1_zero p ltac:(rewrite Rabs_pos_eq; lra) (1 / 100000) ltac:(lra)) as [N Q]. exists N. intros n Hn. specialize (Q n Hn). assert (0 <= p ^ n) by (apply pow_le; lra). rewrite Rabs_pos_eq in Q by auto. lra. }
  destruct (V 0.99886 ltac:(lra)) as [N0 V0]. exists N0. unfold pinked. rewrite !leaky_one by lra.
  assert (W : forall p q n, 0 <= p <= q -> 0 <= p ^ n <= q ^ n) by (intros p q n P; split; [apply pow_le; lra|apply pow_incr; lra]).
  pose proof (V0 (S N0) ltac:(lia)) as A0. pose proof (W 0.99332 0.99886 (S N0) ltac:(lra)) as A1. pose proof (W 0.969 0.99886 (S N0) ltac:(lra)) as A2. pose proof (W 0.8665 0.99886 (S N0) ltac:(lra)) as A3.
  pose proof (W 0.55 0.99886 (S N0) ltac:(lra)) as A4. pose proof (W 0.7616 0.99886 (S N0) ltac:(lra)) as A5.
  assert (A6 : - (1 / 100000) <= (- (0.7616)) ^ S N0 <= 1 / 100000). { assert (Q : Rabs ((- (0.7616)) ^ S N0) <= 1 / 100000). { rewrite <- RPow_abs, Rabs_Ropp, (Rabs_pos_eq 0.7616) by lra. lra. } unfold Rabs in Q. destruct (Rcase_abs _) in Q; lra. }
  assert (Y : 0 <= before (fun _ => 1) N0) by (destruct N0; cbn; lra).
  set (p0 := 0.99886 ^ S N0) in *. set (p1 := 0.99332 ^ S N0) in *. set (p2 := 0.969 ^ S N0) in *. set (p3 := 0.8665 ^ S N0) in *. set (p4 := 0.55 ^ S N0) in *. set (p5 := (- (0.7616)) ^ S N0) in *. clearbody p0 p1 p2 p3 p4 p5.
  assert (1 <= before (fun _ : nat => 1) N0 \/ N0 = 0%nat) as [Y1| ->] by (destruct N0; [now right|left; cbn; lra]).
  - replace (0.0555179 / (1 - 0.99886)) with (555179 / 11400) by lra. replace (0.0750759 / (1 - 0.99332)) with (750759 / 66800) by lra. replace (0.153852 / (1 - 0.969)) with (153852 / 31000) by lra.
    replace (0.3104856 / (1 - 0.8665)) with (3104856 / 1335000) by lra. replace (0.5329522 / (1 - 0.55)) with (5329522 / 4500000) by lra. replace (1 - - (0.7616)) with 1.7616 by lra. lra.
  - specialize (V0 0%nat (le_n 0)). rewrite pow_O in V0. lra.
Qed.
