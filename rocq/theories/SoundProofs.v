(* Proofs about the sounds of SoundModel.v. *)
From Coq Require Import Reals Lra Lia FunctionalExtensionality Psatz.
From Verif Require Import EnvProofs OscProofs MeterProofs FxProofs PreProofs.
From Verif Require Import SoundSpec.
Import ListNotations.
Local Open Scope R_scope.
Local Notation nR := Rnum_ops.
Local Notation tickS := (NodeModel.tick R_arith soundR).

(* a generator whose states are described by Inv *)
Lemma generated_outputs (Inv : nat -> NodeModel.node R (su R) -> Prop) (out : nat -> list R) :
  (forall n x, Inv n x -> exists y, tickS x [] = (y, out n) /\ Inv (S n) y) ->
  forall N x n, Inv 0%nat x -> (n < N)%nat -> nth n (sound_outputs x (repeat [] N)) [] = out n.
Proof.
  intros St. assert (G : forall N x k n, Inv k x -> (n < N)%nat -> nth n (sound_outputs x (repeat [] N)) [] = out (k + n)%nat).
  { induction N as [|N IH]; intros x k n H Hn; [lia|]. destruct (St k x H) as (y & E & H'). unfold NodeSpec.outputs in *. cbn [repeat BufModel.ticks]. rewrite E.
    specialize (IH y (S k)). destruct (BufModel.ticks tickS y (repeat [] N)) as [z o] eqn:Eo. cbn [snd] in *. destruct n as [|n]; [now rewrite Nat.add_0_r|].
    cbn [nth]. rewrite IH; [f_equal; lia|exact H'|lia]. }
  intros N x n H Hn. now rewrite (G N x 0%nat n H Hn).
Qed.

(* ---- the leaves ---- *)
Definition lfo_at (sr : R) (h : N) (ch : nat) (E : R -> list R) (n : nat) : NodeModel.node R (su R) := Leaf (ULfo ch E (env_state (pure E) (start sr h ch (1 / 500) E) n)).
Lemma lfo_0 sr h ch E : lfo_new nR sr h ch E = lfo_at sr h ch E 0.
Proof.
  unfold lfo_new, lfo_at. assert (E2 : ndiv nR (nofZ nR 2) (nofZ nR 1000) = 1 / 500) by (cbn; lra). rewrite E2. reflexivity.
Qed.
Lemma lfo_step sr h ch E n i : tickS (lfo_at sr h ch E n) i = (lfo_at sr h ch E (S n), lfo_of sr h ch E n).
Proof.
  unfold lfo_at. cbn [tick soundR su_ops u_tick su_tick]. change (control_fn E) with (pure E). rewrite (etick_at sr h ch (1 / 500) E n). reflexivity.
Qed.
Definition sine_at (sr : R) (h : N) (f : nat -> R) (n : nat) : NodeModel.node R (su R) :=
  Leaf (USine (mkOsc (frac (EnvModel.rnd1 nR h + sum_to (fun k => f k / sr) n)) (1 / sr) h None)).
Lemma rnd1_unit h : (h < 2 ^ 64)%N -> 0 <= EnvModel.rnd1 nR h < 1.
Proof.
  intros H. pose proof (rnd_range h H) as Q. unfold EnvModel.rnd1. cbn [nmul ndiv nofZ Rnum_ops n1]. unfold n1. cbn [nofZ Rnum_ops]. unfold Rdiv in *. rewrite Rmult_1_l. exact Q.
Qed.
Lemma frac_unit x : 0 <= x < 1 -> frac x = x.
Proof.
  intros H. unfold frac. assert (E : Int_part x = 0%Z). { apply eq_sym. assert (U : (0 = up x - 1)%Z) by (assert (1%Z = up x) by (apply tech_up; cbn; lra); lia). exact U. } rewrite E. lra.
Qed.
Lemma sine_0 sr h f : (h < 2 ^ 64)%N -> sine_new nR sr h = sine_at sr h f 0.
Proof.
  intros H. unfold sine_new, sine_at, su_set_hash, osc_set_hash, osc_new, osc_set_duration, osc_reset. cbn [os_phase os_sd os_hash os_init sum_to]. rewrite Rplus_0_r, (frac_unit _ (rnd1_unit h H)). reflexivity.
Qed.
Lemma sine_step sr h f n i : nth 0 i 0 = f n -> tickS (sine_at sr h f n) i = (sine_at sr h f (S n), [sine_of sr h f n]).
Proof.
  intros E. unfold sine_at. cbn [tick soundR su_ops u_tick su_tick]. change (n0 nR) with 0. rewrite E. rewrite sine_adv. cbn [sum_to os_phase os_sd]. unfold advance, osc_at, sine_wave. cbn [os_phase os_sd os_hash os_init].
  do 3 f_equal.
  - do 2 f_equal. unfold wrap. cbn [nadd nsub nmul nofZ nfloor Rnum_ops]. change (frac (frac (EnvModel.rnd1 nR h + sum_to (fun k => f k / sr) n) + f n * (1 / sr)) = frac (EnvModel.rnd1 nR h + (sum_to (fun k => f k / sr) n + f n / sr))).
    rewrite frac_frac. f_equal. unfold Rdiv. ring.
  - unfold sine_of. rewrite sin_frac. reflexivity.
Qed.

(* ---- the bass drum ---- *)
Lemma xerp_R a b t : 0 < a -> 0 < b -> xerp nR exp ln a b t = a * Rpower (b / a) t.
Proof.
  intros A B. unfold xerp, lerp, Rpower. cbn [nadd nsub nmul nofZ Rnum_ops]. change (n1 nR) with 1. unfold Rdiv. rewrite ln_mult, ln_Rinv by (auto; apply Rinv_0_lt_compat; auto).
  rewrite <- (exp_ln a) at 2 by auto. rewrite <- exp_plus. f_equal. ring.
Qed.
Lemma pitch_R p0 p1 t : 0 < p0 -> 0 < p1 -> drum_pitch nR exp ln p0 p1 t = drum_sweep p0 p1 t.
Proof.
  intros A B. unfold drum_pitch, drum_sweep. rewrite (xerp_R p0 p1) by auto. unfold clamp01. cbn [nmin nmax nmul nsub nofZ Rnum_ops]. change (n0 nR) with 0. change (n1 nR) with 1.
  replace (Rmin (Rmax (t * 50) 0) 1) with (Rmax 0 (Rmin 1 (50 * t))); [reflexivity|]. unfold Rmin, Rmax. repeat destruct (Rle_dec _ _); lra.
Qed.
Lemma volume_R t : drum_volume nR exp t = drum_decay t.
Proof. unfold drum_volume, drum_decay. cbn [nmul nneg nofZ Rnum_ops]. f_equal. ring. Qed.
Lemma attack_R s : xerp nR exp ln (ndiv nR (nofZ nR 2) (nofZ nR 1000)) (ndiv nR (nofZ nR 2) (nofZ nR 100000)) s = drum_attack s.
Proof. rewrite xerp_R by (cbn; lra). unfold drum_attack. cbn [ndiv nofZ Rnum_ops]. f_equal. f_equal. lra. Qed.
Definition drum_out (sr : R) (h1 h2 h3 : N) (s p0 p1 : R) (n : nat) : R :=
  sine_of sr h2 (fun k => nth 0 (lfo_of sr h1 1 (fun t => [drum_sweep p0 p1 t]) k) 0) n * nth 0 (lfo_of sr h3 1 (fun t => [drum_decay t]) n) 0 * gain (drum_attack s) (INR n / sr).
Lemma one_channel sr h E n : usual sr -> (h < 2 ^ 64)%N -> lfo_of sr h 1 (fun t => [E t]) n = [nth 0 (lfo_of sr h 1 (fun t => [E t]) n) 0].
Proof.
  intros [A B] H. assert (L : length (lfo_of sr h 1 (fun t => [E t]) n) = 1%nat). { apply length_of; [lra| |exact H|reflexivity]. split; [lra|]. lra. }
  destruct (lfo_of sr h 1 (fun t => [E t]) n) as [|a [|]]; cbn in L; try lia. reflexivity.
Qed.
Lemma drum_outputs sr h1 h2 h3 s p0 p1 N n : usual sr -> (h1 < 2 ^ 64)%N -> (h2 < 2 ^ 64)%N -> (h3 < 2 ^ 64)%N -> 0 < p0 -> 0 < p1 -> (n < N)%nat ->
  nth n (sound_outputs (bassdrumR sr h1 h2 h3 s p0 p1) (repeat [] N)) [] = [drum_out sr h1 h2 h3 s p0 p1 n].
Proof.
  intros HS H1 H2 H3 P0 P1 Hn.
  set (f := fun k => nth 0 (lfo_of sr h1 1 (fun t => [drum_sweep p0 p1 t]) k) 0).
  set (Inv := fun k x => exists d, at_time (drum_attack s) (INR k / sr) sr d /\
    x = Pipe (Binop (nmul nR) (Pipe (lfo_at sr h1 1 (fun t => [drum_sweep p0 p1 t]) k) (sine_at sr h2 f k)) (lfo_at sr h3 1 (fun t => [drum_decay t]) k)) (Leaf (UDeclick d))).
  apply (generated_outputs Inv (fun n => [drum_out sr h1 h2 h3 s p0 p1 n])); [| |exact Hn].
  - intros k x (d & D & ->). assert (SP : 0 < sr) by (destruct HS; lra). cbn [tick]. rewrite (lfo_step sr h1), (lfo_step sr h3), (sine_step sr h2 f k) by reflexivity.
    rewrite (one_channel sr h3 drum_decay k HS H3). cbn [zipw combine map fst snd nmul Rnum_ops].
    set (v := sine_of sr h2 f k * nth 0 (lfo_of sr h3 1 (fun t => [drum_decay t]) k) 0).
    destruct (d_tick (drum_attack s) (INR k / sr) sr d v SP D) as [D' O].
    cbn [tick soundR su_ops u_tick su_tick]. destruct (declick_tick nR nR (fun x => x) d v) as [d' y] eqn:E.
    eexists. split; [|exists d'; split; [|reflexivity]].
    + cbn [fst snd] in O. change (nth 0 [v] (n0 nR)) with v. rewrite E. cbn [gained] in O. injection O as ->. reflexivity.
    + cbn [fst] in D'. replace (INR (S k) / sr) with (INR k / sr + 1 / sr) by (rewrite S_INR; unfold Rdiv; ring). exact D'.
  - exists (declick_new nR (drum_attack s) sr). split.
    + split; [reflexivity|]. split; [reflexivity|]. left. unfold declick_new, declick_rate. cbn [dc_t]. unfold Rdiv. cbn [INR]. rewrite Rmult_0_l. reflexivity.
    + unfold bassdrum. rewrite attack_R. rewrite <- (lfo_0 sr h1), <- (lfo_0 sr h3), <- (sine_0 sr h2 f H2).
      replace (fun t => [drum_pitch nR exp ln p0 p1 t]) with (fun t => [drum_sweep p0 p1 t]) by (apply functional_extensionality; intros t; now rewrite pitch_R).
      replace (fun t => [drum_volume nR exp t]) with (fun t => [drum_decay t]) by (apply functional_extensionality; intros t; now rewrite volume_R). reflexivity.
Qed.

(* a control signal is on a line between two points of its function, at most 2.5 ms apart *)
Lemma lfo_line sr h ch E n : usual sr -> (h < 2 ^ 64)%N -> (forall t, length (E t) = ch) -> exists b0 b1, 0 <= b0 <= INR n / sr /\ INR n / sr < b1 /\ 0 < b1 - b0 < 1 / 400 /\
  forall j, (j < ch)%nat -> nth j (lfo_of sr h ch E n) 0 = on_line b0 (nth j (E b0) 0) b1 (nth j (E b1) 0) (INR n / sr).
Proof.
  intros [A B] H L. assert (F : fits (env0 sr h ch (1 / 500))) by (apply env0_fits; [lra|split; lra|exact H]).
  destruct (envelope_line E ch (env0 sr h ch (1 / 500)) n L F) as (_ & k & K & V). unfold env0 in *. cbn [e_int e_hash e_sd] in *.
  replace (INR n * (1 / sr)) with (INR n / sr) in * by (unfold Rdiv; ring).
  exists (point (1 / 500) h k), (point (1 / 500) h (S k)). pose proof (point_step (1 / 500) h k ltac:(lra) H) as St. destruct K as [K1 K2].
  assert (P : 0 <= point (1 / 500) h k). { destruct k as [|k]; [cbn; lra|]. pose proof (points_rise (1 / 500) h 0 (S k) ltac:(lra) H ltac:(lia)) as Q. left. exact Q. }
  split; [split; [exact P|exact K1]|]. split; [exact K2|]. split; [lra|]. exact V.
Qed.
Lemma on_line_max t0 y0 t1 y1 t B : t0 <= t < t1 -> y0 <= B -> y1 <= B -> on_line t0 y0 t1 y1 t <= B.
Proof.
  intros H A C. unfold on_line. assert (U : 0 <= (t - t0) / (t1 - t0) <= 1). { split; [apply Rle_mult_inv_pos; lra|]. apply Rmult_le_reg_r with (t1 - t0); [lra|]. unfold Rdiv. rewrite Rmult_assoc, Rinv_l by lra. lra. }
  set (u := (t - t0) / (t1 - t0)) in *. clearbody u. nra.
Qed.
Lemma on_line_min t0 y0 t1 y1 t B : t0 <= t < t1 -> B <= y0 -> B <= y1 -> B <= on_line t0 y0 t1 y1 t.
Proof.
  intros H A C. pose proof (on_line_max t0 (- y0) t1 (- y1) t (- B) H ltac:(lra) ltac:(lra)) as Q. unfold on_line in *. replace ((- y1 - - y0)) with (- (y1 - y0)) in Q by ring. lra.
Qed.
Lemma on_line_plus t0 y0 t1 y1 c t : t0 < t1 -> on_line t0 (y0 - c * t0) t1 (y1 - c * t1) t = on_line t0 y0 t1 y1 t - c * t.
Proof. intros H. unfold on_line. field. lra. Qed.
Lemma decay_range sr h n : usual sr -> (h < 2 ^ 64)%N -> let v := nth 0 (lfo_of sr h 1 (fun t => [drum_decay t]) n) 0 in
  drum_decay (INR n / sr + 1 / 400) <= v <= drum_decay (INR n / sr - 1 / 400).
Proof.
  intros HS H v. destruct (lfo_line sr h 1 (fun t => [drum_decay t]) n HS H ltac:(reflexivity)) as (b0 & b1 & B0 & B1 & D & V). subst v. rewrite (V 0%nat ltac:(lia)). cbn [nth].
  assert (M : forall a b, a <= b -> drum_decay b <= drum_decay a). { intros a b Q. unfold drum_decay. destruct (Rle_lt_or_eq_dec a b Q) as [L| ->]; [|lra]. left. apply exp_increasing. lra. }
  split; [apply on_line_min|apply on_line_max]; try lra; apply M; lra.
Qed.
Lemma drum_bound sr h1 h2 h3 s p0 p1 n : usual sr -> (h3 < 2 ^ 64)%N ->
  Rabs (drum_out sr h1 h2 h3 s p0 p1 n) <= exp (- (9 * (INR n / sr - 1 / 400))) /\ drum_out sr h1 h2 h3 s p0 p1 0 = 0.
Proof.
  intros HS H. assert (T0 : 0 < drum_attack s) by (unfold drum_attack; apply Rmult_lt_0_compat; [lra|apply exp_pos]). split.
  - unfold drum_out. destruct (decay_range sr h3 n HS H) as [L U]. cbv zeta in L, U. set (v := nth 0 (lfo_of sr h3 1 (fun t => [drum_decay t]) n) 0) in *.
    assert (V0 : 0 < v) by (eapply Rlt_le_trans; [|exact L]; apply exp_pos). fold (drum_decay (INR n / sr - 1 / 400)).
    assert (G : 0 <= gain (drum_attack s) (INR n / sr) <= 1). { apply gain_01. apply Rle_mult_inv_pos; [apply pos_INR|destruct HS; lra]. }
    unfold sine_of. set (w := sin _). assert (W : -1 <= w <= 1) by apply SIN_bound. clearbody v w. set (g := gain _ _) in *. clearbody g.
    rewrite !Rabs_mult, (Rabs_pos_eq v), (Rabs_pos_eq g) by lra. assert (Rabs w <= 1) by (apply Rabs_le; lra). pose proof (Rabs_pos w).
    assert (A1 : Rabs w * v <= v) by nra. assert (A2 : Rabs w * v * g <= v) by nra. lra.
  - unfold drum_out. cbn [INR]. replace (0 / sr) with 0 by (unfold Rdiv; ring). unfold gain. destruct (Rlt_dec 0 (drum_attack s)); [|lra]. cbv zeta. replace (0 / drum_attack s) with 0 by (unfold Rdiv; ring). ring.
Qed.
Lemma Rpower_between c u : 0 < c -> 0 <= u <= 1 -> Rmin 1 c <= Rpower c u <= Rmax 1 c.
Proof.
  intros C [U0 U1]. unfold Rpower. assert (E : c = exp (1 * ln c)) by (rewrite Rmult_1_l, exp_ln; auto). assert (E1 : 1 = exp (0 * ln c)) by (rewrite Rmult_0_l, exp_0; auto).
  assert (M : forall a b, a <= b -> exp a <= exp b). { intros a b [L| ->]; [left; now apply exp_increasing|lra]. }
  destruct (Rle_lt_dec 0 (ln c)) as [L|L].
  - split.
    + eapply Rle_trans; [apply Rmin_l|]. rewrite E1 at 1. apply M. nra.
    + eapply Rle_trans; [|apply Rmax_r]. rewrite E at 2. apply M. nra.
  - split.
    + eapply Rle_trans; [apply Rmin_r|]. rewrite E at 1. apply M. nra.
    + eapply Rle_trans; [|apply Rmax_l]. rewrite E1. apply M. nra.
Qed.
Lemma sweep_range p0 p1 t : 0 < p0 -> 0 < p1 -> Rmin p0 p1 <= drum_sweep p0 p1 t + 10 * t <= Rmax p0 p1.
Proof.
  intros A B. unfold drum_sweep. set (u := Rmax 0 (Rmin 1 (50 * t))). assert (U : 0 <= u <= 1) by (unfold u, Rmax, Rmin; repeat destruct (Rle_dec _ _); lra). clearbody u.
  assert (C : 0 < p1 / p0) by (apply Rdiv_lt_0_compat; auto). pose proof (Rpower_between _ u C U) as [L H]. set (w := Rpower _ _) in *. clearbody w.
  assert (E : p0 * (p1 / p0) = p1) by (field; lra). set (c := p1 / p0) in *. clearbody c. replace (p0 * w - 10 * t + 10 * t) with (p0 * w) by ring.
  unfold Rmin, Rmax in *. repeat destruct (Rle_dec _ _); split; nra.
Qed.
Lemma drum_frequency sr h p0 p1 n : usual sr -> (h < 2 ^ 64)%N -> 0 < p0 -> 0 < p1 -> let t := INR n / sr in let f := nth 0 (lfo_of sr h 1 (fun t => [drum_sweep p0 p1 t]) n) 0 in
  Rmin p0 p1 <= f + 10 * t <= Rmax p0 p1 /\ (9 / 400 <= t -> f = p1 - 10 * t).
Proof.
  intros HS H P0 P1 t f. destruct (lfo_line sr h 1 (fun t => [drum_sweep p0 p1 t]) n HS H ltac:(reflexivity)) as (b0 & b1 & B0 & B1 & D & V). subst f. rewrite (V 0%nat ltac:(lia)). cbn [nth]. fold t in B0, B1 |- *. split.
  - pose proof (sweep_range p0 p1 b0 P0 P1) as R0. pose proof (sweep_range p0 p1 b1 P0 P1) as R1.
    replace (drum_sweep p0 p1 b0) with ((drum_sweep p0 p1 b0 + 10 * b0) - 10 * b0) by ring. replace (drum_sweep p0 p1 b1) with ((drum_sweep p0 p1 b1 + 10 * b1) - 10 * b1) by ring.
    rewrite on_line_plus by lra. replace (on_line b0 (drum_sweep p0 p1 b0 + 10 * b0) b1 (drum_sweep p0 p1 b1 + 10 * b1) t - 10 * t + 10 * t) with (on_line b0 (drum_sweep p0 p1 b0 + 10 * b0) b1 (drum_sweep p0 p1 b1 + 10 * b1) t) by ring.
    split; [apply on_line_min|apply on_line_max]; lra.
  - intros L. assert (Q : forall b, 2 / 100 <= b -> drum_sweep p0 p1 b = p1 - 10 * b).
    { intros b Hb. unfold drum_sweep. replace (Rmax 0 (Rmin 1 (50 * b))) with 1 by (unfold Rmax, Rmin; repeat destruct (Rle_dec _ _); lra). rewrite Rpower_1 by (apply Rdiv_lt_0_compat; auto). field. lra. }
    rewrite (Q b0), (Q b1) by lra. rewrite on_line_plus by lra. unfold on_line. field. lra.
Qed.

(* ---- the glissando ---- *)
Lemma slices_nil {X} n k : slices n k (@nil X) = repeat [] n.
Proof. induction n as [|n IH]; [reflexivity|]. cbn [slices repeat]. now rewrite firstn_nil, skipn_nil, IH. Qed.
Lemma stack_tick (g g' : nat -> NodeModel.node R (su R)) o l : (forall i, tickS (g i) [] = (g' i, [o i])) -> tickS (MultiStack (map g l)) [] = (MultiStack (map g' l), map o l).
Proof.
  intros H. cbn [tick]. rewrite slices_nil, map_length.
  assert (E : tick_all tickS (map g l) (repeat [] (length l)) = (map g' l, map (fun i => [o i]) l)). { induction l as [|i l IH]; [reflexivity|]. cbn [map length repeat tick_all]. now rewrite H, IH. }
  rewrite E. f_equal. clear E. induction l as [|i l IH]; [reflexivity|]. cbn. now rewrite IH.
Qed.
Lemma slices_ones {X} (o : nat -> X) l : slices (length l) 1 (map o l) = map (fun i => [o i]) l.
Proof. induction l as [|i l IH]; [reflexivity|]. cbn [length slices map firstn skipn]. now rewrite IH. Qed.
Fixpoint sum_list (l : list R) : R := match l with [] => 0 | x :: l => x + sum_list l end.
Lemma fold_pairs (a b : nat -> R) l : forall x y, fold_left (zipw Rplus) (map (fun i => [a i; b i]) l) [x; y] = [x + sum_list (map a l); y + sum_list (map b l)].
Proof. induction l as [|i l IH]; intros x y; cbn [map fold_left sum_list]; [now rewrite !Rplus_0_r|]. cbn [zipw combine map fst snd]. rewrite IH. f_equal; [ring|]. f_equal. ring. Qed.
Lemma sum_list_app l m : sum_list (l ++ m) = sum_list l + sum_list m.
Proof. induction l as [|x l IH]; cbn; [ring|]. rewrite IH. ring. Qed.
Lemma sum_list_to (f : nat -> R) n : sum_list (map f (seq 0 n)) = sum_to f n.
Proof. induction n as [|n IH]; [reflexivity|]. rewrite seq_S, map_app, sum_list_app, IH. cbn. ring. Qed.
Notation panR p := (UPan (panner_new nR cos sin (2 * PI / 8) 1 p)).
Lemma sum_tick (p : nat -> R) o l : l <> [] -> (forall i, In i l -> -1 <= p i <= 1) ->
  tickS (Reduce Rplus (map (fun i => Leaf (panR (p i))) l)) (map o l) =
  (Reduce Rplus (map (fun i => Leaf (panR (p i))) l), [sum_list (map (fun i => to_left (p i) * o i) l); sum_list (map (fun i => to_right (p i) * o i) l)]).
Proof.
  intros Hl Hp. cbn [tick]. rewrite map_length.
  replace (match map (fun i => Leaf (panR (p i))) l with [] => 0%nat | x :: _ => ins soundR x end) with 1%nat by (destruct l; [congruence|reflexivity]). rewrite slices_ones.
  assert (E : tick_all tickS (map (fun i => Leaf (panR (p i))) l) (map (fun i => [o i]) l) = (map (fun i => Leaf (panR (p i))) l, map (fun i => [to_left (p i) * o i; to_right (p i) * o i]) l)).
  { clear Hl. induction l as [|i l IH]; [reflexivity|]. cbn [map tick_all]. rewrite IH by (intros j Hj; apply Hp; now right). specialize (Hp i ltac:(now left)).
    assert (T : tickS (Leaf (panR (p i))) [o i] = (Leaf (panR (p i)), [to_left (p i) * o i; to_right (p i) * o i])).
    { cbn [tick soundR su_ops u_tick su_tick]. unfold panner_tick. cbn [panner_new pan_weights p_n Nat.ltb Nat.leb p_left p_right nth]. unfold panner_new, pan_weights. cbn [p_n p_left p_right Nat.ltb Nat.leb]. unfold to_left, to_right, FirModel.clamp11.
      cbn [nmin nmax nneg nadd nmul Rnum_ops]. change (n1 nR) with 1. rewrite (Rmax_left (p i)) by lra. rewrite (Rmin_left (p i)) by lra. do 2 f_equal; [|f_equal]; f_equal; f_equal; field. }
    rewrite T. reflexivity. }
  rewrite E. f_equal. clear E. destruct l as [|i l]; [congruence|]. cbn [map]. rewrite fold_pairs. reflexivity.
Qed.
Lemma pitch_xerp (up : bool) p : xerp nR exp ln (if up then 20 else 20480) (if up then 20480 else 20) p = pitch_at up p.
Proof.
  destruct up; rewrite xerp_R by lra; unfold pitch_at, Rpower; f_equal; f_equal.
  - replace (20480 / 20) with (2 ^ 10) by lra. rewrite <- Rpower_pow by lra. unfold Rpower. rewrite ln_exp. cbn [INR]. ring.
  - replace (20 / 20480) with (/ 2 ^ 10) by lra. rewrite ln_Rinv by (apply pow_lt; lra). rewrite <- Rpower_pow by lra. unfold Rpower. rewrite ln_exp. cbn [INR]. ring.
Qed.
Lemma voice_R up i t : risset_voice nR sqrt exp ln sin (2 * PI) up i t = gliding up i t.
Proof.
  unfold risset_voice, gliding. set (ph := ndiv nR (rem10 nR _) _). assert (E : ph = position i t).
  { subst ph. unfold position, frac_part, rem10. cbn [nadd nsub nmul ndiv nofZ nfloor Rnum_ops]. change (n1 nR) with 1. rewrite <- INR_IZR_INZ.
    replace ((t * (1 / 10) + INR i * 10 / 40) / 10) with (t / 100 + INR i / 40) by field. field. }
  rewrite E. cbn [nofZ Rnum_ops]. rewrite pitch_xerp. cbv zeta.
  replace (nadd nR (lerp nR (-1) (n1 nR) (rnd1 nR (N.of_nat i))) (pitch_at up (position i t))) with (pitch_at up (position i t) + detuned i) by (unfold detuned, lerp; cbn [nadd nsub nmul nofZ Rnum_ops]; change (n1 nR) with 1; ring).
  f_equal. unfold smooth3, sin_hz, swell. set (w := a_weight nR sqrt _). cbn [nadd nsub nmul ndiv nofZ Rnum_ops]. change (n1 nR) with 1. replace (position i t * (1 / 2) * (2 * PI)) with (PI * position i t) by field. unfold Rdiv. ring.
Qed.
Lemma two_channels sr h E n : usual sr -> (h < 2 ^ 64)%N -> (forall t, length (E t) = 2%nat) -> lfo_of sr h 2 E n = [nth 0 (lfo_of sr h 2 E n) 0; nth 1 (lfo_of sr h 2 E n) 0].
Proof.
  intros [A B] H HE. assert (L : length (lfo_of sr h 2 E n) = 2%nat). { apply length_of; [lra|split; lra|exact H|exact HE]. }
  destruct (lfo_of sr h 2 E n) as [|a [|b [|]]]; cbn in L; try lia. reflexivity.
Qed.
Definition voice_out (sr : R) (he hs : nat -> N) (up : bool) (i n : nat) : R :=
  nth 0 (lfo_of sr (he i) 2 (gliding up i) n) 0 * sine_of sr (hs i) (fun k => nth 1 (lfo_of sr (he i) 2 (gliding up i) k) 0) n.
Lemma place_spaced (i : nat) : lerp nR (ndiv nR (nofZ nR (-1)) (nofZ nR 2)) (ndiv nR (n1 nR) (nofZ nR 2)) (fraction nR (fun x => x) 40 i) = place i.
Proof.
  unfold fraction. cbn [Nat.ltb Nat.leb]. change (40 - 1)%nat with 39%nat. unfold lerp, place. cbn [nadd nsub nmul ndiv nofZ Rnum_ops]. change (n1 nR) with 1. rewrite INR_IZR_INZ. change (Z.of_nat 39) with 39%Z. field.
Qed.
Lemma place_range i : (i < 40)%nat -> -1 <= place i <= 1.
Proof. intros H. unfold place. assert (0 <= INR i <= 39). { split; [apply pos_INR|]. replace 39 with (INR 39) by (cbn; lra). apply le_INR. lia. } lra. Qed.
Lemma risset_outputs sr he hs up N n : usual sr -> (forall i, (he i < 2 ^ 64)%N) -> (forall i, (hs i < 2 ^ 64)%N) -> (n < N)%nat -> exists x, rissetR sr he hs up = Some x /\
  nth n (sound_outputs x (repeat [] N)) [] =
  [1 / 10 * sum_to (fun i => to_left (place i) * voice_out sr he hs up i n) 40; 1 / 10 * sum_to (fun i => to_right (place i) * voice_out sr he hs up i n) 40].
Proof.
  intros HS He Hs Hn. set (f := fun i k => nth 1 (lfo_of sr (he i) 2 (gliding up i) k) 0).
  set (g := fun k i => Pipe (lfo_at sr (he i) 2 (gliding up i) k) (Binop (nmul nR) Pass (sine_at sr (hs i) (f i) k))).
  set (mix := Unop (fun v => nmul nR v (1 / 10)) (Reduce Rplus (map (fun i => Leaf (panR (place i))) (seq 0 40)))).
  exists (Pipe (MultiStack (map (g 0%nat) (seq 0 40))) mix). split.
  - unfold risset, stacki. cbn [Nat.ltb Nat.leb]. unfold generate. f_equal. f_equal.
    + f_equal. apply map_ext. intros i. unfold g. rewrite <- (lfo_0 sr (he i)), <- (sine_0 sr (hs i) (f i) (Hs i)). f_equal. f_equal. apply functional_extensionality. intros t. apply voice_R.
    + unfold an_mul, mix, sumf, generate. change (ndiv nR (n1 nR) (nofZ nR 10)) with (1 / 10). f_equal. change (a_add R_arith) with Rplus. f_equal. apply map_ext. intros i. rewrite place_spaced. reflexivity.
  - apply (generated_outputs (fun k x => x = Pipe (MultiStack (map (g k) (seq 0 40))) mix)
      (fun n => [1 / 10 * sum_to (fun i => to_left (place i) * voice_out sr he hs up i n) 40; 1 / 10 * sum_to (fun i => to_right (place i) * voice_out sr he hs up i n) 40])); [|reflexivity|exact Hn].
    intros k x ->. exists (Pipe (MultiStack (map (g (S k)) (seq 0 40))) mix). split; [|reflexivity].
    assert (V : forall i, tickS (g k i) [] = (g (S k) i, [voice_out sr he hs up i k])).
    { intros i. unfold g. cbn [tick]. rewrite (lfo_step sr (he i)), (two_channels sr (he i) (gliding up i) k HS (He i) ltac:(reflexivity)). cbn [ins firstn skipn]. rewrite (sine_step sr (hs i) (f i) k) by reflexivity. reflexivity. }
    change (tickS (Pipe (MultiStack (map (g k) (seq 0 40))) mix) []) with (let (x', o) := tickS (MultiStack (map (g k) (seq 0 40))) [] in let (y', o') := tickS mix o in (Pipe x' y', o')).
    rewrite (stack_tick (g k) (g (S k)) (fun i => voice_out sr he hs up i k)) by exact V. unfold mix.
    assert (U : forall h y i, tickS (Unop h y) i = let (x', o) := tickS y i in (Unop h x', map h o)) by reflexivity. rewrite U.
    rewrite (sum_tick place (fun i => voice_out sr he hs up i k) (seq 0 40)); [|discriminate|intros i Hi; apply in_seq in Hi; apply place_range; lia].
    cbn [map nmul Rnum_ops]. rewrite !sum_list_to. do 2 f_equal; [ring|]. f_equal. ring.
Qed.
