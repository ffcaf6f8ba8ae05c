(* Explicit bounds for state variable filters whose cutoff frequency moves in any way. *)
From Coq Require Import Reals Lra Lia Psatz List.
From Verif Require Import ShapeProofs TuneProofs TuneReal TuneBounds NyqProofs SweptLevel.
From Verif Require Export PeakSpec.
Import ListNotations.
Local Open Scope R_scope.

Section Form.
  Variable k : R.
  Hypothesis Hk : 0 < k < 2.
  Definition skew (a b : R) : R := a * a + b * b + k * (a * b).
  Lemma skew_mid g x v l : let h := x - k * v - l in skew (v + g * h) (l + g * v) = skew (v - g * h) (l - g * v) - 2 * g * (k * skew v l - x * (2 * v + k * l)).
  Proof. unfold skew. cbv zeta. ring. Qed.
  Lemma skew_next g x v l : let h := x - k * v - l in skew (v + g * h) (l + g * v) = skew v l - g * (k * skew v l - x * (2 * v + k * l)) + g * g * (x * x + skew v l - x * (2 * l + k * v)).
  Proof. unfold skew. cbv zeta. ring. Qed.
  Lemma skew_side v l : (2 * v + k * l) * (2 * v + k * l) <= 4 * skew v l /\ (2 * l + k * v) * (2 * l + k * v) <= 4 * skew v l.
  Proof.
    unfold skew. assert (0 <= 4 - k * k) by nra. pose proof (Rle_0_sqr v) as A. pose proof (Rle_0_sqr l) as B. unfold Rsqr in A, B. pose proof (Rmult_le_pos _ _ H A). pose proof (Rmult_le_pos _ _ H B). split; lra.
  Qed.
  Lemma skew_pos v l : 0 <= skew v l.
  Proof. pose proof (skew_side v l) as [A _]. pose proof (Rle_0_sqr (2 * v + k * l)) as B. unfold Rsqr in B. lra. Qed.
  Lemma skew_far x v l X : Rabs x <= X -> 4 * (X * X) <= k * k * skew v l -> x * (2 * v + k * l) <= k * skew v l.
  Proof.
    intros Hx Hf. pose proof (sq_le x X Hx) as A. pose proof (skew_pos v l). destruct (skew_side v l) as [B _]. set (q := skew v l) in *. set (w := 2 * v + k * l) in *. clearbody q w.
    destruct (Rle_dec (x * w) (k * q)) as [|C]; [assumption|]. exfalso. assert (P : 0 <= k * q) by nra. assert (C1 : (k * q) * (k * q) < (x * w) * (x * w)) by (apply Rmult_le_0_lt_compat; lra).
    assert (C2 : (x * w) * (x * w) <= (X * X) * (4 * q)) by (replace ((x * w) * (x * w)) with ((x * x) * (w * w)) by ring; apply Rmult_le_compat; nra). assert (C3 : (X * X) * (4 * q) <= k * k * q * q) by (replace (X * X * (4 * q)) with (4 * (X * X) * q) by ring; apply Rmult_le_compat_r; lra). lra.
  Qed.
  (* inside of the region where the form may grow *)
  Lemma skew_near x v l X : Rabs x <= X -> k * k * skew v l <= 4 * (X * X) -> k * (x * (2 * v + k * l) - k * skew v l) <= X * X /\ k * k * (x * x + skew v l - x * (2 * l + k * v)) <= (k + 2) * (k + 2) * (X * X).
  Proof.
    intros Hx Hf. pose proof (sq_le x X Hx) as A. destruct (skew_side v l) as [B C]. set (q := skew v l) in *. set (w := 2 * v + k * l) in *. set (u := 2 * l + k * v) in *. clearbody q w u. split.
    - pose proof (Rle_0_sqr (2 * x - k * w)) as Q. unfold Rsqr in Q. assert (k * k * (w * w) <= k * k * (4 * q)) by (apply Rmult_le_compat_l; nra). lra.
    - assert (D : - (k * (x * u)) <= 4 * (X * X)).
      { pose proof (Rle_0_sqr (4 * x + k * u)) as Q. unfold Rsqr in Q. assert (k * k * (u * u) <= k * k * (4 * q)) by (apply Rmult_le_compat_l; nra). lra. }
      assert (E : k * (- (k * (x * u))) <= k * (4 * (X * X))) by (apply Rmult_le_compat_l; lra). assert (F : k * k * (x * x) <= k * k * (X * X)) by (apply Rmult_le_compat_l; nra). lra.
  Qed.
  Definition room (G X : R) : R := (4 + G * k + G * G * ((k + 2) * (k + 2))) * (X * X).
  Lemma skew_step g G x X v l : 0 <= g <= G -> Rabs x <= X -> let h := x - k * v - l in k * k * skew (v - g * h) (l - g * v) <= room G X -> k * k * skew (v + g * h) (l + g * v) <= room G X.
  Proof.
    intros Hg Hx h I. unfold h in *. assert (Z0 : 0 <= X * X) by apply Rle_0_sqr. destruct (Rle_dec (4 * (X * X)) (k * k * skew v l)) as [F|F].
    - rewrite skew_mid. pose proof (skew_far x v l X Hx F) as Q. assert (0 <= 2 * g * (k * skew v l - x * (2 * v + k * l))) by (apply Rmult_le_pos; lra). assert (0 <= k * k * (2 * g * (k * skew v l - x * (2 * v + k * l)))) by (apply Rmult_le_pos; nra). lra.
    - rewrite skew_next. destruct (skew_near x v l X Hx ltac:(lra)) as [P Q]. set (q := skew v l) in *. set (p := x * (2 * v + k * l)) in *. set (y := x * x + q - x * (2 * l + k * v)) in *. unfold room. set (Z := X * X) in *. clearbody q p y Z.
      assert (E1 : g * k * (k * (p - k * q)) <= G * k * Z). { apply Rle_trans with (g * k * Z); [apply Rmult_le_compat_l; nra|apply Rmult_le_compat_r; nra]. }
      assert (E2 : g * g * (k * k * y) <= G * G * ((k + 2) * (k + 2) * Z)). { apply Rle_trans with (g * g * ((k + 2) * (k + 2) * Z)); [apply Rmult_le_compat_l; nra|apply Rmult_le_compat_r; nra]. }
      replace (k * k * (q - g * (k * q - p) + g * g * y)) with (k * k * q + g * k * (k * (p - k * q)) + g * g * (k * k * y)) by ring. lra.
  Qed.
  Lemma skew_coord a b M : 0 <= M -> skew a b <= (1 - k * k / 4) * (M * M) -> Rabs a <= M /\ Rabs b <= M /\ Rabs (b + k * a) <= M.
  Proof.
    intros P H. unfold skew in H. assert (Dp : 0 < 1 - k * k / 4) by nra. set (d := 1 - k * k / 4) in *.
    assert (Q : forall c, d * (c * c) <= d * (M * M) -> Rabs c <= M). { intros c Hc. apply Rmult_le_reg_l in Hc; [|exact Dp]. rewrite <- (Rabs_pos_eq M) by exact P. apply Rsqr_le_abs_0. exact Hc. }
    pose proof (Rle_0_sqr (b + k / 2 * a)) as Q1. pose proof (Rle_0_sqr (a + k / 2 * b)) as Q2. pose proof (Rle_0_sqr (a * (1 - k * k / 2) - k / 2 * b)) as Q3. unfold Rsqr in Q1, Q2, Q3.
    split; [apply Q; unfold d in *; lra|]. split; [apply Q; unfold d in *; lra|]. apply Q. eapply Rle_trans; [|exact H]. unfold d. lra.
  Qed.
End Form.

Section Run.
  Context {G Sh X : Type}.
  Variable tl : tools R G Sh X.
  Hypothesis Htl : tl_elem tl = R_elem.
  Notation nm := Rnum_ops.
  Variables (sr top q A : R) (m : svmode).
  Hypothesis Hsr : 0 < sr.
  Hypothesis Htop : 2 * top < sr.
  Hypothesis Hq : 1 / 2 < q.
  Hypothesis Hm : In m [MLowpass; MHighpass; MBandpass; MNotch; MPeak; MAllpass].
  Let k := 1 / q.
  Let T := tan (PI * top / sr).
  Definition mode_m (x v l : R) : R :=
    match m with MLowpass => l | MBandpass => v | MHighpass => x - k * v - l | MNotch => x - k * v | MPeak => x - k * v - 2 * l | _ => x - 2 * k * v end.
  Definition filtering (s : svf R) : Prop := vf_mode s = m /\ vf_c s = sv_coefs nm R_elem m (vf_par s) /\ sp_sr (vf_par s) = sr.
  Lemma peak_tick s x f : filtering s -> exists s' v l, let g := tan (PI * f / sr) in let a := vf_ic1 s in let b := vf_ic2 s in
    t_tick nm tl (TSvf s 1 0) [x; f; q] = (TSvf s' 1 0, [mode_m x v l]) /\ filtering s' /\ v * (1 + g * (g + k)) = a + g * (x - b) /\ l = b + g * v /\ vf_ic1 s' = 2 * v - a /\ vf_ic2 s' = 2 * l - b.
  Proof.
    intros (M & Ec & Es). cbn [t_tick Nat.leb Nat.add nth]. unfold sv_inputs. rewrite M, Htl. replace (sv_gained m) with false by (destruct Hm as [<-|[<-|[<-|[<-|[<-|[<-|[]]]]]]]; reflexivity). cbn [nth]. set (u := if orb _ _ then _ else s).
    assert (U : vf_mode u = m /\ sp_cutoff (vf_par u) = f /\ sp_q (vf_par u) = q /\ sp_sr (vf_par u) = sr /\ vf_ic1 u = vf_ic1 s /\ vf_ic2 u = vf_ic2 s /\ vf_c u = sv_coefs nm R_elem m (vf_par u)).
    { unfold u. destruct (neqb nm f (sp_cutoff (vf_par s))) eqn:B1; [|destruct (neqb nm q (sp_q (vf_par s))) eqn:B2]; cbn [orb].
      - unfold svf_update. cbn [vf_mode vf_c vf_par vf_ic1 vf_ic2 sp_cutoff sp_q sp_sr]. rewrite M. repeat split; try reflexivity; exact Es.
      - unfold svf_update. cbn [vf_mode vf_c vf_par vf_ic1 vf_ic2 sp_cutoff sp_q sp_sr]. rewrite M. repeat split; try reflexivity; exact Es.
      - apply neqb_R in B1. apply neqb_R in B2. repeat split; try reflexivity; auto. }
    clearbody u. destruct U as (U1 & U2 & U3 & U4 & U5 & U6 & U7). unfold svf_step. rewrite U5, U6. set (a := vf_ic1 s). set (b := vf_ic2 s). set (g := tan (PI * f / sr)).
    assert (C : exists m0 m1 m2, vf_c u = sv_with nm g k m0 m1 m2 /\ forall x v l, m0 * x + m1 * v + m2 * l = mode_m x v l).
    { rewrite U7. unfold sv_coefs, mode_m. rewrite U2, U3, U4. cbn [e_tan e_pi R_elem nadd nsub nmul ndiv nneg n1 n0 nofZ Rnum_ops]. fold g. fold k.
      destruct Hm as [<-|[<-|[<-|[<-|[<-|[<-|[]]]]]]]; eexists _, _, _; (split; [reflexivity|]); intros; cbn [nadd nsub nmul ndiv nneg n1 n0 nofZ Rnum_ops]; ring. }
    destruct C as (m0 & m1 & m2 & C & O). rewrite C. unfold sv_with. cbn [sv_a1 sv_a2 sv_a3 sv_m0 sv_m1 sv_m2 nadd nsub nmul ndiv n1 nofZ Rnum_ops]. cbv zeta.
    assert (K : 0 < k < 2) by (apply k_range; exact Hq). assert (D : 0 < 1 + g * (g + k)) by (apply D_pos; exact K).
    eexists _, (1 / (1 + g * (g + k)) * a + g * (1 / (1 + g * (g + k))) * (x - b)), (b + g * (1 / (1 + g * (g + k))) * a + g * (g * (1 / (1 + g * (g + k)))) * (x - b)).
    split; [f_equal; f_equal; rewrite <- O; ring|]. cbn [vf_ic1 vf_ic2]. split; [|split; [field; lra|split; [ring|split; reflexivity]]].
    unfold filtering. cbn [vf_mode vf_c vf_par]. split; [exact U1|]. split; [rewrite <- U7; symmetry; exact C|exact U4].
  Qed.
  Let N := resonance sr top q A.
  Lemma kr : 0 < k < 2.
  Proof. apply k_range. exact Hq. Qed.
  Lemma half a b : Rabs a <= N -> Rabs b <= N -> Rabs ((a + b) / 2) <= N.
  Proof. intros P Q. apply Rabs_le. unfold Rabs in *. destruct (Rcase_abs a), (Rcase_abs b); lra. Qed.
  Hypothesis HA : 0 <= A.
  Hypothesis HT : 0 <= T.
  Lemma room_N : 0 <= N /\ room k T A = k * k * ((1 - k * k / 4) * (N * N)).
  Proof.
    pose proof kr as K. assert (Q4 : 1 < 4 * (q * q)) by nra. assert (Dq : 0 < 1 - 1 / (4 * (q * q))). { assert (1 / (4 * (q * q)) < 1); [|lra]. apply Rmult_lt_reg_r with (4 * (q * q)); [lra|]. unfold Rdiv. rewrite Rmult_assoc, Rinv_l by lra. lra. }
    unfold N, resonance. cbv zeta. fold T. set (z := 4 * (q * q) + T * q + T * T * ((1 + 2 * q) * (1 + 2 * q))). assert (Z0 : 0 <= z) by (unfold z; nra). assert (Z1 : 0 <= z / (1 - 1 / (4 * (q * q)))) by (apply Rle_mult_inv_pos; lra).
    pose proof (sqrt_pos (z / (1 - 1 / (4 * (q * q))))) as S0. pose proof (sqrt_sqrt _ Z1) as S1. set (s := sqrt _) in *. split; [apply Rmult_le_pos; assumption|].
    replace (A * s * (A * s)) with (A * A * (s * s)) by ring. rewrite S1. unfold room, z, k. field. split; [|lra]. intros E. replace (4 * (q * q) - 1) with 0 in Q4 by lra. lra.
  Qed.
  Lemma peak_level s x f s' v l : 0 <= tan (PI * f / sr) <= T -> Rabs x <= A -> let g := tan (PI * f / sr) in let a := vf_ic1 s in let b := vf_ic2 s in
    k * k * skew k a b <= room k T A -> v * (1 + g * (g + k)) = a + g * (x - b) -> l = b + g * v -> vf_ic1 s' = 2 * v - a -> vf_ic2 s' = 2 * l - b ->
    k * k * skew k (vf_ic1 s') (vf_ic2 s') <= room k T A /\ Rabs (mode_m x v l) <= peak_of m sr top q A.
  Proof.
    intros Hg Hx g a b I E1 E2 E3 E4. fold g in Hg. pose proof kr as K. destruct room_N as [N0 RN]. set (h := x - k * v - l).
    assert (Ea : a = v - g * h) by (unfold h; rewrite E2 in *; lra). assert (Eb : b = l - g * v) by lra. assert (Ea' : vf_ic1 s' = v + g * h) by lra. assert (Eb' : vf_ic2 s' = l + g * v) by lra.
    assert (I' : k * k * skew k (vf_ic1 s') (vf_ic2 s') <= room k T A) by (rewrite Ea', Eb'; apply (skew_step k K g T x A v l Hg Hx); fold h; rewrite <- Ea, <- Eb; exact I). split; [exact I'|].
    rewrite RN in I, I'. assert (KK : 0 < k * k) by nra. apply Rmult_le_reg_l in I; [|exact KK]. apply Rmult_le_reg_l in I'; [|exact KK].
    destruct (skew_coord k K a b N N0 I) as (A1 & A2 & A3). destruct (skew_coord k K _ _ N N0 I') as (B1 & B2 & _). rewrite Ea' in B1. rewrite Eb' in B2.
    assert (V : Rabs v <= N) by (replace v with ((a + (v + g * h)) / 2) by lra; apply half; assumption). assert (L : Rabs l <= N) by (replace l with ((b + (l + g * v)) / 2) by lra; apply half; assumption).
    assert (H : Rabs h <= A + 5 / 4 * N).
    { assert (E : h * (1 + k * g + g * g) = x - (b + k * a) - g * a) by (rewrite Ea, Eb; unfold h; ring). clear - E A1 A3 Hx Hg N0 K HA.
      set (c := b + k * a) in *. clearbody c h. clearbody N g k a.
      assert (R1 : - N <= a <= N) by (unfold Rabs in A1; destruct (Rcase_abs a); lra). assert (R2 : - N <= c <= N) by (unfold Rabs in A3; destruct (Rcase_abs c); lra). assert (R3 : - A <= x <= A) by (unfold Rabs in Hx; destruct (Rcase_abs x); lra).
      assert (g0 : 0 <= g) by lra. assert (R4 : - (g * N) <= g * a <= g * N) by (split; nra). set (ga := g * a) in *. clearbody ga.
      assert (d1 : 1 + g <= 5 / 4 * (1 + k * g + g * g)) by (pose proof (Rle_0_sqr (g - 2 / 5)) as Q; unfold Rsqr in Q; assert (0 <= k * g) by nra; lra).
      assert (d2 : 1 <= 1 + k * g + g * g) by nra. set (d := 1 + k * g + g * g) in *. clearbody d.
      assert (U : A + N + g * N <= (A + 5 / 4 * N) * d). { assert (N * (1 + g) <= N * (5 / 4 * d)) by (apply Rmult_le_compat_l; lra). assert (A * 1 <= A * d) by (apply Rmult_le_compat_l; lra). lra. }
      apply Rabs_le. split; apply Rmult_le_reg_r with d; lra. }
    assert (KV : Rabs (k * v) <= N / q) by (rewrite Rabs_mult, (Rabs_pos_eq k) by lra; unfold k, Rdiv; rewrite Rmult_1_l, Rmult_comm; apply Rmult_le_compat_r; [left; apply Rinv_0_lt_compat; lra|exact V]).
    assert (S2 : forall y z Y Z, Rabs y <= Y -> Rabs z <= Z -> Rabs (y - z) <= Y + Z) by (intros y z Y Z HY HZ; pose proof (Rabs_triang y (- z)) as Q; rewrite Rabs_Ropp in Q; unfold Rminus; lra).
    unfold peak_of, mode_m. cbv zeta. fold N. destruct Hm as [<-|[<-|[<-|[<-|[<-|[<-|[]]]]]]].
    - exact L.
    - exact H.
    - exact V.
    - apply S2; assumption.
    - replace (x - k * v - 2 * l) with (h - l) by (unfold h; ring). replace (A + 9 / 4 * N) with (A + 5 / 4 * N + N) by lra. apply S2; assumption.
    - replace (2 * k * v) with (2 * (k * v)) by ring. apply S2; [exact Hx|]. rewrite Rabs_mult, (Rabs_pos_eq 2) by lra. unfold Rdiv in *. lra.
  Qed.
  Lemma peak_run xs : forall s n os, filtering s -> k * k * skew k (vf_ic1 s) (vf_ic2 s) <= room k T A -> Forall (fun xf => Rabs (fst xf) <= A /\ 0 <= tan (PI * snd xf / sr) <= T) xs ->
    t_run nm tl (TSvf s 1 0) (map (fun xf => ATick [fst xf; snd xf; q]) xs) = Some (n, os) -> bounded (peak_of m sr top q A) os.
  Proof.
    induction xs as [|[x f] xs IH]; intros s n os Hs I F E; [cbn [map t_run] in E; injection E as _ <-; constructor|].
    inversion F as [|? ? [F1 F2] F']; subst. cbn [fst snd] in F1, F2. rewrite map_cons in E. remember (map (fun xf => ATick [fst xf; snd xf; q]) xs) as ys eqn:Ey. cbn [t_run fst snd] in E.
    destruct (peak_tick s x f Hs) as (s' & v & l & Tk & Hs' & E1 & E2 & E3 & E4). rewrite Tk in E. destruct (peak_level s x f s' v l F2 F1 I E1 E2 E3 E4) as [I' L].
    destruct (t_run nm tl (TSvf s' 1 0) ys) as [[n2 os2]|] eqn:R2; [|discriminate E]. injection E as _ <-. subst ys. constructor; [constructor; [exact L|constructor]|]. exact (IH s' n2 os2 Hs' I' F' R2).
  Qed.
End Run.
Lemma peak_bounded (G S X : Type) (tl : tools R G S X) : tl_elem tl = R_elem -> forall m sr top q A f0 q0 n xs os, 0 < sr -> 0 <= top -> 2 * top < sr -> 1 / 2 < q -> In m [MLowpass; MHighpass; MBandpass; MNotch; MPeak; MAllpass] ->
  build Rnum_ops tl true (OSvf m f0 q0 1) = Some n -> Forall (fun xf => Rabs (fst xf) <= A /\ 0 <= snd xf <= top) xs ->
  t_outs Rnum_ops tl (t_rate Rnum_ops tl n sr) (map (fun xf => ATick [fst xf; snd xf; q]) xs) = Some os -> bounded (peak_of m sr top q A) os.
Proof.
  intros H m sr top q A f0 q0 n xs os S0 T0 Ht Hq Hm B F E. destruct xs as [|y ys]; [unfold t_outs in E; cbn [map t_run] in E; injection E as <-; constructor|].
  assert (A0 : 0 <= A) by (inversion F as [|? ? [F1 _] _]; subst; pose proof (Rabs_pos (fst y)); lra). remember (y :: ys) as xs eqn:Exs.
  assert (W : forall f, 0 <= f <= top -> 0 <= tan (PI * f / sr) <= tan (PI * top / sr)) by (intros f Hf; apply (warped_range sr (fun _ => f) top S0 Ht (fun _ => Hf) 0%nat)). pose proof (W top ltac:(lra)) as W0.
  unfold t_outs in E. destruct (t_run _ _ _ _) as [[n' os']|] eqn:R; [|discriminate E]. injection E as <-.
  cbn [build] in B. assert (Q : exists s, t_rate Rnum_ops tl n sr = TSvf s 1 0 /\ filtering sr m s /\ vf_ic1 s = 0 /\ vf_ic2 s = 0).
  { destruct Hm as [<-|[<-|[<-|[<-|[<-|[<-|[]]]]]]]; injection B as <-; cbn [t_rate svf_do svf_new]; rewrite H; eexists; (split; [reflexivity|]); repeat split; reflexivity. }
  destruct Q as (s & Es & Fs & Z1 & Z2). rewrite Es in R. refine (peak_run tl H sr top q A m Hq Hm A0 ltac:(lra) xs s n' os' Fs _ _ R).
  - rewrite Z1, Z2. unfold skew, room. assert (K : 0 < 1 / q) by (apply Rdiv_lt_0_compat; lra). set (k := 1 / q) in *. set (T := tan _) in *. clearbody k T. replace (k * k * (0 * 0 + 0 * 0 + k * (0 * 0))) with 0 by ring. apply Rmult_le_pos; [|apply Rle_0_sqr]. assert (0 <= T * k) by nra. assert (0 <= T * T * ((k + 2) * (k + 2))) by (apply Rmult_le_pos; apply Rle_0_sqr). lra.
  - eapply Forall_impl; [|exact F]. intros [x f] [P Q]. cbn [fst snd] in *. split; [exact P|apply W, Q].
Qed.
