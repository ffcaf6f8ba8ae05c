(* Exactly which biquads are stable. *)
From Coq Require Import Reals Lra Lia Psatz List.
From Coquelicot Require Import Complex.
From Verif Require Import FreqSpec FreqProofs ShapeProofs TuneProofs TuneReal TuneBounds ModSvf ModBlow.
From Verif Require Export NyqSpec NyqProofs NyqAll.
Import ListNotations.
Local Open Scope R_scope.

(* the roots of x^2 + a1 x + a2, wherever they are *)
Lemma all_roots a1 a2 : exists p q : C, (p + q = - RtoC a1)%C /\ (p * q = RtoC a2)%C /\ (Cmod p < 1 -> Cmod q < 1 -> stable2 a1 a2).
Proof.
  destruct (Rle_dec 0 (a1 * a1 - 4 * a2)) as [Hd|Hd].
  - set (s := sqrt (a1 * a1 - 4 * a2)). assert (Hs : s * s = a1 * a1 - 4 * a2) by (apply sqrt_sqrt; auto).
    exists (RtoC ((- a1 + s) / 2)), (RtoC ((- a1 - s) / 2)). rewrite <- RtoC_plus, <- RtoC_mult, <- RtoC_opp, !Cmod_R. split; [f_equal; field|split].
    + f_equal. nra.
    + intros P Q. apply Rabs_def2 in P as [P P']. apply Rabs_def2 in Q as [Q Q']. set (u := (- a1 + s) / 2) in *. set (v := (- a1 - s) / 2) in *. assert (E1 : a1 = - (u + v)) by (unfold u, v; field). assert (E2 : a2 = u * v) by (unfold u, v; nra). clearbody u v. clear Hs Hd. subst a1 a2. clear s.
      split; apply Rabs_def1; nra.
  - apply Rnot_le_lt in Hd. set (s := sqrt (4 * a2 - a1 * a1)). assert (Hs : s * s = 4 * a2 - a1 * a1) by (apply sqrt_sqrt; lra).
    exists ((- a1 / 2, s / 2) : C), ((- a1 / 2, - s / 2) : C). split; [apply injective_projections; cbn; field|]. split; [apply injective_projections; cbn; [nra|field]|].
    intros P _. unfold Cmod in P. cbn [fst snd] in P. replace ((- a1 / 2) ^ 2 + (s / 2) ^ 2) with a2 in P by (cbn [pow]; lra). rewrite <- sqrt_1 in P. assert (0 <= a2) by nra. apply sqrt_lt_0_alt in P.
    split; apply Rabs_def1; try lra; nra.
Qed.

Lemma beyond x e : 0 < e -> exists n : nat, x < INR n * e.
Proof.
  intros H. exists (Z.to_nat (up (Rabs x / e))). destruct (archimed (Rabs x / e)) as [A _]. assert (Q : 0 <= Rabs x / e) by (apply Rmult_le_pos; [apply Rabs_pos|left; now apply Rinv_0_lt_compat]).
  assert (0 <= up (Rabs x / e))%Z by (apply le_IZR; lra). rewrite INR_IZR_INZ, Z2Nat.id by assumption. apply Rgt_lt, (Rmult_lt_compat_r e) in A; [|exact H]. unfold Rdiv in A at 1. rewrite Rmult_assoc, Rinv_l, Rmult_1_r in A by lra. pose proof (Rle_abs x). lra.
Qed.
(* squares of moduli *)
Definition nrm (z : C) : R := fst z * fst z + snd z * snd z.
Lemma nrm_mod z : nrm z = Cmod z * Cmod z.
Proof. unfold nrm, Cmod. rewrite sqrt_sqrt; [ring|]. pose proof (pow2_ge_0 (fst z)). pose proof (pow2_ge_0 (snd z)). lra. Qed.
Lemma pushed (p z e : C) : 1 <= Cmod p -> exists x, Rabs x <= 1 /\ nrm z + nrm e <= nrm (p * z + e * RtoC x)%C.
Proof.
  intros P. assert (Q : nrm z <= nrm (p * z)%C). { rewrite !nrm_mod, Cmod_mult. pose proof (Cmod_ge_0 z) as Z. set (m := Cmod p) in *. set (n := Cmod z) in *. assert (n * n * 1 <= n * n * (m * m)) by (apply Rmult_le_compat_l; nra). lra. }
  set (u := (p * z)%C) in *. set (d := fst u * fst e + snd u * snd e).
  assert (N : forall x, x * x = 1 -> 0 <= d * x -> nrm u + nrm e <= nrm (u + e * RtoC x)%C).
  { intros x X D. unfold nrm. cbn [fst snd Cplus Cmult RtoC]. replace ((fst u + (fst e * x - snd e * 0)) * (fst u + (fst e * x - snd e * 0)) + (snd u + (fst e * 0 + snd e * x)) * (snd u + (fst e * 0 + snd e * x))) with (fst u * fst u + snd u * snd u + (x * x) * (fst e * fst e + snd e * snd e) + 2 * (d * x)) by (unfold d; ring). rewrite X. lra. }
  destruct (Rle_dec 0 d) as [D|D].
  - exists 1. split; [rewrite Rabs_pos_eq; lra|]. eapply Rle_trans; [|apply N; lra]. lra.
  - exists (-1). split; [rewrite Rabs_left; lra|]. eapply Rle_trans; [|apply N; lra]. lra.
Qed.

Section Direct.
  Context {G Sh X : Type}.
  Variable tl : tools R G Sh X.
  Notation nm := Rnum_ops.
  Variable N : biquad R -> tnode R G Sh X.
  Variable c : bicoefs R.
  Hypothesis HN : forall b x, bq_c b = c -> t_tick nm tl (N b) [x] = let (b', y) := bi_step nm b x in (N b', [y]).
  Variable b0 : biquad R.
  Hypothesis Hb0 : b0 = mkBiquad c 0 0 0 0.
  Section Roots.
    Variables p q : C.
    Hypothesis Hsum : (p + q = - RtoC (bi_a1 c))%C.
    Hypothesis Hprod : (p * q = RtoC (bi_a2 c))%C.
    Let S := Rabs (bi_b0 c) + Rabs (bi_b1 c) + Rabs (bi_b2 c).
    Let v (y1 y2 : R) : C := (RtoC y1 - q * RtoC y2)%C.
    Let fed (x x1 x2 : R) : R := bi_b0 c * x + bi_b1 c * x1 + bi_b2 c * x2.
    Lemma v_next x x1 x2 y1 y2 : v (fed x x1 x2 - bi_a1 c * y1 - bi_a2 c * y2) y1 = (p * v y1 y2 + RtoC (fed x x1 x2))%C.
    Proof.
      unfold v. rewrite !RtoC_minus, !RtoC_mult, <- Hprod. assert (E : RtoC (bi_a1 c) = (- (p + q))%C) by (rewrite Hsum; ring). rewrite E. ring.
    Qed.
    Lemma fed_le x x1 x2 : Rabs x <= 1 -> Rabs x1 <= 1 -> Rabs x2 <= 1 -> Rabs (fed x x1 x2) <= S.
    Proof.
      intros A B C. unfold fed, S. pose proof (Rabs_triang (bi_b0 c * x + bi_b1 c * x1) (bi_b2 c * x2)) as T1. pose proof (Rabs_triang (bi_b0 c * x) (bi_b1 c * x1)) as T2. rewrite !Rabs_mult in *.
      pose proof (Rabs_pos (bi_b0 c)). pose proof (Rabs_pos (bi_b1 c)). pose proof (Rabs_pos (bi_b2 c)). nra.
    Qed.
    (* ---- poles inside the unit circle ---- *)
    Lemma inside : Cmod p < 1 -> Cmod q < 1 -> stable_filter tl (N b0).
    Proof.
      intros P Q. set (Bv := S / (1 - Cmod p)). set (By := Bv / (1 - Cmod q)). assert (S0 : 0 <= S) by (unfold S; pose proof (Rabs_pos (bi_b0 c)); pose proof (Rabs_pos (bi_b1 c)); pose proof (Rabs_pos (bi_b2 c)); lra).
      assert (Ev : Cmod p * Bv + S = Bv) by (unfold Bv; field; lra). assert (Ey : Bv + Cmod q * By = By) by (unfold By; field; lra).
      assert (V0 : 0 <= Bv) by (unfold Bv, Rdiv; apply Rmult_le_pos; [exact S0|left; apply Rinv_0_lt_compat; lra]). assert (Y0 : 0 <= By) by (unfold By, Rdiv; apply Rmult_le_pos; [exact V0|left; apply Rinv_0_lt_compat; lra]). clearbody Bv By.
      pose proof (Cmod_ge_0 p) as P0. pose proof (Cmod_ge_0 q) as Q0.
      exists By. intros acts os A. 
      set (inv := fun b : biquad R => bq_c b = c /\ Rabs (bq_x1 b) <= 1 /\ Rabs (bq_x2 b) <= 1 /\ Rabs (bq_y1 b) <= By /\ Cmod (v (bq_y1 b) (bq_y2 b)) <= Bv).
      assert (I0 : inv b0). { rewrite Hb0. unfold inv. cbn [bq_c bq_x1 bq_x2 bq_y1 bq_y2]. rewrite Rabs_R0. repeat (split; [first [reflexivity|lra]|]). unfold v. replace (RtoC 0 - q * RtoC 0)%C with (RtoC 0) by ring. rewrite Cmod_0. exact V0. }
      clear Hb0. unfold t_outs. revert I0 os. generalize b0. induction A as [|a acts (x & -> & Hx) _ IH]; intros b I os E; [cbn in E; injection E as <-; apply Forall_nil|].
      destruct I as (Hc & I1 & I2 & I3 & I4). cbn [t_run] in E. rewrite HN in E by exact Hc. unfold bi_step in E. rewrite Hc in E. cbn [nadd nsub nmul Rnum_ops] in E. fold (fed x (bq_x1 b) (bq_x2 b)) in E.
      set (y := fed x (bq_x1 b) (bq_x2 b) - bi_a1 c * bq_y1 b - bi_a2 c * bq_y2 b) in *. set (b' := mkBiquad _ _ _ _ _) in E. pose proof (fed_le x _ _ Hx I1 I2) as F.
      assert (V : Cmod (v y (bq_y1 b)) <= Bv). { unfold y. rewrite v_next. eapply Rle_trans; [apply Cmod_triangle|]. rewrite Cmod_mult, Cmod_R. assert (Cmod p * Cmod (v (bq_y1 b) (bq_y2 b)) <= Cmod p * Bv) by (apply Rmult_le_compat_l; assumption). lra. }
      assert (Y : Rabs y <= By). { rewrite <- Cmod_R. replace (RtoC y) with (v y (bq_y1 b) + q * RtoC (bq_y1 b))%C by (unfold v; ring). eapply Rle_trans; [apply Cmod_triangle|]. rewrite Cmod_mult, Cmod_R. assert (Cmod q * Rabs (bq_y1 b) <= Cmod q * By) by (apply Rmult_le_compat_l; assumption). lra. }
      assert (J : inv b') by (unfold inv, b'; cbn [bq_c bq_x1 bq_x2 bq_y1 bq_y2]; auto). specialize (IH b' J). destruct (t_run nm tl (N b') acts) as [[n' os']|]; [|discriminate]. cbn in E. injection E as <-. apply Forall_cons; [apply Forall_cons; [exact Y|apply Forall_nil]|]. apply IH. reflexivity.
    Qed.
    (* ---- a pole on or outside the unit circle that is not a zero ---- *)
    Hypothesis Hp : 1 <= Cmod p.
    Hypothesis Hz : (RtoC (bi_b0 c) * p * p + RtoC (bi_b1 c) * p + RtoC (bi_b2 c) <> 0)%C.
    Let p0 : (p <> 0)%C. Proof. intros E. rewrite E, Cmod_0 in Hp. lra. Qed.
    Let e2 : C := (RtoC (bi_b2 c) / p)%C.
    Let e1 : C := ((RtoC (bi_b1 c) + e2) / p)%C.
    Let be : C := (RtoC (bi_b0 c) + e1)%C.
    Let z (b : biquad R) : C := (v (bq_y1 b) (bq_y2 b) + e1 * RtoC (bq_x1 b) + e2 * RtoC (bq_x2 b))%C.
    Lemma be_pos : 0 < nrm be.
    Proof.
      rewrite nrm_mod. assert (0 < Cmod be); [|nra]. apply Cmod_gt_0. intros E. apply Hz. replace (RtoC (bi_b0 c) * p * p + RtoC (bi_b1 c) * p + RtoC (bi_b2 c))%C with (be * (p * p))%C; [rewrite E; ring|].
      unfold be, e1, e2. field. exact p0.
    Qed.
    Lemma z_next b x : bq_c b = c -> z (fst (bi_step nm b x)) = (p * z b + be * RtoC x)%C.
    Proof.
      intros Hc. unfold bi_step. cbn [fst]. rewrite Hc. unfold z at 1. cbn [bq_x1 bq_x2 bq_y1 bq_y2 nadd nsub nmul Rnum_ops]. fold (fed x (bq_x1 b) (bq_x2 b)). rewrite v_next. unfold z, fed. rewrite !RtoC_plus, !RtoC_mult. unfold be, e1, e2. field. exact p0.
    Qed.
    Lemma driven C n : exists acts os b, Forall (fun a => exists x, a = ATick [x] /\ Rabs x <= 1) acts /\ t_run nm tl (N b0) acts = Some (N b, os) /\ bq_c b = c /\ Rabs (bq_x1 b) <= 1 /\ Rabs (bq_x2 b) <= 1 /\
      INR n * nrm be <= nrm (z b) /\ (0 <= C -> bounded C os -> Rabs (bq_y1 b) <= C /\ Rabs (bq_y2 b) <= C).
    Proof.
      induction n as [|n (acts & os & b & A & E & Hc & X1 & X2 & Z & Y)].
      - exists [], [], b0. rewrite Hb0. cbn [bq_c bq_x1 bq_x2 bq_y1 bq_y2 t_run INR]. rewrite Rabs_R0. repeat (split; [first [reflexivity|apply Forall_nil|lra]|]). split; [|auto]. rewrite Rmult_0_l, nrm_mod. pose proof (Cmod_ge_0 (z (mkBiquad c 0 0 0 0))). nra.
      - destruct (pushed p (z b) be Hp) as (x & Hx & P). rewrite <- z_next in P by exact Hc. exists (acts ++ [ATick [x]]), (os ++ [[snd (bi_step nm b x)]]), (fst (bi_step nm b x)).
        split; [apply Forall_app; split; [exact A|apply Forall_cons; [now exists x|apply Forall_nil]]|]. split; [|split; [exact Hc|split; [exact Hx|split; [exact X1|split; [rewrite S_INR; lra|]]]]].
        + eapply t_run_join; [exact E|]. cbn [t_run]. rewrite HN by exact Hc. destruct (bi_step nm b x). reflexivity.
        + intros C0 B. unfold bounded in B. apply Forall_app in B as [B1 B2]. apply Forall_inv, Forall_inv in B2. split; [exact B2|]. apply Y; assumption.
    Qed.
    Lemma outside : ~ stable_filter tl (N b0).
    Proof.
      intros [C0 H]. set (C := Rmax C0 0). set (M := C + Cmod q * C + Cmod e1 + Cmod e2). pose proof (Rmax_r C0 0) as CP. fold C in CP. pose proof be_pos as BP.
      destruct (beyond (M * M) (nrm be) BP) as [n L]. destruct (driven C n) as (acts & os & b & A & E & Hc & X1 & X2 & Z & Y).
      assert (Bd : bounded C os). { assert (B : bounded C0 os) by (apply (H acts os A); unfold t_outs; rewrite E; reflexivity). eapply Forall_impl; [|exact B]. intros l. apply Forall_impl. intros y Q. pose proof (Rmax_l C0 0). unfold C. lra. }
      destruct (Y CP Bd) as [Y1 Y2]. assert (W : Cmod (z b) <= M).
      { unfold z, v, M. eapply Rle_trans; [apply Cmod_triangle|]. eapply Rle_trans; [apply Rplus_le_compat_r, Cmod_triangle|]. eapply Rle_trans; [apply Rplus_le_compat_r, Rplus_le_compat_r, Cmod_triangle|]. rewrite Cmod_opp, !Cmod_mult, !Cmod_R. pose proof (Cmod_ge_0 q). pose proof (Cmod_ge_0 e1). pose proof (Cmod_ge_0 e2).
        assert (Cmod q * Rabs (bq_y2 b) <= Cmod q * C) by (apply Rmult_le_compat_l; assumption). assert (Cmod e1 * Rabs (bq_x1 b) <= Cmod e1 * 1) by (apply Rmult_le_compat_l; assumption). assert (Cmod e2 * Rabs (bq_x2 b) <= Cmod e2 * 1) by (apply Rmult_le_compat_l; assumption). lra. }
      rewrite (nrm_mod (z b)) in Z. pose proof (Cmod_ge_0 (z b)) as Z0. assert (Cmod (z b) * Cmod (z b) <= M * M) by (apply Rmult_le_compat; assumption). lra.
    Qed.
  End Roots.
  Lemma direct_stable : stable2 (bi_a1 c) (bi_a2 c) -> stable_filter tl (N b0).
  Proof. intros H. destruct (roots _ _ H) as (p & q & E1 & E2 & P & Q). exact (inside p q E1 E2 P Q). Qed.
  Lemma direct_iff : coprime c -> (stable_filter tl (N b0) <-> stable2 (bi_a1 c) (bi_a2 c)).
  Proof.
    intros Co. split; [|exact direct_stable]. intros St. destruct (all_roots (bi_a1 c) (bi_a2 c)) as (p & q & E1 & E2 & H). 
    assert (R : forall u w : C, (u + w = - RtoC (bi_a1 c))%C -> (u * w = RtoC (bi_a2 c))%C -> Cmod u < 1).
    { intros u w U W. apply Rnot_le_lt. intros L. apply (outside u w U W L); [|exact St]. apply Co. assert (E : RtoC (bi_a1 c) = (- (u + w))%C) by (rewrite U; ring). rewrite E, <- W. ring. }
    apply H; [exact (R p q E1 E2)|]. apply (R q p); [rewrite Cplus_comm; exact E1|rewrite Cmult_comm; exact E2].
  Qed.
End Direct.

Lemma biquad_exactly : forall (G S X : Type) (tl : tools R G S X) c n, coprime c -> build Rnum_ops tl false (OBiquad c) = Some n -> (stable_filter tl n <-> stable2 (bi_a1 c) (bi_a2 c)).
Proof. intros G S X tl c n Co B. cbn [build] in B. injection B as <-. apply (direct_iff tl (fun b => TBiquad b) c); [|reflexivity|exact Co]. intros b x _. reflexivity. Qed.
Lemma biquad_inside : forall (G S X : Type) (tl : tools R G S X) c n, stable2 (bi_a1 c) (bi_a2 c) -> build Rnum_ops tl false (OBiquad c) = Some n -> stable_filter tl n.
Proof. intros G S X tl c n Co B. cbn [build] in B. injection B as <-. apply (direct_stable tl (fun b => TBiquad b) c); [|reflexivity|exact Co]. intros b x _. reflexivity. Qed.

(* resonators *)
Lemma reson_stable : forall (G S X : Type) (tl : tools R G S X), tl_elem tl = R_elem -> forall sr f q n, 0 < sr -> 0 < f -> 0 < q -> build Rnum_ops tl false (OReson f q) = Some n -> stable_filter tl (t_rate Rnum_ops tl n sr).
Proof.
  intros G S X tl Htl sr f q n SR F Q B. cbn [build] in B. injection B as <-. cbn [t_rate]. unfold reson_tune at 1. rewrite Htl. set (c := resonator Rnum_ops R_elem sr f q).
  apply (direct_stable tl (fun b => TReson false b sr f q) c).
  - intros b x _. reflexivity.
  - unfold with_coefs. rewrite Htl. reflexivity.
  - set (r := Rtrigo_def.exp (- PI * f / (q * sr))). assert (E1 : bi_a1 c = -2 * r * cos (2 * PI * f / sr)) by reflexivity. assert (E2 : bi_a2 c = r * r) by reflexivity. rewrite E1, E2.
    assert (R0 : 0 < r) by apply exp_pos. assert (R1 : r < 1). { rewrite <- exp_0. apply exp_increasing. pose proof PI_RGT_0. assert (0 < PI * f / (q * sr)) by (apply Rdiv_lt_0_compat; apply Rmult_lt_0_compat; assumption). unfold Rdiv in *. lra. }
    pose proof (COS_bound (2 * PI * f / sr)) as [C1 C2]. set (co := cos (2 * PI * f / sr)) in *. clearbody r co. split; apply Rabs_def1; nra.
Qed.

(* Butterworth lowpass filters *)
Lemma butter_coefs sr f : let g := tan (PI * f / sr) in let D := 1 + sqrt 2 * g + g * g in 0 < D /\
  butter_lowpass Rnum_ops R_elem sr f = mkBi ((2 * g * g - 2) * (1 / D)) ((1 - sqrt 2 * g + g * g) * (1 / D)) (g * g * (1 / D)) (2 * (g * g * (1 / D))) (g * g * (1 / D)).
Proof.
  intros g D. assert (S2 : sqrt 2 * sqrt 2 = 2) by (apply sqrt_sqrt; lra). split.
  - unfold D. replace (1 + sqrt 2 * g + g * g) with ((g + sqrt 2 / 2) * (g + sqrt 2 / 2) + (1 - sqrt 2 * sqrt 2 / 4)) by field. rewrite S2. pose proof (Rle_0_sqr (g + sqrt 2 / 2)) as Q. unfold Rsqr in Q. lra.
  - unfold butter_lowpass. cbn [e_tan e_pi e_sqrt R_elem nadd nsub nmul ndiv n1 nofZ Rnum_ops]. rewrite (Rmult_comm f PI). reflexivity.
Qed.
Lemma butter_coprime sr f : tan (PI * f / sr) <> 0 -> coprime (butter_lowpass Rnum_ops R_elem sr f).
Proof.
  intros Hg p. destruct (butter_coefs sr f) as [P Ec]. rewrite Ec. clear Ec. cbn [bi_a1 bi_a2 bi_b0 bi_b1 bi_b2]. set (g := tan (PI * f / sr)) in *. set (D := 1 + sqrt 2 * g + g * g) in *. intros A B.
  set (u := g * g * (1 / D)) in *. assert (U : u <> 0) by (apply Rgt_not_eq; unfold u; apply Rmult_lt_0_compat; [nra|apply Rdiv_lt_0_compat; lra]).
  assert (B2 : ((p + 1) * (p + 1) = 0)%C). { assert (Cu : (RtoC u <> 0)%C) by (intros E; apply RtoC_inj in E; contradiction). replace ((p + 1) * (p + 1))%C with ((RtoC u * p * p + RtoC (2 * u) * p + RtoC u) / RtoC u)%C; [rewrite B; field; exact Cu|]. replace (2 * u) with (u + u) by ring. rewrite RtoC_plus. field. exact Cu. }
  assert (Pm : (p = - RtoC 1)%C). { destruct (Ceq_dec (p + 1)%C 0) as [E|E]; [replace p with (p + 1 - 1)%C by ring; rewrite E; ring|]. exfalso. apply (Cmult_neq_0 _ _ E E B2). }
  rewrite Pm in A. rewrite <- RtoC_opp, <- !RtoC_mult, <- !RtoC_plus in A. apply RtoC_inj in A.
  assert (I : -1 * -1 + (2 * g * g - 2) * (1 / D) * -1 + (1 - sqrt 2 * g + g * g) * (1 / D) = 4 / D) by (field_simplify_eq; [unfold D; ring|lra]). change (-(1)) with (-1) in A. rewrite I in A. assert (0 < 4 / D) by (apply Rdiv_lt_0_compat; lra). lra.
Qed.
Lemma tan_pos sr f N : 0 < sr -> INR N * sr < f < (INR N + 1 / 2) * sr -> 0 < tan (PI * f / sr).
Proof.
  intros H F. replace f with (f - INR N * sr + INR N * sr) by ring. rewrite tan_alias by exact H. set (h := f - INR N * sr). assert (L : 0 < h < sr / 2) by (unfold h; lra). clearbody h. pose proof PI_RGT_0 as P.
  apply tan_gt_0; [apply Rdiv_lt_0_compat; [apply Rmult_lt_0_compat|]; lra|]. apply Rmult_lt_reg_r with sr; [exact H|]. replace (PI * h / sr * sr) with (PI * h) by (field; lra). assert (PI * h < PI * (sr / 2)) by (apply Rmult_lt_compat_l; lra). lra.
Qed.
Lemma butter_exactly : forall (G S X : Type) (tl : tools R G S X), tl_elem tl = R_elem -> forall sr f n, 0 < sr -> 0 < f -> (forall N : nat, f <> INR N * (sr / 2)) -> build Rnum_ops tl false (OButter f) = Some n ->
  (stable_filter tl (t_rate Rnum_ops tl n sr) <-> aliased_low sr f).
Proof.
  intros G S X tl Htl sr f n SR F Z B. cbn [build] in B. injection B as <-. cbn [t_rate]. unfold butter_tune at 1. rewrite Htl. set (c := butter_lowpass Rnum_ops R_elem sr f).
  set (g := tan (PI * f / sr)). assert (Sg : (aliased_low sr f /\ 0 < g) \/ (~ aliased_low sr f /\ g < 0)).
  { destruct (halves sr f SR F Z) as [[M L]|[M L]]; [left; split; [now exists M|exact (tan_pos sr f M SR L)]|right; split; [|exact (tan_neg sr f M SR L)]].
    intros (N & N1 & N2). assert (X1 : INR N < INR M + 1) by (apply Rmult_lt_reg_r with sr; lra). assert (X2 : INR M + 1 / 2 < INR N + 1 / 2) by (apply Rmult_lt_reg_r with sr; lra). rewrite <- S_INR in X1. apply INR_lt in X1. assert (Y : INR M < INR N) by lra. apply INR_lt in Y. lia. }
  assert (G0 : g <> 0) by (destruct Sg as [[_ Q]|[_ Q]]; lra).
  transitivity (stable2 (bi_a1 c) (bi_a2 c)).
  - apply (direct_iff tl (fun b => TButter false b sr f) c); [intros b x _; reflexivity|unfold with_coefs; rewrite Htl; reflexivity|exact (butter_coprime sr f G0)].
  - destruct (butter_coefs sr f) as [P E]. fold c in E. rewrite E. cbn [bi_a1 bi_a2]. fold g. fold g in P. assert (S0 : 0 < sqrt 2) by (apply sqrt_lt_R0; lra). assert (S2 : sqrt 2 * sqrt 2 = 2) by (apply sqrt_sqrt; lra).
    set (D := 1 + sqrt 2 * g + g * g) in *. assert (ID : D * (1 / D) = 1) by (field; lra). assert (PD : 0 < 1 / D) by (apply Rdiv_lt_0_compat; lra). set (d := 1 / D) in *. clearbody d. split.
    + intros [H _]. destruct Sg as [[Q _]|[_ Q]]; [exact Q|]. exfalso. apply Rabs_def2 in H as [H _]. assert (sqrt 2 * g < 0) by nra. assert (D < 1 - sqrt 2 * g + g * g) by (unfold D; lra). nra.
    + intros Al. destruct Sg as [[_ Q]|[Q _]]; [|contradiction]. assert (sqrt 2 * g > 0) by nra. assert (0 < g * g) by nra.
      assert (W : forall u, - D < u < D -> Rabs (u * d) < 1). { intros u [U1 U2]. apply Rabs_def1; nra. }
      assert (H1 : 0 < 1 - sqrt 2 * g + g * g). { replace (1 - sqrt 2 * g + g * g) with ((g - sqrt 2 / 2) * (g - sqrt 2 / 2) + (1 - sqrt 2 * sqrt 2 / 4)) by field. rewrite S2. pose proof (Rle_0_sqr (g - sqrt 2 / 2)) as R0. unfold Rsqr in R0. lra. }
      split; [apply W; unfold D; lra|]. assert (Ee : 1 + (1 - sqrt 2 * g + g * g) * d = (2 + 2 * (g * g)) * d) by (transitivity (D * d + (1 - sqrt 2 * g + g * g) * d); [rewrite ID; reflexivity|unfold D; ring]). rewrite Ee. apply Rabs_def1; [apply Rmult_lt_compat_r; lra|]. replace (- ((2 + 2 * (g * g)) * d)) with ((-2 - 2 * (g * g)) * d) by ring. apply Rmult_lt_compat_r; lra.
Qed.
