(* Dynamical systems in blocks, and where they stop. *)
From Coq Require Import Reals Lra Lia SpecFloat.
From Verif Require Import EnvStop.
From Verif Require Export SysProofs.
From Verif Require Import BufProofs.
Local Open Scope R_scope.

Section Blocks.
  Context {A P S X : Type}.
  Variable xo : unit_ops A P X.
  Variable zero : A.
  Variable f : S -> R -> R -> X -> S * X.
  Variables (sr dt : R) (x_rate : X -> R -> X).
  Hypothesis Hsr : 0 < sr.
  Hypothesis Hx : unit_laws zero xo.
  Hypothesis Hf : forall st t d x, u_ins xo (snd (f st t d x)) = u_ins xo x /\ u_outs xo (snd (f st t d x)) = u_outs xo x.
  Lemma every_quiet m : forall l n st x l', (forall j, (j < length l)%nat -> (n + j) mod m <> 0)%nat ->
    every xo f sr m n st x (l ++ l') = snd (BufModel.ticks (u_tick xo) x l) ++ every xo f sr m (n + length l) st (fst (BufModel.ticks (u_tick xo) x l)) l'.
  Proof.
    induction l as [|i l IH]; intros n st x l' H; [cbn; now rewrite Nat.add_0_r|]. cbn [app every BufModel.ticks length]. pose proof (H 0%nat ltac:(cbn; lia)) as H0. rewrite Nat.add_0_r in H0. apply Nat.eqb_neq in H0. rewrite H0. destruct (u_tick xo x i) as [x' o].
    rewrite (IH (n + 1)%nat st x' l'); [|intros j Hj; replace (n + 1 + j)%nat with (n + Datatypes.S j)%nat by lia; apply H; cbn; lia]. destruct (BufModel.ticks (u_tick xo) x' l) as [x2 os]. cbn [fst snd app]. now replace (n + 1 + length l)%nat with (n + Datatypes.S (length l))%nat by lia.
  Qed.
  Lemma every_block m n st x l l' : l <> [] -> (forall j, (1 <= j < length l)%nat -> (n + j) mod m <> 0)%nat ->
    every xo f sr m n st x (l ++ l') = (let (st, x) := if Nat.eqb (n mod m) 0 then f st (INR n / sr) (if Nat.eqb n 0 then 0 else INR m / sr) x else (st, x) in
      snd (BufModel.ticks (u_tick xo) x l) ++ every xo f sr m (n + length l) st (fst (BufModel.ticks (u_tick xo) x l)) l').
  Proof.
    intros N H. destruct l as [|i l]; [congruence|]. cbn [app every BufModel.ticks]. destruct (if Nat.eqb (n mod m) 0 then _ else _) as [st' x']. destruct (u_tick xo x' i) as [x1 o]. rewrite (every_quiet m l (n + 1) st' x1 l').
    - destruct (BufModel.ticks (u_tick xo) x1 l) as [x2 os]. cbn [fst snd app length]. now replace (n + 1 + length l)%nat with (n + Datatypes.S (length l))%nat by lia.
    - intros j Hj. replace (n + 1 + j)%nat with (n + Datatypes.S j)%nat by lia. apply H. cbn. lia.
  Qed.
  Lemma ticks_arity l : forall x, u_ins xo (fst (BufModel.ticks (u_tick xo) x l)) = u_ins xo x /\ u_outs xo (fst (BufModel.ticks (u_tick xo) x l)) = u_outs xo x.
  Proof.
    induction l as [|i l IH]; intros x; [auto|]. cbn [BufModel.ticks]. pose proof (ul_ins _ _ Hx x i) as E1. pose proof (ul_outs _ _ Hx x i) as E2. destruct (u_tick xo x i) as [x1 o]. cbn [fst] in *. specialize (IH x1). destruct (BufModel.ticks (u_tick xo) x1 l). cbn [fst] in *. destruct IH. split; congruence.
  Qed.
  Lemma reference_blocks m k : period sr dt m -> (1 <= k <= MAXB)%nat -> Nat.divide k m -> forall bs q u st x, Forall (fun b => shaped (u_ins xo x) (fst b) /\ shaped (u_outs xo x) (snd b)) bs ->
    let n := (k * q)%nat in u = (if Nat.eqb n 0 then 0 else m * ((n - 1) / m))%nat ->
    flat_map (heard zero k) (fst (reference xo f sr dt n u st x (map (fun b => YBlock k (fst b) (snd b)) bs))) = every xo f sr m n st x (flat_map (fun b => frames zero (fst b) k) bs).
  Proof.
    intros (M1 & M2 & M3) Hk [c Hc] bs. induction bs as [|[inb out] bs IH]; intros q u st x HB n Eu; [reflexivity|]. cbn [map reference flat_map fst snd]. apply Forall_cons_iff in HB as [[B1 B2] HB]. cbn [fst snd] in B1, B2.
    assert (Q : (if due sr dt n u k then let (st, x) := f st (INR n / sr) (INR (n - u) / sr) x in (n, st, x) else (u, st, x)) =
      (let (st, x) := if Nat.eqb (n mod m) 0 then f st (INR n / sr) (if Nat.eqb n 0 then 0 else INR m / sr) x else (st, x) in ((m * (n / m))%nat, st, x))).
    { unfold due. replace (Nat.ltb 0 k) with true by (symmetry; apply Nat.ltb_lt; lia). destruct (Nat.eqb_spec n 0) as [E0|N0].
      - rewrite E0 in *. subst u. rewrite Nat.mod_0_l, Nat.div_0_l by lia. cbn [Nat.eqb Nat.sub INR andb]. replace (0 / sr) with 0 by (unfold Rdiv; ring). replace (m * 0)%nat with 0%nat by lia. destruct (Rle_dec dt 0); destruct (f st 0 0 x); reflexivity.
      - assert (D : n = (m * (n / m) + n mod m)%nat) by (apply Nat.div_mod; lia). pose proof (Nat.mod_upper_bound n m ltac:(lia)) as B. set (d := (n / m)%nat) in *. set (r := (n mod m)%nat) in *. destruct (Nat.eqb_spec r 0) as [R0|R0].
        + assert (d <> 0)%nat by (intros Q0; rewrite Q0 in D; lia). assert (V : ((n - 1) / m = d - 1)%nat). { symmetry. apply (Nat.div_unique (n - 1) m (d - 1) (m - 1)); [lia|]. rewrite D, R0. destruct d as [|d']; [lia|]. replace (Datatypes.S d' - 1)%nat with d' by lia. rewrite Nat.mul_succ_r. lia. }
          rewrite Eu, V. assert (W : (n - m * (d - 1) = m)%nat). { rewrite D at 1. rewrite R0. destruct d as [|d']; [lia|]. replace (Datatypes.S d' - 1)%nat with d' by lia. rewrite Nat.mul_succ_r. lia. }
          rewrite W. destruct (Rle_dec dt (INR m / sr)) as [_|NL]; [|contradiction]. destruct (f st (INR n / sr) (INR m / sr) x). f_equal. f_equal. lia.
        + assert (V : ((n - 1) / m = d)%nat) by (symmetry; apply (Nat.div_unique (n - 1) m d (r - 1)); lia). rewrite Eu, V. assert (W : (n - m * d = r)%nat) by lia. rewrite W. pose proof (M3 r ltac:(lia)) as L. destruct (Rle_dec dt (INR r / sr)) as [G|_]; [lra|]. cbn [andb]. reflexivity. }
    rewrite Q. clear Q. set (w := if Nat.eqb (n mod m) 0 then _ else _).
    assert (Ew : u_ins xo (snd w) = u_ins xo x /\ u_outs xo (snd w) = u_outs xo x) by (unfold w; destruct (Nat.eqb (n mod m) 0); [apply Hf|auto]).
    rewrite (every_block m n st x (frames zero inb k) (flat_map (fun b => frames zero (fst b) k) bs)).
    3:{ rewrite frames_length. intros j Hj E. apply Nat.mod_divide in E; [|lia]. assert (G : Nat.divide k (n + j)) by (eapply Nat.divide_trans; [exists c; exact Hc|exact E]). unfold n in G. apply Nat.divide_add_cancel_r in G; [|exists q; lia]. apply Nat.divide_pos_le in G; lia. }
    2:{ intros E. apply (f_equal (@length _)) in E. rewrite frames_length in E. cbn in E. lia. }
    fold w. destruct w as [st' x']. cbn [snd] in Ew. destruct Ew as [E1 E2]. pose proof (ul_process _ _ Hx x' k inb out ltac:(lia)) as Pc. rewrite E1, E2 in Pc. specialize (Pc B1 B2). destruct (u_process xo x' k inb out) as [x2 o2]. destruct Pc as [Pc _].
    specialize (IH (q + 1)%nat (m * (n / m))%nat st' x2). cbv zeta in IH. replace (k * (q + 1))%nat with (n + k)%nat in IH by (unfold n; lia). destruct (reference xo f sr dt (n + k) (m * (n / m)) st' x2 _) as [os r]. cbn [fst flat_map heard]. cbn [fst] in IH. rewrite <- Pc. cbn [fst snd]. rewrite frames_length. f_equal. apply IH.
    - pose proof (ticks_arity (frames zero inb k) x') as [T1 T2]. rewrite <- Pc in T1, T2. cbn [fst] in T1, T2. rewrite T1, T2, E1, E2. exact HB.
    - replace (Nat.eqb (n + k) 0) with false by (symmetry; apply Nat.eqb_neq; lia). f_equal. assert (D : n = (m * (n / m) + n mod m)%nat) by (apply Nat.div_mod; lia). pose proof (Nat.mod_upper_bound n m ltac:(lia)) as B. set (d := (n / m)%nat) in *. set (r' := (n mod m)%nat) in *.
      assert (c <> 0)%nat by (intros ->; lia). assert (Dr : exists e, r' = (k * e)%nat). { exists (q - c * d)%nat. rewrite Nat.mul_sub_distr_l. unfold n in D. rewrite Hc in D. replace (k * (c * d))%nat with (c * k * d)%nat by lia. lia. }
      destruct Dr as [e De]. apply (Nat.div_unique (n + k - 1) m d (r' + k - 1)); [|lia]. assert (e < c)%nat by (rewrite De, Hc in B; apply (Nat.mul_lt_mono_pos_l k); lia). rewrite De, Hc. assert (k * e + k <= c * k)%nat by (replace (k * e + k)%nat with (k * Datatypes.S e)%nat by lia; replace (c * k)%nat with (k * c)%nat by lia; apply Nat.mul_le_mono_l; lia). lia.
  Qed.
End Blocks.

Section Frozen.
  Context {A P S X : Type}.
  Variable xo : unit_ops A P X.
  Variables f g : S -> spec_float -> spec_float -> X -> S * X.
  Hypothesis Same : forall st d x, f st C512 d x = g st C512 d x.
  Lemma tick_same (s : system spec_float S X) i : y_time s = C512 -> sys_tick f32_ops xo f s i = sys_tick f32_ops xo g s i.
  Proof. intros E. unfold sys_tick, sys_update. rewrite E, Same. reflexivity. Qed.
  Lemma ticks_same l : forall s : system spec_float S X, stepping s -> y_time s = C512 -> BufModel.ticks (sys_tick f32_ops xo f) s l = BufModel.ticks (sys_tick f32_ops xo g) s l.
  Proof.
    induction l as [|i l IH]; intros s H E; [reflexivity|]. cbn [BufModel.ticks]. rewrite <- (tick_same s i E). destruct (stepping_tick xo f s i H) as (S1 & _ & S3). destruct (sys_tick f32_ops xo f s i) as [s1 o]. cbn [fst] in *. rewrite (IH s1 S1 (S3 E)). reflexivity.
  Qed.
End Frozen.
Lemma stepping_ticks {A P S X} (xo : unit_ops A P X) (f : S -> spec_float -> spec_float -> X -> S * X) l : forall s, stepping s -> stepping (fst (BufModel.ticks (sys_tick f32_ops xo f) s l)).
Proof.
  induction l as [|i l IH]; intros s H; [exact H|]. cbn [BufModel.ticks]. destruct (stepping_tick xo f s i H) as (S1 & _). destruct (sys_tick f32_ops xo f s i) as [s1 o]. cbn [fst] in *. specialize (IH s1 S1). destruct (BufModel.ticks (sys_tick f32_ops xo f) s1 l). exact IH.
Qed.
Lemma frozen {A P S X} (xo : unit_ops A P X) (f : S -> spec_float -> spec_float -> X -> S * X) : exists N, forall (s : system spec_float S X) p l g, stepping s -> (N <= length p)%nat -> (forall st d x, f st C512 d x = g st C512 d x) ->
  let s' := fst (BufModel.ticks (sys_tick f32_ops xo f) s p) in y_time s' = C512 /\ BufModel.ticks (sys_tick f32_ops xo f) s' l = BufModel.ticks (sys_tick f32_ops xo g) s' l.
Proof.
  destruct (stops xo f) as [N H]. exists N. intros s p l g Hs Hp Sm s'. assert (E : y_time s' = C512) by (apply H; assumption). split; [exact E|]. apply ticks_same; auto. apply stepping_ticks. exact Hs.
Qed.
Lemma new_stepping {S X} (x : X) (dt : spec_float) (st : S) : stepping (sys_new f32_ops x dt st).
Proof.
  unfold stepping, sys_new. cbn [y_time y_sr]. split; [split; reflexivity|]. change (n0 f32_ops) with (S754_zero false). split; [cbn; lra|].
  replace (ndiv f32_ops (nofZ f32_ops 1) (nofZ f32_ops 44100)) with (S754_finite false 12466118 (-39)) by (vm_compute; reflexivity). split; [split; reflexivity|]. unfold real, BinarySingleNaN.SF2R, Defs.F2R. cbn. lra.
Qed.
