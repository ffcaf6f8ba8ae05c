(* Delay lines over the real numbers: lengths, and the range that the taps read. *)
From Coq Require Import ZArith Lia Reals Lra.
From Verif Require Export FbUnitProofs.

Section Any.
  Context {F : Type}.
  Variable nm : num F.
  Notation zero := (n0 nm).
  Definition sized (d : delay) : Prop := d_line d = line_new zero (delay_length nm (d_time d) (d_sr d) + 1) \/ length (l_buf (d_line d)) = delay_length nm (d_time d) (d_sr d) + 1.
  Lemma sized_len d : sized d -> length (l_buf (d_line d)) = delay_length nm (d_time d) (d_sr d) + 1.
  Proof. intros [->|H]; [apply repeat_length|exact H]. Qed.
  Lemma do_sized d o : sized d -> sized (delay_do nm d o) /\ d_time (delay_do nm d o) = d_time d.
  Proof.
    intros H. pose proof (sized_len d H) as E. destruct o as [i| |sr]; cbn [delay_do].
    - unfold delay_step. pose proof (delay_tick_len zero (d_line d) i) as Ln. destruct (delay_tick zero (d_line d) i) as [l o]. cbn [fst d_line d_time d_sr] in *. split; [right; cbn; congruence|reflexivity].
    - split; [|reflexivity]. left. unfold delay_reset, line_reset. cbn. now rewrite E.
    - unfold delay_set_sample_rate. destruct (fneq nm (d_sr d) sr); [split; [left; reflexivity|reflexivity]|auto].
  Qed.
  Lemma run_sized os : forall d, sized d -> sized (fold_left (delay_do nm) os d) /\ d_time (fold_left (delay_do nm) os d) = d_time d.
  Proof. induction os as [|o os IH]; intros d H; cbn [fold_left]; [auto|]. destruct (do_sized d o H) as [H1 H2]. destruct (IH _ H1). split; congruence. Qed.
  Lemma delay_steps l t sr ins : snd (ticks (delay_step nm) (mkDelay t sr l) ins) = snd (ticks (delay_tick zero) l ins).
  Proof.
    revert l. induction ins as [|i ins IH]; intros l; cbn [ticks]; [reflexivity|]. unfold delay_step at 1. cbn [d_line d_time d_sr]. destruct (delay_tick zero l i) as [l' o]. specialize (IH l'). destruct (ticks (delay_step nm) _ ins). destruct (ticks (delay_tick zero) l' ins). cbn in *. congruence.
  Qed.
  Lemma fresh_exact t sr xs : snd (ticks (delay_step nm) (mkDelay t sr (line_new zero (delay_length nm t sr + 1))) (map (fun x => [x]) xs)) = map (fun x => [x]) (delayed zero (delay_length nm t sr) xs).
  Proof. rewrite delay_steps. apply delay_exact. Qed.
  Lemma history_exact sr0 t d0 os xs : delay_new nm sr0 t = Some d0 -> let d := fold_left (delay_do nm) os d0 in
    let played r := snd (ticks (delay_step nm) r (map (fun x => [x]) xs)) in
    played d0 = map (fun x => [x]) (delayed zero (delay_length nm t sr0) xs) /\
    played (delay_reset nm d) = map (fun x => [x]) (delayed zero (delay_length nm t (d_sr d)) xs) /\
    (forall sr, fneq nm (d_sr d) sr = true -> played (delay_set_sample_rate nm d sr) = map (fun x => [x]) (delayed zero (delay_length nm t sr) xs)).
  Proof.
    unfold delay_new. destruct (nleb nm zero t); [|discriminate]. intros E. inversion E; subst d0; clear E. cbv zeta. split; [apply fresh_exact|].
    destruct (run_sized os (mkDelay t sr0 (line_new zero (delay_length nm t sr0 + 1)))) as [S1 S2]; [now left|]. cbn [d_time] in S2. set (d := fold_left _ _ _) in *. split.
    - unfold delay_reset, line_reset. rewrite (sized_len d S1), S2. apply fresh_exact.
    - intros sr Hn. unfold delay_set_sample_rate. rewrite Hn, S2. apply fresh_exact.
  Qed.
  Lemma delay_contract d : block_contract zero (delay_step nm) (fun x size inb out => default_process zero (delay_step nm) size x inb out) 1 1 d.
  Proof.
    apply (default_process_contract zero (delay_step nm) 1 1 (fun _ => True)); [|exact I]. intros y i _ _. split; [exact I|]. unfold delay_step. destruct (delay_tick zero (d_line y) i) as [l o] eqn:E. unfold delay_tick in E. inversion E. reflexivity.
  Qed.

  (* what an interpolating tap reads, if the samples it reads are in the buffer *)
  Lemma wrapi_ok L k z : L = 2 ^ k -> wrapi L z < L /\ (Z.of_nat (wrapi L z) mod Z.of_nat L = z mod Z.of_nat L)%Z.
  Proof.
    intros E. assert (0 < L) by (subst L; apply Nat.neq_0_lt_0, Nat.pow_nonzero; lia). rewrite (wrapi_mod L k z E). pose proof (Z.mod_pos_bound z (Z.of_nat L) ltac:(lia)). split; [lia|]. rewrite Z2Nat.id by lia. now rewrite Z.mod_mod by lia.
  Qed.
  Section Reads.
    Variables (lo hi sr : F) (L k m : nat) (buf hist : list F) (i : nat) (z : Z) (dl : F).
    Hypothesis pow : L = 2 ^ k.
    Hypothesis H : holds zero L buf i hist.
    Hypothesis Hz : (z mod Z.of_nat L = (Z.of_nat i - 1 - Z.of_nat m) mod Z.of_nat L)%Z.
    Let f := nfloor nm (nmul nm (clamp nm lo hi dl) sr).
    Lemma read_at e q : (0 <= f + e)%Z -> m + Z.to_nat (f + e) < L -> (q mod Z.of_nat L = (z - f - e) mod Z.of_nat L)%Z -> read nm buf (wrapi (length buf) q) = nth (m + Z.to_nat (f + e)) hist zero.
    Proof.
      intros H0 H1 Hq. unfold read. rewrite (proj1 H). destruct (wrapi_ok L k q pow) as [W1 W2]. apply (holds_read zero L buf i hist); auto. rewrite W2, Hq.
      replace (Z.of_nat i - 1 - Z.of_nat (m + Z.to_nat (f + e)))%Z with (Z.of_nat i - 1 - Z.of_nat m - (f + e))%Z by lia.
      rewrite <- (Zminus_mod_idemp_l (Z.of_nat i - 1 - Z.of_nat m)), <- Hz, Zminus_mod_idemp_l. f_equal. lia.
    Qed.
    Lemma i1_mod c : ((Z.of_nat (wrapi (length buf) (z - f)) - c) mod Z.of_nat L = (z - f - c) mod Z.of_nat L)%Z.
    Proof. rewrite (proj1 H). destruct (wrapi_ok L k (z - f) pow) as [_ W2]. rewrite <- Zminus_mod_idemp_l, W2. apply Zminus_mod_idemp_l. Qed.
    Lemma cubic_reads : (1 <= f)%Z -> (Z.of_nat m + f + 2 < Z.of_nat L)%Z -> cubic nm lo hi sr buf z dl = cubic_spec nm lo hi sr (fun j => nth (m + j) hist zero) dl.
    Proof.
      intros H1 H2. unfold cubic, cubic_spec. cbv zeta. fold f.
      rewrite (read_at (-1) (Z.of_nat (wrapi (length buf) (z - f)) + 1)); [|lia|lia|replace (Z.of_nat (wrapi (length buf) (z - f)) + 1)%Z with (Z.of_nat (wrapi (length buf) (z - f)) - (-1))%Z by lia; apply i1_mod].
      rewrite (read_at 0 (z - f)); [|lia|lia|f_equal; lia].
      rewrite (read_at 1 (Z.of_nat (wrapi (length buf) (z - f)) - 1)); [|lia|lia|apply i1_mod].
      rewrite (read_at 2 (Z.of_nat (wrapi (length buf) (z - f)) - 2)); [|lia|lia|apply i1_mod].
      replace (Z.to_nat (f + -1)) with (Z.to_nat f - 1) by lia. replace (Z.to_nat (f + 0)) with (Z.to_nat f) by lia. replace (Z.to_nat (f + 1)) with (Z.to_nat f + 1) by lia. replace (Z.to_nat (f + 2)) with (Z.to_nat f + 2) by lia. reflexivity.
    Qed.
    Lemma linear_reads : (0 <= f)%Z -> (Z.of_nat m + f + 1 < Z.of_nat L)%Z -> linear nm lo hi sr buf z dl = linear_spec nm lo hi sr (fun j => nth (m + j) hist zero) dl.
    Proof.
      intros H1 H2. unfold linear, linear_spec. cbv zeta. fold f. rewrite (read_at 0 (z - f)); [|lia|lia|f_equal; lia]. rewrite (read_at 1 (Z.of_nat (wrapi (length buf) (z - f)) - 1)); [|lia|lia|apply i1_mod].
      replace (Z.to_nat (f + 0)) with (Z.to_nat f) by lia. replace (Z.to_nat (f + 1)) with (Z.to_nat f + 1) by lia. reflexivity.
    Qed.
  End Reads.
  Lemma cubic_spec_ext lo hi sr f g dl : (forall j, f j = g j) -> cubic_spec nm lo hi sr f dl = cubic_spec nm lo hi sr g dl.
  Proof. intros E. unfold cubic_spec. cbv zeta. now rewrite !E. Qed.
  Lemma linear_spec_ext lo hi sr f g dl : (forall j, f j = g j) -> linear_spec nm lo hi sr f dl = linear_spec nm lo hi sr g dl.
  Proof. intros E. unfold linear_spec. cbv zeta. now rewrite !E. Qed.
End Any.

Open Scope R_scope.
Notation nm := Rnum_ops.
Lemma Int_part_ge z x : IZR z <= x -> (z <= Int_part x)%Z.
Proof. intros H. destruct (base_Int_part x) as [H1 H2]. assert (X : IZR z < IZR (Int_part x) + 1) by lra. rewrite <- plus_IZR in X. apply lt_IZR in X. lia. Qed.
Lemma Int_part_lt z x : x < IZR z -> (Int_part x < z)%Z.
Proof. intros H. destruct (base_Int_part x) as [H1 H2]. apply lt_IZR. lra. Qed.
Lemma round_us_near x : 0 <= x -> INR (round_us nm x) - 1 / 2 <= x < INR (round_us nm x) + 1 / 2.
Proof.
  intros H. unfold round_us. cbn [nfloor nleb n1 nofZ ndiv nsub Rnum_ops]. destruct (base_Int_part x) as [H1 H2]. assert (H0 : (0 <= Int_part x)%Z) by (apply Int_part_ge; lra).
  unfold n1. cbn. destruct (Rle_dec (1 / 2) (x - IZR (Int_part x))) as [G|G]; rewrite INR_IZR_INZ, Z2Nat.id by lia; rewrite ?plus_IZR; lra.
Qed.
Lemma ceilZ_ge x : x <= IZR (ceilZ nm x).
Proof. unfold ceilZ. cbn. destruct (base_Int_part (- x)) as [H1 H2]. rewrite opp_IZR. lra. Qed.
Lemma clamp_bounds lo hi x : Rmin lo hi <= clamp nm lo hi x <= hi.
Proof.
  unfold clamp. cbn. split; [|apply Rmin_r]. apply Rmin_glb; [|apply Rmin_r]. apply Rle_trans with lo; [apply Rmin_l|apply Rmax_r].
Qed.
Lemma tap_floor sr min max dl : 0 < sr -> 0 <= max -> let f := nfloor nm (nmul nm (clamp nm (tap_min nm sr min) (tap_max nm sr max) dl) sr) in
  (1 <= f)%Z /\ (7 + f + 2 < Z.of_nat (tap_length nm sr max))%Z.
Proof.
  intros Hs Hm. cbv zeta. cbn [nfloor nmul Rnum_ops]. set (c := clamp _ _ _ _). pose proof (clamp_bounds (tap_min nm sr min) (tap_max nm sr max) dl) as [B1 B2]. fold c in B1, B2.
  assert (Ec : c1_00001 nm = 100001 / 100000) by reflexivity. unfold tap_min, tap_max in *. cbn [nmax ndiv Rnum_ops] in *. rewrite Ec in *.
  assert (L1 : 100001 / 100000 / sr <= c). { eapply Rle_trans; [|exact B1]. apply Rmin_glb; apply Rmax_r. }
  assert (L2 : 1 <= c * sr). { apply Rmult_le_compat_r with (r := sr) in L1; [|lra]. replace (100001 / 100000 / sr * sr) with (100001 / 100000) in L1 by (field; lra). lra. }
  assert (L3 : c * sr <= Rmax (max * sr) (100001 / 100000)). { apply Rmult_le_compat_r with (r := sr) in B2; [|lra]. eapply Rle_trans; [exact B2|]. unfold Rmax. destruct (Rle_dec max (100001 / 100000 / sr)) as [G|G]; destruct (Rle_dec (max * sr) (100001 / 100000)) as [G'|G']; try lra; replace (100001 / 100000 / sr * sr) with (100001 / 100000) by (field; lra); lra. }
  split; [apply Int_part_ge; lra|]. assert (P : 0 <= max * sr) by (apply Rmult_le_pos; lra). pose proof (ceilZ_ge (max * sr)) as C.
  assert (C0 : (0 <= ceilZ nm (max * sr)%R)%Z) by (apply le_IZR; lra).
  unfold tap_length. destruct (next_pow2_spec (Z.to_nat (ceilZ nm (max * sr)%R + 3 + 8))) as (k & _ & N & _). cbn [nmul Rnum_ops]. 
  assert (X : (Int_part (c * sr)%R < ceilZ nm (max * sr)%R + 2)%Z). { apply Int_part_lt. rewrite plus_IZR. apply Rle_lt_trans with (1 := L3). apply IZR_le in C0. unfold Rmax. destruct (Rle_dec (max * sr) (100001 / 100000)); lra. }
  lia.
Qed.
Lemma linear_floor sr min max dl : 0 < sr -> 0 <= min <= max -> let f := nfloor nm (nmul nm (clamp nm min max dl) sr) in
  (0 <= f)%Z /\ (f <= ceilZ nm (max * sr)%R)%Z /\ (f + 1 < Z.of_nat (linear_length nm sr max))%Z.
Proof.
  intros Hs Hm. cbv zeta. cbn [nfloor nmul Rnum_ops]. set (c := clamp _ _ _ _). pose proof (clamp_bounds min max dl) as [B1 B2]. fold c in B1, B2. rewrite Rmin_left in B1 by lra.
  assert (L3 : c * sr <= max * sr) by (apply Rmult_le_compat_r; lra). assert (P : 0 <= c * sr) by (apply Rmult_le_pos; lra). pose proof (ceilZ_ge (max * sr)) as C.
  assert (C0 : (0 <= ceilZ nm (max * sr)%R)%Z) by (apply le_IZR; lra). split; [apply Int_part_ge; lra|].
  unfold linear_length. destruct (next_pow2_spec (Z.to_nat (ceilZ nm (max * sr)%R + 2))) as (k & _ & N & _). cbn [nmul Rnum_ops]. 
  assert (X : (Int_part (c * sr)%R < ceilZ nm (max * sr)%R + 1)%Z). { apply Int_part_lt. rewrite plus_IZR. lra. }
  lia.
Qed.

(* ---- Tap and TapLinear ---- *)
Lemma pow_of n : exists k, next_pow2 n = (2 ^ k)%nat. Proof. destruct (next_pow2_spec n) as (k & E & _). eauto. Qed.
Lemma next_pow2_pos n : (0 < next_pow2 n)%nat. Proof. destruct (next_pow2_spec n) as (k & _ & _ & H). exact H. Qed.
Section Tap.
  Variables (sr min max : R).
  Hypothesis Hs : 0 < sr. Hypothesis Hm : 0 <= max.
  Notation L := (tap_length nm sr max).
  Lemma tap_reads : forall buf i hist m z dl, holds 0 L buf i hist -> (m <= 7)%nat -> (z mod Z.of_nat L = (Z.of_nat i - 1 - Z.of_nat m) mod Z.of_nat L)%Z ->
    tap_at nm min max sr buf z dl = cubic_spec nm (tap_min nm sr min) (tap_max nm sr max) sr (fun j => nth (m + j)%nat hist 0) dl.
  Proof.
    intros buf i hist m z dl H Hm7 Hz. destruct (pow_of (Z.to_nat (ceilZ nm (max * sr)%R + 3 + 8))) as [k E]. destruct (tap_floor sr min max dl Hs Hm) as [F1 F2]. apply (cubic_reads nm _ _ sr L k m buf hist i z dl E H Hz); [exact F1|]. lia.
  Qed.
  Lemma tap_stream s ins k : holds 0 L (l_buf s) (l_i s) [] -> (k < length ins)%nat ->
    nth k (snd (ticks (tap_tick nm min max sr) s ins)) [] = taps_out nm (cubic_spec nm (tap_min nm sr min) (tap_max nm sr max) sr) ins k.
  Proof. destruct (pow_of (Z.to_nat (ceilZ nm (max * sr)%R + 3 + 8))) as [q E]. exact (taps_stream nm _ _ L q E 7 tap_reads (cubic_spec_ext nm _ _ sr) s ins k). Qed.
  Lemma tap_contract s hist nin : holds 0 L (l_buf s) (l_i s) hist -> block_contract 0 (tap_tick nm min max sr) (tap_process nm min max sr) nin 1 s.
  Proof. destruct (pow_of (Z.to_nat (ceilZ nm (max * sr)%R + 3 + 8))) as [q E]. exact (taps_contract nm _ _ L q E 7 tap_reads (cubic_spec_ext nm _ _ sr) (le_n 7) s hist nin). Qed.
  Lemma tap_ticks_hold s hist ins : holds 0 L (l_buf s) (l_i s) hist -> exists hist', let s' := fst (ticks (tap_tick nm min max sr) s ins) in holds 0 L (l_buf s') (l_i s') hist'.
  Proof. destruct (pow_of (Z.to_nat (ceilZ nm (max * sr)%R + 3 + 8))) as [q E]. intros H. eexists. exact (proj1 (taps_ticks_ok nm _ _ L q E 7 tap_reads (cubic_spec_ext nm _ _ sr) ins s hist H)). Qed.
End Tap.
Section TapLinear.
  Variables (sr min max : R).
  Hypothesis Hs : 0 < sr. Hypothesis Hm : 0 <= min <= max.
  Notation L := (linear_length nm sr max).
  Lemma linear_reads_R M : (M = 0%nat \/ (ceilZ nm (max * sr)%R + Z.of_nat M + 2 <= Z.of_nat L)%Z) -> forall buf i hist m z dl, holds 0 L buf i hist -> (m <= M)%nat -> (z mod Z.of_nat L = (Z.of_nat i - 1 - Z.of_nat m) mod Z.of_nat L)%Z ->
    linear nm min max sr buf z dl = linear_spec nm min max sr (fun j => nth (m + j)%nat hist 0) dl.
  Proof.
    intros HM buf i hist m z dl H Hm7 Hz. destruct (pow_of (Z.to_nat (ceilZ nm (max * sr)%R + 2))) as [k E]. destruct (linear_floor sr min max dl Hs Hm) as (F1 & F2 & F3). apply (linear_reads nm _ _ sr L k m buf hist i z dl E H Hz); [exact F1|]. destruct HM; lia.
  Qed.
  Lemma linear_stream s ins k : holds 0 L (l_buf s) (l_i s) [] -> (k < length ins)%nat ->
    nth k (snd (ticks (linear_tick nm min max sr) s ins)) [] = taps_out nm (linear_spec nm min max sr) ins k.
  Proof. destruct (pow_of (Z.to_nat (ceilZ nm (max * sr)%R + 2))) as [q E]. exact (taps_stream nm _ _ L q E 0 (linear_reads_R 0 (or_introl eq_refl)) (linear_spec_ext nm _ _ sr) s ins k). Qed.
  Lemma linear_ticks_hold s hist ins : holds 0 L (l_buf s) (l_i s) hist -> exists hist', let s' := fst (ticks (linear_tick nm min max sr) s ins) in holds 0 L (l_buf s') (l_i s') hist'.
  Proof. destruct (pow_of (Z.to_nat (ceilZ nm (max * sr)%R + 2))) as [q E]. intros H. eexists. exact (proj1 (taps_ticks_ok nm _ _ L q E 0 (linear_reads_R 0 (or_introl eq_refl)) (linear_spec_ext nm _ _ sr) ins s hist H)). Qed.
  Lemma linear_contract s hist nin : (ceilZ nm (max * sr)%R + 9 <= Z.of_nat L)%Z -> holds 0 L (l_buf s) (l_i s) hist -> block_contract 0 (linear_tick nm min max sr) (linear_process nm min max sr) nin 1 s.
  Proof. intros HL. assert (HL' : (ceilZ nm (max * sr)%R + Z.of_nat 7 + 2 <= Z.of_nat L)%Z) by (change (Z.of_nat 7) with 7%Z; lia). destruct (pow_of (Z.to_nat (ceilZ nm (max * sr)%R + 2))) as [q E]. exact (taps_contract nm _ _ L q E 7 (linear_reads_R 7 (or_intror HL')) (linear_spec_ext nm _ _ sr) (le_n 7) s hist nin). Qed.
End TapLinear.

(* ---- nested allpass ---- *)
Definition energy (l : list (list R)) : R := fold_right (fun f a => nth 0 f 0 * nth 0 f 0 + a) 0 l.
Section AllNest.
  Context {P U : Type}.
  Variable ops : unit_ops R P U.
  (* one step, if the enclosed unit neither gains nor loses energy *)
  Variable held : U -> R.
  Lemma all_step_eq eta u zz i : (forall v, let (u', o) := u_tick ops u [v] in nth 0 o 0 * nth 0 o 0 + held u' = v * v + held u) ->
    let (s', o) := all_tick nm ops (mkAll u eta zz) i in
    nth 0 o 0 * nth 0 o 0 + (1 - eta * eta) * (an_z s' * an_z s' + held (an_x s')) = nth 0 i 0 * nth 0 i 0 + (1 - eta * eta) * (zz * zz + held u) /\ an_eta s' = eta.
  Proof.
    intros H. unfold all_tick. cbn [an_eta an_z an_x nsub nmul nadd Rnum_ops n0]. change (n0 nm) with 0. set (x := nth 0 i 0). set (v := x - eta * zz). specialize (H v). destruct (u_tick ops u [v]) as [u' o]. cbn [nth an_z an_x an_eta]. split; [|reflexivity].
    assert (Ex : x * x - (eta * v + zz) * (eta * v + zz) = (1 - eta * eta) * (v * v - zz * zz)) by (replace x with (v + eta * zz) by (subst v; ring); ring). rewrite H. lra.
  Qed.
  (* stored bounds the energy that the enclosed unit can still give *)
  Variable stored : U -> R.
  Hypothesis Hpos : forall u, 0 <= stored u.
  Hypothesis Hpass : forall u v, let (u', o) := u_tick ops u [v] in nth 0 o 0 * nth 0 o 0 + stored u' <= v * v + stored u.
  Lemma all_energy eta ins : -1 <= eta <= 1 -> forall u zz, 
    energy (snd (ticks (all_tick nm ops) (mkAll u eta zz) ins)) <= energy ins + (1 - eta * eta) * (zz * zz + stored u).
  Proof.
    intros He. assert (Hq : 0 <= 1 - eta * eta) by nra. induction ins as [|i ins IH]; intros u zz; cbn [ticks].
    - cbn. pose proof (Hpos u). pose proof (Rle_0_sqr zz) as Q. unfold Rsqr in Q. replace (0 + (1 - eta * eta) * (zz * zz + stored u)) with ((1 - eta * eta) * (zz * zz + stored u)) by ring. apply Rmult_le_pos; lra.
    - unfold all_tick at 1. cbn [an_eta an_z an_x nsub nmul nadd Rnum_ops n0]. set (x := nth 0 i (n0 nm)). set (v := x - eta * zz). specialize (Hpass u v). destruct (u_tick ops u [v]) as [u' o].
      specialize (IH u' (nth 0 o 0)). change (n0 nm) with 0 in *. destruct (ticks (all_tick nm ops) (mkAll u' eta (nth 0 o 0)) ins) as [s os]. cbn [snd] in *. cbn [energy fold_right nth]. fold (energy os) (energy ins). change (nth 0 i 0) with x.
      set (w := nth 0 o 0) in *. clearbody w. 
      assert (Ex : x * x - (eta * v + zz) * (eta * v + zz) = (1 - eta * eta) * (v * v - zz * zz)) by (replace x with (v + eta * zz) by (subst v; ring); ring).
      assert (M : (1 - eta * eta) * (w * w + stored u') <= (1 - eta * eta) * (v * v + stored u)) by (apply Rmult_le_compat_l; assumption). lra.
  Qed.
End AllNest.
Lemma all_tick2_eq {F P U} (nm : num F) (ops : unit_ops F P U) eta xs : forall u eta0 z,
  snd (ticks (all_tick2 nm ops) (mkAll u eta0 z) (map (fun x => [x; eta]) xs)) = snd (ticks (all_tick nm ops) (mkAll u eta z) (map (fun x => [x]) xs)).
Proof.
  induction xs as [|x xs IH]; intros u eta0 z; [reflexivity|]. cbn [map ticks]. unfold all_tick2 at 1. cbn [nth an_x an_z].
  unfold all_tick at 1 2. cbn [an_x an_eta an_z]. destruct (u_tick ops u _) as [u' o]. specialize (IH u' eta (nth 0 o (n0 nm))). cbn zeta.
  destruct (ticks (all_tick2 nm ops) _ _) as [s1 o1] eqn:E1, (ticks (all_tick nm ops) _ _) as [s2 o2] eqn:E2. cbn [nth]. cbn [snd] in *. f_equal. exact IH.
Qed.
