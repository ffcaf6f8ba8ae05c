(* WAV files: reading what was written. *)
From Coq Require Import ZArith List SpecFloat Bool Lia.
From Verif Require Import Base.
From Verif Require Export WavProofs.
Local Open Scope Z_scope.

Lemma unsigned_ok checks n x : 0 <= x < 2 ^ n -> unsigned checks n x = Val x.
Proof. intros H. unfold unsigned. destruct (Z.ltb_spec x (2 ^ n)); [reflexivity|lia]. Qed.
Lemma as_unsigned_ok n x : 0 <= x < 2 ^ n -> as_unsigned n x = x.
Proof. apply Z.mod_small. Qed.
Lemma cast_range lo hi x : lo <= hi -> lo <= sf_cast lo hi x <= hi.
Proof. intros H. unfold sf_cast. destruct x as [s|s| |s m e]; try destruct s; lia. Qed.
Lemma rate_range w : 0 <= wav_rate w < 2 ^ 64. Proof. unfold wav_rate. pose proof (cast_range 0 (2 ^ 64 - 1) (w_rate w) ltac:(lia)). lia. Qed.
(* the 44 bytes *)
Definition header_list (len format channels rate bytes : Z) : list (list Z) :=
  [b_riff; bytes32 (len + 36); b_wave; b_fmt; bytes32 16; bytes16 format; bytes16 channels; bytes32 rate; bytes32 (rate * channels * bytes); bytes16 (channels * bytes); bytes16 (bytes * 8); b_data; bytes32 len].
Lemma header_ok checks len format channels rate bytes : bytes = (if format =? 1 then 2 else 4) -> 0 < channels -> 0 <= rate -> 0 <= len -> bytes * channels < 2 ^ 16 -> len + 36 < 2 ^ 32 -> rate * channels * bytes < 2 ^ 32 ->
  header checks len format channels rate = Val (header_list len format channels rate bytes).
Proof.
  intros Hb C R L H1 H2 H3. assert (B : 2 <= bytes) by (rewrite Hb; destruct (format =? 1); lia). unfold header. rewrite (as_unsigned_ok 32 len) by lia. rewrite unsigned_ok by lia. cbn [bind]. rewrite <- Hb. assert (RC : 0 <= rate * channels) by nia. assert (RB : rate * channels <= rate * channels * bytes) by nia.
  assert (R1 : rate <= rate * channels) by nia. rewrite unsigned_ok by lia. cbn [bind]. rewrite (as_unsigned_ok 32 (rate * channels)) by lia. rewrite unsigned_ok by lia. cbn [bind]. rewrite (as_unsigned_ok 16 channels) by nia. rewrite unsigned_ok by nia. cbn [bind]. rewrite (as_unsigned_ok 32 rate) by lia. reflexivity.
Qed.
Lemma header_length len format channels rate bytes : length (concat (header_list len format channels rate bytes)) = 44%nat. Proof. reflexivity. Qed.
Lemma header_small len format channels rate bytes : Forall small (header_list len format channels rate bytes).
Proof. unfold header_list, small. repeat constructor. Qed.
Definition field (h : list Z) i k : list Z := sub h i k.
Lemma sub_app h (d : list Z) i k : (i + k <= length h)%nat -> sub (h ++ d) i k = sub h i k.
Proof. intros H. unfold sub. rewrite skipn_app, firstn_app. rewrite skipn_length. replace (k - (length h - i))%nat with 0%nat by lia. now rewrite firstn_O, app_nil_r. Qed.
Lemma parse_ok len format channels rate (bytes : nat) (d : list Z) : (bytes = 2 \/ bytes = 4)%nat -> 0 <= format < 2 ^ 16 -> (0 < channels)%nat -> 0 <= rate -> Z.of_nat bytes * Z.of_nat channels < 2 ^ 16 -> len + 36 < 2 ^ 32 ->
  rate * Z.of_nat channels * Z.of_nat bytes < 2 ^ 32 -> len = Z.of_nat (length d) -> Z.of_nat (length d) mod Z.of_nat (channels * bytes) = 0 ->
  parse (concat (header_list len format (Z.of_nat channels) rate (Z.of_nat bytes)) ++ d) = Some (mkwav format channels rate (8 * Z.of_nat bytes)
    (map (fun i => map (fun c => le (sub (sub d (i * (channels * bytes)) (channels * bytes)) (c * bytes) bytes)) (seq 0 channels)) (seq 0 (length d / (channels * bytes))))).
Proof.
  intros Hb F C R H1 H2 H3 L D. unfold parse. set (h := concat _). assert (Lh : length h = 44%nat) by apply header_length. rewrite !sub_app by (rewrite Lh; lia). rewrite skipn_app, Lh, skipn_all2 by lia. cbn [Nat.sub skipn app].
  assert (B2 : 2 <= Z.of_nat bytes) by lia. assert (RC : rate * Z.of_nat channels <= rate * Z.of_nat channels * Z.of_nat bytes) by nia. assert (R1 : rate <= rate * Z.of_nat channels) by nia.
  change (sub h 0 4) with b_riff. change (sub h 4 4) with (bytes32 (len + 36)). change (sub h 8 4) with b_wave. change (sub h 12 4) with b_fmt. change (sub h 16 4) with (bytes32 16). change (sub h 20 2) with (bytes16 format). change (sub h 22 2) with (bytes16 (Z.of_nat channels)).
  change (sub h 24 4) with (bytes32 rate). change (sub h 28 4) with (bytes32 (rate * Z.of_nat channels * Z.of_nat bytes)). change (sub h 32 2) with (bytes16 (Z.of_nat channels * Z.of_nat bytes)). change (sub h 34 2) with (bytes16 (Z.of_nat bytes * 8)). change (sub h 36 4) with b_data. change (sub h 40 4) with (bytes32 len).
  rewrite !eqb_refl, !le32, !le16 by nia. rewrite Z.div_mul by lia. rewrite !Nat2Z.id, app_length, Lh.
  assert (E1 : (len + 36 =? Z.of_nat (44 + length d) - 8) = true) by (apply Z.eqb_eq; lia). assert (E2 : (Z.of_nat channels * Z.of_nat bytes =? Z.of_nat (channels * bytes)) = true) by (apply Z.eqb_eq; lia). assert (E3 : (rate * Z.of_nat channels * Z.of_nat bytes =? rate * Z.of_nat (channels * bytes)) = true) by (apply Z.eqb_eq; nia).
  assert (E4 : (len =? Z.of_nat (length d)) = true) by (apply Z.eqb_eq; lia). assert (E5 : Nat.ltb 0 (channels * bytes) = true) by (apply Nat.ltb_lt; nia). rewrite E1, E2, E3, E4, E5, D. cbn [andb Z.eqb Pos.eqb]. replace (Z.of_nat bytes * 8) with (8 * Z.of_nat bytes) by ring. reflexivity.
Qed.
Section Write.
  Variables (checks : bool) (format : Z) (bytes : nat) (enc : spec_float -> list Z) (w : wave spec_float spec_float).
  Hypothesis Hf : (format = 1 /\ bytes = 2%nat) \/ (format = 3 /\ bytes = 4%nat).
  Hypothesis Henc : forall x, length (enc x) = bytes.
  Hypothesis ok : wave_ok w.
  Hypothesis fit : fits (Z.of_nat bytes) w.
  Notation dlen := (Z.of_nat bytes * Z.of_nat (channels w) * Z.of_nat (w_len w)).
  Definition head : list Z := concat (header_list dlen format (Z.of_nat (channels w)) (wav_rate w) (Z.of_nat bytes)).
  Definition file : list Z := head ++ data enc w.
  Lemma wave_header : header checks dlen format (Z.of_nat (channels w)) (wav_rate w) = Val (header_list dlen format (Z.of_nat (channels w)) (wav_rate w) (Z.of_nat bytes)).
  Proof using Hf ok fit.
    clear Henc enc. destruct ok as [C _]. destruct fit as (F1 & F2 & F3). pose proof (rate_range w). apply header_ok; try nia. destruct Hf as [[-> ->]|[-> ->]]; reflexivity.
  Qed.
  Lemma all_small : Forall small (header_list dlen format (Z.of_nat (channels w)) (wav_rate w) (Z.of_nat bytes) ++ concat (map (chunks enc w) (seq 0 (w_len w)))).
  Proof using Hf Henc.
    apply Forall_app. split; [apply header_small|]. apply Forall_forall. intros l H. apply in_concat in H. destruct H as (c & Hc & H). apply in_map_iff in Hc. destruct Hc as (i & <- & _). pose proof (chunk_length enc bytes w Henc i) as L. rewrite Forall_forall in L. specialize (L l H). unfold small. lia.
  Qed.
  Lemma file_concat : concat (header_list dlen format (Z.of_nat (channels w)) (wav_rate w) (Z.of_nat bytes) ++ concat (map (chunks enc w) (seq 0 (w_len w)))) = file.
  Proof using. unfold file, head, data. now rewrite concat_app, concat_chunks. Qed.
  Lemma write_written d : exists b okay, write_wav checks format bytes enc w d = Val (bw_drop b, okay) /\ write_each (mkbw [] d) (header_list dlen format (Z.of_nat (channels w)) (wav_rate w) (Z.of_nat bytes) ++ concat (map (chunks enc w) (seq 0 (w_len w)))) = (b, okay).
  Proof using Hf ok fit.
    unfold write_wav. destruct (Nat.ltb_spec 0 (channels w)); [|destruct ok; lia]. rewrite wave_header. cbn [bind]. rewrite (body_ok enc w ok). cbn [bind]. destruct (write_each _ _) as [b o]. eauto.
  Qed.
  Lemma write_file d : reliable d -> exists d', write_wav checks format bytes enc w d = Val (d', true) /\ d_got d' = d_got d ++ file.
  Proof using Hf Henc ok fit.
    intros R. destruct (write_written d) as (b & o & E & W). destruct (written d _ b o all_small W) as [_ K]. destruct (K R) as (-> & G & _). rewrite file_concat in G. eauto.
  Qed.
  Lemma write_prefix d : exists d' okay pre post, write_wav checks format bytes enc w d = Val (d', okay) /\ file = pre ++ post /\ d_got d' = d_got d ++ pre /\ (okay = true -> (length post <= capacity)%nat).
  Proof using Hf Henc ok fit.
    destruct (write_written d) as (b & o & E & W). destruct (written d _ b o all_small W) as [(pre & post & K1 & K2 & K3) _]. rewrite file_concat in K1. exists (bw_drop b), o, pre, post. auto.
  Qed.
  Lemma write_lost d : (length file <= capacity)%nat -> exists d', write_wav checks format bytes enc w d = Val (d', true).
  Proof using Hf ok fit.
    intros L. destruct (write_written d) as (b & o & E & W). rewrite small_file in W by (rewrite file_concat; cbn [length Nat.add]; exact L). injection W as <- <-. eauto.
  Qed.
  Lemma data_len : length (data enc w) = (w_len w * (channels w * bytes))%nat.
  Proof using Henc. exact (data_length enc bytes w Henc). Qed.
  Lemma parse_file : parse file = Some (mkwav format (channels w) (wav_rate w) (8 * Z.of_nat bytes) (map (fun i => map (fun x => le (enc x)) (frame w i)) (seq 0 (w_len w)))).
  Proof using Hf Henc ok fit.
    destruct ok as [C _]. destruct fit as (F1 & F2 & F3). pose proof (rate_range w). unfold file, head. rewrite parse_ok; try lia.
    - rewrite data_len, Nat.div_mul by nia. now rewrite (data_frames enc bytes w Henc).
    - rewrite data_len. nia.
    - rewrite data_len. rewrite Nat2Z.inj_mul. apply Z.mod_mul. nia.
  Qed.
  Lemma parse_written f : file_of (write_wav checks format bytes enc w) f -> f = file.
  Proof using Hf Henc ok fit. intros H. unfold file_of in H. destruct (write_file (mkdevice [] []) ltac:(constructor)) as (d' & E & G). rewrite E in H. injection H as ->. exact G. Qed.
End Write.
