(* Property theorems C67 and C68: filters that are not linear, banks of biquads; settings, parameter inputs and constructors. *)
From Coq Require Import Reals Lra SpecFloat.
From Verif Require Import ShapeProofs TuneProofs TuneReal TuneBounds TuneRefute TuneSpec ShapedSpec ShapedProofs.
Local Open Scope R_scope.

(* C67: the outputs of moog and moog_hz are between -1 and 1, whatever the inputs, parameters, settings and sample rates are. *)
Theorem C67_moog_output : forall (G S X : Type) (tl : tools R G S X), tl_tanh tl = tanh -> forall w f q n acts os,
  build Rnum_ops tl w (OMoog f q) = Some n -> t_outs Rnum_ops tl n acts = Some os -> Forall (Forall (fun y => -1 < y < 1)) os.
Proof.
  intros G S X tl Ht w f q n acts os B. refine (moog_output tl _ w f q n B acts os). intro x. rewrite Ht. destruct tanh_saturates as (H & _). apply H.
Qed.
Example C67_moog_output_case : exists n os, build Rnum_ops real_tools true (OMoog 1000 1) = Some n /\
  t_outs Rnum_ops real_tools n [ATick [5; 1000; 1]; ASet (mkSetting (PCenterQ 500 9) []); ARate 48000; AReset; ATick [-8; 40000; -3]] = Some os.
Proof. eexists. match goal with |- context [t_outs _ _ _ ?h] => destruct (runs_out Rnum_ops real_tools true (OMoog 1000 1) _ h ltac:(discriminate) eq_refl) as (os & E) end. exists os. split; [reflexivity|exact E]. Qed.
Print Assumptions C67_moog_output.

(* C67: the state of moog and moog_hz has a bound that depends on nothing but bounds of what comes in, as long as the cutoff frequency stays within an interval inside of 0 ... sr / 2. *)
Theorem C67_moog_bounded : forall (G S X : Type) (tl : tools R G S X), tl_elem tl = R_elem -> tl_tanh tl = tanh -> forall sr lo hi Q B,
  0 < lo <= hi -> hi < sr / 2 -> 0 <= Q -> 0 <= B -> exists C, forall w f q n m os acts,
    lo <= f <= hi -> Rabs q <= Q -> build Rnum_ops tl w (OMoog f q) = Some n -> Forall (tame lo hi Q B) acts -> t_run Rnum_ops tl (t_rate Rnum_ops tl n sr) acts = Some (m, os) ->
    exists s, m = TMoog w s /\ Forall (fun v => Rabs v <= C) [mg_s0 s; mg_s1 s; mg_s2 s; mg_s3 s; mg_px s; mg_ps0 s; mg_ps1 s; mg_ps2 s].
Proof.
  intros G S X tl Hel Ht sr lo hi Q B L Hi HQ HB. refine (moog_bounded tl Hel _ sr lo hi Q B (proj1 L) Hi HQ HB (proj2 L)).
  intro x. rewrite Ht. destruct tanh_saturates as (H & _). apply H.
Qed.
Example C67_moog_bounded_case : exists n m os, build Rnum_ops real_tools true (OMoog 1000 1) = Some n /\
  Forall (tame 20 20000 10 1) [ATick [1; 20; -3]; ASet (mkSetting (PCenter 300) []); AReset; ATick [-1; 20000; 10]] /\
  t_run Rnum_ops real_tools (t_rate Rnum_ops real_tools n 44100) [ATick [1; 20; -3]; ASet (mkSetting (PCenter 300) []); AReset; ATick [-1; 20000; 10]] = Some (m, os).
Proof.
  eexists. match goal with |- context [t_run _ _ _ ?h] => destruct (runs_rate Rnum_ops real_tools true (OMoog 1000 1) _ 44100 h ltac:(discriminate) eq_refl) as (m & os & E) end.
  exists m, os. split; [reflexivity|]. split; [|exact E].
  repeat (apply Forall_cons; [cbn; try exact I; repeat split; try apply Rabs_le; lra|]). apply Forall_nil.
Qed.
Print Assumptions C67_moog_bounded.

(* C67: the outputs of lowrez, lowrez_hz, bandrez and bandrez_hz have such a bound, as long as the cutoff frequency stays away from sr / 6 as well. *)
Theorem C67_rez_bounded : forall (G S X : Type) (tl : tools R G S X), tl_elem tl = R_elem -> tl_tanh tl = tanh -> forall sr lo hi Q B,
  0 < lo <= hi -> hi < sr / 2 -> hi < sr / 6 \/ sr / 6 < lo -> 0 <= Q -> 0 <= B -> exists C, forall w bp f q n os acts,
    lo <= f <= hi -> Rabs q <= Q -> Rabs bp <= 1 -> build Rnum_ops tl w (ORez bp f q) = Some n -> Forall (tame lo hi Q B) acts ->
    t_outs Rnum_ops tl (t_rate Rnum_ops tl n sr) acts = Some os -> Forall (Forall (fun y => Rabs y <= C)) os.
Proof.
  intros G S X tl Hel Ht sr lo hi Q B L Hi A HQ HB. refine (rez_bounded tl Hel _ sr lo hi Q B (proj1 L) Hi HQ HB (proj2 L) A).
  intro x. rewrite Ht. destruct tanh_saturates as (H & _). apply H.
Qed.
Example C67_rez_bounded_case : exists n os, build Rnum_ops real_tools false (ORez 1 1000 (1 / 2)) = Some n /\
  Forall (tame 20 7000 1 1) [ATick [1; 20; 0]; ASet (mkSetting (PCenter 7000) []); AReset; ATick [-1; 20; 0]] /\
  t_outs Rnum_ops real_tools (t_rate Rnum_ops real_tools n 44100) [ATick [1; 20; 0]; ASet (mkSetting (PCenter 7000) []); AReset; ATick [-1; 20; 0]] = Some os.
Proof.
  eexists. match goal with |- context [t_outs _ _ _ ?h] => destruct (runs_rate Rnum_ops real_tools false (ORez 1 1000 (1 / 2)) _ 44100 h ltac:(discriminate) eq_refl) as (m & os & E) end.
  exists os. split; [reflexivity|]. split; [|unfold t_outs; now rewrite E].
  repeat (apply Forall_cons; [cbn; try exact I; repeat split; try apply Rabs_le; lra|]). apply Forall_nil.
Qed.
Print Assumptions C67_rez_bounded.

(* REFUTED: `lowrez_hz` and `bandrez_hz` work for every cutoff frequency below half of the sample rate. The feedback is q + q / (1 - f) with f = 2 * sin(PI * cutoff / sample_rate),
   and f is 1 where the cutoff frequency is a sixth of the sample rate (rez.rs:41-46). In single precision (`hacker32`) the sine that comes out nearest to the true one is exactly 1/2 at 8000 Hz and a
   sample rate of 48 kHz, at 7350 Hz and 44.1 kHz, and at 16000 Hz and 96 kHz: the feedback is then infinite, and every output is NaN from the first sample on, whatever the input is, even
   after a reset. *)
Theorem C67_rez_refuted : forall (G S X : Type) (tl : tools spec_float G S X),
  e_pi (tl_elem tl) = S754_finite false 13176795 (-22) -> e_sin (tl_elem tl) (S754_finite false 8784530 (-24)) = ndiv f32_ops (nofZ f32_ops 1) (nofZ f32_ops 2) -> tl_tanh tl (n0 f32_ops) = n0 f32_ops ->
  (forall m e bp cutoff sr n acts os, (cutoff, sr) = (7350, 44100)%Z \/ (cutoff, sr) = (8000, 48000)%Z \/ (cutoff, sr) = (16000, 96000)%Z ->
    build f32_ops tl false (ORez bp (nofZ f32_ops cutoff) (S754_finite false m e)) = Some n -> Forall (fun a => match a with ATick _ | AReset => True | _ => False end) acts ->
    t_outs f32_ops tl (t_rate f32_ops tl n (nofZ f32_ops sr)) acts = Some os -> Forall (fun o => o = [S754_nan]) os) /\
  (* the number 8784530 / 2^24 is the argument; no binary32 number is nearer to its sine than 1/2: the next ones are 1/2 - 2^-25 and 1/2 + 2^-24 *)
  1 / 2 < sin (8784530 / 16777216) < 1 / 2 + / 33554432.
Proof. intros G S X tl Hpi Hs Ht. split; [exact (rez_nan tl Hpi Hs Ht)|exact sine_close]. Qed.
Print Assumptions C67_rez_refuted.

(* C67: with shapes whose values are at most 1, the outputs of dlowpass_hz, dhighpass_hz, dresonator_hz and dbell_hz and of flowpass_hz, fhighpass_hz, fresonator_hz and fbell_hz (fb) have a bound given by the coefficients,
   even where the filter would not be stable without shapes. *)
Theorem C67_shaped_bounded : forall (G S X : Type) (tl : tools R G S X) fb m sh f q g sr B n os acts, (forall s x, Rabs (snd (tl_shape tl s x)) <= 1) -> 0 <= B ->
  build Rnum_ops tl false (ODirty fb m sh f q g) = Some n -> Forall (quiet B) acts -> t_outs Rnum_ops tl (t_rate Rnum_ops tl n sr) acts = Some os ->
  let c := bi_coefs Rnum_ops tl m (mkSvp sr f q g) in
  Forall (Forall (fun y => Rabs y <= if fb then (Rabs (bi_b0 c) + Rabs (bi_b1 c) + Rabs (bi_b2 c)) * B + Rabs (bi_a1 c) + Rabs (bi_a2 c) else Rabs (bi_b0 c) * B + 1)) os.
Proof. intros G S X tl. exact (dirty_bounded tl). Qed.
Example C67_shaped_bounded_case : (forall s x, Rabs (snd (tl_shape real_tools s x)) <= 1) /\ exists n os, build Rnum_ops real_tools false (ODirty true BLowpass tt 1000 10 1) = Some n /\
  Forall (quiet 2) [ATick [1]; AReset; ATick [-2]] /\ t_outs Rnum_ops real_tools (t_rate Rnum_ops real_tools n 48000) [ATick [1]; AReset; ATick [-2]] = Some os.
Proof.
  split. { intros s x. cbn. destruct tanh_saturates as (H & _). specialize (H x). apply Rabs_le. lra. }
  eexists. match goal with |- context [t_outs _ _ _ ?h] => destruct (runs_rate Rnum_ops real_tools false (ODirty true BLowpass tt 1000 10 1) _ 48000 h ltac:(discriminate) eq_refl) as (m & os & E) end.
  exists os. split; [reflexivity|]. split; [|unfold t_outs; now rewrite E]. repeat (apply Forall_cons; [cbn; try exact I; try apply Rabs_le; lra|]). apply Forall_nil.
Qed.
Print Assumptions C67_shaped_bounded.

(* REFUTED: "The filter is stable when `shape` is nonexpansive" (prelude.rs:2874-3080 on dbell, dbell_hz, fbell, ... fresonator_hz). Shapes that do not increase distances can make the outputs grow without bound: the absolute value does in dlowpass_hz (the states, all positive, add up where they would cancel), and negation in flowpass_hz (the poles of the filter move outside of the unit circle). The input in the proof has two samples that are not zero. *)
Theorem C67_nonexpansive_refuted : forall fb : bool, ~ (forall (sh : R -> R) (sr f q : R) n, nonexpansive sh -> sh 0 = 0 -> 0 < f < sr / 2 -> 0 < q ->
  build Rnum_ops (shaping sh) false (ODirty fb BLowpass tt f q 1) = Some n ->
  exists K, forall acts os, Forall (quiet 1) acts -> t_outs Rnum_ops (shaping sh) (t_rate Rnum_ops (shaping sh) n sr) acts = Some os -> Forall (Forall (fun y => Rabs y <= K)) os).
Proof.
  intros fb H. destruct (H (sh_of fb) 12 1 1 _ (shapes fb) (sh_zero fb) ltac:(lra) ltac:(lra) eq_refl) as [K HK].
  destruct (blows fb _ K eq_refl) as (acts & os & Q & E & L). exact (L (HK acts os Q E)).
Qed.
Print Assumptions C67_nonexpansive_refuted.

(* C67: they are stable with every nonexpansive shape that leaves 0 where it is if the coefficients of the feedback are small: |a1| + |a2| < 1. *)
Theorem C67_nonexpansive : forall (sh : R -> R) fb m f q g sr B n acts os, nonexpansive sh -> sh 0 = 0 -> 0 <= B -> let c := plain_coefs R_elem m sr f q g in Rabs (bi_a1 c) + Rabs (bi_a2 c) < 1 ->
  build Rnum_ops (shaping sh) false (ODirty fb m tt f q g) = Some n -> Forall (quiet B) acts -> t_outs Rnum_ops (shaping sh) (t_rate Rnum_ops (shaping sh) n sr) acts = Some os ->
  Forall (Forall (fun y => Rabs y <= (Rabs (bi_b0 c) + Rabs (bi_b1 c) + Rabs (bi_b2 c)) * B / (1 - Rabs (bi_a1 c) - Rabs (bi_a2 c)))) os.
Proof. exact shaped_stable. Qed.
Example C67_nonexpansive_case : nonexpansive Rabs /\ Rabs 0 = 0 /\ (let c := plain_coefs R_elem BLowpass 4 1 1 1 in Rabs (bi_a1 c) + Rabs (bi_a2 c) < 1) /\
  exists n os, build Rnum_ops (shaping Rabs) false (ODirty false BLowpass tt 1 1 1) = Some n /\ Forall (quiet 2) [ATick [1]; AReset; ATick [-2]] /\
  t_outs Rnum_ops (shaping Rabs) (t_rate Rnum_ops (shaping Rabs) n 4) [ATick [1]; AReset; ATick [-2]] = Some os.
Proof.
  split; [exact (shapes false)|]. split; [exact Rabs_R0|]. split; [exact quarter_small|]. eexists. eexists. split; [reflexivity|]. split; [|reflexivity]. repeat (apply Forall_cons; [cbn; try exact I; try apply Rabs_le; lra|]). apply Forall_nil.
Qed.
Print Assumptions C67_nonexpansive.

(* C67: with a shape that does nothing, they are the biquad filter with the coefficients of the mode at the given frequency, Q and gain. *)
Theorem C67_shaped_linear : forall (G S X : Type) (tl : tools R G S X) fb m sh f q g sr n k acts, (forall s x, snd (tl_shape tl s x) = x) ->
  build Rnum_ops tl false (ODirty fb m sh f q g) = Some n -> build Rnum_ops tl false (OBiquad (plain_coefs (tl_elem tl) m sr f q g)) = Some k ->
  Forall (fun a => exists B, quiet B a) acts -> t_outs Rnum_ops tl (t_rate Rnum_ops tl n sr) acts = t_outs Rnum_ops tl k acts.
Proof. intros G S X tl fb [] sh f q g. all: exact (dirty_linear tl fb _ sh f q g). Qed.
Example C67_shaped_linear_case : let tl := mkTools R_elem tanh Rpower (fun x => x) (fun x => x) (fun _ => tt) (fun g => (g, 0)) (fun (s : unit) x => (s, x)) (fun s => s) (fun (x : unit) v => (x, v)) (fun x => x) (fun x _ => x) in
  (forall s x, snd (tl_shape tl s x) = x) /\ Forall (fun a => exists B, quiet B a) [ATick [1]; AReset; ATick [-2]].
Proof. cbn. split; [reflexivity|]. repeat (apply Forall_cons; [exists 2; cbn; try exact I; try apply Rabs_le; lra|]). apply Forall_nil. Qed.
Print Assumptions C67_shaped_linear.

(* C67: channel i of a bank of biquads is the biquad with the coefficients of channel i, for any arithmetic, whatever is done with the bank: the settings with index i are its settings, and the
   others do nothing to it. *)
Theorem C67_bank : forall (F G S X : Type) (nm : num F) (tl : tools F G S X) cs i n m acts os d, (i < length cs)%nat ->
  build nm tl false (OBank cs) = Some n -> build nm tl false (OBiquad (nth i cs d)) = Some m -> Forall (framed (length cs)) acts -> t_outs nm tl n acts = Some os ->
  t_outs nm tl m (flat_map (lane_act nm i) acts) = Some (map (fun o => [nth i o (n0 nm)]) os).
Proof. intros F G S X nm tl. exact (bank_lanes nm tl). Qed.
Example C67_bank_case : let c := mkBi 1 2 3 4 5 in let acts := [ATick [1; 2]; ASet (mkSetting (PBiquad 5 4 3 2 1) [AIndex 1]); ATick [3; 4]; AReset] in
  exists n os, build Rnum_ops real_tools false (OBank [c; c]) = Some n /\ Forall (framed 2) acts /\ t_outs Rnum_ops real_tools n acts = Some os /\ length os = 2%nat /\ length (flat_map (lane_act Rnum_ops 1) acts) = 4%nat.
Proof. cbv zeta. eexists. eexists. split; [reflexivity|]. split; [repeat constructor|]. split; [reflexivity|]. split; reflexivity. Qed.
Print Assumptions C67_bank.

(* C68: settings are as good as constructors. Whatever has been done with a node, after a reset it is the node that the opcode constructs with the parameters that were set last, at the sample rate
   that was set last. For any arithmetic, and for every opcode with settings except resonator_hz (below); the parts of a node (shapes, and the node inside an AllNest) have to reset to a state that
   depends on no input. *)
Theorem C68_settings : forall (F G S X : Type) (nm : num F) (tl : tools F G S X),
  (forall x, nltb nm x x = false) -> nleb nm (n0 nm) (n0 nm) = true -> shape_law tl -> (forall s, tl_shape_reset tl (tl_shape_reset tl s) = tl_shape_reset tl s) -> inner_law tl ->
  forall op h n n' os m, (forall f q, op <> OReson f q) -> fresh_parts tl op ->
    build nm tl false op = Some n -> t_run nm tl n h = Some (n', os) -> build nm tl false (settle op h) = Some m ->
    forall acts, t_outs nm tl (t_reset nm tl n') acts = t_outs nm tl (match last_rate h with Some sr => t_rate nm tl m sr | None => m end) acts.
Proof.
  intros F G S X nm tl H1 H2 H3 H4 H5 op h n n' os m Ho. refine (settings nm tl H1 H2 H3 H4 H5 op h n n' os m _). exact (honoured_other op Ho).
Qed.
Example C68_settings_case : let h := [ATick [1]; ASet (mkSetting (PCenterQ 500 2) []); ARate 48000; ATick [2]] in
  (forall x, nltb Rnum_ops x x = false) /\ nleb Rnum_ops (n0 Rnum_ops) (n0 Rnum_ops) = true /\ shape_law real_tools /\ inner_law real_tools /\
  settle (OMoog 1000 1) h = (OMoog 500 2 : opcode R unit R) /\ last_rate h = Some 48000 /\
  exists n n' os m, build Rnum_ops real_tools false (OMoog 1000 1) = Some n /\ t_run Rnum_ops real_tools n h = Some (n', os) /\ build Rnum_ops real_tools false (OMoog 500 2) = Some m.
Proof.
  cbv zeta. split. { intro x. cbn. destruct (Rlt_dec x x); [lra|reflexivity]. } split. { cbn. destruct (Rle_dec 0 0); [reflexivity|lra]. }
  split; [now intros s x|]. split; [now repeat split|]. split; [reflexivity|]. split; [reflexivity|]. 
  eexists. match goal with |- context [t_run _ _ _ ?h] => destruct (runs Rnum_ops real_tools false (OMoog 1000 1) _ h ltac:(discriminate) eq_refl) as (n' & os & E) end.
  exists n', os. eexists. split; [reflexivity|]. split; [exact E|reflexivity].
Qed.
(* the conditions on the arithmetic hold of binary32 numbers, NaN included *)
Example C68_settings_f32 : (forall x, nltb f32_ops x x = false) /\ nleb f32_ops (n0 f32_ops) (n0 f32_ops) = true.
Proof.
  split; [|reflexivity]. intros [s|s| |s m e]; [now destruct s|now destruct s|reflexivity|]. cbn. unfold SFltb, SFcompare. destruct s; rewrite Z.compare_refl; unfold Pos.compare; rewrite Pos.compare_cont_refl; reflexivity.
Qed.
Print Assumptions C68_settings.

(* C68: a setting that repeats the current parameters is not heard. *)
Theorem C68_repeats : forall (F G S X : Type) (nm : num F) (tl : tools F G S X),
  (forall x, nltb nm x x = false) -> nleb nm (n0 nm) (n0 nm) = true -> shape_law tl -> (forall s, tl_shape_reset tl (tl_shape_reset tl s) = tl_shape_reset tl s) -> inner_law tl ->
  forall op h n n' os st m, (forall f q, op <> OReson f q) -> fresh_parts tl op ->
    build nm tl false op = Some n -> t_run nm tl n h = Some (n', os) -> documented (settle op h) st = settle op h -> t_set nm tl n' st = Some m ->
    forall acts, t_outs nm tl m acts = t_outs nm tl n' acts.
Proof.
  intros F G S X nm tl H1 H2 H3 H4 H5 op h n n' os st m Ho. refine (repeats nm tl H1 H2 H3 H4 H5 op h n n' os st m _). exact (honoured_other op Ho).
Qed.
Example C68_repeats_case : let h := [ATick [1]; ASet (mkSetting (PTime 2) []); ATick [3]] in let st := mkSetting (PTime 2) [] in documented (settle (OFollow 1) h) st = (settle (OFollow 1) h : opcode R unit R) /\
  exists n n' os m, build Rnum_ops real_tools false (OFollow 1) = Some n /\ t_run Rnum_ops real_tools n h = Some (n', os) /\ t_set Rnum_ops real_tools n' st = Some m.
Proof. cbv zeta. split; [reflexivity|]. do 4 eexists. split; [reflexivity|]. split; reflexivity. Qed.
Print Assumptions C68_repeats.

(* C68: inputs for parameters are as good as settings: the node with inputs for its parameters does in each sample what the node with settings does after a setting with the values of the inputs. Over the real
   numbers, for every opcode with both variants except resonator. *)
Theorem C68_inputs : forall (G S X : Type) (tl : tools R G S X) op k n m, arity op = Some k -> build Rnum_ops tl true op = Some n -> build Rnum_ops tl false op = Some m ->
  forall acts, t_outs Rnum_ops tl n (flat_map (by_input k) acts) = t_outs Rnum_ops tl m (flat_map (by_setting op) acts).
Proof. intros G S X tl. exact (inputs tl). Qed.
Example C68_inputs_case : arity (OSvf MBell 1000 1 2 : opcode R unit R) = Some 4%nat /\ (exists n m, build Rnum_ops real_tools true (OSvf MBell 1000 1 2) = Some n /\ build Rnum_ops real_tools false (OSvf MBell 1000 1 2) = Some m) /\
  by_input 4 (WTick 1 500 2 3) = [ATick [1; 500; 2; 3]] /\ by_setting (OSvf MBell 1000 1 2 : opcode R unit R) (WTick 1 500 2 3) = [ASet (mkSetting (PCenterQGain 500 2 3) []); ATick [1]].
Proof. split; [reflexivity|]. split; [now do 2 eexists|]. now split. Qed.
Print Assumptions C68_inputs.

(* C68: with inputs that do not change, it is the node that the other opcode constructs with these parameters, whatever it was constructed with; the resonator included. *)
Theorem C68_held : forall (G S X : Type) (tl : tools R G S X),
  (forall op k a b c n m, arity op = Some k -> build Rnum_ops tl true op = Some n -> build Rnum_ops tl false (documented op (as_setting op a b c)) = Some m ->
    forall acts, Forall (fun w => steady w a b c) acts -> t_outs Rnum_ops tl n (flat_map (by_input k) acts) = t_outs Rnum_ops tl m (flat_map plain acts)) /\
  (forall f0 q0 f q c n m, build Rnum_ops tl true (OReson f0 q0) = Some n -> build Rnum_ops tl false (OReson f q) = Some m ->
    forall acts, Forall (fun w => steady w f q c) acts -> t_outs Rnum_ops tl n (flat_map (by_input 3) acts) = t_outs Rnum_ops tl m (flat_map plain acts)).
Proof. intros G S X tl. exact (conj (held tl) (held_resonator tl)). Qed.
Example C68_held_case : let acts := [WTick 1 500 2 0; WReset; WRate 48000; WTick 2 500 2 0] in Forall (fun w => steady w 500 2 0) acts /\
  documented (OMoog 1000 1 : opcode R unit R) (as_setting (OMoog 1000 1 : opcode R unit R) 500 2 0) = OMoog 500 2 /\ flat_map (by_input 3) acts = [ATick [1; 500; 2]; AReset; ARate 48000; ATick [2; 500; 2]] /\
  flat_map plain acts = [ATick [1]; AReset; ARate 48000; ATick [2]].
Proof. cbv zeta. split; [repeat constructor|]. now repeat split. Qed.
Print Assumptions C68_held.

(* C68: settings do not panic, except that a setting for a channel which a bank of biquads does not have does. *)
Theorem C68_panics : forall (F G S X : Type) (nm : num F) (tl : tools F G S X) w op n h, build nm tl w op = Some n -> t_run nm tl n h = None ->
  exists cs st a1 a2 b0 b1 b2 i, op = OBank cs /\ In (ASet st) h /\ s_par st = PBiquad a1 a2 b0 b1 b2 /\ direction st = AIndex i /\ (length cs <= i)%nat.
Proof. intros F G S X nm tl. exact (panics nm tl). Qed.
Example C68_panics_case : let c := mkBi 1 2 3 4 5 in exists n, build Rnum_ops real_tools false (OBank [c; c]) = Some n /\
  t_run Rnum_ops real_tools n [ASet (mkSetting (PBiquad 1 2 3 4 5) [AIndex 2])] = None.
Proof. cbv zeta. eexists. split; reflexivity. Qed.
Print Assumptions C68_panics.

(* REFUTED: README.md:982 lists the setting `center_q` for `resonator_hz`. Resonator has no function `set` (biquad.rs:334-385), so that settings do nothing: the filter keeps the center and Q with which it
   was constructed, and its output is not that of the resonator with the new parameters. *)
Theorem C68_resonator_refuted : forall (G S X : Type) (tl : tools R G S X), tl_elem tl = R_elem -> forall f q q', 0 < f -> 0 < q < q' -> exists n n' m,
  build Rnum_ops tl false (OReson f q) = Some n /\ t_set Rnum_ops tl n (mkSetting (PCenterQ f q') []) = Some n' /\ build Rnum_ops tl false (OReson f q') = Some m /\
  documented (OReson f q) (mkSetting (PCenterQ f q') []) = (OReson f q' : opcode R S X) /\
  (forall acts, t_outs Rnum_ops tl n' acts = t_outs Rnum_ops tl n acts) /\ t_outs Rnum_ops tl n' [ATick [1]] <> t_outs Rnum_ops tl m [ATick [1]].
Proof. intros G S X tl. exact (reson_settings tl). Qed.
Print Assumptions C68_resonator_refuted.

(* REFUTED: README.md:950 lists the setting `delay` for `allnest_c`. AllNest takes the setting `coefficient` only (delay.rs:360-364); a setting `delay` leaves it as it is. *)
Theorem C68_allnest_refuted : forall (F G S X : Type) (nm : num F) (tl : tools F G S X) w c x n d ad,
  build nm tl w (ONest c x) = Some n -> t_set nm tl n (mkSetting (PDelay d) ad) = Some n.
Proof. intros F G S X nm tl. exact (nest_delay nm tl). Qed.
Print Assumptions C68_allnest_refuted.

(* REFUTED: a filter with a shape adapts to the sample rate. `set_sample_rate` of FbBiquad, FixedFbBiquad, DirtyBiquad and FixedDirtyBiquad computes new coefficients but does not call
   `set_sample_rate` of the shapes (biquad.rs:535-538, 678-681, 745-748, 898-901), as Shaper does (shape.rs:228-230). A shape Adaptive keeps the smoothing for 44.1 kHz, so that its time scale is wrong by the
   factor of the sample rates: at 88.2 kHz the output is not that of the filter whose shape knows the sample rate. *)
Theorem C68_shape_rate_refuted : forall (G X : Type) (tl : tools R G (@shape R) X), tl_elem tl = R_elem ->
  (forall s x, tl_shape tl s x = match shape_one Rnum_ops tanh atan sqrt PI (2 / PI) s x with Some r => r | None => (s, x) end) ->
  let sh := adaptive_new Rnum_ops Rnum_ops (fun x => x) (fun x => x) Rpower 1 (Tanh 1) in exists n n',
    build Rnum_ops tl false (ODirty true BResonator sh 44100 1 1) = Some n /\ build Rnum_ops tl false (ODirty true BResonator (shape_set_sr Rnum_ops (fun x => x) (fun x => x) Rpower sh 88200) 44100 1 1) = Some n' /\
    t_outs Rnum_ops tl (t_rate Rnum_ops tl n 88200) [ATick [1]; ATick [0]] <> t_outs Rnum_ops tl (t_rate Rnum_ops tl n' 88200) [ATick [1]; ATick [0]].
Proof. intros G X tl. exact (rate_lost tl). Qed.
Print Assumptions C68_shape_rate_refuted.
