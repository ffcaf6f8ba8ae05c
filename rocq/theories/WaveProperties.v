(* C29, C30, C31, C32 and C55. *)
From Coq Require Import ZArith QArith Reals Lra Lia SpecFloat.
From Verif Require Import WaveModel WaveSpec WaveReals WaveExamples.
Close Scope R_scope. Close Scope Q_scope. Open Scope nat_scope.

(* ------------------------------------------------------------------ C29 *)
(* Every edit allowed by the documentation succeeds, has the documented effect on the channels, changes neither the sample rate nor
   anything else, and leaves all channels with the common length. Appending to a wave without channels is excluded in [allowed],
   see C29_append_refuted, and retain is only allowed as far as C30 says. *)
Theorem C29_edit_partial : forall (A F : Type) (zero : A) (add : A -> A -> A), (forall x, add zero x = x) ->
  forall (w : wave A F) (e : wedit A F), rect w -> allowed w e ->
  exists w', do_edit zero add w e = Some w' /\ w_vec w' = edited zero add w e /\ w_rate w' = w_rate w /\ rect w'.
Proof. intros A F zero add Hz w e. exact (edit_ok zero add Hz w e). Qed.
Print Assumptions C29_edit_partial.
(* Whatever edits are made, as long as none panics, all channels have the common length. *)
Theorem C29_common_length : forall (A F : Type) (zero : A) (add : A -> A -> A), (forall x, add zero x = x) ->
  forall channels (rate : F) (es : list (wedit A F)) w, Forall (fun e => match e with Append v => rect v | _ => True end) es ->
  do_edits zero add (w_new channels rate) es = Some w -> rect w.
Proof.
  intros A F zero add Hz channels rate es w Hp E. apply (edits_rect zero add es Hz Hp (w_new channels rate)); [|exact E]. split; cbn; [|auto]. apply Forall_forall. intros x Hx. now rewrite (repeat_spec _ _ _ Hx).
Qed.
Print Assumptions C29_common_length.
(* A wave made with zeros has the given channels, each with the given number of zeros; it is refused if it is to have a length but no channels. A wave made
   from samples has one channel with them. All channels of these waves have the common length, and so do those of whatever edits make of them. *)
Theorem C29_made : forall (A F : Type) (zero : A) (add : A -> A -> A), (forall x, add zero x = x) -> forall channels (rate : F) length (samples : list A),
  (w_zero zero channels rate length = None <-> channels = 0 /\ length <> 0) /\
  (forall w, w_zero zero channels rate length = Some w -> w_rate w = rate /\ w_vec w = repeat (repeat zero length) channels) /\
  w_vec (w_from rate samples) = [samples] /\ w_rate (w_from rate samples) = rate /\
  forall w es w', w_zero zero channels rate length = Some w \/ w = w_from rate samples -> Forall (fun e => match e with Append v => rect v | _ => True end) es ->
  do_edits zero add w es = Some w' -> rect w'.
Proof.
  intros A F zero add Hz channels rate length samples. split; [|split; [|split; [reflexivity|split; [reflexivity|]]]].
  - unfold w_zero. destruct channels, length; cbn; intuition (try discriminate; try lia).
  - intros w. unfold w_zero. destruct (_ || _)%bool; [|discriminate]. intros H. injection H as <-. split; reflexivity.
  - intros w es w' Hw Hp E. apply (edits_rect zero add es Hz Hp w); [|exact E]. destruct Hw as [Hw| ->]; [exact (zero_rect zero channels rate length w Hw)|exact (from_rect rate samples)].
Qed.
Print Assumptions C29_made.
Example C29_made_case : w_zero 0 2 44100%Z 3 = Some (mkWave [[0; 0; 0]; [0; 0; 0]] 44100%Z 3) /\ w_zero 0 0 44100%Z 3 = None /\ w_from 44100%Z [1; 2] = mkWave [[1; 2]] 44100%Z 2.
Proof. repeat split. Qed.
(* The removed channel is returned. *)
Theorem C29_removed : forall (A F : Type) (w : wave A F) c ch, nth_error (w_vec w) c = Some ch -> exists w', remove_channel w c = Some (w', ch).
Proof. intros A F w c ch E. unfold remove_channel. rewrite E. eauto. Qed.
Print Assumptions C29_removed.
Example C29_removed_case : remove_channel (mkWave [[1; 2]; [3; 4]] 44100%Z 2) 1 = Some (mkWave [[1; 2]] 44100%Z 2, [3; 4]).
Proof. reflexivity. Qed.
(* Appending a wave without channels to a wave without channels, whose numbers of channels match, panics. *)
Theorem C29_append_refuted : forall (A F : Type) (zero : A) (add : A -> A -> A) (r1 r2 : F), append zero add (w_new 0 r1) (w_new 0 r2) = None.
Proof. reflexivity. Qed.
Print Assumptions C29_append_refuted.

(* ------------------------------------------------------------------ C30 *)
(* retain keeps the part of the wave in the span, if the span does not start beyond the end of the wave, and its length and its end
   are representable as signed 64 bit numbers. *)
Theorem C30_retain_partial : forall (A F : Type) (zero : A) (w : wave A F) start length, rect w -> w_vec w <> [] ->
  (- 2 ^ 63 <= start <= Z.of_nat (w_len w))%Z -> (0 <= length < 2 ^ 63)%Z -> (start + length < 2 ^ 63)%Z ->
  exists w', retain zero w start length = Some w' /\ w_vec w' = map (span start length) (w_vec w) /\ rect w'.
Proof.
  intros A F zero w start length Hw Hn Hs Hl Ho. assert (Ha : allowed w (Retain start length)) by (cbn [allowed]; split; [exact Hn|]; lia).
  assert (Hz : forall x : A, (fun _ y : A => y) zero x = x) by reflexivity. destruct (edit_ok zero (fun _ y => y) Hz w _ Hw Ha) as (w' & E1 & E2 & _ & E4). exists w'. auto.
Qed.
Print Assumptions C30_retain_partial.
Example C30_retain_case : retain 0 (mkWave [[1; 2; 3]; [4; 5; 6]] 44100%Z 3) (-1) 3 = Some (mkWave [[1; 2]; [4; 5]] 44100%Z 2) /\ retain 0 (mkWave [[1; 2; 3]; [4; 5; 6]] 44100%Z 3) 1 9 = Some (mkWave [[2; 3]; [5; 6]] 44100%Z 2).
Proof. split; vm_compute; reflexivity. Qed.
(* A span which starts beyond the end overlaps nothing, but retain panics. *)
Theorem C30_beyond_refuted : forall (A F : Type) (zero : A) (w : wave A F) start length, (Z.of_nat (w_len w) < start)%Z -> (0 <= length < 2 ^ 63)%Z -> (start + length < 2 ^ 63)%Z -> retain zero w start length = None.
Proof.
  intros A F zero w start length Hs Hl Ho. unfold retain, as_isize. destruct (Z.ltb_spec length (2 ^ 63)) as [_|G]; [|lia]. unfold isize_add. destruct (_ && _)%bool; [|reflexivity]. destruct (Nat.ltb_spec (Nat.min (w_len w) (Z.to_nat (Z.max 0 (start + length)))) (Z.to_nat (Z.max start 0))) as [G|G]; [reflexivity|lia].
Qed.
Print Assumptions C30_beyond_refuted.
(* A span from the beginning with the greatest possible length covers the wave, but retain empties it. *)
Theorem C30_longest_refuted : forall (A F : Type) (zero : A) (w : wave A F), rect w -> w_vec w <> [] -> exists w', retain zero w 0 (2 ^ 64 - 1) = Some w' /\ w_len w' = 0 /\ w_vec w' = map (fun _ => []) (w_vec w).
Proof.
  intros A F zero w [R1 R2] Hn. change (retain zero w 0 (2 ^ 64 - 1)) with (resize zero (mkWave (w_vec w) (w_rate w) (w_len w)) (Nat.min (w_len w) 0 - 0)). rewrite Nat.min_0_r. cbn [Nat.sub].
  rewrite (resize_ok zero (fun _ y => y) _ _); [|split; cbn; auto|exact Hn]. eexists. split; [reflexivity|]. split; reflexivity.
Qed.
Print Assumptions C30_longest_refuted.

(* ------------------------------------------------------------------ C31 *)
(* A player puts out what [played] says, from the channel it was made for, forever: the samples from start to end in order, then the
   samples from the loop point to the end again and again, or zeros. It reads inside the wave only: no tick fails. Starting at or
   after the end gives silence. After a reset at any time it starts again. *)
Theorem C31_player : forall (A F : Type) (zero : A) (w : wave A F) channel start end_ loop_ ch, rect w -> nth_error (w_vec w) channel = Some ch -> end_ <= w_len w ->
  let sound n := map (fun t => match played start end_ loop_ t with Some i => nth i ch zero | None => zero end) (seq 0 n) in
  exists p, player_new w channel start end_ loop_ = Some p /\
  (forall n, exists p', play zero n p = Some (p', sound n) /\ forall m, exists p'', play zero m (player_reset p') = Some (p'', sound m)) /\
  (forall t i, played start end_ loop_ t = Some i -> i < length ch).
Proof.
  intros A F zero w c start end_ loop_ ch Hw E He sound. destruct (player_new_ok w c start end_ loop_ ch Hw E He) as [E1 E2]. eexists. split; [exact E1|]. split.
  - intros n. destruct (play_placed zero start end_ loop_ ch E2 n 0 _ (start_placed start end_ loop_ ch start)) as (p' & P1 & (Q1 & Q2 & Q3 & Q4 & Q5)). exists p'. split; [exact P1|]. intros m.
    destruct p' as [s i st e l]. cbn in Q1, Q2, Q3, Q4. subst s st e l. destruct (play_placed zero start end_ loop_ ch E2 m 0 _ (start_placed start end_ loop_ ch i)) as (p'' & P2 & _). exists p''. exact P2.
  - intros t i H. pose proof (played_in _ _ _ _ _ H). lia.
Qed.
Print Assumptions C31_player.
Example C31_player_case : option_map (fun p => option_map snd (play 0 7 p)) (player_new (mkWave [[1; 2; 3; 4]; [3; 4; 5; 6]; [5; 6; 7; 8]] 44100%Z 4) 2 1 4 (Some 2)) = Some (Some [6; 7; 8; 7; 8; 7; 8]).
Proof. vm_compute. reflexivity. Qed.
(* A player cannot be made for a missing channel or an end beyond that of the wave. *)
Theorem C31_checked : forall (A F : Type) (w : wave A F) channel start end_ loop_ p, player_new w channel start end_ loop_ = Some p -> channel < length (w_vec w) /\ end_ <= w_len w.
Proof.
  intros A F w c start end_ loop_ p E. unfold player_new in E. destruct (nth_error (w_vec w) c) eqn:N; [|discriminate]. destruct (Nat.leb_spec end_ (w_len w)); [|discriminate]. split; [apply nth_error_Some; congruence|assumption].
Qed.
Print Assumptions C31_checked.
Example C31_checked_case : player_new (mkWave [[1; 2]; [3; 4]] 44100%Z 2) 1 0 2 None <> None /\ player_new (mkWave [[1; 2]; [3; 4]] 44100%Z 2) 2 0 2 None = None /\ player_new (mkWave [[1; 2]; [3; 4]] 44100%Z 2) 1 0 3 None = None.
Proof. split; [discriminate|]. split; reflexivity. Qed.

(* ------------------------------------------------------------------ C32 *)
(* render: round(duration * sample rate) samples, which are the ticks of the node at that sample rate. *)
Theorem C32_render : forall (F P U : Type) (nm : num F) (ops : unit_ops F P U) (set_sr : U -> F -> U), unit_laws (n0 nm) ops ->
  (forall u r, u_ins ops (set_sr u r) = u_ins ops u) -> (forall u r, u_outs ops (set_sr u r) = u_outs ops u) ->
  forall sr duration u, u_ins ops u = 0 -> 0 < u_outs ops u -> nleb nm (n0 nm) duration = true ->
  let n := round_us nm (nmul nm duration sr) in let (u', outputs) := ticks (u_tick ops) (set_sr u sr) (repeat [] n) in
  render nm ops set_sr sr duration u = Some (u', mkWave (transpose (n0 nm) (u_outs ops u) outputs) sr n) /\ length outputs = n /\ rect (mkWave (transpose (n0 nm) (u_outs ops u) outputs) sr n).
Proof.
  intros F P U nm ops set_sr L Hi Ho sr dur u H1 H2 H3. cbv zeta. pose proof (render_ok nm ops L set_sr Hi Ho sr dur u H1 H2 H3) as E. cbv zeta in E. pose proof (ticks_length (u_tick ops) (set_sr u sr) (repeat [] (round_us nm (nmul nm dur sr)))) as Ln. destruct (ticks _ _ _) as [u' os]. cbn [fst snd] in *. rewrite repeat_length in Ln.
  split; [exact E|]. split; [exact Ln|]. rewrite <- Ln. now apply transpose_rect.
Qed.
Print Assumptions C32_render.
(* filter: the ticks of the node fed the frames of the wave once each in order, then zeros. *)
Theorem C32_filter : forall (F P U : Type) (nm : num F) (ops : unit_ops F P U) (set_sr : U -> F -> U), unit_laws (n0 nm) ops ->
  (forall u r, u_ins ops (set_sr u r) = u_ins ops u) -> (forall u r, u_outs ops (set_sr u r) = u_outs ops u) ->
  forall (w : wave F F) duration u, rect w -> u_ins ops u = length (w_vec w) -> 0 < u_outs ops u -> nleb nm (n0 nm) duration = true ->
  let n := round_us nm (nmul nm duration (w_rate w)) in let (u', outputs) := ticks (u_tick ops) (set_sr u (w_rate w)) (wave_frames (n0 nm) w n) in
  w_filter nm ops set_sr w duration u = Some (u', mkWave (transpose (n0 nm) (u_outs ops u) outputs) (w_rate w) n) /\ length outputs = n.
Proof.
  intros F P U nm ops set_sr L Hi Ho w dur u [Hw _] H1 H2 H3. cbv zeta. pose proof (filter_ok nm ops L set_sr Hi Ho w dur u Hw H1 H2 H3) as E. cbv zeta in E. set (n := round_us nm _) in *. pose proof (ticks_length (u_tick ops) (set_sr u (w_rate w)) (wave_frames (n0 nm) w n)) as Ln. destruct (ticks _ _ _) as [u' os]. cbn [fst snd] in *. unfold wave_frames in Ln. rewrite map_length, seq_length in Ln. split; [exact E|exact Ln].
Qed.
Print Assumptions C32_filter.
(* The latency variants drop floor(latency) frames, the latency being the one before the sample rate is set. Where it is the same
   afterwards they drop what they should. The times are exact here. *)
Theorem C32_latency_partial : forall (P U : Type) (ops : unit_ops R P U) (set_sr : U -> R -> U) (latency : U -> option R), unit_laws 0%R ops ->
  (forall u r, u_ins ops (set_sr u r) = u_ins ops u) -> (forall u r, u_outs ops (set_sr u r) = u_outs ops u) ->
  forall duration u, (0 <= duration)%R -> 0 < u_outs ops u ->
  let dropped l := Z.to_nat (Int_part (match l with Some x => x | None => 0%R end)) in
  (forall sr, (0 < sr)%R -> u_ins ops u = 0 -> latency (set_sr u sr) = latency u ->
    let l := dropped (latency (set_sr u sr)) in let n := round_us Rnum_ops (duration * sr)%R in let (u', outputs) := ticks (u_tick ops) (set_sr u sr) (repeat [] (n + l)) in
    render_latency Rnum_ops ops set_sr latency sr duration u = Some (u', mkWave (transpose 0%R (u_outs ops u) (firstn n (skipn l outputs))) sr n)) /\
  (forall w, rect w -> (0 < w_rate w)%R -> u_ins ops u = length (w_vec w) -> latency (set_sr u (w_rate w)) = latency u ->
    let l := dropped (latency (set_sr u (w_rate w))) in let n := round_us Rnum_ops (duration * w_rate w)%R in let (u', outputs) := ticks (u_tick ops) (set_sr u (w_rate w)) (wave_frames 0%R w (n + l)) in
    filter_latency Rnum_ops ops set_sr latency w duration u = Some (u', mkWave (transpose 0%R (u_outs ops u) (firstn n (skipn l outputs))) (w_rate w) n)).
Proof.
  intros P U ops set_sr latency L Hi Ho dur u Hd Hu. cbv zeta. split.
  - intros sr Hs Hin El. rewrite El. pose proof (render_latency_ok ops L set_sr latency Hi Ho sr dur u Hs Hd Hin Hu) as E. cbv zeta in E. unfold latency_samples in E. cbn [nfloor Rnum_ops] in E. change (n0 Rnum_ops) with 0%R in E. destruct (ticks _ _ _). exact E.
  - intros w Hw Hs Hin El. rewrite El. pose proof (filter_latency_ok ops L set_sr latency Hi Ho w dur u Hw Hs Hd Hin Hu) as E. cbv zeta in E. unfold latency_samples in E. cbn [nfloor Rnum_ops] in E. change (n0 Rnum_ops) with 0%R in E. destruct (ticks _ _ _). exact E.
Qed.
Print Assumptions C32_latency_partial.
(* A node with a lag of one second, at a sample rate of 3, rendered at a sample rate of 1 has one frame of latency, but three are
   dropped: the wave begins with the third sample of the sound. *)
Theorem C32_latency_refuted : unit_laws (n0 Qnum_ops) lag_ops /\ lag_latency (lag_rate (3, 0) (1#1)%Q) = Some (1#1)%Q /\
  option_map (fun r => w_vec (snd r)) (render_latency Qnum_ops lag_ops lag_rate lag_latency (1#1)%Q (2#1)%Q (3, 0)) = Some [[3; 4]%Q] /\
  option_map (fun r => w_vec (snd r)) (render_latency Qnum_ops lag_ops lag_rate lag_latency (1#1)%Q (2#1)%Q (1, 0)) = Some [[1; 2]%Q].
Proof. split; [exact lag_laws|]. vm_compute. auto. Qed.
Print Assumptions C32_latency_refuted.
(* render_latency does not reset the node, which its documentation promises: from a node that has played it takes up where it was. *)
Theorem C32_reset_refuted : unit_laws (n0 Qnum_ops) lag_ops /\
  option_map (fun r => w_vec (snd r)) (render_latency Qnum_ops lag_ops lag_rate lag_latency (1#1)%Q (2#1)%Q (u_reset lag_ops (1, 5))) = Some [[1; 2]%Q] /\
  option_map (fun r => w_vec (snd r)) (render_latency Qnum_ops lag_ops lag_rate lag_latency (1#1)%Q (2#1)%Q (1, 5)) = Some [[6; 7]%Q].
Proof. split; [exact lag_laws|]. vm_compute. auto. Qed.
Print Assumptions C32_reset_refuted.

(* ------------------------------------------------------------------ C55 *)
(* The amplitude is the greatest magnitude of a sample, and zero if there are none. *)
Theorem C55_amplitude : forall w : wave R R, (0 <= amplitude Rnum_ops w)%R /\ (forall x, In x (concat (w_vec w)) -> (Rabs x <= amplitude Rnum_ops w)%R) /\
  (amplitude Rnum_ops w = 0%R \/ exists x, In x (concat (w_vec w)) /\ Rabs x = amplitude Rnum_ops w).
Proof. exact amplitude_ok. Qed.
Print Assumptions C55_amplitude.
(* normalize divides all samples by the amplitude, which becomes 1; it leaves an empty or silent wave as it is. Exact arithmetic. *)
Theorem C55_normalize_partial : forall w : wave R R,
  (amplitude Rnum_ops w = 0%R -> normalize Rnum_ops w = w) /\
  (amplitude Rnum_ops w <> 0%R -> amplitude Rnum_ops (normalize Rnum_ops w) = 1%R /\ w_vec (normalize Rnum_ops w) = map (map (fun x => (x / amplitude Rnum_ops w)%R)) (w_vec w) /\
    w_len (normalize Rnum_ops w) = w_len w /\ w_rate (normalize Rnum_ops w) = w_rate w).
Proof. intros w. split; [exact (normalize_silent w)|exact (normalize_ok w)]. Qed.
Print Assumptions C55_normalize_partial.
(* In binary32 a very quiet wave is turned into an infinity and a NaN. *)
Theorem C55_normalize_refuted : rect tiny_wave /\ amplitude f32_ops tiny_wave = S754_finite false 1 (-149) /\ w_vec (normalize f32_ops tiny_wave) = [[S754_infinity false; S754_nan]].
Proof. split; [split; [repeat constructor|discriminate]|]. vm_compute. auto. Qed.
Print Assumptions C55_normalize_refuted.
(* The fades multiply every sample by weights which rise from near 0 to 1 over the given time, or the whole wave if that is shorter:
   at the beginning, in mirror image at the end, or both. No index is out of range. *)
Theorem C55_fades : forall (w : wave R R) time, rect w -> (0 < w_rate w)%R ->
  let n := round_us Rnum_ops (Rmin time (INR (w_len w) / w_rate w) * w_rate w)%R in
  exists g : nat -> R,
  (forall i, 0 < g i <= 1)%R /\ (forall i j, i <= j -> (g i <= g j)%R) /\ (forall i, n <= i -> g i = 1%R) /\ (forall i, i < n -> let x := ((INR i + 1) / (INR n + 1))%R in g i = (6 * x ^ 5 - 15 * x ^ 4 + 10 * x ^ 3)%R) /\
  n <= w_len w /\
  let faded h := Some (mkWave (map (fun ch => map (fun i => (nth i ch 0 * h i)%R) (seq 0 (length ch))) (w_vec w)) (w_rate w) (w_len w)) in
  let last i := w_len w - 1 - i in
  fade_in Rnum_ops w time = faded g /\ fade_out Rnum_ops w time = faded (fun i => g (last i)) /\ fade_both Rnum_ops w time = faded (fun i => (g i * g (last i))%R).
Proof.
  intros w time Hr Hs. cbv zeta.
  assert (En : fade_n Rnum_ops w time = round_us Rnum_ops (Rmin time (INR (w_len w) / w_rate w) * w_rate w)%R) by (unfold fade_n, duration; cbn; now rewrite <- INR_IZR_INZ). rewrite <- En. set (n := fade_n Rnum_ops w time). exists (in_weight n). pose proof (fade_n_le w time Hs) as L.
  split; [intros; apply in_weight_01|]. split; [intros; now apply in_weight_mono|]. split; [intros i Hi; unfold in_weight; destruct (Nat.ltb_spec i n); [lia|reflexivity]|].
  split; [intros i Hi; unfold in_weight; destruct (Nat.ltb_spec i n); [unfold smooth5; cbn; ring|lia]|]. split; [exact L|].
  split; [exact (fade_in_ok w time Hr Hs)|]. split.
  - rewrite (fade_out_ok w time Hr Hs). do 2 f_equal. apply (weighted_ext _ _ _ (w_len w) (proj1 Hr)). intros j Hj. now apply out_in.
  - pose proof (fade_both_ok w time Hr Hs) as E. cbv zeta in E. rewrite E. do 2 f_equal. apply (weighted_ext _ _ _ (w_len w) (proj1 Hr)). intros j Hj. fold n. now rewrite out_in.
Qed.
Print Assumptions C55_fades.
(* cases that meet the hypotheses *)
Example C29_case : rect pair_wave /\ allowed pair_wave (Retain (-1) 3) := conj pair_rect (proj1 allowed_case).
Example C32_case : unit_laws 0%R late_ops /\ rect real_wave := conj late_laws real_rect.
Example C55_case : amplitude Rnum_ops real_wave <> 0%R.
Proof. rewrite real_amplitude. lra. Qed.
