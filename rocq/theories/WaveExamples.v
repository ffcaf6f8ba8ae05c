(* Concrete waves and units. *)
From Coq Require Import ZArith QArith Reals Lra Lia SpecFloat.
From Verif Require Export WaveReals UnitProofs.
Close Scope R_scope. Close Scope Q_scope. Open Scope nat_scope.

(* two channels of three samples *)
Definition pair_wave : wave Z Z := mkWave [[1; 2; 3]%Z; [4; 5; 6]%Z] 10%Z 3.
Example pair_rect : rect pair_wave.
Proof. split; [repeat constructor|discriminate]. Qed.
Example edits_case : do_edits 0%Z Z.add (w_new 1 10%Z)
    [PushFrame [1]%Z; PushFrame [2]%Z; Resize 4; InsertChannel 0 [7; 8; 9; 10]%Z; MixChannel 1 (-1)%Z [5; 6; 7]%Z; Append pair_wave; Retain 1 5; PushFrame [50; 60]%Z; RemoveChannel 0]
  = Some (mkWave [[9; 0; 0; 4; 5; 60]%Z] 10%Z 6).
Proof. vm_compute. reflexivity. Qed.
Example allowed_case : allowed pair_wave (Retain (-1) 3) /\ allowed pair_wave (MixChannel 1 (-2) [1; 2; 3; 4; 5; 6; 7]%Z) /\ allowed pair_wave (Append pair_wave) /\
  edited 0%Z Z.add pair_wave (MixChannel 1 (-2) [1; 2; 3; 4]%Z) = [[1; 2; 3]%Z; [7; 9; 6]%Z] /\ edited 0%Z Z.add pair_wave (Retain (-1) 3) = [[1; 2]%Z; [4; 5]%Z].
Proof. split; [|split; [|split; [|split; vm_compute; reflexivity]]]; cbn [allowed pair_wave w_vec w_len]. - split; [discriminate|]. lia. - cbn; lia. - split; [exact pair_rect|]. split; [reflexivity|discriminate]. Qed.
Example player_case : exists p, player_new pair_wave 1 0 3 (Some 1) = Some p /\ option_map snd (play 0%Z 8 p) = Some [4; 5; 6; 5; 6; 5; 6; 5]%Z.
Proof. eexists. split; [reflexivity|]. vm_compute. reflexivity. Qed.

(* A generator with a lag of one second: silence while it lasts, then 1, 2, 3, ... *)
Definition lag := (nat * nat)%type. (* the lag in samples and the time *)
Definition lag_out (u : lag) : Q := inject_Z (Z.of_nat (snd u - fst u)).
Definition lag_tick (u : lag) (_ : list Q) : lag * list Q := ((fst u, S (snd u)), [lag_out (fst u, S (snd u))]).
Definition lag_ops : unit_ops Q unit lag := mkUnit Q unit lag (fun _ => 0) (fun _ => 1) lag_tick (fun u size i o => default_process 0%Q lag_tick size u i o) (fun u _ => u) (fun u => (fst u, 0)) (fun _ => 0%N) (fun u _ => u).
Definition lag_rate (u : lag) (r : Q) : lag := (round_us Qnum_ops r, snd u).
Definition lag_latency (u : lag) : option Q := Some (inject_Z (Z.of_nat (fst u))).
Lemma lag_laws : unit_laws (n0 Qnum_ops) lag_ops.
Proof. split; [reflexivity|reflexivity|reflexivity|]. intros u. apply (default_process_contract (n0 Qnum_ops) lag_tick 1 0 (fun _ => True)); [|exact I]. intros y i _ H. split; [exact I|reflexivity]. Qed.
Example render_case : option_map (fun r => w_vec (snd r)) (render Qnum_ops lag_ops lag_rate (2#1)%Q (5#2)%Q (0, 0)) = Some [[0; 0; 1; 2; 3]%Q].
Proof. vm_compute. reflexivity. Qed.
(* a unit over the reals that passes its input, one sample late *)
Definition late_tick (u : R) (i : list R) : R * list R := (nth 0 i 0%R, [u]).
Definition late_ops : unit_ops R unit R := mkUnit R unit R (fun _ => 1) (fun _ => 1) late_tick (fun u size i o => default_process 0%R late_tick size u i o) (fun u _ => u) (fun _ => 0%R) (fun _ => 0%N) (fun u _ => u).
Lemma late_laws : unit_laws 0%R late_ops.
Proof. split; [reflexivity|reflexivity|reflexivity|]. intros u. apply (default_process_contract 0%R late_tick 1 1 (fun _ => True)); [|exact I]. intros y i _ H. split; [exact I|reflexivity]. Qed.

(* a wave with the smallest positive binary32 number and a zero *)
Definition tiny_wave : wave spec_float spec_float := mkWave [[S754_finite false 1 (-149); S754_zero false]] (nofZ f32_ops 44100) 2.
Definition real_wave : wave R R := mkWave [[1; -2; 0]%R] 10%R 3.
Example real_rect : rect real_wave.
Proof. split; [repeat constructor|discriminate]. Qed.
Example real_amplitude : amplitude Rnum_ops real_wave = 2%R.
Proof.
  apply amplitude_unique; [lra| |right; exists (-2)%R; split; [cbn; auto|rewrite Rabs_left; lra]]. intros x Hx. cbn in Hx. destruct Hx as [<-|[<-|[<-|[]]]]; unfold Rabs; destruct (Rcase_abs _); lra.
Qed.
