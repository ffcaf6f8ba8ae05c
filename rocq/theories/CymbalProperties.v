(* C78: the cymbal. *)
From Coq Require Import Reals Lra.
From Verif Require Import TableCases CymbalSpec CymbalProofs CymbalLevel TableHeardProofs.
Local Open Scope R_scope.

(* C78: the cymbal never panics. It is the sum of three square waves whose frequencies are moved by three others, with a decay, through a lowpass filter whose cutoff frequency falls and a highpass filter at 2500 Hz, times the
   fade-in of declick. This holds for all hashes of its nodes, for all numbers r that its seed draws and for all tables of waves. *)
Theorem C78_cymbal : forall tb sr h r N n, tables_ok tb -> usual sr -> (forall i, (h i < 2 ^ 64)%N) -> (n < N)%nat -> nth n (cymbal_outputs tb (cymbalR sr h r) (repeat [] N)) [] = [cymbal_of tb sr h r n].
Proof. intros tb sr h r N n HT HS HH H. exact (cymbal_outputs_are tb HT sr h r HS HH N n H). Qed.
Print Assumptions C78_cymbal.
(* C78: before the filters it decays as exp(-8 t) from at most 3.0001, the cutoff frequency of the lowpass goes from 20000 Hz to 2000 Hz in a second and is never outside of them, and the sound begins with silence. *)
Theorem C78_cymbal_level : forall tb sr h r n, normal tb -> usual sr -> (forall i, (h i < 2 ^ 64)%N) ->
  Rabs (cymbal_mixed tb sr h r n) <= 3.0001 * exp (- (8 * (INR n / sr - 1 / 400))) /\ 2000 <= control sr h 7 cymbal_cutoff n <= 20000 /\ cymbal_cutoff 0 = 20000 /\ (forall t, 1 <= t -> cymbal_cutoff t = 2000) /\ cymbal_of tb sr h r 0 = 0.
Proof.
  intros tb sr h r n HT HS HH. pose proof (cymbal_mixed_level tb sr h r HS HH HT n) as A. pose proof (exp_pos (- (8 * (INR n / sr - 1 / 400)))) as P. split; [lra|]. split; [exact (cymbal_cut_range sr h HS HH n)|]. destruct cutoff_ends as [C D]. split; [exact C|]. split; [exact D|exact (cymbal_silent tb sr h r)].
Qed.
Print Assumptions C78_cymbal_level.
(* C78: its six frequencies are within 5 Hz of those in the code for all draws, and the frequency of each sounding oscillator stays within m of its own, up to 1/100000 of m. *)
Theorem C78_cymbal_pitches : forall tb sr h r, normal tb -> (forall i f, 0 <= r i <= 1 -> Rabs (near r i f - f) <= 5) /\
  (forall i f m g n, 0 <= m -> g - 1.00001 * m <= clang_pitch tb sr h i f m g n <= g + 1.00001 * m).
Proof. intros tb sr h r HT. split; [intros i f H; exact (near_range r i f H)|]. intros i f m g n M. exact (clang_range tb sr h HT i f m g n M). Qed.
Print Assumptions C78_cymbal_pitches.
Example C78_cymbal_case : tables_ok three_tables /\ normal three_tables /\ usual 44100 /\ (forall i, (N.of_nat (Nat.min i 7) < 2 ^ 64)%N) /\ near (fun _ => 1) 0 1339.0586 = 1339.0586 + 5.
Proof.
  split; [exact three_tables_ok|]. split.
  - split.
    + intros t x Ht Hx. unfold three_tables in Ht. cbn [In] in Ht. destruct Ht as [<-|[<-|[<-|[]]]]; cbn [snd In] in Hx; repeat (destruct Hx as [<-|Hx]; [apply Rabs_le; lra|]); destruct Hx.
    + left. exists (100, [0; 1; 0; -1]), 1. split; [left; reflexivity|]. split; [right; left; reflexivity|apply Rabs_R1].
  - split; [split; lra|]. split; [|unfold near; lra]. intros i. assert (Nat.min i 7 <= 7)%nat by lia. assert (N.of_nat (Nat.min i 7) <= 7)%N by lia. eapply N.le_lt_trans; [eassumption|reflexivity].
Qed.
