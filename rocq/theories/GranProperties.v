(* C72: the granular synthesizer. *)
From Coq Require Import Reals Lra Lia QArith.
From Verif Require Import GranSpec GranProofs GranLink OscProofs.
Local Open Scope R_scope.

(* Whatever sequencer plays the grains, it is told the calls that are noted, in that order, and the outputs are its outputs. *)
Theorem C72_sequencer : forall (U Rn Sq Out : Type) cos_ sin_ tau (rnd_f32 : Rn -> R * Rn) rnd_u64 rnd_from texture (ping : N -> U -> U) generator
  (push : Sq -> grain R U -> Sq) (stick : Sq -> Sq * Out) sprocess sreset srate voices beat beats inner outer jitter fuel s sr seed ops,
  let run := gran_run Rnum_ops cos_ sin_ tau rnd_f32 rnd_u64 rnd_from texture ping generator push stick sprocess sreset srate voices beat beats inner outer jitter fuel (granular_new Rnum_ops rnd_from sreset voices s sr seed) ops in
  match log_run cos_ sin_ tau rnd_f32 rnd_u64 rnd_from texture ping generator voices beat beats inner outer jitter fuel (log_new rnd_from voices sr seed) ops with
  | Val (g, _) => exists g', run = Val (g', snd (replay push stick sprocess sreset srate s (g_seq g))) /\ g_seq g' = fst (replay push stick sprocess sreset srate s (g_seq g))
  | Panics => run = Panics
  | Undefined => run = Undefined
  end.
Proof.
  intros U Rn Sq Out cos_ sin_ tau rnd_f32 rnd_u64 rnd_from texture ping generator push stick sprocess sreset srate voices beat beats inner outer jitter fuel s sr seed ops run.
  pose proof (GranLink.run_sim cos_ sin_ tau rnd_f32 rnd_u64 rnd_from texture ping generator push stick sprocess sreset srate voices beat beats inner outer jitter s fuel ops (log_new rnd_from voices sr seed)) as H.
  rewrite new_lift in H. fold run in H. destruct (log_run _ _ _ _ _ _ _ _ _ _ _ _ _ _ _ _ _ _) as [[g o]| |]; [|exact H..].
  destruct H as (o' & E & E'). exists (lift push stick sprocess sreset srate s g). change (snd (replay push stick sprocess sreset srate s (g_seq (log_new (U := U) rnd_from voices sr seed)))) with (@nil Out) in E'. rewrite E'. split; [exact E|reflexivity].
Qed.
Print Assumptions C72_sequencer.

(* With a generator whose grains are longer than their envelopes by d at least, and a loop that can run long enough for one block: after any ticks, blocks, resets, sample rates and seeds,
   the grains since the last reset tile the time of each voice, without gaps, each overlapping the next by its envelope, and all of them come from the generator. *)
Theorem C72_tiling : forall (U Rn : Type) cos_ sin_ tau (rnd_f32 : Rn -> R * Rn) rnd_u64 rnd_from texture (ping : N -> U -> U) generator voices beat beats inner outer jitter d fuel sr seed ops,
  0 < d -> generates generator d -> 0 < sr -> Forall gran_ok ops -> steps_within (INR fuel * d) sr (rev ops) ->
  exists g o, log_run cos_ sin_ tau rnd_f32 rnd_u64 rnd_from texture ping generator voices beat beats inner outer jitter fuel (log_new rnd_from voices sr seed) ops = Val (g, o)
    /\ tiling voices (gran_time sr (rev ops)) (recent (g_seq g))
    /\ Forall (genuine cos_ sin_ tau texture ping generator voices beat beats inner outer jitter) (recent (g_seq g)).
Proof.
  intros U Rn cos_ sin_ tau rnd_f32 rnd_u64 rnd_from texture ping generator voices beat beats inner outer jitter d fuel sr seed ops D G S O W.
  destruct (GranProofs.run_ok cos_ sin_ tau rnd_f32 rnd_u64 rnd_from texture ping generator voices beat beats inner outer jitter d D G fuel sr seed S (rev ops) (Forall_rev O) W) as (g & o & E & GG & _ & T).
  rewrite rev_involutive in E. exists g, o. split; [exact E|]. split; [rewrite <- T; eapply good_tiling; exact GG|]. apply GG.
Qed.
Print Assumptions C72_tiling.
Example C72_tiling_case : generates (fun _ _ _ _ _ _ => (6 / 100, 3 / 100, tt)) (3 / 100) /\ steps_within (INR 10 * (3 / 100)) 44100 (rev [GTick; GBlock 64; GReset; GRate 48000; GBlock 64])
  /\ gran_time 44100 (rev [GTick; GBlock 64; GReset; GRate 48000; GBlock 64; GTick]) = 65 / 48000.
Proof. split; [intros t b v x y z; lra|]. cbn. repeat split; lra. Qed.
Example C72_tiling_grains : pushed (fun _ => (4 # 1, 2 # 1)%Q) 2 0%Q [GTick; GTick; GTick; GTick] =
  Some [mkGrain 0 0 (4 # 1) (2 # 1) 3%N; mkGrain 1 (2 # 2) (4 # 1) (2 # 1) 7%N; mkGrain 0 (2 # 1) (4 # 1) (2 # 1) 11%N; mkGrain 1 (6 # 2) (4 # 1) (2 # 1) 15%N]%Q.
Proof. vm_compute. reflexivity. Qed.

(* Grains are in time: in every operation after every history, the grains that are pushed before the sequencer plays start within the tick or block. *)
Theorem C72_on_time : forall (U Rn : Type) cos_ sin_ tau (rnd_f32 : Rn -> R * Rn) rnd_u64 rnd_from texture (ping : N -> U -> U) generator voices beat beats inner outer jitter d fuel sr seed ops a,
  0 < d -> generates generator d -> 0 < sr -> Forall gran_ok (ops ++ [a]) -> steps_within (INR fuel * d) sr (a :: rev ops) ->
  let run := log_run cos_ sin_ tau rnd_f32 rnd_u64 rnd_from texture ping generator voices beat beats inner outer jitter fuel in
  exists g o g' o' new, run (log_new rnd_from voices sr seed) ops = Val (g, o) /\ run g [a] = Val (g', o') /\ g_seq g' = told a new ++ g_seq g
    /\ Forall (fun e => gran_time sr (rev ops) <= gr_start e < gran_time sr (a :: rev ops)) (match a with GTick | GBlock _ => new | _ => [] end).
Proof.
  intros U Rn cos_ sin_ tau rnd_f32 rnd_u64 rnd_from texture ping generator voices beat beats inner outer jitter d fuel sr seed ops a D G S O W run.
  apply Forall_app in O as [O O2]. apply Forall_cons_iff in O2 as [O2 _]. assert (W' : steps_within (INR fuel * d) sr (rev ops)) by (destruct a; cbn [steps_within] in W; tauto).
  destruct (GranProofs.run_ok cos_ sin_ tau rnd_f32 rnd_u64 rnd_from texture ping generator voices beat beats inner outer jitter d D G fuel sr seed S (rev ops) (Forall_rev O) W') as (g & o & E & GG & ER & ET). rewrite rev_involutive in E.
  assert (AD : advance_of g a <= INR fuel * d). { destruct a; cbn [advance_of steps_within] in *; rewrite ?ER; try tauto; apply Rmult_le_pos; try apply pos_INR; lra. }
  destruct (GranProofs.step_ok cos_ sin_ tau rnd_f32 rnd_u64 rnd_from texture ping generator voices beat beats inner outer jitter d D G fuel g a GG O2 AD) as (g' & o' & E' & _ & _ & _ & es & A & B).
  exists g, o, g', (o' ++ []), es. split; [exact E|]. split; [unfold run, log_run; cbn [gran_run]; rewrite E'; reflexivity|]. split; [exact A|].
  destruct a; cbn [advance_of gran_time] in *; rewrite <- ?ER, <- ?ET; auto.
Qed.
Print Assumptions C72_on_time.

(* Without jitter, ticks and blocks of any sizes that add up to the same time spawn the same grains in each voice, but for the hashes that they are given. *)
Theorem C72_blocks : forall (U Rn : Type) cos_ sin_ tau (rnd_f32 : Rn -> R * Rn) rnd_u64 rnd_from texture (ping : N -> U -> U) generator voices beat beats inner outer d fuel sr seed ops1 ops2,
  0 < d -> generates generator d -> 0 < sr -> Forall gran_ok ops1 -> Forall gran_ok ops2 -> steps_within (INR fuel * d) sr (rev ops1) -> steps_within (INR fuel * d) sr (rev ops2) ->
  gran_time sr (rev ops1) = gran_time sr (rev ops2) ->
  let run := log_run cos_ sin_ tau rnd_f32 rnd_u64 rnd_from texture ping generator voices beat beats inner outer 0 fuel (log_new rnd_from voices sr seed) in
  exists g1 o1 g2 o2, run ops1 = Val (g1, o1) /\ run ops2 = Val (g2, o2) /\ forall v, (v < voices)%nat -> times (of_voice v (recent (g_seq g1))) = times (of_voice v (recent (g_seq g2))).
Proof.
  intros U Rn cos_ sin_ tau rnd_f32 rnd_u64 rnd_from texture ping generator voices beat beats inner outer d fuel sr seed ops1 ops2 D G S O1 O2 W1 W2 T run.
  destruct (C72_tiling U Rn cos_ sin_ tau rnd_f32 rnd_u64 rnd_from texture ping generator voices beat beats inner outer 0 d fuel sr seed ops1 D G S O1 W1) as (g1 & o1 & E1 & T1 & G1).
  destruct (C72_tiling U Rn cos_ sin_ tau rnd_f32 rnd_u64 rnd_from texture ping generator voices beat beats inner outer 0 d fuel sr seed ops2 D G S O2 W2) as (g2 & o2 & E2 & T2 & G2).
  exists g1, o1, g2, o2. split; [exact E1|]. split; [exact E2|]. rewrite T in T1.
  apply (tiling_same voices _ (fun v t => fst (generate Rnum_ops generator voices beat v t (texture (helix Rnum_ops cos_ sin_ tau voices beat beats inner outer v t)))) _ _ T1 T2).
  rewrite Forall_forall in G1, G2. intros e He. assert (GE : genuine cos_ sin_ tau texture ping generator voices beat beats inner outer 0 e) by (destruct He; auto).
  destruct GE as (r1 & r2 & r3 & h & u & GE & _). rewrite no_jitter in GE. now rewrite GE.
Qed.
Print Assumptions C72_blocks.

(* After a reset, the sequencer is told exactly what that of a new synthesizer with the same sample rate and seed is told; so it plays the same grains again. *)
Theorem C72_reset : forall (U Rn : Type) cos_ sin_ tau (rnd_f32 : Rn -> R * Rn) rnd_u64 rnd_from texture (ping : N -> U -> U) generator voices beat beats inner outer jitter fuel sr seed ops g o more,
  let run := log_run cos_ sin_ tau rnd_f32 rnd_u64 rnd_from texture ping generator voices beat beats inner outer jitter fuel in
  run (log_new rnd_from voices sr seed) ops = Val (g, o) ->
  match run (log_new rnd_from voices (gran_rate sr (rev ops)) (gran_seed seed (rev ops))) more with
  | Val (g', _) => exists g2 o2, run (log_new rnd_from voices sr seed) (ops ++ GReset :: more) = Val (g2, o2) /\ g_seq g2 = g_seq g' ++ g_seq g
  | Panics => run (log_new rnd_from voices sr seed) (ops ++ GReset :: more) = Panics
  | Undefined => run (log_new rnd_from voices sr seed) (ops ++ GReset :: more) = Undefined
  end.
Proof.
  intros U Rn cos_ sin_ tau rnd_f32 rnd_u64 rnd_from texture ping generator voices beat beats inner outer jitter fuel sr seed ops g o more run E.
  unfold run in *. rewrite GranProofs.run_app, E. cbn [bind]. rewrite <- (rev_involutive ops) in E. apply run_keeps in E as (ER & ES & EN). rewrite <- ER, <- ES.
  pose proof (GranLink.run_sim cos_ sin_ tau rnd_f32 rnd_u64 rnd_from texture ping generator (fun (l : list (call U)) e => CPush e :: l) (fun l => (CTick :: l, tt)) (fun size l => (CBlock size :: l, tt)) (fun l => CReset :: l) (fun sr l => CRate sr :: l)
    voices beat beats inner outer jitter (g_seq g) fuel more (log_new rnd_from voices (g_rate g) (g_seed g))) as H.
  assert (Z : forall l : list R, map (fun _ => nofZ Rnum_ops 0) l = repeat (nofZ Rnum_ops 0) (length l)) by (induction l as [|x l IH]; [reflexivity|cbn [map repeat length]; now rewrite IH]).
  assert (ST : granular_reset Rnum_ops rnd_from (fun l => CReset (U := U) :: l) g = lift (fun (l : list (call U)) e => CPush e :: l) (fun l => (CTick :: l, tt)) (fun size l => (CBlock size :: l, tt)) (fun l => CReset :: l) (fun sr l => CRate sr :: l) (g_seq g) (log_new rnd_from voices (g_rate g) (g_seed g))).
  { unfold lift, log_new, granular_new, granular_reset. cbn [g_next g_seq g_rate g_time g_seed g_rnd replay fst]. f_equal. rewrite !Z, repeat_length, EN. reflexivity. }
  assert (RS : log_run cos_ sin_ tau rnd_f32 rnd_u64 rnd_from texture ping generator voices beat beats inner outer jitter fuel g (GReset :: more) =
    do (g2, o2) <- log_run cos_ sin_ tau rnd_f32 rnd_u64 rnd_from texture ping generator voices beat beats inner outer jitter fuel (granular_reset Rnum_ops rnd_from (fun l => CReset (U := U) :: l) g) more; Val (g2, [] ++ o2)) by reflexivity.
  rewrite !RS, !ST. clear RS ST.
  destruct (log_run _ _ _ _ _ _ _ _ _ _ _ _ _ _ _ fuel _ more) as [[g' o']| |] eqn:EE; [|unfold log_run; now rewrite H..].
  destruct H as (o2 & H & _). unfold log_run. rewrite H. cbn [bind]. eexists. eexists. split; [reflexivity|]. unfold lift. cbn [g_seq]. apply replay_log.
Qed.
Print Assumptions C72_reset.

(* The generator is called with a voice from -1 for the first to 1 for the last (0 for a single one) and texture values in -1...1,
   at points of a helix: at the radius of the voice, one turn per beat, and a depth in 0...1 that starts over with each cycle. *)
Theorem C72_arguments : forall voices beat beats inner outer v t,
  (v < voices)%nat -> 0 < beat -> (0 < beats)%nat ->
  let p := voice_place Rnum_ops voices v in
  (0 <= p <= 1 /\ ((2 <= voices)%nat -> voice_place Rnum_ops voices 0 = 0 /\ voice_place Rnum_ops voices (voices - 1) = 1))
  /\ (let '(x, y, z) := helix Rnum_ops cos sin (2 * PI) voices beat beats inner outer v t in let r := (1 - p) * inner + p * outer in
      x * x + y * y = r * r /\ 0 <= z < 1 /\ z = frac (t / (beat * INR beats)) /\ (x = r * cos (2 * PI * (t / beat)) /\ y = r * sin (2 * PI * (t / beat))))
  /\ (forall (U : Type) (generator : R -> R -> R -> R -> R -> R -> R * R * U) q, exists x y z, -1 <= x <= 1 /\ -1 <= y <= 1 /\ -1 <= z <= 1 /\
      generate Rnum_ops generator voices beat v t q = generator t (t / beat) (2 * p - 1) x y z /\
      (let '(a, b, c) := q in (-1 <= a <= 1 -> x = a) /\ (-1 <= b <= 1 -> y = b) /\ (-1 <= c <= 1 -> z = c))).
Proof.
  intros voices beat beats inner outer v t V B C p. split; [split; [now apply place_01|now apply place_ends]|]. split; [exact (helix_shape voices beat beats inner outer v t B C)|].
  intros U generator [[a b] c]. exists (clamp11_ Rnum_ops a), (clamp11_ Rnum_ops b), (clamp11_ Rnum_ops c). destruct (GranLink.clamp_range a), (GranLink.clamp_range b), (GranLink.clamp_range c).
  split; [auto|]. split; [auto|]. split; [auto|]. split; [|auto]. unfold generate. cbn [ndiv nmul nsub nofZ Rnum_ops]. change (n1 Rnum_ops) with 1. fold p. f_equal. ring.
Qed.
Print Assumptions C72_arguments.
Example C72_arguments_case : voice_place Qnum_ops 5 2 == 1 # 2 /\ voice_place Qnum_ops 1 0 == 1 # 2.
Proof. split; reflexivity. Qed.

(* Blocks matter: random numbers are drawn voice by voice within a block but in order of time with ticks, so that grains at the same time in the same voice get other
   random phases (and, with jitter, other points of the texture), and the output of a granular synthesizer depends on the sizes of the blocks it is asked for. *)
Theorem C72_hash_refuted : ~ (forall generator voices jitter n g1 g2,
  pushed generator voices jitter [GBlock n] = Some g1 -> pushed generator voices jitter (repeat GTick n) = Some g2 -> forall e, In e g1 -> In e g2).
Proof.
  intros H. specialize (H (fun _ => (4 # 1, 2 # 1)%Q) 2%nat 0%Q 4%nat _ _ ltac:(vm_compute; reflexivity) ltac:(vm_compute; reflexivity) (mkGrain 0 (2 # 1) (4 # 1) (2 # 1) 7%N)%Q).
  cbn in H. destruct H as [H|[H|[H|[H|H]]]]; try discriminate H; auto.
Qed.
Print Assumptions C72_hash_refuted.
