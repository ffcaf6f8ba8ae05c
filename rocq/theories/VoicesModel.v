(* The sound pebbles: /repo/src/sound.rs:20-63, with the 100 voices that play its pitches. No proofs here. Samples and times have one type. *)
From Verif Require Export PebbleModel SysModel DynModel OscModel.
Local Open Scope nat_scope.

Section Voices.
  Context {F : Type} (nm : num F) (exp_ ln_ sin_ : F -> F) (tau : F).
  Local Infix "+." := (nadd nm) (at level 50, left associativity).
  Local Infix "*." := (nmul nm) (at level 40, left associativity).
  Local Infix "/." := (ndiv nm) (at level 40, left associativity).
  Notation zero := (n0 nm).
  Notation one := (n1 nm).
  Notation "# z" := (nofZ nm z) (at level 1).

  (* sound.rs:27: dc(..) >> follow(0.01) >> sine() *)
  Record voice := mkVoice { vc_pitch : F; vc_follow : follow (F := F); vc_sine : osc F }.
  (* audionode.rs:1350-1352 (Pipe::tick), twice; 470-472 (Constant::tick); follow.rs:100-109; oscillator.rs:66-72 *)
  Definition voice_tick (v : voice) : voice * F :=
    let f := fo_tick nm (vc_follow v) (vc_pitch v) in
    let (s, y) := sine_tick nm nm (fun x => x) (fun x => x) sin_ tau (vc_sine v) (fo_v3 f) in (mkVoice (vc_pitch v) f s, y).
  (* sound.rs:26-28 busi; audionode.rs:1893-1897 (MultiBus::tick): all of the voices, and the sum of their outputs from zero on *)
  Definition voices_tick (vs : list voice) (i : list F) : list voice * list F :=
    (map (fun v => fst (voice_tick v)) vs, [fold_left (fun a v => a +. snd (voice_tick v)) vs zero]).
  (* audionode.rs:25-170 (the trait AudioNode): blocks, settings and hashes are not used here; reset: follow.rs:88-93, oscillator.rs:55-60 *)
  Definition voices_ops : unit_ops F (param F) (list voice) :=
    mkUnit _ _ _ (fun _ => 0) (fun _ => 1) voices_tick (fun u _ _ o => (u, o)) (fun u _ => u)
      (map (fun v => mkVoice (vc_pitch v) (fo_reset nm (vc_follow v)) (osc_reset nm (vc_sine v)))) (fun _ => 0%N) (fun u _ => u).

  Variable speed : F.
  (* audionode.rs:459-461 (set_scalar of Constant), for all voices: sound.rs:40-42 *)
  Definition write_pitches (vs : list voice) (d : list F) : list voice := map (fun p => mkVoice (snd p) (vc_follow (fst p)) (vc_sine (fst p))) (combine vs d).
  (* sound.rs:30-61: the function that is given to update; its own state is the array d; the gravity is that of PebbleModel.v *)
  Definition pebbles_fn (d : list F) (t dt : F) (vs : list voice) : list F * list voice :=
    let d := if feq nm t zero then map vc_pitch vs else d in
    let (w, d) := pebbles_update nm (dt *. speed *. (#1 /. #1000)) d in (d, write_pitches vs w).

  Variables (sr co : F).                                       (* the sample rate that has been set, and the coefficient that follow(0.01) has at it (C39) *)
  Variable h : nat -> N.                                       (* the hashes of the sines *)
  Variable seed : N.
  (* sound.rs:27 *)
  Definition voice_new (i : nat) : voice := mkVoice (first_pitch nm exp_ ln_ seed i) (fo_new nm co) (osc_set_hash nm (osc_new nm None (one /. sr)) (h i)).
  (* sound.rs:22-28, 62: the node and its update function, at the sample rate sr *)
  Definition pebbles_system : system F (list F) (list voice) :=
    sys_rate (fun x _ => x) (sys_new nm (map voice_new (seq 0 100)) (#1 /. #100) (repeat zero 100)) sr.
  (* sound.rs:22-63: update(..) >> pinkpass() * 0.1, sample by sample *)
  Fixpoint pebbles_play (s : system F (list F) (list voice)) (p : pink F) (n : nat) : list F :=
    match n with
    | O => []
    | S n => let (s, o) := sys_tick nm voices_ops pebbles_fn s [] in let (p, y) := pink_step nm p (nth 0 o zero) in (y *. (#1 /. #10)) :: pebbles_play s p n
    end.
  (* sound.rs:22-63 *)
  Definition pebbles_sound (n : nat) : list F := pebbles_play pebbles_system (mkPink zero zero zero zero zero zero zero) n.
End Voices.
Arguments voice : clear implicits.
