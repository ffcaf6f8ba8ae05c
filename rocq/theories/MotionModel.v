(* The control signals of reverb2_stereo: /repo/src/prelude.rs:1798-1804. No proofs here. *)
From Coq Require Import ZArith.
From Verif Require Export EnvModel MathModel.

Section Wobble.
  Context {F : Type}.
  Variable nm : num F.
  Variable hash64a hash64g : N -> N.  (* funutd *)
  (* prelude.rs:1799-1803: the function of time of the Envelope of line i, where speed is modulation_speed. The model has one type of numbers. *)
  Definition wobble (speed : F) (i : nat) (lo hi : F) (t : F) : F :=
    lerp11 nm lo hi (spline_noise nm hash64a hash64g (N.of_nat i) (nmul nm (nmul nm t speed) (ndiv nm (nofZ nm 1) (nofZ nm 2)))).
  (* prelude.rs:1798: Envelope::new(0.01, wobble), after set_sample_rate(sr) and with the hash h that its place in the graph gives it *)
  Definition wobble_env (speed : F) (i : nat) (lo hi sr : F) (h : N) : env F F unit :=
    let f (_ : unit) t := (tt, [wobble speed i lo hi t]) in
    env_reset nm (fun x => x) f (set_hash (set_duration (env_new nm nm (fun x => x) f tt 1 (ndiv nm (n1 nm) (nofZ nm 44100)) (ndiv nm (nofZ nm 1) (nofZ nm 100))) (ndiv nm (n1 nm) sr)) h).
End Wobble.
