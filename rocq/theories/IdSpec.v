(* When no call is overtaken by too many others. *)
From Verif Require Export IdModel.
Open Scope N_scope.
Definition started (t : thread) : option N :=
  match t with Idle => None | Low a _ => Some a | High a _ _ => Some a | Zone a _ => Some a | Bumped a _ _ => Some a end.
(* while an attempt is under way, fewer than 2^20 - 1 others begin; and the high word has not been incremented 2^32 times *)
Definition prompt (s : gen) : Prop :=
  (forall t a, In t (g_threads s) -> started t = Some a -> g_begun s - a < 2 ^ 20) /\ g_bumps s < 2 ^ 32.
(* at every moment of the run *)
Definition prompt_run (schedule : list nat) (s : gen) : Prop := forall n, prompt (gen_run (firstn n schedule) s).
