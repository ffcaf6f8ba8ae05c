(* The interface of a processing unit: what AudioNode (src/audionode.rs:20-160) and AudioUnit
   (src/audiounit.rs:20-160) require, for an arbitrary type U of unit values (state included).
   A is the sample type, P the type of setting parameters. *)
From Verif Require Export BufModel.

(* src/setting.rs:56-69 Address *)
Inductive address := ANull | ALeft | ARight | AIndex (i : nat) | ANode (id : N).
(* src/setting.rs:75-78 Setting: parameter and address list (the limit of four levels is not modelled). *)
Record setting (P : Type) := mkSetting { s_par : P; s_addr : list address }.
Arguments mkSetting {P}. Arguments s_par {P}. Arguments s_addr {P}.
(* src/setting.rs:211-218 direction *)
Definition direction {P} (s : setting P) : address := match s_addr s with [] => ANull | a :: _ => a end.
(* src/setting.rs:219-225 peel *)
Definition peel {P} (s : setting P) : setting P := mkSetting (s_par s) (tl (s_addr s)).

(* audiounit.rs:22-91 (the trait AudioUnit) *)
Record unit_ops (A P U : Type) := mkUnit {
  u_ins : U -> nat;
  u_outs : U -> nat;
  u_tick : U -> list A -> U * list A;
  u_process : U -> nat -> list (list A) -> list (list A) -> U * list (list A);  (* size, input, output *)
  u_set : U -> setting P -> U;
  u_reset : U -> U;
  u_id : U -> N;
  u_set_hash : U -> N -> U
}.
Arguments u_ins {A P U}. Arguments u_outs {A P U}. Arguments u_tick {A P U}. Arguments u_process {A P U}.
Arguments u_set {A P U}. Arguments u_reset {A P U}. Arguments u_id {A P U}. Arguments u_set_hash {A P U}.

(* audionode.rs:75-102 (tick and process): What processing a block must do compared with ticking: same final state, same samples, whatever the
   previous contents of the output and of the input beyond size. *)
Definition block_contract {A X} (zero : A) (tick : X -> list A -> X * list A)
    (process : X -> nat -> list (list A) -> list (list A) -> X * list (list A)) (ins outs : nat) (x : X) : Prop :=
  forall size inb out, size <= MAXB -> shaped ins inb -> shaped outs out ->
    let (x', out') := process x size inb out in
    (x', frames zero out' size) = ticks tick x (frames zero inb size) /\ shaped outs out'.

(* audionode.rs:25-170: A well-behaved unit: its arity is fixed, tick returns a frame of that arity, block processing equals ticking. *)
Record unit_laws {A P U} (zero : A) (o : unit_ops A P U) : Prop := {
  ul_ins : forall u i, u_ins o (fst (u_tick o u i)) = u_ins o u;
  ul_outs : forall u i, u_outs o (fst (u_tick o u i)) = u_outs o u;
  ul_len : forall u i, length i = u_ins o u -> length (snd (u_tick o u i)) = u_outs o u;
  ul_process : forall u, block_contract zero (u_tick o) (u_process o) (u_ins o u) (u_outs o u) u
}.

(* audionode.rs:615-690, 721-741: Sample arithmetic used by the routing nodes: zero, +, division by N and multiplication by 1/N. *)
Record arith (A : Type) := mkArith { a_zero : A; a_add : A -> A -> A; a_divn : A -> nat -> A; a_muln : A -> nat -> A }.
Arguments a_zero {A}. Arguments a_add {A}. Arguments a_divn {A}. Arguments a_muln {A}.
