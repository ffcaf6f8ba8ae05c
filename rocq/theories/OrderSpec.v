(* Directed graphs given by source lists. *)
From Verif Require Export Base.
From Coq Require Export Relations Permutation.

(* vertex i reads from vertex j *)
Definition reads (adj : list (list nat)) (i j : nat) : Prop := In j (nth i adj []).
(* there is a directed cycle *)
Definition cyclic (adj : list (list nat)) : Prop := exists i, clos_trans nat (reads adj) i i.
(* all connections are between existing vertices *)
Definition in_range (adj : list (list nat)) : Prop := forall i j, reads adj i j -> j < length adj.
(* j comes before i in the list *)
Definition before (l : list nat) (j i : nat) : Prop := exists a b c, l = a ++ j :: b ++ i :: c.
