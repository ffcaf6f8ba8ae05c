(* C26: sliding window reduction. *)
From Verif Require Import ReduceModel ReduceProofs.
From Coq Require Import Reals.

(* For every carrier P that is a commutative monoid under op with unit zero, every length >= 1 and every sequence of
   set(index, value) calls with index < length: no call panics, and total() is the reduction of the current slot values. *)
Theorem C26_reduce_total :
  forall (T : Type) (zero : T) (op : T -> T -> T) (P : T -> Prop),
  P zero -> (forall a b, P a -> P b -> P (op a b)) ->
  (forall a b, P a -> P b -> op a b = op b a) ->
  (forall a b c, P a -> P b -> P c -> op a (op b c) = op (op a b) c) ->
  (forall a, P a -> op zero a = a) ->
  forall (n : nat) (ops : list (nat * T)), 1 <= n -> Forall (fun iv => fst iv < n /\ P (snd iv)) ops ->
  exists b, rb_sets op (rb_new zero n) ops = Some b /\
    rb_total b = Some (fold_right op zero (fold_left (fun slots iv => upd slots (fst iv) (snd iv)) ops (repeat zero n))).
Proof. exact @reduce_buffer_total. Qed.
Print Assumptions C26_reduce_total.

(* The hypotheses are met by max on natural numbers; five slots, an overwritten peak. *)
Example C26_example :
  match rb_sets Nat.max (rb_new 0 5) [(0, 7); (4, 9); (2, 3); (4, 1)] with
  | Some b => rb_total b = Some 7
  | None => False
  end.
Proof. vm_compute. reflexivity. Qed.

(* With length 0 (which ReduceBuffer::new accepts) total() is out of bounds. *)
Theorem C26_empty_reducer_panics : forall (T : Type) (zero : T), rb_total (rb_new zero 0) = None.
Proof. exact (fun T zero => eq_refl). Qed.
Print Assumptions C26_empty_reducer_panics.
