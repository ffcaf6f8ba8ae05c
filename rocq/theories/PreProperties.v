(* C77. *)
From Coq Require Import Reals Lra Lia SpecFloat.
From Verif Require Import NodeProofs NodeArith NodeArithProofs PreProofs.
Import ListNotations.
Local Open Scope nat_scope.

(* C77: busi, stacki, branchi, sumi and pipei with N = n build the nodes f(0), ..., f(n - 1) in this order. busi adds up their outputs, each node getting all of the input; stacki and branchi put the outputs
   side by side; in stacki and sumi node k gets the k-th group of input channels; sumi adds up the outputs; pipei runs the signal through the nodes. For n = 0 the opcodes busi, stacki and pipei panic, and
   so does pipei if the nodes do not have as many outputs as inputs. *)
Theorem C77_indexed : forall (A P U : Type) (ar : arith A) (ops : unit_ops A P U), unit_laws (a_zero ar) ops -> forall (n : nat) (f : nat -> NodeModel.node A U), 1 <= n ->
  let part k l := channels (k * ins ops (f 0)) (ins ops (f 0)) l in
  (exists x, busi n f = Some x /\ forall l t, t < length l ->
    nth t (outputs ar ops x l) [] = fold_left (zipw (a_add ar)) (map (fun k => nth t (outputs ar ops (f k) l) []) (seq 0 n)) (repeat (a_zero ar) (outs ops (f 0)))) /\
  (exists x, stacki n f = Some x /\ forall l t, t < length l -> nth t (outputs ar ops x l) [] = concat (map (fun k => nth t (outputs ar ops (f k) (part k l)) []) (seq 0 n))) /\
  (forall l t, t < length l -> nth t (outputs ar ops (branchi n f) l) [] = concat (map (fun k => nth t (outputs ar ops (f k) l) []) (seq 0 n))) /\
  (forall l t, t < length l -> nth t (outputs ar ops (sumi ar n f) l) [] =
    fold_left (zipw (a_add ar)) (map (fun k => nth t (outputs ar ops (f k) (part k l)) []) (seq 1 (n - 1))) (nth t (outputs ar ops (f 0) (part 0 l)) [])) /\
  (ins ops (f 0) = outs ops (f 0) -> exists x, pipei ops n f = Some x /\ forall l, outputs ar ops x l = fold_left (fun s k => outputs ar ops (f k) s) (seq 0 n) l) /\
  busi 0 f = None /\ stacki 0 f = None /\ pipei ops 0 f = None /\ (ins ops (f 0) <> outs ops (f 0) -> pipei ops n f = None).
Proof.
  intros A P U ar ops Hu n f H part. split; [exact (busi_outputs ar ops Hu n f H)|]. split; [exact (stacki_outputs ar ops Hu n f H)|]. split; [exact (branchi_outputs ar ops Hu n f)|].
  split; [exact (sumi_outputs ar ops Hu n f H)|]. split; [exact (pipei_outputs ar ops n f H)|]. destruct (generated_panics ops f) as (E1 & E2 & E3 & E4). split; [exact E1|]. split; [exact E2|]. split; [exact E3|exact (E4 n)].
Qed.
Print Assumptions C77_indexed.
(* delays that start from 10 k, and generators that count from 10 k *)
Example C77_indexed_example : unit_laws 0%Z demo_ops /\ ins demo_ops (Leaf (Del 0)) = outs demo_ops (Leaf (Del 0)) /\
  option_map (fun x => outputs Z_arith demo_ops x [[1; 2; 3]; [4; 5; 6]]%Z) (stacki 3 (fun k => Leaf (Del (10 * Z.of_nat k)))) = Some [[0; 10; 20]; [1; 2; 3]]%Z /\
  outputs Z_arith demo_ops (sumi Z_arith 3 (fun k => Leaf (Cnt (10 * Z.of_nat k)))) [[]; []] = [[30]; [33]]%Z /\
  option_map (fun x => outputs Z_arith demo_ops x [[1]; [2]; [3]; [4]]%Z) (pipei demo_ops 3 (fun k => Leaf (Del (10 * Z.of_nat k)))) = Some [[20]; [10]; [0]; [1]]%Z.
Proof. split; [exact demo_laws|]. repeat split; vm_compute; reflexivity. Qed.

(* C77: busf, stackf, branchf, sumf and pipef do the same with f(0), f(1 / (n - 1)), f(2 / (n - 1)), ..., f(1): numbers in 0...1, evenly spaced and growing; one node gets f(1/2). *)
Theorem C77_fractional : forall (A P U : Type) (ar : arith A) (ops : unit_ops A P U) (n : nat) (f : R -> NodeModel.node A U), 1 <= n ->
  let f64 := Rnum_ops in let from_f64 := fun x => x in
  (busf f64 from_f64 n f = busi n (fun k => f (spaced n k)) /\ stackf f64 from_f64 n f = stacki n (fun k => f (spaced n k)) /\ branchf f64 from_f64 n f = branchi n (fun k => f (spaced n k)) /\
   sumf ar f64 from_f64 n f = sumi ar n (fun k => f (spaced n k)) /\ pipef ops f64 from_f64 n f = pipei ops n (fun k => f (spaced n k))) /\
  forall k, k < n -> (0 <= spaced n k <= 1)%R /\
    (2 <= n -> spaced n 0 = 0%R /\ spaced n (n - 1) = 1%R /\ (forall j, (j < k)%nat -> spaced n j < spaced n k)%R /\ (forall j, (j < n - 1)%nat -> spaced n (S j) - spaced n j = 1 / INR (n - 1))%R).
Proof. intros A P U ar ops n f H f64 from. split; [exact (fractional ar ops n f H)|exact (spaced_facts n)]. Qed.
Print Assumptions C77_fractional.
Example C77_fractional_example : spaced 5 1 = (1 / 4)%R /\ spaced 5 4 = 1%R /\ spaced 1 0 = (1 / 2)%R.
Proof. unfold spaced. cbn. lra. Qed.

(* C77: with f64 and f32 arithmetic the numbers are those, correctly rounded: they do not leave 0...1, never go down, and begin and end with exactly 0 and 1. *)
Theorem C77_fractional_floats : forall n k : nat, k < n -> (Z.of_nat n <= 2 ^ 20)%Z ->
  let v := fraction f64_ops (fun x => x) n k in let w := fraction f64_ops to_f32 n k in
  real v = rnd 53 1024 (spaced n k) /\ fin 53 1024 v /\ (0 <= real v <= 1)%R /\
  real w = rnd 24 128 (rnd 53 1024 (spaced n k)) /\ fin 24 128 w /\ (0 <= real w <= 1)%R /\
  (2 <= n -> (k = 0 -> real v = 0%R /\ real w = 0%R) /\ (k = n - 1 -> real v = 1%R /\ real w = 1%R)) /\
  (forall j, j <= k -> (real (fraction f64_ops (fun x => x) n j) <= real v)%R /\ (real (fraction f64_ops to_f32 n j) <= real w)%R).
Proof. exact fraction_floats. Qed.
Print Assumptions C77_fractional_floats.
Example C77_fractional_floats_example : fraction f64_ops to_f32 4 1 = S754_finite false 11184811 (-25) /\ fraction f64_ops to_f32 4 3 = S754_finite false 8388608 (-23).
Proof. split; vm_compute; reflexivity. Qed.

(* C77: rotate(angle, gain) turns the stereo frame by the angle, from left towards right, and scales its length by the gain: it keeps the sum of squares when the gain is 1. Two rotations in a row turn by the
   sum of the angles and scale by the product of the gains; angle 0 with gain 1 does nothing, and the opposite angle with the inverse gain undoes a rotation. *)
Theorem C77_rotate : forall a g : R,
  (forall x y, exists u v, snd (mixer_tick Rnum_ops (rotate Rnum_ops cos sin a g) [x; y]) = [u; v] /\
    u = g * (cos a * x - sin a * y) /\ v = g * (sin a * x + cos a * y) /\ u * u + v * v = g * g * (x * x + y * y))%R /\
  (forall b h v, length v = 2%nat -> snd (mixer_tick Rnum_ops (rotate Rnum_ops cos sin b h) (snd (mixer_tick Rnum_ops (rotate Rnum_ops cos sin a g) v))) = snd (mixer_tick Rnum_ops (rotate Rnum_ops cos sin (a + b) (g * h)) v))%R /\
  (forall v, length v = 2%nat -> snd (mixer_tick Rnum_ops (rotate Rnum_ops cos sin 0 1) v) = v)%R /\
  (forall v, (g <> 0)%R -> length v = 2%nat -> snd (mixer_tick Rnum_ops (rotate Rnum_ops cos sin (- a) (/ g)) (snd (mixer_tick Rnum_ops (rotate Rnum_ops cos sin a g) v))) = v)%R.
Proof.
  intros a g. split; [exact (rotate_norm a g)|]. split; [exact (rotate_compose a g)|]. split; [exact rotate_still|exact (rotate_back a g)].
Qed.
Print Assumptions C77_rotate.
Example C77_rotate_example : snd (mixer_tick Rnum_ops (rotate Rnum_ops cos sin (PI / 2)%R 3%R) [1; 0]%R) = [0; 3]%R.
Proof. destruct (rotate_norm (PI / 2) 3 1 0)%R as (u & v & -> & -> & -> & _). rewrite cos_PI2, sin_PI2. f_equal; [ring|f_equal; ring]. Qed.

(* C77: fir3(gain) delays a sinusoid of w radians per sample by one sample and multiplies it with a gain that is 1 for w = 0 and the given gain at the Nyquist frequency, where w is PI; between the two it falls
   steadily if the given gain is less than 1, and it stays between the given gain and 1 if that is in 0...1. *)
Theorem C77_fir3 : forall gain : R,
  (forall (w p : R) (n t : nat), 2 <= t < n ->
    nth t (snd (ticks (fir_tick Rnum_ops) (fir_new Rnum_ops (fir3 Rnum_ops gain)) (map (fun x => [x]) (tone w p n)))) [] = [raised gain w * cos (w * (INR t - 1) + p)]%R) /\
  raised gain 0%R = 1%R /\ raised gain PI = gain /\
  (gain < 1 -> forall a b : R, 0 <= a -> a < b -> b <= PI -> raised gain b < raised gain a)%R /\ (forall w, 0 <= gain <= 1 -> gain <= raised gain w <= 1)%R.
Proof. intros gain. split; [exact (fir3_tone gain)|exact (raised_facts gain)]. Qed.
Print Assumptions C77_fir3.
Example C77_fir3_example : fir3 Rnum_ops 0%R = [1 / 4; 1 / 2; 1 / 4]%R /\ length (tone 1%R 0%R 5) = 5.
Proof. split; [|reflexivity]. unfold fir3, n1. cbn. f_equal; [lra|f_equal; [lra|f_equal; lra]]. Qed.

(* C77: calling get_mono n times gives the next n samples of a generator, the average of its channels if it has two; get_stereo gives both channels, the same sample twice if there is one; filter_mono and
   filter_stereo give the outputs for the given inputs. With any other number of channels they panic. *)
Theorem C77_methods : forall (A P U : Type) (nm : num A) (ar : arith A) (ops : unit_ops A P U), unit_laws (a_zero ar) ops -> forall x : NodeModel.node A U, NodeModel.wf ops x ->
  (ins ops x = 0 -> 1 <= outs ops x <= 2 -> forall n,
    play (get_mono nm ar ops) n x = Some (map (average nm (a_zero ar)) (outputs ar ops x (repeat [] n))) /\ play (get_stereo ar ops) n x = Some (map (pair_of (a_zero ar)) (outputs ar ops x (repeat [] n)))) /\
  (ins ops x = 1 -> outs ops x = 1 -> forall l, feed (filter_mono ar ops) l x = Some (map (one_of (a_zero ar)) (outputs ar ops x (map (fun v => [v]) l)))) /\
  (ins ops x = 2 -> outs ops x = 2 -> forall l, feed (fun x v => filter_stereo ar ops x (fst v) (snd v)) l x = Some (map (pair_of (a_zero ar)) (outputs ar ops x (map (fun v => [fst v; snd v]) l)))) /\
  (ins ops x <> 0 \/ ~ 1 <= outs ops x <= 2 -> get_mono nm ar ops x = None /\ get_stereo ar ops x = None) /\
  (forall v, ins ops x <> 1 \/ outs ops x <> 1 -> filter_mono ar ops x v = None) /\ (forall v w, ins ops x <> 2 \/ outs ops x <> 2 -> filter_stereo ar ops x v w = None).
Proof.
  intros A P U nm ar ops Hu x W. split; [intros I O n; exact (conj (get_mono_run nm ar ops Hu n x W I O) (get_stereo_run ar ops Hu n x W I O))|].
  split; [intros I O l; exact (filter_mono_run ar ops Hu l x W I O)|]. split; [intros I O l; exact (filter_stereo_run ar ops Hu l x W I O)|exact (methods_panic nm ar ops x)].
Qed.
Print Assumptions C77_methods.

(* C77: the methods of the same names on boxed units do the same; their get_mono multiplies by 0.5 where that of nodes divides by 2, which gives the same real number, and the same bits in single precision. *)
Theorem C77_unit_methods : (forall (P U : Type) (ar : arith R) (ops : unit_ops R P U), unit_laws (a_zero ar) ops -> forall u : U, let outputs := outputs ar ops (Leaf u) in
    (u_ins ops u = 0 -> 1 <= u_outs ops u <= 2 -> forall n,
      play (unit_get_mono Rnum_ops ar ops) n u = Some (map (average Rnum_ops (a_zero ar)) (outputs (repeat [] n))) /\ play (unit_get_stereo ar ops) n u = Some (map (pair_of (a_zero ar)) (outputs (repeat [] n)))) /\
    (u_ins ops u = 1 -> u_outs ops u = 1 -> forall l, feed (unit_filter_mono ar ops) l u = Some (map (one_of (a_zero ar)) (outputs (map (fun v => [v]) l)))) /\
    (u_ins ops u = 2 -> u_outs ops u = 2 -> forall l, feed (fun u v => unit_filter_stereo ar ops u (fst v) (snd v)) l u = Some (map (pair_of (a_zero ar)) (outputs (map (fun v => [fst v; snd v]) l))))) /\
  (forall x, valid_binary 24 128 x = true -> nmul f32_ops x (ndiv f32_ops (n1 f32_ops) (nofZ f32_ops 2)) = ndiv f32_ops x (nofZ f32_ops 2)).
Proof.
  split; [|exact halving_32]. intros P U ar ops Hu u outputs. split; [intros I O n; exact (conj (unit_halves Rnum_ops ar ops Hu u n halving_R I O) (unit_stereo_run ar ops Hu n u I O))|].
  split; [intros I O l; exact (unit_filter_run ar ops Hu l u I O)|intros I O l; exact (unit_filter2_run ar ops Hu l u I O)].
Qed.
Print Assumptions C77_unit_methods.
Example C77_methods_example : NodeModel.wf demo_ops (Pipe (Leaf (Cnt 5)) (Split 2)) /\
  play (get_stereo Z_arith demo_ops) 3 (Pipe (Leaf (Cnt 5)) (Split 2)) = Some [(5, 5); (6, 6); (7, 7)]%Z /\
  feed (filter_mono Z_arith demo_ops) [1; 2; 3]%Z (Leaf (Del 9)) = Some [9; 1; 2]%Z /\ get_stereo Z_arith demo_ops (Leaf (Del 9)) = None.
Proof. repeat split; vm_compute; reflexivity. Qed.

(* C77: the name Uk stands for k channels, for all k up to 128 except 90; *)
Theorem C77_sizes_partial : forall k, k <= 128 -> k <> 90 -> forall (A P U : Type) (ops : unit_ops A P U), outs ops (Split (U := U) (A := A) (channels_of k)) = k.
Proof. intros k H N A P U ops. exact (size_name k H N). Qed.
Print Assumptions C77_sizes_partial.
Example C77_sizes_example : channels_of 89 = 89 /\ channels_of 91 = 91 /\ channels_of 128 = 128.
Proof. repeat split; reflexivity. Qed.
(* REFUTED: it is not so for all k. The three preludes define the type U90 as the number 80, so split::<U90>() has 80 outputs, and busi::<U90, _, _>, stacki and their kin build 80 nodes. *)
Theorem C77_sizes_refuted : ~ forall k, k <= 128 -> forall (A P U : Type) (ops : unit_ops A P U), outs ops (Split (U := U) (A := A) (channels_of k)) = k.
Proof. intros H. specialize (H 90 ltac:(lia) Z Z demo demo_ops). discriminate H. Qed.
Print Assumptions C77_sizes_refuted.
