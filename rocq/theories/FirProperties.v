(* C47: FIR filters, mixing matrices, panning. *)
From Coq Require Import QArith Reals Lra SpecFloat.
From Verif Require Export FirExamples.
Local Open Scope nat_scope.

(* In every arithmetic, and in particular in f32: the output at time t adds up, oldest sample first and starting from zero,
   the products of the weights with the last samples; the first weight goes with the oldest sample. *)
Theorem C47_fir_any : forall (F : Type) (nm : num F) (w xs : list F) (t : nat), t < length xs ->
  nth t (snd (ticks (fir_tick nm) (fir_new nm w) (map (fun x => [x]) xs))) [] =
  [fold_left (fun acc i => nadd nm acc (nmul nm (nth i w (n0 nm)) (ago (n0 nm) xs t (length w - 1 - i)))) (seq 0 (length w)) (n0 nm)].
Proof. exact @fir_output. Qed.
Print Assumptions C47_fir_any.
Example C47_fir_any_case : 2 < length [4; 5; 6]%R /\ ago 0%R [4; 5; 6]%R 2 2 = 4%R.
Proof. split; [cbn; lia|reflexivity]. Qed.

(* In exact arithmetic the output is the convolution of the input with the weights in reverse order, *)
Theorem C47_fir_partial : forall (w xs : list R) (t : nat), t < length xs ->
  nth t (snd (ticks (fir_tick Rnum_ops) (fir_new Rnum_ops w) (map (fun x => [x]) xs))) [] = [convolution (rev w) xs t].
Proof. exact fir_convolution. Qed.
Print Assumptions C47_fir_partial.

(* which is the convolution with the weights when they are symmetric, *)
Theorem C47_fir_symmetric : forall (w xs : list R) (t : nat), rev w = w -> t < length xs ->
  nth t (snd (ticks (fir_tick Rnum_ops) (fir_new Rnum_ops w) (map (fun x => [x]) xs))) [] = [convolution w xs t].
Proof. intros w xs t E H. rewrite <- E at 2. now apply fir_convolution. Qed.
Print Assumptions C47_fir_symmetric.
Example C47_fir_symmetric_case : rev [1; 2; 1]%R = [1; 2; 1]%R /\ nth 2 (snd (ticks (fir_tick Rnum_ops) (fir_new Rnum_ops [1; 2; 1]%R) (map (fun x => [x]) [4; 5; 6]%R))) [] = [convolution [1; 2; 1]%R [4; 5; 6]%R 2].
Proof. split; [reflexivity|]. apply C47_fir_symmetric; [reflexivity|auto]. Qed.

(* and so the impulse response of the filter is its weights read backwards. *)
Theorem C47_impulse_response : forall (w : list R) (n t : nat), t < n ->
  nth t (snd (ticks (fir_tick Rnum_ops) (fir_new Rnum_ops w) (map (fun x => [x]) (impulse n)))) [] = [nth t (rev w) 0%R].
Proof.
  intros w n t H. assert (t < length (impulse n)) by (unfold impulse; cbn [length]; rewrite repeat_length; lia).
  rewrite fir_convolution by assumption. now rewrite impulse_convolution.
Qed.
Print Assumptions C47_impulse_response.

(* Finding: the filter is not the convolution with its weights. *)
Theorem C47_fir_refuted : ~ (forall (w xs : list R) (t : nat), t < length xs ->
  nth t (snd (ticks (fir_tick Rnum_ops) (fir_new Rnum_ops w) (map (fun x => [x]) xs))) [] = [convolution w xs t]).
Proof.
  intros H. specialize (H [1; 2]%R (impulse 1) 0 ltac:(cbn; lia)). rewrite fir_convolution in H by (cbn; lia).
  apply (f_equal (fun l => nth 0 l 0%R)) in H. cbn [nth] in H. rewrite !impulse_convolution in H by lia. cbn in H. lra.
Qed.
Print Assumptions C47_fir_refuted.

(* A reset filter is a new filter, whatever it has played. *)
Theorem C47_fir_reset : forall (F : Type) (nm : num F) (w : list F) (xs : list (list F)),
  fir_reset nm (fst (ticks (fir_tick nm) (fir_new nm w) xs)) = fir_new nm w.
Proof. exact @fir_reset_new. Qed.
Print Assumptions C47_fir_reset.
(* set_weights keeps the samples: from then on the filter is as one with the new weights that has heard the same samples *)
Theorem C47_fir_set_weights : forall (F : Type) (nm : num F) (w w' : list F) (before after : list (list F)), length w' = length w ->
  snd (ticks (fir_tick nm) (fir_set_weights (fst (ticks (fir_tick nm) (fir_new nm w) before)) w') after) = skipn (length before) (snd (ticks (fir_tick nm) (fir_new nm w') (before ++ after))).
Proof. exact @fir_reweighted. Qed.
Print Assumptions C47_fir_set_weights.
Example C47_fir_set_weights_case : length [3; 4]%Q = length [1; 2]%Q /\ snd (ticks (fir_tick Qnum_ops) (fir_set_weights (fst (ticks (fir_tick Qnum_ops) (fir_new Qnum_ops [1; 2]%Q) [[5]]%Q)) [3; 4]%Q) [[6]]%Q) = [[39]]%Q.
Proof. vm_compute. auto. Qed.

(* Block processing is ticking, in every arithmetic. *)
Theorem C47_fir_blocks : forall (F : Type) (nm : num F) (s : fir F), block_contract (n0 nm) (fir_tick nm) (fir_process nm) 1 1 s.
Proof. exact @fir_block. Qed.
Print Assumptions C47_fir_blocks.

(* The mixing matrix node multiplies by the matrix, *)
Theorem C47_mixer : forall (m : list (list R)) (cols : nat) (v : list R), is_matrix (length m) cols m -> length v = cols ->
  snd (mixer_tick Rnum_ops m v) = apply_matrix m cols v.
Proof. exact mixer_product. Qed.
Print Assumptions C47_mixer.
Example C47_mixer_case : is_matrix 2 3 [[1; 2; 3]; [4; 5; 6]]%R /\ snd (mixer_tick Rnum_ops [[1; 2; 3]; [4; 5; 6]]%R [1; 1; 2]%R) = apply_matrix [[1; 2; 3]; [4; 5; 6]]%R 3 [1; 1; 2]%R.
Proof. assert (M : is_matrix 2 3 [[1; 2; 3]; [4; 5; 6]]%R) by (split; [reflexivity|repeat constructor]). split; [exact M|]. now apply C47_mixer. Qed.

(* two of them in a pipe multiply by the matrix product, *)
Theorem C47_mixer_pipe : forall (a b : list (list R)) (inner cols : nat) (v : list R),
  is_matrix (length a) inner a -> is_matrix inner cols b -> length v = cols ->
  snd (mixer_tick Rnum_ops a (snd (mixer_tick Rnum_ops b v))) = snd (mixer_tick Rnum_ops (matrix_product a b inner cols) v).
Proof. exact mixer_compose. Qed.
Print Assumptions C47_mixer_pipe.
Example C47_mixer_pipe_case : is_matrix 1 2 [[1; 2]]%R /\ is_matrix 2 3 [[1; 2; 3]; [4; 5; 6]]%R.
Proof. split; (split; [reflexivity|repeat constructor]). Qed.

(* and blocks are ticks. *)
Theorem C47_mixer_blocks : forall (F : Type) (nm : num F) (m : list (list F)) (n : nat),
  block_contract (n0 nm) (mixer_tick nm) (mixer_process nm) n (length m) m.
Proof. exact @mixer_block. Qed.
Print Assumptions C47_mixer_blocks.

(* A panner applies the gains of the pan value in force, whatever was ticked and set before; *)
Theorem C47_pan_value : forall (n : nat) (v : R) (es : list (pan_event R)) (f : list R), 1 <= n ->
  snd (panner_tick Rnum_ops cos sin (PI / 4)%R (pan_run Rnum_ops cos sin (PI / 4)%R (panner_new Rnum_ops cos sin (PI / 4)%R n v) es) f) =
  let w := pan_in_force 0%R n v (es ++ [PanTick f]) in [left_gain w * nth 0 f 0; right_gain w * nth 0 f 0]%R.
Proof. exact pan_output. Qed.
Print Assumptions C47_pan_value.
Example C47_pan_value_case : pan_in_force 0%R 2 (1 / 2)%R ([PanTick [3; -1]] ++ [PanTick [4; 1]])%R = 1%R.
Proof. reflexivity. Qed.

(* it preserves power, *)
Theorem C47_pan_power : forall (n : nat) (v : R) (es : list (pan_event R)) (f : list R), 1 <= n ->
  let o := snd (panner_tick Rnum_ops cos sin (PI / 4)%R (pan_run Rnum_ops cos sin (PI / 4)%R (panner_new Rnum_ops cos sin (PI / 4)%R n v) es) f) in
  (nth 0 o 0 * nth 0 o 0 + nth 1 o 0 * nth 1 o 0 = nth 0 f 0 * nth 0 f 0)%R.
Proof. exact pan_power. Qed.
Print Assumptions C47_pan_power.

(* goes from hard left through an equal middle to hard right, *)
Theorem C47_pan_ends : (forall v, v <= -1 -> left_gain v = 1 /\ right_gain v = 0)%R /\
  (forall v, 1 <= v -> left_gain v = 0 /\ right_gain v = 1)%R /\ left_gain 0 = right_gain 0.
Proof. exact pan_ends. Qed.
Print Assumptions C47_pan_ends.

(* strictly in both gains, *)
Theorem C47_pan_monotone : forall v w : R, (-1 <= v -> v < w -> w <= 1 -> left_gain w < left_gain v /\ right_gain v < right_gain w)%R.
Proof. exact pan_monotone. Qed.
Print Assumptions C47_pan_monotone.
Example C47_pan_monotone_case : (left_gain (1 / 2) < left_gain 0 /\ right_gain 0 < right_gain (1 / 2))%R.
Proof. apply C47_pan_monotone; lra. Qed.

(* and its blocks are its ticks, in f32 with any sine and cosine. *)
Theorem C47_pan_blocks : forall (cos_ sin_ : spec_float -> spec_float) (quarter_pi : spec_float) (s : panner spec_float), 1 <= p_n s ->
  block_contract (n0 f32_ops) (panner_tick f32_ops cos_ sin_ quarter_pi) (panner_process f32_ops cos_ sin_ quarter_pi) (p_n s) 2 s.
Proof. intros. apply panner_block; [apply sf_mul_comm|assumption]. Qed.
Print Assumptions C47_pan_blocks.
