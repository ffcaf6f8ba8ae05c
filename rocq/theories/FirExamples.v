(* Concrete filters, matrices and panners for the theorems of FirProperties.v. *)
From Coq Require Import QArith Reals SpecFloat.
From Verif Require Export FirProofs.

(* three weights, five samples *)
Example fir_case : snd (ticks (fir_tick Qnum_ops) (fir_new Qnum_ops [3; 5; 7]%Q) [[1]; [0]; [0]; [0]; [2]]%Q) =
  [[7]; [5]; [3]; [0]; [14]]%Q.
Proof. vm_compute. reflexivity. Qed.
Example mixer_case : snd (mixer_tick Qnum_ops [[1; 2; 3]; [4; 5; 6]]%Q [1; 10; 100]%Q) = [321; 654]%Q.
Proof. vm_compute. reflexivity. Qed.
(* a block of 10 samples of a mono panner in f32 *)
Example panner_case :
  let f := nofZ f32_ops in
  let s := mkPan 1 (f 2%Z) (f 3%Z) in
  let b := map (fun k => f (Z.of_nat k)) (seq 0 64) in
  let out := snd (panner_process f32_ops (fun x => x) (fun x => x) (f 1%Z) s 10 [b] [b; b]) in
  (nth 9 (nth 0 out []) S754_nan, nth 9 (nth 1 out []) S754_nan) = (f 18%Z, f 27%Z).
Proof. vm_compute. reflexivity. Qed.
Example pan_in_force_case : pan_in_force 0%Z 2 0%Z [PanTick [5; 1]; PanSet (Some 7); PanTick [5; 2]]%Z = 2%Z /\
  pan_in_force 0%Z 1 0%Z [PanTick [5]; PanSet (Some 7); PanSet None; PanTick [5]]%Z = 7%Z.
Proof. split; reflexivity. Qed.
Example matrix_case : is_matrix 2 3 [[1; 2; 3]; [4; 5; 6]]%R /\ is_matrix 3 1 [[1]; [2]; [3]]%R.
Proof. repeat split; repeat constructor. Qed.
