(* The 2x oversampler: /repo/src/oversample.rs. X is the state of the enclosed node, A the type of samples. A frame is a list, and each of the two buffers
   is a list of rings, one for each channel. *)
From Verif Require Export ResampleModel.
Local Open Scope nat_scope.

(* oversample.rs:106 *)
Definition HALFBAND_MIN_LEN : nat := 43.
(* oversample.rs:108-152, as the decimal numbers times 10^12. The code rounds them to f32. *)
Definition HALFBAND_MIN_12 : list Z :=
  [47355233900; 181988040000; 349148434000; 392748135000; 218230867000; -53184284300; -179186566000; -73448800700; 89452410300; 100868556000; -20868145100;
   -88251098900; -20764077700; 62258755500; 40777625500; -35225809000; -45740787000; 12703344400; 41437613600; 3307998340; -32460820600; -12785635500; 22165903300;
   16780371100; -12740697400; -16817736700; 5355182200; 14476158100; -370651781; -11114018300; -2406223110; 7715960270; 3482270620; -4867635580; -3455363530;
   2798800540; 2867364310; -1487461530; -2118279890; 772684113; 1443841140; -449807048; -941945265]%Z.

Section Over.
  Context {X A : Type} (nm : num A) (w : list A) (x_tick : X -> list A -> X * list A) (x_reset : X -> X).
  Notation at_ v i := (nth i v (n0 nm)).
  (* oversample.rs:155-182: output = 0.0; for i in 0..n { output += f(i) } *)
  Definition acc (n : nat) (f : nat -> A) : A := fold_left (fun a i => nadd nm a (f i)) (seq 0 n) (n0 nm).
  (* oversample.rs:154-162 tick_even, 164-172 tick_odd, 174-182 tick *)
  Definition tick_even (v : list A) (j : nat) : A :=
    let j := j + 128 - HALFBAND_MIN_LEN in nmul nm (acc (HALFBAND_MIN_LEN / 2 + 1) (fun i => nmul nm (at_ v (mask (j + i * 2))) (at_ w (i * 2)))) (nofZ nm 2).
  (* oversample.rs:165-172 *)
  Definition tick_odd (v : list A) (j : nat) : A :=
    let j := j + 128 - HALFBAND_MIN_LEN in nmul nm (acc (HALFBAND_MIN_LEN / 2) (fun i => nmul nm (at_ v (mask (j + i * 2 + 1))) (at_ w (i * 2 + 1)))) (nofZ nm 2).
  (* oversample.rs:175-182 *)
  Definition tick_full (v : list A) (j : nat) : A :=
    let j := j + 128 - HALFBAND_MIN_LEN in acc HALFBAND_MIN_LEN (fun i => nmul nm (at_ v (mask (j + i))) (at_ w i)).
  (* oversample.rs:184-197 *)
  Record over := mkOver { o_x : X; o_in : list (list A); o_out : list (list A); o_j : nat }.
  (* oversample.rs:208-219 new, for the node after set_sample_rate and ping *)
  Definition over_new (x : X) (inputs outputs : nat) : over := mkOver x (repeat (repeat (n0 nm) 128) inputs) (repeat (repeat (n0 nm) 128) outputs) 0.
  (* oversample.rs:244-248 reset: j stays *)
  Definition over_reset (o : over) : over :=
    mkOver (x_reset (o_x o)) (repeat (repeat (n0 nm) 128) (length (o_in o))) (repeat (repeat (n0 nm) 128) (length (o_out o))) (o_j o).
  (* oversample.rs:256-280 tick *)
  Definition over_tick (o : over) (input : list A) : over * list A :=
    let inv := put_frame (o_in o) (o_j o) input in
    let (x, out1) := x_tick (o_x o) (map (fun v => tick_even v (o_j o + 1)) inv) in
    let outv := put_frame (o_out o) (o_j o) out1 in
    let j := mask (o_j o + 1) in
    let inv := put_frame inv j (repeat (n0 nm) (length inv)) in
    let (x, out2) := x_tick x (map (fun v => tick_odd v (j + 1)) inv) in
    let outv := put_frame outv j out2 in
    (mkOver x inv outv (mask (j + 1)), map (fun v => tick_full v j) outv).
  (* oversample.rs:256-280 *)
  Fixpoint over_run (o : over) (l : list (list A)) : over * list (list A) :=
    match l with [] => (o, []) | i :: l => let (o, y) := over_tick o i in let (o, ys) := over_run o l in (o, y :: ys) end.
End Over.
Arguments over : clear implicits.
