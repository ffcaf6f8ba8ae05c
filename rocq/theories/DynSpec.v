(* Specification side of the limiter: peaks of look-ahead windows. *)
From Verif Require Export Base.
From Coq Require Export Reals.

(* largest absolute value in a frame, and in a list of frames; 0 if there is none *)
Definition frame_peak (x : list R) : R := fold_right (fun v m => Rmax (Rabs v) m) 0%R x.
Definition peak (xs : list (list R)) : R := fold_right (fun x m => Rmax (frame_peak x) m) 0%R xs.

(* the [len] frames that end with frame number [i] *)
Definition window (len : nat) (xs : list (list R)) (i : nat) : list (list R) := firstn len (skipn (S i - len) xs).

(* what the limiter aims its divisor at while frame i arrives *)
Definition target (len : nat) (xs : list (list R)) (i : nat) : R := Rmax 1 (peak (window len xs i) * (11 / 10)).
