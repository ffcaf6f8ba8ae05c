(* FIR filters (/repo/src/fir.rs), panners and mixing matrices (/repo/src/pan.rs). No proofs here.
   Frame<f32, N> is a list. Route functions are modelled in SignalModel.v. *)
From Verif Require Export Num UnitModel.

Section Fir.
  Context {F : Type}.
  Variable nm : num F.
  Local Infix "+." := (nadd nm) (at level 50, left associativity).
  Local Infix "*." := (nmul nm) (at level 40, left associativity).
  Notation zero := (n0 nm).

  (* fir.rs:13-18 Fir; the sample rate is used by route only *)
  Record fir := mkFir { f_w : list F; f_v : list F }.
  (* fir.rs:21-28 new *)
  Definition fir_new (w : list F) : fir := mkFir w (repeat zero (length w)).
  (* fir.rs:36-40 set_weights: the new frame has the same type, hence the same length *)
  Definition fir_set_weights (s : fir) (w : list F) : fir := mkFir w (f_v s).
  (* fir.rs:48-50 reset *)
  Definition fir_reset (s : fir) : fir := mkFir (f_w s) (repeat zero (length (f_w s))).
  (* the loop over two zipped lists that adds up products, 65-68; and pan.rs:129-132 *)
  Definition dot (a b : list F) : F := fold_left (fun acc p => acc +. fst p *. snd p) (combine a b) zero.
  (* fir.rs:57-70 tick *)
  Definition fir_tick (s : fir) (input : list F) : fir * list F :=
    let n := length (f_w s) in
    let v := map (fun i => if Nat.ltb (i + 1) n then nth (i + 1) (f_v s) zero else nth 0 input zero) (seq 0 n) in
    (mkFir (f_w s) v, [dot (f_w s) v]).
  (* audionode.rs:79-99: the default block processing *)
  Definition fir_process (s : fir) (size : nat) (inb out : list (list F)) : fir * list (list F) :=
    default_process zero fir_tick size s inb out.

  (* pan.rs:95-101 Mixer: the matrix as the list of its rows; 123-131 tick. The node has no state. *)
  Definition mixer_tick (m : list (list F)) (input : list F) : list (list F) * list F := (m, map (fun row => dot input row) m).
  (* audionode.rs:79-99 *)
  Definition mixer_process (m : list (list F)) (size : nat) (inb out : list (list F)) : list (list F) * list (list F) :=
    default_process zero mixer_tick size m inb out.

  (* pan.rs:13-17 pan_weights, with cosine and sine and PI * 0.25 as parameters; math.rs clamp11 *)
  Variable cos_ sin_ : F -> F.
  Variable quarter_pi : F.
  (* math.rs:142-144 *)
  Definition clamp11 (x : F) : F := nmin nm (nmax nm x (nneg nm (n1 nm))) (n1 nm).
  (* pan.rs:13-17 *)
  Definition pan_weights (value : F) : F * F :=
    let angle := (clamp11 value +. n1 nm) *. quarter_pi in (cos_ angle, sin_ angle).
  (* pan.rs:25-47 Panner: p_n is the number N of inputs *)
  Record panner := mkPan { p_n : nat; p_left : F; p_right : F }.
  (* pan.rs:25-47 *)
  Definition set_pan (s : panner) (value : F) : panner := let (l, r) := pan_weights value in mkPan (p_n s) l r.
  (* pan.rs:25-47 *)
  Definition panner_new (n : nat) (value : F) : panner := let (l, r) := pan_weights value in mkPan n l r.
  (* pan.rs:54-61 tick *)
  Definition panner_tick (s : panner) (input : list F) : panner * list F :=
    let s' := if Nat.ltb 1 (p_n s) then set_pan s (nth 1 input zero) else s in
    (s', [p_left s' *. nth 0 input zero; p_right s' *. nth 0 input zero]).
  (* pan.rs:70-75: the loop of process over samples *)
  Fixpoint panner_loop (n i : nat) (s : panner) (inb out : list (list F)) : panner * list (list F) :=
    match n with
    | O => (s, out)
    | S n' =>
        let f := frame zero inb i in
        let s' := set_pan s (nth 1 f zero) in
        panner_loop n' (S i) s' inb (set_frame out i [nth 0 f zero *. p_left s'; nth 0 f zero *. p_right s'])
    end.
  (* pan.rs:63-76 process *)
  Definition panner_process (s : panner) (size : nat) (inb out : list (list F)) : panner * list (list F) :=
    if Nat.eqb (p_n s) 1 then
      let x := nth 0 inb [] in
      (s, [write_simd zero size (fun k => nth k x zero *. p_left s) (nth 0 out []);
           write_simd zero size (fun k => nth k x zero *. p_right s) (nth 1 out [])])
    else panner_loop size 0 s inb out.
  (* pan.rs:78-82 set: the parameter as an option, Some v for Parameter::Pan(v) *)
  Definition panner_set (s : panner) (p : option F) : panner := match p with Some v => set_pan s v | None => s end.
End Fir.
Arguments fir : clear implicits. Arguments mkFir {F}. Arguments f_w {F}. Arguments f_v {F}.
Arguments panner : clear implicits. Arguments mkPan {F}. Arguments p_n {F}. Arguments p_left {F}. Arguments p_right {F}.
