(* The opcode reverb2_stereo of /repo/src/prelude.rs:1745-1821. No proofs here. Numbers have one type, which stands for f32 and f64. None is a failed assertion.
   The moving delay times come from Envelope nodes (envelope.rs), which are streams of numbers here and are modelled in MotionModel.v; the routing of signals is not modelled. *)
From Coq Require Import ZArith.
From Verif Require MathModel.
From Verif Require Export RevModel.

Section Hall.
  Context {F P X : Type}.
  Variable nm : num F.
  Variable powf : F -> F -> F.        (* math.rs: pow *)
  Variable exp10 : F -> F.            (* math.rs:76-78 *)
  Variable cos_ sin_ : F -> F.
  Variable quarter_pi : F.            (* PI * 0.25 *)
  Variable xo : unit_ops F P X.       (* the loop filter *)
  Local Infix "+." := (nadd nm) (at level 50, left associativity).
  Local Infix "-." := (nsub nm) (at level 50, left associativity).
  Local Infix "*." := (nmul nm) (at level 40, left associativity).
  Local Infix "/." := (ndiv nm) (at level 40, left associativity).
  Notation zero := (n0 nm).
  Notation one := (n1 nm).
  Notation int := (nofZ nm).

  (* prelude.rs:1790-1820: the nodes: the loop filter; the Envelope f, at its sample n; tap_linear (delay.rs:386-397); allnest_c of a delay (delay.rs:288-308); pan (pan.rs:26-30) *)
  Inductive hleaf := HFilter (x : X) | HCtl (f : nat -> F) (n : nat) | HTap (lo hi sr : F) (s : line F) | HNest (s : @schroeder F) | HPan (p : panner F).
  (* delay.rs:323-327, 427-430; envelope.rs: Envelope has no inputs; a loop filter has one (prelude.rs:1767) *)
  Definition h_ins (u : hleaf) : nat := match u with HCtl _ _ => 0 | HTap _ _ _ _ => 2 | _ => 1 end.
  (* delay.rs:323-327, 427-430; pan.rs *)
  Definition h_outs (u : hleaf) : nat := match u with HPan _ => 2 | _ => 1 end.
  (* delay.rs:344-358, 448-463; pan.rs; envelope.rs: tick *)
  Definition h_tick (u : hleaf) (i : list F) : hleaf * list F :=
    match u with
    | HFilter x => let (x, y) := mono nm (u_tick xo) x (nth 0 i zero) in (HFilter x, [y])
    | HCtl f n => (HCtl f (S n), [f n])
    | HTap lo hi sr s => let (s, o) := linear_tick nm lo hi sr s i in (HTap lo hi sr s, o)
    | HNest s => let (s, y) := mono nm (all_tick nm (dl_ops (P := P) nm)) s (nth 0 i zero) in (HNest s, [y])
    | HPan p => (u, [p_left p *. nth 0 i zero; p_right p *. nth 0 i zero])
    end.
  (* delay.rs:329-332, 432-435; envelope.rs: reset *)
  Definition h_reset (u : hleaf) : hleaf :=
    match u with
    | HFilter x => HFilter (u_reset xo x)
    | HCtl f _ => HCtl f 0
    | HTap lo hi sr s => HTap lo hi sr (line_reset zero s)
    | HNest s => HNest (all_reset nm (dl_ops (P := P) nm) s)
    | HPan p => u
    end.
  (* audionode.rs:25-170 (the trait AudioNode): blocks are ticks, and settings and hashes are left out *)
  Definition h_ops : unit_ops F P hleaf :=
    mkUnit F P hleaf h_ins h_outs h_tick (fun u size i o => default_process zero h_tick size u i o) (fun u _ => u) h_reset (fun _ => 0%N) (fun u _ => u).
  Notation hnode := (node F hleaf).

  (* delay.rs:399-421 TapLinear::new and its assertions, after set_sample_rate(sr) (436-445) *)
  Definition tap_linear (sr lo hi : F) : option hleaf :=
    if nleb nm zero lo && nleb nm lo hi then Some (HTap lo hi sr (line_new zero (linear_length nm sr hi))) else None.
  (* prelude.rs: allnest_c(coeff, delay(t)), after set_sample_rate(sr); delay.rs:310-321 *)
  Definition nest_c (sr coeff t : F) : option hleaf :=
    match delay_at nm sr t with Some d => Some (HNest (mkAll d coeff zero)) | None => None end.

  (* prelude.rs:1772-1776, in samples at 44.1 kHz *)
  Definition hall_delays : list Z :=
    [11; 13; 17; 23; 31; 41; 53; 71; 97; 113; 131; 163; 193; 223; 241; 269; 293; 311; 337; 359; 397; 421; 449; 479; 503; 523; 557; 571; 601; 631; 653; 677; 709; 733; 757; 787; 809; 827;
     857; 877; 911; 929; 953; 977; 1009]%Z.
  (* prelude.rs:1769, 1778 *)
  Definition hall_min (room : F) : F := dec nm 10 1000 +. clamp nm (int 10) (int 30) room *. dec nm 3 1000.
  (* prelude.rs:1779 *)
  Definition hall_max (room : F) : F := nmax nm (hall_min room *. int 2) (hall_min room +. dec nm 2 1000 *. int 31).
  (* prelude.rs:1783 *)
  Definition hall_gain (room time : F) : F := powf (db_amp nm exp10 (int (-60))) (dec nm 1 2 *. hall_min room /. time).
  (* prelude.rs:1790 *)
  Definition hall_index (i : nat) : nat := if i <? 16 then i * 2 else (31 - i) * 2 + 1.
  (* prelude.rs:1791-1795: the delay of the allpass filter and the middle one of the moving tap of line i *)
  Definition hall_allpass (i : nat) : F := int (nth (hall_index i) hall_delays 0%Z) /. default_sr nm.
  (* prelude.rs:1780, 1792 *)
  Definition hall_delay (room : F) (i : nat) : F :=
    hall_min room +. int (Z.of_nat (hall_index i)) *. ((hall_max room -. hall_min room) /. int 32) -. hall_allpass i.
  (* prelude.rs:1793-1795 *)
  Definition hall_lo (room : F) (i : nat) : F := hall_delay room i -. dec nm 1 1000.
  (* prelude.rs:1793-1795 *)
  Definition hall_hi (room : F) (i : nat) : F := hall_delay room i +. dec nm 1 1000.
  (* prelude.rs:1789-1807: line i; ctl i lo hi n stands for sample n of the Envelope, which moves between lo and hi *)
  Definition hall_line (sr room time diffusion : F) (ctl : nat -> F -> F -> nat -> F) (filter : X) (i : nat) : option hnode :=
    let lo := hall_lo room i in
    let hi := hall_hi room i in
    match tap_linear sr lo hi, nest_c sr (lerp nm (dec nm 1 2) (dec nm 9 10) diffusion) (hall_allpass i -. one /. default_sr nm) with
    | Some tap, Some nest =>
        Some (Pipe (Pipe (Stack (Binop (nmul nm) (Leaf (HFilter filter)) (Constant [hall_gain room time])) (Leaf (HCtl (ctl i lo hi) 0))) (Leaf tap)) (Leaf nest))
    | _, _ => None
    end.
  (* prelude.rs:1810-1814: allnest_c(0.618, delay(m / DEFAULT_SR)) >> allnest_c(0.618, delay(n / DEFAULT_SR)) *)
  Definition hall_pre (sr : F) (m n : Z) : option hnode :=
    match nest_c sr (dec nm 618 1000) (int m /. default_sr nm), nest_c sr (dec nm 618 1000) (int n /. default_sr nm) with
    | Some a, Some b => Some (Pipe (Leaf a) (Leaf b))
    | _, _ => None
    end.
  (* prelude.rs:1583-1602, 1820: sumf::<U32, _, _, f32>(|x| pan(lerp(-1.0, 1.0, smooth9(x)))) *)
  Definition hall_pans : hnode :=
    Reduce (nadd nm) (map (fun i => Leaf (HPan (panner_new nm cos_ sin_ quarter_pi 1
      (lerp nm (int (-1)) one (MathModel.smooth9 nm (int (Z.of_nat i) /. int 31)))))) (seq 0 32)).
  (* prelude.rs:1762-1821 reverb2_stereo, after set_sample_rate(sr); scale is that of FrameHadamard for 32 channels *)
  Definition reverb2_stereo (scale sr room time diffusion : F) (ctl : nat -> F -> F -> nat -> F) (filter : X) : option hnode :=
    match sequence (map (hall_line sr room time diffusion ctl filter) (seq 0 32)), hall_pre sr 224 340, hall_pre sr 247 366 with
    | Some lines, Some lpass, Some rpass =>
        Some (Pipe (Pipe (Pipe (Stack lpass rpass) (MultiSplit 2 16)) (fdn nm scale lines)) (Unop (fun v => v *. dec nm 1 8) hall_pans))
    | _, _, _ => None
    end.
End Hall.
Arguments hleaf : clear implicits.
