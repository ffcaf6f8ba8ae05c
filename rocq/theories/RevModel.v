(* Reverbs: Reverb of /repo/src/reverb.rs:141-279, and the opcodes fdn, reverb_stereo, reverb3_stereo, reverb4_stereo and reverb4_stereo_delays of
   /repo/src/prelude.rs. No proofs here. Numbers have one type, which stands for f32 and f64; powers, cosine and sine are parameters. None is a failed assertion.
   The routing of signals is not modelled, and neither are generate_reverb and reverb_fitness (reverb.rs:16-125), which serve to search for delays; reverb2_stereo is in HallModel.v. *)
From Coq Require Import ZArith.
From Verif Require MathModel.
From Verif Require Export DelayModel FirModel HadamardModel NodeModel.

Section Reverb.
  Context {F : Type}.
  Variable nm : num F.
  Variable powf : F -> F -> F.        (* math.rs: pow *)
  Variable exp10 : F -> F.            (* math.rs:76-78 *)
  Variable cos_ sin_ : F -> F.
  Variable quarter_pi : F.            (* PI * 0.25 *)
  Local Infix "+." := (nadd nm) (at level 50, left associativity).
  Local Infix "-." := (nsub nm) (at level 50, left associativity).
  Local Infix "*." := (nmul nm) (at level 40, left associativity).
  Local Infix "/." := (ndiv nm) (at level 40, left associativity).
  Notation zero := (n0 nm).
  Notation one := (n1 nm).
  Notation int := (nofZ nm).
  (* reverb.rs:162-200 *)
  Definition dec (a b : Z) : F := int a /. int b.
  (* lib.rs:42: DEFAULT_SR *)
  Definition default_sr : F := int 44100.
  (* math.rs:293-295 *)
  Definition db_amp (db : F) : F := exp10 (db /. int 20).

  (* prelude.rs:1712-1745, 1902-1940: all options, or None *)
  Fixpoint sequence {A} (l : list (option A)) : option (list A) :=
    match l with
    | [] => Some []
    | Some a :: l => match sequence l with Some l => Some (a :: l) | None => None end
    | None :: _ => None
    end.

  (* ---- the nodes from which prelude.rs builds reverbs ---- *)
  (* delay.rs:72-77; fir.rs:14-18; pan.rs:26-30 *)
  Inductive rleaf := LDelay (d : @delay F) | LFir (f : fir F) | LPan (p : panner F).
  (* delay.rs:95-99; fir.rs:43-46 *)
  Definition rl_ins (u : rleaf) : nat := 1.
  (* delay.rs:95-99; fir.rs:43-46 *)
  Definition rl_outs (u : rleaf) : nat := match u with LPan _ => 2 | _ => 1 end.
  (* delay.rs:116-124; fir.rs:57-70; prelude.rs:1230-1232: a Panner that pan(..) makes has one input (prelude.rs: pan) *)
  Definition rl_tick (u : rleaf) (i : list F) : rleaf * list F :=
    match u with
    | LDelay d => let (d, o) := delay_step nm d i in (LDelay d, o)
    | LFir f => let (f, o) := fir_tick nm f i in (LFir f, o)
    | LPan p => (u, [p_left p *. nth 0 i zero; p_right p *. nth 0 i zero])
    end.
  (* delay.rs:100-103; fir.rs:48-50 *)
  Definition rl_reset (u : rleaf) : rleaf :=
    match u with LDelay d => LDelay (delay_reset nm d) | LFir f => LFir (fir_reset nm f) | LPan p => u end.
  (* audionode.rs:25-170 (the trait AudioNode): settings and hashes do nothing to delays and FIR filters and are left out for panners *)
  Definition rl_ops : unit_ops F unit rleaf :=
    mkUnit F unit rleaf rl_ins rl_outs rl_tick (fun u size i o => default_process zero rl_tick size u i o) (fun u _ => u) rl_reset (fun _ => 0%N) (fun u _ => u).
  Notation rnode := (node F rleaf).

  (* prelude.rs:903-905; delay.rs:105-113: a delay made by delay(t) (prelude.rs: delay), after set_sample_rate(sr) *)
  Definition delay_at (sr t : F) : option (@delay F) :=
    match delay_new nm default_sr t with Some d => Some (delay_set_sample_rate nm d sr) | None => None end.
  (* prelude.rs:852-905: delay(t) >> fir(w) *)
  Definition delay_fir (sr t : F) (w : list F) : option rnode :=
    match delay_at sr t with Some d => Some (Pipe (Leaf (LDelay d)) (Leaf (LFir (fir_new nm w)))) | None => None end.
  (* prelude.rs:1316-1324 fdn, with feedback.rs:66-103 Feedback::new; scale is that of FrameHadamard *)
  Definition fdn {U} (scale : F) (lines : list (node F U)) : node F U :=
    Feedback (MultiStack lines) (repeat zero (length lines)) (fun o => match hadamard nm scale o with Some y => y | None => o end).
  (* prelude.rs:1583-1602: sumf::<N, _, _, f32>(|x| pan(lerp(-1.0, 1.0, smooth9(x)))) for n > 1 channels *)
  Definition panned (n : nat) : rnode :=
    Reduce (nadd nm) (map (fun i => Leaf (LPan (panner_new nm cos_ sin_ quarter_pi 1
      (lerp nm (int (-1)) one (MathModel.smooth9 nm (int (Z.of_nat i) /. int (Z.of_nat (n - 1)))))))) (seq 0 n)).

  (* prelude.rs:1719-1724, in millionths of a second *)
  Definition stereo_delays : list Z :=
    [73904; 52918; 66238; 66387; 37783; 80073; 50961; 75900; 43646; 72095; 56194; 45961; 58934; 68016; 47529; 58156; 72972; 36084;
     62715; 76377; 44339; 76725; 77884; 46126; 67741; 49800; 51709; 82923; 70121; 79315; 55039; 81859]%Z.
  (* prelude.rs:1727, 1908: the attenuation of one pass *)
  Definition pass_gain (room time : F) : F := powf (db_amp (int (-60))) (dec 3 100 *. room /. int 10 /. time).
  (* prelude.rs:1712-1742 reverb_stereo, after set_sample_rate(sr); fir3 is 860-864 *)
  Definition reverb_stereo (scale sr room time damping : F) : option rnode :=
    let a := pass_gain room time in
    let alpha := (one -. damping +. one) /. int 2 in
    let beta := (one -. alpha) /. int 2 in
    let w := map (fun x => x *. a) [beta; alpha; beta] in
    match sequence (map (fun d => delay_fir sr (dec d 1000000 *. room /. int 10) w) stereo_delays) with
    | Some lines => Some (Pipe (Pipe (MultiSplit 2 16) (fdn scale lines)) (Binop (nmul nm) (panned 32) (Constant [dec 1 16; dec 1 16])))
    | None => None
    end.

  (* prelude.rs:1902-1927 reverb4_stereo_delays, after set_sample_rate(sr) *)
  Definition reverb4_stereo_delays (scale sr : F) (delays : list F) (time : F) : option rnode :=
    if Nat.eqb (length delays) 32 then
      let a := pass_gain (int 10) time in
      let w := [nneg nm a /. int 4; nneg nm a /. int 2; nneg nm a /. int 4] in
      match sequence (map (fun d => delay_fir sr d w) (firstn 16 delays)), sequence (map (fun d => delay_fir sr d w) (skipn 16 delays)) with
      | Some line1, Some line2 =>
          Some (Pipe (Pipe (Pipe (Pipe (Pipe (MultiSplit 2 8) (fdn scale line1)) (MultiJoin 2 8)) (MultiSplit 2 8)) (fdn scale line2))
            (Binop (nmul nm) (panned 16) (Constant [dec 1 4; dec 1 4])))
      | _, _ => None
      end
    else None.
  (* prelude.rs:1855-1888, in thousand millionths of a second *)
  Definition optimized_delays : list Z :=
    [59326634; 47782910; 69954490; 39300100; 41604012; 62158250; 52269846; 43227978; 69661070; 31615064; 68442000; 37332155; 32944717; 34493037; 67875660; 38824916;
     68260126; 68044715; 68807600; 66724524; 51293883; 60231730; 40897705; 31507637; 60309593; 49584292; 45320720; 56379095; 35180368; 41291796; 46129026; 55046050]%Z.
  (* prelude.rs:1853-1894 reverb4_stereo *)
  Definition reverb4_stereo (scale sr room time : F) : option rnode :=
    reverb4_stereo_delays scale sr (map (fun d => dec d 1000000000 *. (nmax nm room (int 15) /. int 10)) optimized_delays) time.

  (* ---- reverb.rs ---- *)
  Section Loop.
    Context {P X : Type}.
    Variable xo : unit_ops F P X.            (* the loop filter *)
    Variable x_rate : X -> F -> X.           (* its set_sample_rate *)
    (* reverb.rs:141 Schroeder = AllNest<U1, Delay> *)
    Definition dl_ops : unit_ops F P (@delay F) :=
      mkUnit F P (@delay F) (fun _ => 1) (fun _ => 1) (delay_step nm) (fun u size i o => default_process zero (delay_step nm) size u i o) (fun u _ => u) (delay_reset nm) (fun _ => 0%N) (fun u _ => u).
    (* reverb.rs:141 *)
    Definition schroeder : Type := @allnest F (@delay F).
    (* Schroeder::new(coeff, Delay::new((n - 1) as f64 / DEFAULT_SR)); delay.rs:310-321 *)
    Definition sch_new (coeff : F) (n : Z) : option schroeder :=
      match delay_new nm default_sr (int (n - 1) /. default_sr) with Some d => Some (mkAll d coeff zero) | None => None end.
    (* delay.rs:340-342 *)
    Definition sch_rate (s : schroeder) (sr : F) : schroeder := mkAll (delay_set_sample_rate nm (an_x s) sr) (an_eta s) (an_z s).
    (* audionode.rs:248-252: filter_mono *)
    Definition mono {S} (t : S -> list F -> S * list F) (s : S) (x : F) : S * F := let (s, o) := t s [x] in (s, nth 0 o zero).
    (* reverb.rs:249-274: one filter_mono after the other *)
    Fixpoint sch_chain (l : list schroeder) (x : F) : list schroeder * F :=
      match l with
      | [] => ([], x)
      | s :: l => let (s, x) := mono (all_tick nm dl_ops) s x in let (l, x) := sch_chain l x in (s :: l, x)
      end.

    (* reverb.rs:143-150 ReverbBlock *)
    Record rblock := mkBlk { rb_all0 : list schroeder; rb_all1 : list schroeder; rb_f0 : X; rb_f1 : X; rb_delay : @delay F }.
    (* reverb.rs:152-159 Reverb *)
    Record reverb := mkRev { rv_pre : list schroeder; rv_blocks : list rblock; rv_fb : F; rv_a : F }.
    (* reverb.rs:163-171 *)
    Definition ldelays : list Z :=
      [401; 421; 443; 463; 487; 503; 523; 547; 563; 587; 607; 619; 643; 661; 683; 701; 727; 743; 761; 787; 809; 823; 839; 863; 883; 907; 929; 947; 967; 983; 1009; 1021]%Z.
    (* reverb.rs:163-171 *)
    Definition rdelays : list Z :=
      [419; 433; 457; 479; 491; 509; 541; 557; 577; 593; 613; 631; 653; 673; 691; 719; 733; 757; 773; 797; 811; 829; 853; 877; 887; 911; 937; 953; 977; 997; 1013; 1033]%Z.
    (* reverb.rs:163-171 *)
    Definition mdelays : list Z := [1087; 1091; 1093; 1097; 1103; 1109; 1117; 1123]%Z.
    (* reverb.rs:163-171 *)
    Definition predelay : list Z := [245; 367; 263; 349]%Z.
    (* reverb.rs:174-195: block i *)
    Definition block_new (coeff : F) (filter : X) (i : nat) : option rblock :=
      match sequence (map (fun j => sch_new coeff (nth (i + j * 8) ldelays 0%Z)) (seq 0 4)), sequence (map (fun j => sch_new coeff (nth (i + j * 8) rdelays 0%Z)) (seq 0 4)),
            delay_new nm default_sr (int (nth (7 - i) mdelays 0%Z) /. default_sr) with
      | Some a0, Some a1, Some d => Some (mkBlk a0 a1 filter filter d)
      | _, _, _ => None
      end.
    (* reverb.rs:162-211 new *)
    Definition reverb_new (time diffusion : F) (filter : X) : option reverb :=
      let coeff := lerp nm (dec 1 2) (dec 9 10) diffusion in
      match sequence (map (block_new coeff filter) (seq 0 8)), sequence (map (sch_new coeff) predelay) with
      | Some blocks, Some pre => Some (mkRev pre blocks zero (powf (db_amp (int (-60))) (dec 35 1000 /. time)))
      | _, _ => None
      end.
    (* reverb.rs:219-232 reset: the pre-diffusers are not reset *)
    Definition block_reset (b : rblock) : rblock :=
      mkBlk (map (all_reset nm dl_ops) (rb_all0 b)) (map (all_reset nm dl_ops) (rb_all1 b)) (u_reset xo (rb_f0 b)) (u_reset xo (rb_f1 b)) (delay_reset nm (rb_delay b)).
    (* reverb.rs:219-232 *)
    Definition reverb_reset (r : reverb) : reverb := mkRev (rv_pre r) (map block_reset (rv_blocks r)) zero (rv_a r).
    (* reverb.rs:234-246 set_sample_rate: the pre-diffusers are left as they are *)
    Definition block_rate (sr : F) (b : rblock) : rblock :=
      mkBlk (map (fun s => sch_rate s sr) (rb_all0 b)) (map (fun s => sch_rate s sr) (rb_all1 b)) (x_rate (rb_f0 b) sr) (x_rate (rb_f1 b) sr) (delay_set_sample_rate nm (rb_delay b) sr).
    (* reverb.rs:234-246 *)
    Definition reverb_rate (r : reverb) (sr : F) : reverb := mkRev (rv_pre r) (map (block_rate sr) (rv_blocks r)) (rv_fb r) (rv_a r).
    (* reverb.rs:257-271: one block; the results are v0 and output0, and output1 is v0 *)
    Definition block_tick (a in0 in1 : F) (b : rblock) (v0 : F) : rblock * (F * F) :=
      let (d, v0) := mono (delay_step nm) (rb_delay b) v0 in
      let (l0, v0) := sch_chain (rb_all0 b) (a *. v0 +. in0) in
      let (f0, v0) := mono (u_tick xo) (rb_f0 b) v0 in
      let out0 := v0 in
      let (l1, v0) := sch_chain (rb_all1 b) (a *. v0 +. in1) in
      let (f1, v0) := mono (u_tick xo) (rb_f1 b) v0 in
      (mkBlk l0 l1 f0 f1 d, (v0, out0)).
    (* reverb.rs:257-271 *)
    Fixpoint blocks_tick (a in0 in1 : F) (bs : list rblock) (v0 out0 out1 : F) : list rblock * (F * F * F) :=
      match bs with
      | [] => ([], (v0, out0, out1))
      | b :: bs =>
          let '(b, (v0, out0)) := block_tick a in0 in1 b v0 in
          let (bs, r) := blocks_tick a in0 in1 bs v0 out0 v0 in (b :: bs, r)
      end.
    (* reverb.rs:249-274 tick *)
    Definition reverb_tick (r : reverb) (input : list F) : reverb * list F :=
      let (p0, in0) := sch_chain (firstn 2 (rv_pre r)) (nth 0 input zero *. dec 1 2) in
      let (p1, in1) := sch_chain (skipn 2 (rv_pre r)) (nth 1 input zero *. dec 1 2) in
      let '(bs, (v0, out0, out1)) := blocks_tick (rv_a r) in0 in1 (rv_blocks r) (rv_fb r) zero zero in
      (mkRev (p0 ++ p1) bs v0 (rv_a r), [out0; out1]).
  End Loop.
End Reverb.
Arguments rleaf : clear implicits. Arguments rblock : clear implicits. Arguments reverb : clear implicits.
