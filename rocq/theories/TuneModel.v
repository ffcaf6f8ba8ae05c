(* Nodes with settings and with inputs for their parameters, and the filters that are not linear: Lowpole, DCBlock, Allpole and Highpole of /repo/src/filter.rs;
   ButterLowpass, Resonator, Biquad, FbBiquad, FixedFbBiquad, DirtyBiquad and FixedDirtyBiquad of /repo/src/biquad.rs; /repo/src/biquad_bank.rs; Svf and FixedSvf of
   /repo/src/svf.rs; /repo/src/moog.rs; /repo/src/rez.rs; /repo/src/follow.rs; Constant of /repo/src/audionode.rs; Panner of /repo/src/pan.rs; Hold of
   /repo/src/noise.rs; Dsf of /repo/src/oscillator.rs; AllNest of /repo/src/delay.rs. No proofs here.
   Samples, settings and coefficients have the same type F, so that conversions between f32 and F are the identity. A frame is a list. *)
From Coq Require Import Reals.
From Verif Require Export OscModel FilterModel.
Local Open Scope nat_scope.

(* setting.rs:14-53 Parameter *)
Inductive param (F : Type) :=
| PNull | PCenter (f : F) | PCenterQ (f q : F) | PCenterQGain (f q g : F) | PValue (v : F) | PCoefficient (c : F) | PBiquad (a1 a2 b0 b1 b2 : F) | PDelay (d : F)
| PTime (t : F) | PRoughness (r : F) | PVariability (v : F) | PPan (p : F) | PAttackRelease (a r : F) | PPhase (p : F) | PSeed (s : N) | PInterval (i : F)
| PSubsample (n : nat).
Arguments PNull {F}. Arguments PCenter {F}. Arguments PCenterQ {F}. Arguments PCenterQGain {F}. Arguments PValue {F}. Arguments PCoefficient {F}. Arguments PBiquad {F}.
Arguments PDelay {F}. Arguments PTime {F}. Arguments PRoughness {F}. Arguments PVariability {F}. Arguments PPan {F}. Arguments PAttackRelease {F}. Arguments PPhase {F}.
Arguments PSeed {F}. Arguments PInterval {F}. Arguments PSubsample {F}.

(* What the nodes need besides arithmetic: the elementary functions, those that only some need, and halfway_coeff of follow.rs:18-24 as a function of the number of samples *)
Record tools (F G S X : Type) := mkTools {
  tl_elem : elem F; tl_tanh : F -> F; tl_pow : F -> F -> F; tl_floor : F -> F; tl_halfway : F -> F;
  tl_rnd : N -> G; tl_next : G -> G * F;                        (* Rnd::from_u64 and Rnd::f64 *)
  tl_shape : S -> F -> S * F; tl_shape_reset : S -> S;          (* the shape function and reset of the Shape trait *)
  tl_tick : X -> F -> X * F; tl_reset : X -> X; tl_rate : X -> F -> X (* the node inside an AllNest: tick, reset and set_sample_rate *)
}.
Arguments mkTools {F G S X}. Arguments tl_elem {F G S X}. Arguments tl_tanh {F G S X}. Arguments tl_pow {F G S X}. Arguments tl_floor {F G S X}.
Arguments tl_halfway {F G S X}. Arguments tl_rnd {F G S X}. Arguments tl_next {F G S X}. Arguments tl_shape {F G S X}. Arguments tl_shape_reset {F G S X}.
Arguments tl_tick {F G S X}. Arguments tl_reset {F G S X}. Arguments tl_rate {F G S X}.

Section Tune.
  Context {F G S X : Type}.
  Variable nm : num F.
  Variable tl : tools F G S X.
  Local Infix "+." := (nadd nm) (at level 50, left associativity).
  Local Infix "-." := (nsub nm) (at level 50, left associativity).
  Local Infix "*." := (nmul nm) (at level 40, left associativity).
  Local Infix "/." := (ndiv nm) (at level 40, left associativity).
  Local Notation "-. x" := (nneg nm x) (at level 35, right associativity).
  Notation zero := (n0 nm).
  Notation one := (n1 nm).
  Notation int z := (nofZ nm z%Z).
  Notation dec p q := (nofZ nm p%Z /. nofZ nm q%Z).
  Notation el := (tl_elem tl).
  Notation at_ i l := (nth i l zero).
  (* svf.rs:299-312: the operator != of floating point numbers *)
  Definition neqb (a b : F) : bool := negb (nleb nm a b && nleb nm b a).
  (* lib.rs:42: DEFAULT_SR *)
  Definition default_sr : F := int 44100.

  (* ---- moog.rs ---- *)
  (* moog.rs:17-33 Moog *)
  Record moog := mkMoog { mg_q : F; mg_cutoff : F; mg_sr : F; mg_rez : F; mg_p : F; mg_k : F; mg_s0 : F; mg_s1 : F; mg_s2 : F; mg_s3 : F;
    mg_px : F; mg_ps0 : F; mg_ps1 : F; mg_ps2 : F }.
  (* moog.rs:47-57 set_cutoff_q, at sample rate sr *)
  Definition moog_tune (s : moog) (sr cutoff q : F) : moog :=
    let c := int 2 *. cutoff /. sr in
    let p := c *. (dec 18 10 -. dec 8 10 *. c) in
    let k := int 2 *. e_sin el (c *. e_pi el *. dec 1 2) -. one in
    let t1 := (one -. p) *. dec 1386249 1000000 in
    let t2 := int 12 +. t1 *. t1 in
    let rez := q *. (t2 +. int 6 *. t1) /. (t2 -. int 6 *. t1) in
    mkMoog q cutoff sr rez p k (mg_s0 s) (mg_s1 s) (mg_s2 s) (mg_s3 s) (mg_px s) (mg_ps0 s) (mg_ps1 s) (mg_ps2 s).
  (* moog.rs:36-43 new *)
  Definition moog_new (cutoff q : F) : moog :=
    moog_tune (mkMoog zero zero default_sr zero zero zero zero zero zero zero zero zero zero zero) default_sr cutoff q.
  (* moog.rs:65-74 reset *)
  Definition moog_reset (s : moog) : moog :=
    mkMoog (mg_q s) (mg_cutoff s) (mg_sr s) (mg_rez s) (mg_p s) (mg_k s) zero zero zero zero zero zero zero zero.
  (* moog.rs:87-99 tick, after the parameters have been read *)
  Definition moog_step (s : moog) (input : F) : moog * F :=
    let x := (-. mg_rez s) *. mg_s3 s +. input in
    let s0 := (x +. mg_px s) *. mg_p s -. mg_k s *. mg_s0 s in
    let s1 := (s0 +. mg_ps0 s) *. mg_p s -. mg_k s *. mg_s1 s in
    let s2 := (s1 +. mg_ps1 s) *. mg_p s -. mg_k s *. mg_s2 s in
    let s3 := tl_tanh tl ((s2 +. mg_ps2 s) *. mg_p s -. mg_k s *. mg_s3 s) in
    (mkMoog (mg_q s) (mg_cutoff s) (mg_sr s) (mg_rez s) (mg_p s) (mg_k s) s0 s1 s2 s3 x s0 s1 s2, s3).

  (* ---- rez.rs ---- *)
  (* rez.rs:11-21 Rez *)
  Record rez := mkRez { rz_buf0 : F; rz_buf1 : F; rz_f : F; rz_fb : F; rz_cutoff : F; rz_q : F; rz_sr : F; rz_bp : F }.
  (* rez.rs:41-46 set_cutoff_q, at sample rate sr *)
  Definition rez_tune (s : rez) (sr cutoff q : F) : rez :=
    let f := int 2 *. e_sin el (e_pi el *. cutoff /. sr) in
    mkRez (rz_buf0 s) (rz_buf1 s) f (q +. q /. (one -. f)) cutoff q sr (rz_bp s).
  (* rez.rs:25-39 new *)
  Definition rez_new (bp cutoff q : F) : rez := rez_tune (mkRez zero zero one one cutoff q default_sr bp) default_sr cutoff q.
  (* rez.rs:54-57 reset *)
  Definition rez_reset (s : rez) : rez := mkRez zero zero (rz_f s) (rz_fb s) (rz_cutoff s) (rz_q s) (rz_sr s) (rz_bp s).
  (* rez.rs:73-78 tick, after the parameters have been read *)
  Definition rez_step (s : rez) (input : F) : rez * F :=
    let hp := input -. rz_buf0 s in
    let bp := rz_buf0 s -. rz_buf1 s in
    let buf0 := rz_buf0 s +. rz_f s *. (hp +. rz_fb s *. tl_tanh tl bp) in
    let buf1 := rz_buf1 s +. rz_f s *. (buf0 -. rz_buf1 s) in
    (mkRez buf0 buf1 (rz_f s) (rz_fb s) (rz_cutoff s) (rz_q s) (rz_sr s) (rz_bp s), buf1 -. rz_bp s *. buf0).

  (* ---- biquad_bank.rs ---- *)
  (* biquad_bank.rs:14-24 BiquadBank. A SIMD value is the list of its lanes, and its operations work on each lane. *)
  Definition lanes2 (f : F -> F -> F) (a b : list F) : list F := map (fun p => f (fst p) (snd p)) (combine a b).
  (* biquad_bank.rs:14-24 *)
  Record bank := mkBank { bk_a1 : list F; bk_a2 : list F; bk_b0 : list F; bk_b1 : list F; bk_b2 : list F;
    bk_x1 : list F; bk_x2 : list F; bk_y1 : list F; bk_y2 : list F }.
  (* biquad_bank.rs:37-43 with_coefs; the other fields are zero in each of the n lanes *)
  Definition bank_new (cs : list (bicoefs F)) : bank :=
    let z := repeat zero (length cs) in mkBank (map bi_a1 cs) (map bi_a2 cs) (map bi_b0 cs) (map bi_b1 cs) (map bi_b2 cs) z z z z.
  (* biquad_bank.rs:62-67 reset *)
  Definition bank_reset (s : bank) : bank :=
    let z := repeat zero (length (bk_a1 s)) in mkBank (bk_a1 s) (bk_a2 s) (bk_b0 s) (bk_b1 s) (bk_b2 s) z z z z.
  (* biquad_bank.rs:73-84 tick *)
  Definition bank_tick (s : bank) (x0 : list F) : bank * list F :=
    let mul := lanes2 (nmul nm) in let add := lanes2 (nadd nm) in let sub := lanes2 (nsub nm) in
    let y0 := sub (sub (add (add (mul (bk_b0 s) x0) (mul (bk_b1 s) (bk_x1 s))) (mul (bk_b2 s) (bk_x2 s))) (mul (bk_a1 s) (bk_y1 s))) (mul (bk_a2 s) (bk_y2 s)) in
    (mkBank (bk_a1 s) (bk_a2 s) (bk_b0 s) (bk_b1 s) (bk_b2 s) x0 (bk_x1 s) y0 (bk_y1 s), y0).
  (* biquad_bank.rs:86-96 set; lib.rs:661-664 and 746-749: setting a lane out of range is a panic (None) *)
  Definition bank_set (s : bank) (i : nat) (a1 a2 b0 b1 b2 : F) : option bank :=
    if Nat.ltb i (length (bk_a1 s)) then
      Some (mkBank (upd (bk_a1 s) i a1) (upd (bk_a2 s) i a2) (upd (bk_b0 s) i b0) (upd (bk_b1 s) i b1) (upd (bk_b2 s) i b2) (bk_x1 s) (bk_x2 s) (bk_y1 s) (bk_y2 s))
    else None.

  (* ---- biquad.rs: the shaped biquads ---- *)
  (* biquad.rs:405-486: the modes *)
  Inductive bimode := BResonator | BLowpass | BHighpass | BBell.
  (* biquad.rs:405-486 *)
  Definition bi_coefs (m : bimode) (p : svparams F) : bicoefs F :=
    match m with
    | BResonator => resonator nm el (sp_sr p) (sp_cutoff p) (sp_q p)
    | BLowpass => bi_lowpass nm el (sp_sr p) (sp_cutoff p) (sp_q p)
    | BHighpass => bi_highpass nm el (sp_sr p) (sp_cutoff p) (sp_q p)
    | BBell => bi_bell nm el (sp_sr p) (sp_cutoff p) (sp_q p) (sp_gain p)
    end.
  (* biquad.rs:493-501 FbBiquad and 590-598 FixedFbBiquad (dt_fb, with the one shape dt_sh1), 697-707 DirtyBiquad and 806-814 FixedDirtyBiquad. BiquadParams has the fields of SvfParams. *)
  Record dirty := mkDirty { dt_fb : bool; dt_mode : bimode; dt_par : svparams F; dt_c : bicoefs F; dt_sh1 : S; dt_sh2 : S; dt_s1 : F; dt_s2 : F }.
  (* biquad.rs:839-870: the assignment of parameters with the update of the coefficients that follows it everywhere *)
  Definition dirty_tune (s : dirty) (p : svparams F) : dirty :=
    mkDirty (dt_fb s) (dt_mode s) p (bi_coefs (dt_mode s) p) (dt_sh1 s) (dt_sh2 s) (dt_s1 s) (dt_s2 s).
  (* biquad.rs:505-521, 602-618, 710-730, 818-837 new; set_sample_rate computes the coefficients *)
  Definition dirty_new (fb : bool) (m : bimode) (sh : S) : dirty :=
    let p := mkSvp default_sr (int 440) one one in
    dirty_tune (mkDirty fb m p (mkBi zero zero zero zero zero) sh sh zero zero) p.
  (* biquad.rs:529-533, 659-663, 738-743, 878-883 reset *)
  Definition dirty_reset (s : dirty) : dirty :=
    mkDirty (dt_fb s) (dt_mode s) (dt_par s) (dt_c s) (tl_shape_reset tl (dt_sh1 s)) (if dt_fb s then dt_sh2 s else tl_shape_reset tl (dt_sh2 s)) zero zero.
  (* biquad.rs:572-582, 683-690, 787-802, 903-915 tick, after the parameters have been read *)
  Definition dirty_step (s : dirty) (x0 : F) : dirty * F :=
    let c := dt_c s in
    let y0 := bi_b0 c *. x0 +. dt_s1 s in
    if dt_fb s then
      let (sh, fb) := tl_shape tl (dt_sh1 s) y0 in
      (mkDirty (dt_fb s) (dt_mode s) (dt_par s) c sh (dt_sh2 s) (dt_s2 s +. bi_b1 c *. x0 -. fb *. bi_a1 c) (bi_b2 c *. x0 -. fb *. bi_a2 c), y0)
    else
      let (sh1, s1) := tl_shape tl (dt_sh1 s) (dt_s2 s +. bi_b1 c *. x0 -. y0 *. bi_a1 c) in
      let (sh2, s2) := tl_shape tl (dt_sh2 s) (bi_b2 c *. x0 -. y0 *. bi_a2 c) in
      (mkDirty (dt_fb s) (dt_mode s) (dt_par s) c sh1 sh2 s1 s2, y0).

  (* ---- noise.rs: Hold ---- *)
  (* noise.rs:242-250 Hold *)
  Record hold := mkHold { hd_rnd : G; hd_hash : N; hd_sd : F; hd_var : F; hd_t : F; hd_next : F; hd_hold : F }.
  (* noise.rs:281-285 reset; hd_hold remains *)
  Definition hold_reset (s : hold) : hold := mkHold (tl_rnd tl (hd_hash s)) (hd_hash s) (hd_sd s) (hd_var s) zero zero (hd_hold s).
  (* noise.rs:287-289 *)
  Definition hold_rate (s : hold) (sr : F) : hold := mkHold (hd_rnd s) (hd_hash s) (one /. sr) (hd_var s) (hd_t s) (hd_next s) (hd_hold s).
  (* noise.rs:255-263 new; the default Rnd is replaced by reset *)
  Definition hold_new (v : F) : hold := hold_rate (hold_reset (mkHold (tl_rnd tl 0%N) 0 zero v zero zero zero)) default_sr.
  (* noise.rs:292-304 tick *)
  Definition hold_step (s : hold) (x freq : F) : hold * F :=
    let s := if nleb nm (hd_next s) (hd_t s) then
        let (g, r) := tl_next tl (hd_rnd s) in
        mkHold g (hd_hash s) (hd_sd s) (hd_var s) (hd_t s) (hd_t s +. lerp nm (one -. hd_var s) (one +. hd_var s) r /. freq) x
      else s in
    (mkHold (hd_rnd s) (hd_hash s) (hd_sd s) (hd_var s) (hd_t s +. hd_sd s) (hd_next s) (hd_hold s), hd_hold s).

  (* ---- the nodes ---- *)
  (* w says that the node has inputs for its parameters as well (the type parameter N) *)
  Inductive tnode :=
  | TLow (w : bool) (value coeff cutoff sr : F)                 (* filter.rs:19-25 Lowpole *)
  | TDc (x1 y1 cutoff coeff sr : F)                             (* filter.rs:101-108 DCBlock *)
  | TAll (w : bool) (eta x1 y1 : F)                             (* filter.rs:268-275 Allpole; the sample rate is used by route only *)
  | THigh (w : bool) (x1 y1 coeff cutoff sr : F)                (* filter.rs:353-360 Highpole *)
  | TButter (w : bool) (b : biquad F) (sr cutoff : F)           (* biquad.rs:227-232 ButterLowpass *)
  | TReson (w : bool) (b : biquad F) (sr center q : F)          (* biquad.rs:310-316 Resonator *)
  | TBiquad (b : biquad F)                                      (* biquad.rs:136-143 Biquad; the sample rate is used by route only *)
  | TBank (s : bank)
  | TFix (s : svf F)                                            (* FixedSvf *)
  | TSvf (s : svf F) (period counter : nat)                     (* svf.rs:748-761 Svf *)
  | TMoog (w : bool) (s : moog) | TRez (w : bool) (s : rez) | TDirty (w : bool) (s : dirty)
  | TFollow (s : @follow F) (time sr : F) | TAFollow (s : @afollow F) (a r sr : F)
  | TConst (l : list F) | TPan (s : @panner F) | THold (s : hold) | TDsf (w : bool) (s : dsfs F)
  | TNest (w : bool) (x : X) (eta z : F).                       (* delay.rs:294-303 AllNest *)

  (* filter.rs:43-46: set_cutoff and the like: the node with the given sample rate and parameters; the other fields stay *)
  Definition low_tune (w : bool) (value sr cutoff : F) : tnode := TLow w value (pole_coeff nm el sr cutoff) cutoff sr.
  (* filter.rs:123-126 *)
  Definition dc_tune (x1 y1 sr cutoff : F) : tnode := TDc x1 y1 cutoff (dc_coeff nm el sr cutoff) sr.
  (* filter.rs:376-379 *)
  Definition high_tune (w : bool) (x1 y1 sr cutoff : F) : tnode := THigh w x1 y1 (pole_coeff nm el sr cutoff) cutoff sr.
  (* biquad.rs:162-164 *)
  Definition with_coefs (b : biquad F) (c : bicoefs F) : biquad F := mkBiquad c (bq_x1 b) (bq_x2 b) (bq_y1 b) (bq_y2 b).
  (* biquad.rs:247-251 *)
  Definition butter_tune (w : bool) (b : biquad F) (sr cutoff : F) : tnode := TButter w (with_coefs b (butter_lowpass nm el sr cutoff)) sr cutoff.
  (* biquad.rs:332-337 *)
  Definition reson_tune (w : bool) (b : biquad F) (sr center q : F) : tnode := TReson w (with_coefs b (resonator nm el sr center q)) sr center q.
  (* follow.rs:62-68 *)
  Definition follow_tune (s : @follow F) (sr time : F) : tnode := TFollow (fo_set_coeff nm s (tl_halfway tl (time *. sr))) time sr.
  (* follow.rs:177-190 *)
  Definition afollow_tune (s : @afollow F) (sr a r : F) : tnode := TAFollow (af_set_coeffs nm s (tl_halfway tl (a *. sr)) (tl_halfway tl (r *. sr))) a r sr.
  (* biquad.rs:172-177 *)
  Definition bi_zero (b : biquad F) : biquad F := mkBiquad (bq_c b) zero zero zero zero.
  Notation pan_weights_ := (pan_weights nm (e_cos el) (e_sin el) (e_pi el *. dec 1 4)).
  Notation dsf_rough := (set_roughness nm).
  (* oscillator.rs:172-174 *)
  Definition dsf_rate (s : dsfs F) (sr : F) : dsfs F := mkDsf (ds_phase s) (ds_rough s) (ds_spacing s) (one /. sr) (ds_hash s) (ds_init s).
  (* oscillator.rs:165-170 *)
  Definition dsf_reset (s : dsfs F) : dsfs F :=
    mkDsf (match ds_init s with Some p => p | None => rnd1 nm (ds_hash s) end) (ds_rough s) (ds_spacing s) (ds_sd s) (ds_hash s) (ds_init s).
  (* oscillator.rs:192-198 *)
  Definition dsf_phase (s : dsfs F) (p : F) : dsfs F := mkDsf (ds_phase s) (ds_rough s) (ds_spacing s) (ds_sd s) (ds_hash s) (Some p).
  (* which modes read a gain from input 3 (svf.rs:592, 640, 696; biquad.rs:480) *)
  Definition sv_gained (m : svmode) : bool := match m with MBell | MLowshelf | MHighshelf => true | _ => false end.
  (* biquad.rs:487-489 *)
  Definition bi_gained (m : bimode) : bool := match m with BBell => true | _ => false end.
  (* math.rs:154-156 *)
  Definition squared (x : F) : F := x *. x.

  (* set_sample_rate: filter.rs:58-61, 139-142, 392-395; biquad.rs:263-267, 349-352, 535-538, 678-681, 745-748, 898-901; svf.rs:828-831, 1005-1008; moog.rs:76-79;
     rez.rs:59-62; follow.rs:95-98, 218-222; noise.rs:287-289; oscillator.rs:172-174; delay.rs:340-342. The shapes of shaped biquads are not told the sample rate.
     Where there is nothing (audionode.rs:57-61), or only a field that route uses, nothing changes. *)
  Definition t_rate (n : tnode) (sr : F) : tnode :=
    match n with
    | TLow w v _ f _ => low_tune w v sr f
    | TDc x1 y1 f _ _ => dc_tune x1 y1 sr f
    | THigh w x1 y1 _ f _ => high_tune w x1 y1 sr f
    | TButter w b _ f => butter_tune w b sr f
    | TReson w b _ f q => reson_tune w b sr f q
    | TFix s => TFix (svf_do nm el s (OpRate sr))
    | TSvf s p c => TSvf (svf_do nm el s (OpRate sr)) p c
    | TMoog w s => TMoog w (moog_tune s sr (mg_cutoff s) (mg_q s))
    | TRez w s => TRez w (rez_tune s sr (rz_cutoff s) (rz_q s))
    | TDirty w s => let p := dt_par s in TDirty w (dirty_tune s (mkSvp sr (sp_cutoff p) (sp_q p) (sp_gain p)))
    | TFollow s t _ => follow_tune s sr t
    | TAFollow s a r _ => afollow_tune s sr a r
    | THold s => THold (hold_rate s sr)
    | TDsf w s => TDsf w (dsf_rate s sr)
    | TNest w x e z => TNest w (tl_rate tl x sr) e z
    | TAll _ _ _ _ | TBiquad _ | TBank _ | TConst _ | TPan _ => n
    end.

  (* reset: filter.rs:54-56, 134-137, 304-307, 387-390; biquad.rs:172-177, 259-261, 345-347; svf.rs:822-826, 1000-1003; follow.rs:88-93, 210-216; delay.rs:344-347;
     Constant and Panner have none *)
  Definition t_reset (n : tnode) : tnode :=
    match n with
    | TLow w _ c f sr => TLow w zero c f sr
    | TDc _ _ f c sr => TDc zero zero f c sr
    | TAll w e _ _ => TAll w e zero zero
    | THigh w _ _ c f sr => THigh w zero zero c f sr
    | TButter w b sr f => TButter w (bi_zero b) sr f
    | TReson w b sr f q => TReson w (bi_zero b) sr f q
    | TBiquad b => TBiquad (bi_zero b)
    | TBank s => TBank (bank_reset s)
    | TFix s => TFix (svf_do nm el s OpReset)
    | TSvf s p _ => TSvf (svf_do nm el s OpReset) p 0
    | TMoog w s => TMoog w (moog_reset s)
    | TRez w s => TRez w (rez_reset s)
    | TDirty w s => TDirty w (dirty_reset s)
    | TFollow s t sr => TFollow (fo_reset nm s) t sr
    | TAFollow s a r sr => TAFollow (af_reset nm s) a r sr
    | THold s => THold (hold_reset s)
    | TDsf w s => TDsf w (dsf_reset s)
    | TNest w x e _ => TNest w (tl_reset tl x) e zero
    | TConst _ | TPan _ => n
    end.

  (* set: filter.rs:76-80, 153-157, 325-329, 412-416; biquad.rs:196-206, 280-284, 665-676, 885-896; biquad_bank.rs:86-96; svf.rs:854-859, 1024-1035; moog.rs:102-110;
     rez.rs:81-89; follow.rs:111-115, 247-251; audionode.rs:483-487; pan.rs:78-82; noise.rs:306-310; oscillator.rs:192-198; delay.rs:360-364. Resonator, FbBiquad and
     DirtyBiquad have none, so that settings do nothing (audionode.rs:124). None is a panic. *)
  Definition t_set (n : tnode) (st : setting (param F)) : option tnode :=
    match n, s_par st with
    | TLow w v _ _ sr, PCenter f => Some (low_tune w v sr f)
    | TDc x1 y1 _ _ sr, PCenter f => Some (dc_tune x1 y1 sr f)
    | TAll w _ x1 y1, PDelay d => Some (TAll w (all_eta nm d) x1 y1)
    | THigh w x1 y1 _ _ sr, PCenter f => Some (high_tune w x1 y1 sr f)
    | TButter w b sr _, PCenter f => Some (butter_tune w b sr f)
    | TBiquad b, PBiquad a1 a2 b0 b1 b2 => Some (TBiquad (with_coefs b (mkBi a1 a2 b0 b1 b2)))
    | TBank s, PBiquad a1 a2 b0 b1 b2 =>
        match direction st with
        | AIndex i => match bank_set s i a1 a2 b0 b1 b2 with Some s => Some (TBank s) | None => None end
        | _ => Some n
        end
    | TFix s, PCenter f => Some (TFix (svf_do nm el s (OpCenter f)))
    | TFix s, PCenterQ f q => Some (TFix (svf_do nm el s (OpCenterQ f q)))
    | TFix s, PCenterQGain f q g => Some (TFix (svf_do nm el s (OpCenterQGain f q g)))
    | TSvf s _ _, PSubsample p => Some (TSvf s (Nat.max 1 p) 0)
    | TMoog w s, PCenter f => Some (TMoog w (moog_tune s (mg_sr s) f (mg_q s)))
    | TMoog w s, PCenterQ f q => Some (TMoog w (moog_tune s (mg_sr s) f q))
    | TRez w s, PCenter f => Some (TRez w (rez_tune s (rz_sr s) f (rz_q s)))
    | TRez w s, PCenterQ f q => Some (TRez w (rez_tune s (rz_sr s) f q))
    | TDirty false s, PCenter f => let p := dt_par s in Some (TDirty false (dirty_tune s (mkSvp (sp_sr p) f (sp_q p) (sp_gain p))))
    | TDirty false s, PCenterQ f q => let p := dt_par s in Some (TDirty false (dirty_tune s (mkSvp (sp_sr p) f q (sp_gain p))))
    | TDirty false s, PCenterQGain f q g => let p := dt_par s in Some (TDirty false (dirty_tune s (mkSvp (sp_sr p) f q g)))
    | TFollow s _ sr, PTime t => Some (follow_tune s sr t)
    | TAFollow s _ _ sr, PAttackRelease a r => Some (afollow_tune s sr a r)
    | TConst l, PValue v => Some (TConst (repeat v (length l)))
    | TPan s, PPan p => Some (TPan (set_pan nm (e_cos el) (e_sin el) (e_pi el *. dec 1 4) s p))
    | THold s, PVariability v => Some (THold (mkHold (hd_rnd s) (hd_hash s) (hd_sd s) v (hd_t s) (hd_next s) (hd_hold s)))
    | TDsf w s, PRoughness r => Some (TDsf w (dsf_rough s r))
    | TDsf w s, PPhase p => Some (TDsf w (dsf_phase s p))
    | TNest w x _ z, PCoefficient c => Some (TNest w x c z)
    | _, _ => Some n
    end.

  (* svf.rs:299-313, 349-362, 596-611: update_inputs of the modes of svf.rs (304-313, 349-362, ... and 596-611, 650-665, 707-722) *)
  Definition sv_inputs (s : svf F) (i : list F) : svf F :=
    let p := vf_par s in
    let f := at_ 1 i in let q := at_ 2 i in let g := at_ 3 i in
    if sv_gained (vf_mode s) then
      if neqb f (sp_cutoff p) || neqb q (sp_q p) || neqb g (sp_gain p) then svf_update nm el s (mkSvp (sp_sr p) f q g) else s
    else if neqb f (sp_cutoff p) || neqb q (sp_q p) then svf_update nm el s (mkSvp (sp_sr p) f q (sp_gain p)) else s.
  (* biquad.rs:541-571 and 751-781; no mode has two inputs *)
  Definition dirty_inputs (s : dirty) (i : list F) : dirty :=
    let p := dt_par s in
    let f := at_ 1 i in let q := at_ 2 i in let g := at_ 3 i in
    if bi_gained (dt_mode s) then
      if neqb (squared (f -. sp_cutoff p) +. squared (q -. sp_q p) +. squared (g -. sp_gain p)) zero then dirty_tune s (mkSvp (sp_sr p) f q g) else s
    else if neqb (squared (f -. sp_cutoff p) +. squared (q -. sp_q p)) zero then dirty_tune s (mkSvp (sp_sr p) f q (sp_gain p)) else s.

  (* tick: filter.rs:63-74, 144-151, 313-323, 397-410; biquad.rs:183-194, 269-278, 354-367; svf.rs:833-852, 1010-1022; moog.rs:81-100; rez.rs:64-79; follow.rs:100-109, 225-245;
     audionode.rs:469-472; pan.rs:54-61; oscillator.rs:176-190; delay.rs:349-358 *)
  Definition t_tick (n : tnode) (i : list F) : tnode * list F :=
    let x := at_ 0 i in
    let f := at_ 1 i in
    let q := at_ 2 i in
    match n with
    | TLow w v c f0 sr =>
        let c := if w && neqb f f0 then pole_coeff nm el sr f else c in
        let f0 := if w && neqb f f0 then f else f0 in
        let y := low_step nm c v x in (TLow w y c f0 sr, [y])
    | TDc x1 y1 f0 c sr => let y := dc_step nm c x1 y1 x in (TDc x y f0 c sr, [y])
    | TAll w e x1 y1 =>
        let e := if w then all_eta nm f else e in
        let y := all_step nm e x1 y1 x in (TAll w e x y, [y])
    | THigh w x1 y1 c f0 sr =>
        let c := if w && neqb f f0 then pole_coeff nm el sr f else c in
        let f0 := if w && neqb f f0 then f else f0 in
        let y := high_step nm c x1 y1 x in (THigh w x y c f0 sr, [y])
    | TButter w b sr f0 =>
        let b := if w && neqb f f0 then with_coefs b (butter_lowpass nm el sr f) else b in
        let f0 := if w && neqb f f0 then f else f0 in
        let (b, y) := bi_step nm b x in (TButter w b sr f0, [y])
    | TReson w b sr f0 q0 =>
        let d := w && (neqb f f0 || neqb q q0) in
        let b := if d then with_coefs b (resonator nm el sr f q) else b in
        let (b, y) := bi_step nm b x in (TReson w b sr (if d then f else f0) (if d then q else q0), [y])
    | TBiquad b => let (b, y) := bi_step nm b x in (TBiquad b, [y])
    | TBank s => let (s, y) := bank_tick s i in (TBank s, y)
    | TFix s => let (s, y) := svf_step nm s x in (TFix s, [y])
    | TSvf s p c =>
        let c := c + 1 in
        let s := if Nat.leb p c then sv_inputs s i else s in
        let (s, y) := svf_step nm s x in (TSvf s p (if Nat.leb p c then 0 else c), [y])
    | TMoog w s =>
        let s := if w then moog_tune s (mg_sr s) f q else s in
        let (s, y) := moog_step s x in (TMoog w s, [y])
    | TRez w s =>
        let s := if w && (neqb f (rz_cutoff s) || neqb q (rz_q s)) then rez_tune s (rz_sr s) f q else s in
        let (s, y) := rez_step s x in (TRez w s, [y])
    | TDirty w s =>
        let s := if w then dirty_inputs s i else s in
        let (s, y) := dirty_step s x in (TDirty w s, [y])
    | TFollow s t sr => let s := fo_tick nm s x in (TFollow s t sr, [fo_v3 s])
    | TAFollow s a r sr => let s := af_tick nm s x in (TAFollow s a r sr, [af_v3 s])
    | TConst l => (n, l)
    | TPan s => let (s, y) := panner_tick nm (e_cos el) (e_sin el) (e_pi el *. dec 1 4) s i in (TPan s, y)
    | THold s => let (s, y) := hold_step s x f in (THold s, [y])
    | TDsf w s =>
        let (s, y) := dsf_tick nm (e_sin el) (e_cos el) (tl_pow tl) (tau nm el) (tl_floor tl) s x (if w then Some f else None) in (TDsf w s, [y])
    | TNest w y e z =>
        let e := if w then f else e in
        let v := x -. e *. z in
        let o := e *. v +. z in
        let (y, z) := tl_tick tl y v in (TNest w y e z, [o])
    end.

  (* audiounit.rs:22-91 (the trait AudioUnit): what can be done with a node, and the outputs that result; None after a panic *)
  Inductive act := ATick (i : list F) | ASet (s : setting (param F)) | ARate (sr : F) | AReset.
  (* audiounit.rs:22-91 (the trait AudioUnit) *)
  Fixpoint t_run (n : tnode) (l : list act) : option (tnode * list (list F)) :=
    match l with
    | [] => Some (n, [])
    | ATick i :: l => let (n, o) := t_tick n i in match t_run n l with Some (n, os) => Some (n, o :: os) | None => None end
    | ASet s :: l => match t_set n s with Some n => t_run n l | None => None end
    | ARate sr :: l => t_run (t_rate n sr) l
    | AReset :: l => t_run (t_reset n) l
    end.
  (* audiounit.rs:22-91 (the trait AudioUnit) *)
  Definition t_outs (n : tnode) (l : list act) : option (list (list F)) := match t_run n l with Some (_, os) => Some os | None => None end.

  (* ---- the opcodes of prelude.rs that construct the nodes ---- *)
  Inductive opcode :=
  | OLowpole (f : F)                             (* prelude.rs:472-474 lowpole_hz *)
  | ODcblock (f : F)                             (* prelude.rs:1140-1142 dcblock_hz *)
  | OAllpole (d : F)                             (* prelude.rs:487-489 allpole_delay *)
  | OHighpole (f : F)                            (* prelude.rs:502-504 highpole_hz *)
  | OButter (f : F)                              (* prelude.rs:445-447 butterpass_hz *)
  | OReson (f q : F)                             (* prelude.rs:530-532 resonator_hz *)
  | OBiquad (c : bicoefs F)                      (* prelude.rs:537-541 biquad *)
  | OBank (cs : list (bicoefs F))                (* biquad_bank: BiquadBank::new and set_coefs *)
  | OSvf (m : svmode) (f q g : F)                (* lowpass_hz, highpass_hz, bandpass_hz, notch_hz, peak_hz, allpass_hz (g = 1); bell_hz, lowshelf_hz, highshelf_hz *)
  | OMoog (f q : F)                              (* prelude.rs:563-565 moog_hz *)
  | ORez (bp f q : F)                            (* prelude.rs:2547-2549 lowrez_hz, 2571-2573 bandrez_hz *)
  | ODirty (fb : bool) (m : bimode) (sh : S) (f q g : F) (* dlowpass_hz, dhighpass_hz, dresonator_hz, dbell_hz, and f...: new followed by set_center_q or set_center_q_gain *)
  | OFollow (t : F)                              (* prelude.rs:1244-1246 follow *)
  | OAFollow (a r : F)                           (* prelude.rs:1259-1261 afollow *)
  | OConst (l : list F)                          (* prelude.rs:186-191, 203-208 constant and dc *)
  | OPan (p : F)                                 (* prelude.rs:1230-1232 pan *)
  | OHold (v : F)                                (* prelude.rs:832-834 hold *)
  | ODsf (spacing r : F) (p : option F)          (* prelude.rs:1941-1943 dsf_saw_r, 1957-1959 dsf_square_r; combinator.rs phase *)
  | ONest (c : F) (x : X).                       (* prelude.rs:1082-1087 allnest_c *)
  (* filter.rs:29-39, 112-120, 278-290, 364-375; biquad.rs:236-246, 320-331, 152-158; svf.rs:894-906; follow.rs:46-54, 155-164; oscillator.rs:131-145; delay.rs:312-321.
     w makes the variant with inputs for the parameters; its initial parameters are then those of the opcode. None is the assertion of Allpole::new. *)
  Definition build (w : bool) (op : opcode) : option tnode :=
    match op with
    | OLowpole f => Some (low_tune w zero default_sr f)
    | ODcblock f => Some (dc_tune zero zero default_sr f)
    | OAllpole d => if nltb nm zero d then Some (TAll w (all_eta nm d) zero zero) else None
    | OHighpole f => Some (high_tune w zero zero default_sr f)
    | OButter f => Some (butter_tune w (mkBiquad (mkBi zero zero zero zero zero) zero zero zero zero) default_sr f)
    | OReson f q => Some (reson_tune w (mkBiquad (mkBi zero zero zero zero zero) zero zero zero zero) default_sr f q)
    | OBiquad c => Some (TBiquad (mkBiquad c zero zero zero zero))
    | OBank cs => Some (TBank (bank_new cs))
    | OSvf m f q g => let s := svf_new nm el m (mkSvp default_sr f q g) in Some (if w then TSvf s 1 0 else TFix s)
    | OMoog f q => Some (TMoog w (moog_new f q))
    | ORez bp f q => Some (TRez w (rez_new bp f q))
    | ODirty fb m sh f q g => Some (TDirty w (dirty_tune (dirty_new fb m sh) (mkSvp default_sr f q g)))
    | OFollow t => Some (follow_tune (fo_reset nm (mkFollow zero zero zero zero zero)) default_sr t)
    | OAFollow a r => Some (afollow_tune (af_reset nm (mkAF zero zero zero zero zero zero zero)) default_sr a r)
    | OConst l => Some (TConst l)
    | OPan p => Some (TPan (panner_new nm (e_cos el) (e_sin el) (e_pi el *. dec 1 4) (if w then 2 else 1) p))
    | OHold v => Some (THold (hold_new v))
    | ODsf sp r p => Some (TDsf w (dsf_rough (dsf_rate (dsf_reset (mkDsf zero r sp zero 0 p)) default_sr) r))
    | ONest c x => Some (TNest w x c zero)
    end.
End Tune.
Arguments moog : clear implicits. Arguments rez : clear implicits. Arguments bank : clear implicits. Arguments dirty : clear implicits. Arguments hold : clear implicits.
Arguments tnode : clear implicits. Arguments act : clear implicits. Arguments opcode : clear implicits.
