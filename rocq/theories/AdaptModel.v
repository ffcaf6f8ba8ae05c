(* Adapters: /repo/src/audiounit.rs:480-651 BigBlockAdapter and BlockRateAdapter, /repo/src/setting.rs:242-317 SettingListener.
   No proofs here. set, ping, route, footprint and allocate of the adapters, which only forward, are not modelled. *)
From Verif Require Export UnitModel.

Section Adapters.
  Context {A P U : Type}.
  Variable zero : A.
  Variable ops : unit_ops A P U.

  (* audiounit.rs:483-499: the unit and its buffers *)
  Record big := mkBig { bg_unit : U; bg_in : list (list A); bg_out : list (list A) }.
  (* audiounit.rs:483-499 *)
  Definition big_new (u : U) : big := mkBig u (repeat (repeat zero MAXB) (u_ins ops u)) (repeat (repeat zero MAXB) (u_outs ops u)).
  (* audiounit.rs:506-510, 513-517: dst[d + j] = src[s + j] for j < n; None if an index is out of range *)
  Fixpoint copy (n s d : nat) (src dst : list A) : option (list A) :=
    match n with
    | O => Some dst
    | S n' => match nth_error src s with
              | Some v => if Nat.ltb d (length dst) then copy n' (S s) (S d) src (upd dst d v) else None
              | None => None
              end
    end.
  (* audiounit.rs:502-520: for each channel of the source: source channels that are missing are a panic, further ones are not looked at *)
  Fixpoint copies (n s d : nat) (src dst : list (list A)) : option (list (list A)) :=
    match dst with
    | [] => Some []
    | y :: dst' => match src with
                   | [] => None
                   | x :: src' => match copy n s d x y, copies n s d src' dst' with Some z, Some r => Some (z :: r) | _, _ => None end
                   end
    end.
  (* audiounit.rs:502-520: the same, where the loop runs over the channels of the source and the destination must have them *)
  Fixpoint copies_out (n s d : nat) (src dst : list (list A)) : option (list (list A)) :=
    match src with
    | [] => Some dst
    | x :: src' => match dst with
                   | [] => None
                   | y :: dst' => match copy n s d x y, copies_out n s d src' dst' with Some z, Some r => Some (z :: r) | _, _ => None end
                   end
    end.
  (* audiounit.rs:502-520 process_big: the loop from sample i. fuel bounds the number of blocks; size blocks are always enough, and fewer
     fuel than needed is None, as a panic is. *)
  Fixpoint big_loop (fuel i size : nat) (s : big) (input output : list (list A)) : option (big * list (list A)) :=
    if Nat.ltb i size then
      match fuel with
      | O => None
      | S fuel' =>
          let n := Nat.min (size - i) MAXB in
          match copies n i 0 input (bg_in s) with
          | None => None
          | Some b =>
              let (u, o) := u_process ops (bg_unit s) n b (bg_out s) in
              match copies_out n 0 i o output with
              | None => None
              | Some output' => big_loop fuel' (i + n) size (mkBig u b o) input output'
              end
          end
      end
    else Some (s, output).
  (* audiounit.rs:502-520 *)
  Definition process_big (size : nat) (s : big) (input output : list (list A)) : option (big * list (list A)) := big_loop size 0 size s input output.

  (* audiounit.rs:566-585 BlockRateAdapter: the unit, its last block and the position in it. new asserts that there are no inputs. *)
  Record rated := mkRated { rt_unit : U; rt_buf : list (list A); rt_index : nat }.
  (* audiounit.rs:566-585 *)
  Definition rated_new (u : U) : option rated :=
    if Nat.eqb (u_ins ops u) 0 then Some (mkRated u (repeat (repeat zero MAXB) (u_outs ops u)) MAXB) else None.
  (* audiounit.rs:588-591 reset *)
  Definition rated_reset (s : rated) : rated := mkRated (u_reset ops (rt_unit s)) (rt_buf s) MAXB.
  (* audiounit.rs:596-603, 612-616: a new block if the last one is used up; there is no input *)
  Definition refill (s : rated) : rated :=
    if Nat.eqb (rt_index s) MAXB then let (u, b) := u_process ops (rt_unit s) MAXB [] (rt_buf s) in mkRated u b 0 else s.
  (* audiounit.rs:595-608 tick *)
  Definition rated_tick (s : rated) (input : list A) : rated * list A :=
    let s1 := refill s in (mkRated (rt_unit s1) (rt_buf s1) (rt_index s1 + 1), frame zero (rt_buf s1) (rt_index s1)).
  (* audiounit.rs:618-622: output[i..i + n] = buffer[index..index + n] in every channel *)
  Definition blit (i n index : nat) (src dst : list (list A)) : list (list A) :=
    zipw (fun s d => firstn i d ++ firstn n (skipn index s) ++ skipn (i + n) d) src dst.
  (* audiounit.rs:609-626 process, from sample i; fuel bounds the iterations (size is enough: each copies a sample) *)
  Fixpoint rated_loop (fuel i size : nat) (s : rated) (out : list (list A)) : rated * list (list A) :=
    if Nat.ltb i size then
      match fuel with
      | O => (s, out)
      | S fuel' =>
          let s1 := refill s in
          let n := Nat.min (size - i) (MAXB - rt_index s1) in
          rated_loop fuel' (i + n) size (mkRated (rt_unit s1) (rt_buf s1) (rt_index s1 + n)) (blit i n (rt_index s1) (rt_buf s1) out)
      end
    else (s, out).
  (* audiounit.rs:609-626 *)
  Definition rated_process (s : rated) (size : nat) (inb out : list (list A)) : rated * list (list A) := rated_loop size 0 size s out.

  (* setting.rs:243-246: the node and the channel of at most 64 settings (thingbuf::mpsc, taken to be a bounded queue) *)
  Record listener := mkListener { ls_x : U; ls_queue : list (setting P) }.
  (* setting.rs:237-239 try_send: refused when full *)
  Definition try_send (l : listener) (p : setting P) : listener * bool :=
    if Nat.ltb (length (ls_queue l)) 64 then (mkListener (ls_x l) (ls_queue l ++ [p]), true) else (l, false).
  (* audionode.rs:122-124: SettingListener does not define set, so this is the default *)
  Definition listener_set (l : listener) (p : setting P) : listener := l.
  (* setting.rs:276-280 receive_settings: every setting is taken from the queue and given to set *)
  Fixpoint receive_from (q : list (setting P)) (l : listener) : listener :=
    match q with [] => mkListener (ls_x l) [] | p :: q' => receive_from q' (listener_set (mkListener (ls_x l) q') p) end.
  (* setting.rs:276-280 *)
  Definition receive_settings (l : listener) : listener := receive_from (ls_queue l) l.
  (* setting.rs:288-291 *)
  Definition listener_reset (l : listener) : listener := let l1 := receive_settings l in mkListener (u_reset ops (ls_x l1)) (ls_queue l1).
  (* setting.rs:299-302 *)
  Definition listener_tick (l : listener) (input : list A) : listener * list A :=
    let l1 := receive_settings l in let (u, o) := u_tick ops (ls_x l1) input in (mkListener u (ls_queue l1), o).
  (* setting.rs:304-307 *)
  Definition listener_process (l : listener) (size : nat) (inb out : list (list A)) : listener * list (list A) :=
    let l1 := receive_settings l in let (u, o) := u_process ops (ls_x l1) size inb out in (mkListener u (ls_queue l1), o).
End Adapters.
Arguments big : clear implicits. Arguments mkBig {A U}. Arguments bg_unit {A U}. Arguments bg_in {A U}. Arguments bg_out {A U}.
Arguments rated : clear implicits. Arguments mkRated {A U}. Arguments rt_unit {A U}. Arguments rt_buf {A U}. Arguments rt_index {A U}.
Arguments listener : clear implicits. Arguments mkListener {P U}. Arguments ls_x {P U}. Arguments ls_queue {P U}.
