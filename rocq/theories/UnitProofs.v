(* Units that use the default block processing meet the block contract. *)
From Verif Require Export UnitModel BufProofs.

Lemma default_process_contract {A X} (zero : A) (tick : X -> list A -> X * list A) (n m : nat) (Inv : X -> Prop) x :
  (forall y i, Inv y -> length i = m -> Inv (fst (tick y i)) /\ length (snd (tick y i)) = n) -> Inv x ->
  block_contract zero tick (fun u size inb out => default_process zero tick size u inb out) m n x.
Proof.
  intros HI Hx size inb out Hs [Hi1 Hi2] Ho. unfold default_process.
  pose proof (process_ticks_ok zero tick n Inv m HI size 0 x inb out Hx Hi1 Ho ltac:(lia)) as H. cbv zeta in H.
  destruct (process_ticks zero tick size 0 x inb out) as [x' o]. cbn [fst snd] in *.
  destruct H as (H1 & H2 & H3 & H4). split; [|auto]. unfold frames. rewrite H1, H3. now destruct (ticks tick x _).
Qed.
