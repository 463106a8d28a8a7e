(** What balanced reference counting means: a machine that keeps, for every reference, how many counts the
    running function holds. *)
From Verif Require Export RcLiveSpec RcInsertModel.

(** [hold v]: counts on the object of [v] that the function holds under that name.  [lent]: references just loaded
    from memory, valid until anything but a retain happens. *)
Record counts := mkCounts { hold : nat -> nat; lent : list nat }.

Section Machine.
  Variables (f : nfunc) (i : info).
  (** References that stay valid throughout: those of the caller. *)
  Variable always : list nat.

  Definition alive (st : counts) (v : nat) : bool := (0 <? hold st v) || has v always.
  (** A reference may be used if it is alive, just loaded, or kept alive by an owner. *)
  Definition usable (st : counts) (v : nat) : bool :=
    alive st v || has v (lent st) || existsb (alive st) (owners (i_fuel i) (i_deps i) [] v).

  (** The references an operation uses. *)
  Definition uses_of_op (o : nop) : list nat := flat_map (named i) (o_args o).
  (** What a jump hands to the arguments of its target: the reference and the argument. *)
  Definition hands_over (o : nop) : list (nat * nat) :=
    match o_kind o, o_succs o with
    | KJump, [s] => flat_map (fun p => if f_anyref f (snd p) then map (fun v => (v, snd p)) (named i (fst p)) else [])
                             (combine (o_args o) (b_args (blk f s)))
    | _, _ => []
    end.
  (** The counts an operation takes from the function: a store of a reference and a call that acquires or receives
      its argument take one each; so do [return], for the results, and [jump]. *)
  Definition takes_counts (o : nop) : list nat :=
    match o_kind o with
    | KRelease => uses_of_op o
    | KStore => match o_args o with x :: _ => if f_anyref f x && negb (is_static f x) then named i x else [] | [] => [] end
    | KReturn => uses_of_op o
    | KJump => map fst (hands_over o)
    | _ => match o_contract o with
           | Some c => flat_map (fun p => match snd p with Borrow => [] | _ => named i (fst p) end) (contract_args o c)
           | None => []
           end
    end.
  (** The counts it gives: new references, except those just loaded. *)
  Definition gives_counts (o : nop) : list nat :=
    match o_kind o with
    | KRetain => uses_of_op o
    | KLoad => []
    | _ => op_defs f i o
    end.
  Definition count (v : nat) (l : list nat) : nat := count_occ Nat.eq_dec l v.

  (** One operation; [None] is a use of a dead reference or a count that is not there. *)
  Definition act (o : nop) (st : counts) : option counts :=
    if forallb (usable st) (uses_of_op o) && forallb (fun v => count v (takes_counts o) <=? hold st v) (takes_counts o) then
      Some (mkCounts (fun v => hold st v - count v (takes_counts o) + count v (gives_counts o))
                     (match o_kind o with KRetain => lent st | KLoad => op_defs f i o | _ => [] end))
    else None.
  Fixpoint run (os : list nop) (st : counts) : option counts :=
    match os with
    | [] => Some st
    | o :: os => match act o st with Some st => run os st | None => None end
    end.

  (** A function that is over holds nothing. *)
  Definition leaves (o : nop) : bool := match o_kind o with KReturn | KReturnCall | KReturnCallIndirect => true | _ => false end.
  Definition enter (o : nop) (st : counts) : counts :=
    mkCounts (fun v => hold st v + count v (map snd (hands_over o))) [].

  (** Running [code] from block [b] goes well for [n] blocks, whichever way the branches go. *)
  Fixpoint balanced (code : nat -> list nop) (n : nat) (b : nat) (st : counts) : Prop :=
    match n with
    | O => True
    | S n => exists st', run (code b) st = Some st' /\
        forall o, nth_error (rev (code b)) 0 = Some o ->
          (leaves o = true -> forall v, hold st' v = 0) /\
          forall s, In s (o_succs o) -> balanced code n s (enter o st')
    end.
End Machine.

(** The start of a function: it holds the parameters that it consumes, the caller holds the others. *)
Definition parameters (f : nfunc) : list nat := filter (f_anyref f) (b_args (blk f 0)).
Definition callers (f : nfunc) (w : borrows) : list nat := filter (fun v => negb (has v (w_consumed w))) (parameters f).
Definition at_entry (f : nfunc) (w : borrows) : counts :=
  mkCounts (fun v => if has v (parameters f) && has v (w_consumed w) then 1 else 0) [].

(** ** The functions on which insertion is right *)
Section Insertable.
  Variables (f : nfunc) (i : info) (w : borrows) (lv : live).
  Definition owned (v : nat) : Prop := In v (i_ptrs i) /\ ~ In v (w_params w) /\ ~ In v (w_temps w).

  (** An operation inside a block.  A call with a contract only acquires or borrows. *)
  Record inner (o : nop) : Prop := {
    in_kind : is_terminator o = false /\ o_kind o <> KRetain /\ o_kind o <> KRelease;
    in_contract : forall c, o_contract o = Some c -> (o_kind o = KCall \/ o_kind o = KOther) /\ k_tail c = false /\
      forall p, In p (contract_args o c) -> snd p <> Transfer /\ (snd p = Acquire -> named i (fst p) <> []);
    in_load : o_kind o = KLoad -> List.length (o_results o) <= 1;
    (* borrowed temporaries are loaded *)
    in_temps : forall v, In v (op_defs f i o) -> In v (w_temps w) -> o_kind o = KLoad
  }.
  (** The operands of a return or jump: each reference once, held by the function. *)
  Definition gives_up (o : nop) : Prop :=
    NoDup (flat_map (named i) (o_args o)) /\
    forall x, In x (o_args o) -> i_deps i x = None /\ forall v, In v (named i x) -> owned v.
  (** The last operation of block [b]. *)
  Record final (b : nat) (o : nop) : Prop := {
    fin_results : o_results o = [];
    fin_kind : match o_kind o with
      | KReturn => o_contract o = None /\ o_succs o = [] /\ gives_up o
      | KJump => o_contract o = None /\ gives_up o /\
          (* what is passed on is not needed later, and every reference is passed to a reference argument *)
          (forall v, In v (flat_map (named i) (o_args o)) -> ~ In v (l_out lv b)) /\
          map fst (hands_over f i o) = flat_map (named i) (o_args o) /\
          (forall s, In s (o_succs o) -> map snd (hands_over f i o) = arg_defs f (blk f s))
      | KBrif | KBrTable => o_contract o = None /\ flat_map (refers i) (o_args o) = [] /\
          (forall s, In s (o_succs o) -> arg_defs f (blk f s) = [])
      | KTrap => o_contract o = None /\ flat_map (refers i) (o_args o) = [] /\ o_succs o = []
      | KReturnCall | KReturnCallIndirect => o_succs o = [] /\
          match o_contract o with
          | None => incl (flat_map (refers i) (o_args o)) (callers f w)
          | Some c => k_tail c = true /\ (forall p, In p (contract_args o c) -> snd p <> Acquire) /\
              (forall x, In x (transfers o) -> named i x <> []) /\
              (forall x, In x (o_args o) -> named i x <> [] -> In x (transfers o))
          end
      | _ => False
      end
  }.
  Record insertable : Prop := {
    ok_blocks : forall b, b < List.length (f_blocks f) -> exists body last,
      b_ops (blk f b) = body ++ [last] /\ Forall inner body /\ final b last;
    ok_targets : forall b s, b < List.length (f_blocks f) -> In s (successors (blk f b)) -> 0 < s < List.length (f_blocks f);
    (* definitions come before uses *)
    ok_entry : forall v, ~ In v (l_in lv 0);
    ok_defs : forall b v o, b < List.length (f_blocks f) -> In o (b_ops (blk f b)) -> In v (op_defs f i o) -> ~ In v (l_in lv b);
    (* no reference is needed on one branch only *)
    ok_edges : forall b s v, b < List.length (f_blocks f) -> In s (successors (blk f b)) -> owned v -> In v (l_out lv b) -> In v (l_in lv s);
    (* allocated blocks are not references before their header is written *)
    ok_alloc : forall v, In v (i_ptrs i) -> is_alloc_intermediate f v = false;
    (* only references own temporaries *)
    ok_owners : forall x u, i_deps i x = Some u -> In u (i_ptrs i);
    (* borrowed parameters are parameters, borrowed temporaries have a lasting owner *)
    ok_params : incl (w_params w) (callers f w);
    ok_temps : forall v, In v (w_temps w) -> In v (i_ptrs i) /\ (forall b, ~ In v (arg_defs f (blk f b))) /\
      (exists u, In u (owners (i_fuel i) (i_deps i) [] v) /\ In u (i_ptrs i) /\ ~ In u (w_temps w)) /\
      forall x, In v (named i x) -> i_deps i x = i_deps i v
  }.
End Insertable.
