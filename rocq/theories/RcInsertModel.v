(** Insertion of reference counting operations.
    Models crates/tribute-passes/src/native/rc_insertion.rs:85-93 and 1190-1480, after the analyses of RcLiveModel.

    The inserted [retain] has a result that nothing uses; it is left out, and so are the sizes on [release]. *)
From Verif Require Export RcLiveModel.

(** [RcBorrowInfo] and the consumed parameters, rc_insertion.rs:169-183, 803-818: borrowed parameters, borrowed
    temporaries, parameters that the caller hands over. *)
Record borrows := mkBorrows { w_params : list nat; w_temps : list nat; w_consumed : list nat }.

(** [is_terminator_op], rc_insertion.rs:85-93. *)
Definition is_terminator (o : nop) : bool :=
  match o_kind o with
  | KReturn | KJump | KBrif | KTrap | KReturnCall | KReturnCallIndirect | KBrTable => true
  | _ => false
  end.

Definition retain (v : nat) : nop := mkNop KRetain [v] [] [] None.
Definition release (v : nat) : nop := mkNop KRelease [v] [] [] None.

Section Block.
  Variables (f : nfunc) (i : info) (w : borrows) (lv : live).
  (** The order in which values that die at the same place are released: a hash set sorted by a key that is the
      same for all values defined in other blocks. *)
  Variable order : list nat -> list nat.
  Variable b : nat.

  Definition ops := b_ops (blk f b).

  (** [last_use_in_block], rc_insertion.rs:1208-1222: later entries replace earlier ones. *)
  Fixpoint last_use_from (k : nat) (os : list nop) (v : nat) : option nat :=
    match os with
    | [] => None
    | o :: os => match last_use_from (S k) os v with
                 | Some j => Some j
                 | None => if has v (flat_map (refers i) (o_args o)) then Some k else None
                 end
    end.
  Definition last_use (v : nat) : option nat := last_use_from 0 ops v.

  (** What an operand stands for, without owners. *)
  Definition named (x : nat) : list nat :=
    (if has x (i_ptrs i) then [x] else []) ++ match aget (i_alias i) x with Some r => [r] | None => [] end.

  (** [returned_values], rc_insertion.rs:1225-1237. *)
  Definition returned : list nat :=
    match rev ops with
    | o :: _ => match o_kind o with KReturn => flat_map named (o_args o) | _ => [] end
    | [] => []
    end.

  (** Arguments of a call with a contract and what happens to them, rc_insertion.rs:1243-1249. *)
  Definition contract_args (o : nop) (c : contract) : list (nat * action) :=
    combine (if k_indirect c then tl (o_args o) else o_args o) (k_actions c).
  Definition is_transfer (a : action) : bool := match a with Transfer => true | _ => false end.
  Definition is_acquire (a : action) : bool := match a with Acquire => true | _ => false end.
  Definition owned_name (x : nat) : nat := match aget (i_alias i) x with Some r => r | None => x end.

  (** Arguments transferred by a tail call, rc_insertion.rs:1251-1263. *)
  Definition transfers (o : nop) : list nat :=
    match o_contract o with
    | Some c => if k_tail c then map fst (filter (fun p => is_transfer (snd p)) (contract_args o c)) else []
    | None => []
    end.
  Definition transferred : list nat := flat_map (fun o => flat_map (fun x => [x; owned_name x]) (transfers o)) ops.

  (** The groups of equal owners with their first argument and their number, rc_insertion.rs:1258-1262.
      (A hash map; the order of the groups is that of their first arguments here.) *)
  Fixpoint group (xs : list nat) (gs : list (nat * (nat * nat))) : list (nat * (nat * nat)) :=
    match xs with
    | [] => gs
    | x :: xs =>
        let bump := fix bump gs := match gs with
          | [] => [(owned_name x, (x, 1))]
          | (r, (y, n)) :: gs => if r =? owned_name x then (r, (y, S n)) :: gs else (r, (y, n)) :: bump gs
          end in
        group xs (bump gs)
    end.
  Definition borrowed (v : nat) : bool := has v (w_params w) || has v (w_temps w).
  (** Retains before a call with a contract, rc_insertion.rs:1250-1287. *)
  Definition contract_retains (o : nop) : list nat :=
    match o_contract o with
    | None => []
    | Some c =>
        if k_tail c then
          flat_map (fun g => match g with (r, (x, n)) =>
                               repeat x (if borrowed r || borrowed x then n else n - 1) end) (group (transfers o) [])
        else map fst (filter (fun p => is_acquire (snd p)) (contract_args o c))
    end.

  (** Retain before a store, after a load, rc_insertion.rs:1306-1343. *)
  Definition store_retains (o : nop) : list nat :=
    match o_kind o with
    | KStore => match o_args o with
                | x :: _ => if f_anyref f x && negb (is_static f x) then [x] else []
                | [] => []
                end
    | _ => []
    end.
  Definition load_retains (o : nop) : list nat :=
    match o_kind o with
    | KLoad => match o_results o with
               | r :: _ => if f_anyref f r && negb (has r (w_temps w)) then [r] else []
               | [] => []
               end
    | _ => []
    end.
  (** Retains at the start of the entry block, rc_insertion.rs:1291-1303. *)
  Definition entry_retains : list nat :=
    if b =? 0 then filter (fun v => f_anyref f v && negb (has v (w_params w)) && negb (has v (w_consumed w))) (b_args (blk f b))
    else [].

  (** [dying_values], rc_insertion.rs:1348-1371. *)
  Definition dies (v : nat) : bool :=
    negb (has v (l_out lv b)) && negb (has v returned) && negb (has v transferred) && negb (borrowed v).
  Definition dying : list nat :=
    nodup Nat.eq_dec (filter dies (l_in lv b) ++
                      filter (fun v => dies v && negb (is_alloc_intermediate f v)) (snd (use_def f i (blk f b)))).

  (** Where a dying value is released, rc_insertion.rs:1382-1437. *)
  Inductive place := AtStart | Before (k : nat) | After (k : nat) | Nowhere.
  Fixpoint position_of (k : nat) (os : list nop) (v : nat) : option nat :=
    match os with
    | [] => None
    | o :: os => if has v (o_results o) then Some k else position_of (S k) os v
    end.
  Definition placement (v : nat) : place :=
    match last_use v with
    | Some k =>
        match nth_error ops k with
        | Some o => match o_kind o with
                    | KReturn | KJump => Nowhere
                    | _ => if is_terminator o then Before k else After k
                    end
        | None => Nowhere
        end
    | None =>
        if has v (l_in lv b) then AtStart
        else match def_op f v with
             | Some _ => match position_of 0 ops v with Some k => After k | None => Nowhere end
             | None => AtStart
             end
    end.
  Definition place_eqb (p q : place) : bool :=
    match p, q with
    | AtStart, AtStart | Nowhere, Nowhere => true
    | Before j, Before k | After j, After k => j =? k
    | _, _ => false
    end.
  Definition releases (p : place) : list nat := filter (fun v => place_eqb (placement v) p) (order dying).

  (** [apply_insertion_plan], rc_insertion.rs:1446-1480. *)
  Definition around (k : nat) (o : nop) : list nop :=
    map retain (contract_retains o ++ store_retains o) ++ map release (releases (Before k)) ++
    [o] ++ map retain (load_retains o) ++ map release (releases (After k)).
  Fixpoint around_all (k : nat) (os : list nop) : list nop :=
    match os with
    | [] => []
    | o :: os => around k o ++ around_all (S k) os
    end.
  Definition insert_block : list nop :=
    map retain entry_retains ++ map release (releases AtStart) ++ around_all 0 ops.
End Block.
