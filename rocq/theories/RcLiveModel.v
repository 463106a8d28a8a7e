(** The native IR as the reference counting passes see it, and the liveness analysis of RC insertion.
    Models crates/tribute-passes/src/native/rc_insertion.rs:72-390 and 1084-1097.

    Values and blocks are numbers; block [n] is the [n]-th of the function.  Hash maps and sets are
    functions and lists. *)
From Coq Require Export List ZArith.
From Verif Require Export Base.

(** Operation kinds the passes tell apart.  [KAlloc] is [clif.call @__tribute_alloc]. *)
Inductive kind :=
| KLoad | KStore | KCall | KAlloc | KIadd | KIcmp | KIconst (z : Z) | KSymbolAddr | KCast
| KReturn | KJump | KBrif | KBrTable | KTrap | KReturnCall | KReturnCallIndirect
| KRetain | KRelease | KOther.

(** A trusted call contract, ownership_summary.rs: what happens to each argument. *)
Inductive action := Borrow | Acquire | Transfer.
Record contract := mkContract { k_tail : bool; k_indirect : bool; k_actions : list action }.

Record nop := mkNop { o_kind : kind; o_args : list nat; o_results : list nat; o_succs : list nat;
                      o_contract : option contract }.
Record nblock := mkNblock { b_args : list nat; b_ops : list nop }.
(** [f_anyref]: the value's type is [tribute_rt.anyref]; [f_int]: it is [core.i64] or [core.i32]. *)
Record nfunc := mkNfunc { f_blocks : list nblock; f_anyref : nat -> bool; f_int : nat -> bool }.

Definition has (v : nat) (s : list nat) : bool := existsb (Nat.eqb v) s.
Definition subset (s t : list nat) : bool := forallb (fun v => has v t) s.
Definition same_set (s t : list nat) : bool := subset s t && subset t s.

Definition f_ops (f : nfunc) : list nop := flat_map b_ops (f_blocks f).
(** [ctx.value_def]: the defining operation, none for block arguments. *)
Definition def_op (f : nfunc) (v : nat) : option nop := find (fun o => has v (o_results o)) (f_ops f).

(** [is_static_ptr], rc_insertion.rs:94-113. *)
Definition is_static (f : nfunc) (v : nat) : bool :=
  match def_op f v with
  | None => false
  | Some o => match o_kind o with
              | KSymbolAddr => true
              | KIconst z => f_anyref f v && (z =? 0)%Z
              | _ => false
              end
  end.

(** [is_alloc_intermediate], rc_insertion.rs:116-137. *)
Definition is_alloc_intermediate (f : nfunc) (v : nat) : bool :=
  match def_op f v with
  | None => false
  | Some o => match o_kind o with
              | KAlloc => true
              | KIadd => match o_args o with
                         | lhs :: _ => match def_op f lhs with
                                       | Some o' => match o_kind o' with KAlloc => true | _ => false end
                                       | None => false
                                       end
                         | [] => false
                         end
              | _ => false
              end
  end.

(** [collect_ptr_values], rc_insertion.rs:185-222. *)
Definition collect_ptr_values (f : nfunc) : list nat :=
  let managed v := f_anyref f v && negb (is_static f v) in
  flat_map (fun b => filter (f_anyref f) (b_args b) ++ flat_map (fun o => filter managed (o_results o)) (b_ops b)) (f_blocks f)
  ++ flat_map (fun o => filter managed (o_args o)) (f_ops f).

Definition aget (m : list (nat * nat)) (v : nat) : option nat :=
  match find (fun p => fst p =? v) m with Some p => Some (snd p) | None => None end.

(** [build_ptr_alias_map], rc_insertion.rs:225-260: one step of its loop, and the loop. *)
Definition alias_step (f : nfunc) (st : list (nat * nat) * list nat) (o : nop) : list (nat * nat) * list nat :=
  let (aliases, ptrs) := st in
  match o_kind o with
  | KCast =>
      match o_args o with
      | input :: _ =>
          match (if has input ptrs then Some input else aget aliases input) with
          | Some root =>
              match o_results o with
              | output :: _ =>
                  if f_int f output then st
                  else ((output, root) :: aliases, filter (fun v => negb (v =? output)) ptrs)
              | [] => st
              end
          | None => st
          end
      | [] => st
      end
  | _ => st
  end.
Definition build_alias_map (f : nfunc) (ptrs : list nat) : list (nat * nat) * list nat :=
  fold_left (alias_step f) (f_ops f) ([], ptrs).

(** [record_lifetime_dependencies], rc_insertion.rs:1084-1097: the owners of a borrowed temporary.
    [fuel] bounds the chain, which stops at a repetition. *)
Fixpoint owners (fuel : nat) (deps : nat -> option nat) (visited : list nat) (v : nat) : list nat :=
  match fuel with
  | O => []
  | S fuel => match deps v with
              | None => []
              | Some w => if has w visited then [] else w :: owners fuel deps (w :: visited) w
              end
  end.

(** What the analysis works with. *)
Record info := mkInfo { i_ptrs : list nat; i_alias : list (nat * nat); i_deps : nat -> option nat; i_fuel : nat }.

(** The order of the analyses, [insert_rc_for_function], rc_insertion.rs:776-800. *)
Definition analyse (f : nfunc) (deps : nat -> option nat) (fuel : nat) : info :=
  let (al, ps) := build_alias_map f (collect_ptr_values f) in mkInfo ps al deps fuel.

(** The managed values an operand refers to. *)
Definition refers (i : info) (x : nat) : list nat :=
  (if has x (i_ptrs i) then [x] else []) ++
  match aget (i_alias i) x with Some r => [r] | None => [] end ++
  owners (i_fuel i) (i_deps i) [] x.

Definition arg_defs (f : nfunc) (b : nblock) : list nat := filter (f_anyref f) (b_args b).
Definition op_defs (f : nfunc) (i : info) (o : nop) : list nat :=
  filter (fun r => f_anyref f r && negb (is_static f r) && has r (i_ptrs i)) (o_results o).

(** [compute_use_def_sets], rc_insertion.rs:281-333. *)
Definition use_def_step (f : nfunc) (i : info) (st : list nat * list nat) (o : nop) : list nat * list nat :=
  let (uses, defs) := st in
  (uses ++ filter (fun v => negb (has v defs)) (flat_map (refers i) (o_args o)), defs ++ op_defs f i o).
Definition use_def (f : nfunc) (i : info) (b : nblock) : list nat * list nat :=
  fold_left (use_def_step f i) (b_ops b) ([], arg_defs f b).

(** [build_successor_map], rc_insertion.rs:263-278. *)
Definition successors (b : nblock) : list nat :=
  match rev (b_ops b) with
  | o :: _ => o_succs o
  | [] => []
  end.

(** [compute_liveness], rc_insertion.rs:336-399. *)
Record live := mkLive { l_in : nat -> list nat; l_out : nat -> list nat }.
Definition put (m : nat -> list nat) (b : nat) (s : list nat) : nat -> list nat :=
  fun x => if x =? b then s else m x.

Definition blk (f : nfunc) (b : nat) : nblock := nth b (f_blocks f) (mkNblock [] []).
Definition visit (f : nfunc) (i : info) (st : live * bool) (b : nat) : live * bool :=
  let (l, changed) := st in
  let new_out := flat_map (l_in l) (successors (blk f b)) in
  let (use_b, def_b) := use_def f i (blk f b) in
  let new_in := use_b ++ filter (fun v => negb (has v def_b)) new_out in
  let c1 := negb (same_set new_in (l_in l b)) in
  let c2 := negb (same_set new_out (l_out l b)) in
  (mkLive (if c1 then put (l_in l) b new_in else l_in l) (if c2 then put (l_out l) b new_out else l_out l),
   changed || c1 || c2).
Definition round (f : nfunc) (i : info) (l : live) : live * bool :=
  fold_left (visit f i) (rev (seq 0 (List.length (f_blocks f)))) (l, false).
Fixpoint iterate (fuel : nat) (f : nfunc) (i : info) (l : live) : option live :=
  match fuel with
  | O => None
  | S fuel => let (l', changed) := round f i l in if changed then iterate fuel f i l' else Some l'
  end.
Definition compute_liveness (fuel : nat) (f : nfunc) (i : info) : option live :=
  iterate fuel f i (mkLive (fun _ => []) (fun _ => [])).
