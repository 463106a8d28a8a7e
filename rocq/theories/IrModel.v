(** The IR arena and its mutators.  crates/trunk-ir/src/context.rs, walk.rs.

    Handles are indices into the arenas.  Per-value use lists, per-operation
    result lists and per-block argument lists (SecondaryMaps, defaulting to
    empty) are functions.  Locations are dropped; dialect, name and attributes of
    an operation are one opaque number; types are numbers.  Every mutator returns
    [None] where the code panics (failed assertion, index out of range).
    Pool-allocated entity lists are plain lists (the pools only share storage).
    The escape hatches op_mut/block_mut/region_mut are not modelled. *)
From Verif Require Export Base.

Definition use := (nat * nat)%type.  (* user operation, operand index: context.rs:25-28 *)

(** context.rs:35-45 *)
Record op := { o_kind : nat; o_operands : list nat; o_result_types : list nat;
               o_regions : list nat; o_succs : list nat; o_parent : option nat }.
(** refs.rs ValueDef *)
Inductive vdef := OpResult (o i : nat) | BlockArg (b i : nat).
(** context.rs:66-71 *)
Record blk := { b_arg_types : list nat; b_ops : list nat; b_parent : option nat }.
(** context.rs:74-78 *)
Record rgn := { r_blocks : list nat; r_parent : option nat }.
(** context.rs:88-121 *)
Record ctx := { ops : list op; vals : list vdef; blocks : list blk; regions : list rgn;
                uses : nat -> list use; op_results : nat -> list nat; block_args : nat -> list nat }.
(** context.rs:124-141 *)
Definition empty_ctx : ctx :=
  {| ops := []; vals := []; blocks := []; regions := [];
     uses := fun _ => []; op_results := fun _ => []; block_args := fun _ => [] |}.

Definition upd {A} (l : list A) (i : nat) (f : A -> A) : list A :=
  match nth_error l i with
  | Some x => firstn i l ++ f x :: skipn (S i) l
  | None => l
  end.
Definition fupd {A} (m : nat -> A) (k : nat) (v : A) : nat -> A := fun j => if Nat.eqb j k then v else m j.

Definition set_ops (c : ctx) x := {| ops := x; vals := vals c; blocks := blocks c; regions := regions c; uses := uses c; op_results := op_results c; block_args := block_args c |}.
Definition set_vals (c : ctx) x := {| ops := ops c; vals := x; blocks := blocks c; regions := regions c; uses := uses c; op_results := op_results c; block_args := block_args c |}.
Definition set_blocks (c : ctx) x := {| ops := ops c; vals := vals c; blocks := x; regions := regions c; uses := uses c; op_results := op_results c; block_args := block_args c |}.
Definition set_regions (c : ctx) x := {| ops := ops c; vals := vals c; blocks := blocks c; regions := x; uses := uses c; op_results := op_results c; block_args := block_args c |}.
Definition set_uses (c : ctx) x := {| ops := ops c; vals := vals c; blocks := blocks c; regions := regions c; uses := x; op_results := op_results c; block_args := block_args c |}.
Definition set_op_results (c : ctx) x := {| ops := ops c; vals := vals c; blocks := blocks c; regions := regions c; uses := uses c; op_results := x; block_args := block_args c |}.
Definition set_block_args (c : ctx) x := {| ops := ops c; vals := vals c; blocks := blocks c; regions := regions c; uses := uses c; op_results := op_results c; block_args := x |}.

Definition set_operands (o : op) (l : list nat) : op :=
  {| o_kind := o_kind o; o_operands := l; o_result_types := o_result_types o; o_regions := o_regions o; o_succs := o_succs o; o_parent := o_parent o |}.
Definition set_parent (o : op) (p : option nat) : op :=
  {| o_kind := o_kind o; o_operands := o_operands o; o_result_types := o_result_types o; o_regions := o_regions o; o_succs := o_succs o; o_parent := p |}.
Definition set_result_types (o : op) (l : list nat) : op :=
  {| o_kind := o_kind o; o_operands := o_operands o; o_result_types := l; o_regions := o_regions o; o_succs := o_succs o; o_parent := o_parent o |}.
Definition set_oregions (o : op) (l : list nat) : op :=
  {| o_kind := o_kind o; o_operands := o_operands o; o_result_types := o_result_types o; o_regions := l; o_succs := o_succs o; o_parent := o_parent o |}.
Definition set_bops (b : blk) (l : list nat) : blk := {| b_arg_types := b_arg_types b; b_ops := l; b_parent := b_parent b |}.
Definition set_bargs (b : blk) (l : list nat) : blk := {| b_arg_types := l; b_ops := b_ops b; b_parent := b_parent b |}.
Definition set_bparent (b : blk) (p : option nat) : blk := {| b_arg_types := b_arg_types b; b_ops := b_ops b; b_parent := p |}.
Definition set_rparent (r : rgn) (p : option nat) : rgn := {| r_blocks := r_blocks r; r_parent := p |}.

Definition is_use (o i : nat) (u : use) : bool := Nat.eqb (fst u) o && Nat.eqb (snd u) i.
(** [uses[v].retain(|u| !(u.user == o && u.operand_index == i))] *)
Definition drop_use (u : nat -> list use) (v o i : nat) : nat -> list use :=
  fupd u v (filter (fun x => negb (is_use o i x)) (u v)).
Definition push_use (u : nat -> list use) (v o i : nat) : nat -> list use := fupd u v (u v ++ [(o, i)]).

(** context.rs:258-267: back-link owned regions, refusing one that has a parent. *)
Fixpoint link_regions (c : ctx) (o : nat) (rs : list nat) : option ctx :=
  match rs with
  | [] => Some c
  | r :: rest =>
      match nth_error (regions c) r with
      | Some rd =>
          match r_parent rd with
          | Some _ => None
          | None => link_regions (set_regions c (upd (regions c) r (fun x => set_rparent x (Some o)))) o rest
          end
      | None => None
      end
  end.
(** context.rs:270-275 *)
Fixpoint push_uses (u : nat -> list use) (o idx : nat) (vs : list nat) : nat -> list use :=
  match vs with
  | [] => u
  | v :: rest => push_uses (push_use u v o idx) o (S idx) rest
  end.

(** context.rs:237-286 create_op, for data without a parent block (its assertion). *)
Definition create_op (c : ctx) (kind : nat) (operands rtypes rgns succs : list nat) : option (ctx * nat) :=
  let o := length (ops c) in
  let c1 := set_ops c (ops c ++ [{| o_kind := kind; o_operands := operands; o_result_types := rtypes;
                                    o_regions := rgns; o_succs := succs; o_parent := None |}]) in
  match link_regions c1 o rgns with
  | None => None
  | Some c2 =>
      let c3 := set_uses c2 (push_uses (uses c2) o 0 operands) in
      let n := length rtypes in
      let first := length (vals c3) in
      let c4 := set_vals c3 (vals c3 ++ map (OpResult o) (seq 0 n)) in
      Some (set_op_results c4 (fupd (op_results c4) o (seq first n)), o)
  end.

(** context.rs:315-326 set_op_operand *)
Definition set_op_operand (c : ctx) (o i v : nat) : option ctx :=
  match nth_error (ops c) o with
  | None => None
  | Some d =>
      match nth_error (o_operands d) i with
      | None => None
      | Some old =>
          if Nat.eqb old v then Some c
          else
            let c1 := set_uses c (drop_use (uses c) old o i) in
            let c2 := set_ops c1 (upd (ops c1) o (fun d => set_operands d (upd (o_operands d) i (fun _ => v)))) in
            Some (set_uses c2 (push_use (uses c2) v o i))
      end
  end.

(** context.rs:310-312 set_op_result_type *)
Definition set_op_result_type (c : ctx) (o i t : nat) : option ctx :=
  match nth_error (ops c) o with
  | None => None
  | Some d =>
      match nth_error (o_result_types d) i with
      | None => None
      | Some _ => Some (set_ops c (upd (ops c) o (fun x => set_result_types x (upd (o_result_types x) i (fun _ => t)))))
      end
  end.

(** context.rs:329-336 push_op_operand *)
Definition push_op_operand (c : ctx) (o v : nat) : option ctx :=
  match nth_error (ops c) o with
  | None => None
  | Some d =>
      let i := length (o_operands d) in
      let c1 := set_ops c (upd (ops c) o (fun d => set_operands d (o_operands d ++ [v]))) in
      Some (set_uses c1 (push_use (uses c1) v o i))
  end.

(** context.rs:353-358: the first matching entry is decremented. *)
Fixpoint dec_first (o i : nat) (l : list use) : list use :=
  match l with
  | [] => []
  | u :: r => if is_use o i u then (o, i - 1) :: r else u :: dec_first o i r
  end.
Fixpoint shift_uses (u : nat -> list use) (o idx : nat) (vs : list nat) : nat -> list use :=
  match vs with
  | [] => u
  | v :: rest => shift_uses (fupd u v (dec_first o idx (u v))) o (S idx) rest
  end.
(** context.rs:339-367 remove_op_operand *)
Definition remove_op_operand (c : ctx) (o i : nat) : option ctx :=
  match nth_error (ops c) o with
  | None => None
  | Some d =>
      match nth_error (o_operands d) i with
      | None => None
      | Some v =>
          let u1 := drop_use (uses c) v o i in
          let u2 := shift_uses u1 o (S i) (skipn (S i) (o_operands d)) in
          Some (set_ops (set_uses c u2)
                  (upd (ops c) o (fun d => set_operands d (firstn i (o_operands d) ++ skipn (S i) (o_operands d)))))
      end
  end.

(** ** Walks (walk.rs:22-60).  The callback threads a state and answers with an action. *)
Inductive action (B : Type) := Advance | Skip | Break (b : B).
Arguments Advance {B}.
Arguments Skip {B}.
Arguments Break {B} b.
Inductive wres (S B : Type) := Continued (s : S) | Broke (s : S) (b : B) | Stuck.
Arguments Continued {S B} s.
Arguments Broke {S B} s b.
Arguments Stuck {S B}.

(** The [for x in xs { walk(x)?; }] loop. *)
Fixpoint each {S B A} (w : S -> A -> wres S B) (s : S) (l : list A) : wres S B :=
  match l with
  | [] => Continued s
  | a :: r => match w s a with Continued s' => each w s' r | other => other end
  end.

(** walk_op / walk_region / walk_block; [Stuck] is a panic or (fuel) unbounded recursion. *)
Fixpoint walk_op {S B} (fuel : nat) (c : ctx) (f : S -> nat -> S * action B) (s : S) (o : nat) : wres S B :=
  match fuel with
  | O => Stuck
  | Datatypes.S n =>
      let '(s1, a) := f s o in
      match a with
      | Break b => Broke s1 b
      | Skip => Continued s1
      | Advance =>
          match nth_error (ops c) o with
          | None => Stuck
          | Some d =>
              each (fun s r =>
                match nth_error (regions c) r with
                | None => Stuck
                | Some rd =>
                    each (fun s b =>
                      match nth_error (blocks c) b with
                      | None => Stuck
                      | Some bd => each (walk_op n c f) s (b_ops bd)
                      end) s (r_blocks rd)
                end) s1 (o_regions d)
          end
      end
  end.

(** walk.rs:36-46 and 23-33: the entry points below an operation. *)
Definition walk_block {S B} (fuel : nat) (c : ctx) (f : S -> nat -> S * action B) (s : S) (b : nat) : wres S B :=
  match nth_error (blocks c) b with
  | None => Stuck
  | Some bd => each (walk_op fuel c f) s (b_ops bd)
  end.
Definition walk_region {S B} (fuel : nat) (c : ctx) (f : S -> nat -> S * action B) (s : S) (r : nat) : wres S B :=
  match nth_error (regions c) r with
  | None => Stuck
  | Some rd => each (walk_block fuel c f) s (r_blocks rd)
  end.

(** context.rs:435-441 clear_operand_uses_of *)
Fixpoint clear_uses (u : nat -> list use) (o idx : nat) (vs : list nat) : nat -> list use :=
  match vs with
  | [] => u
  | v :: rest => clear_uses (drop_use u v o idx) o (S idx) rest
  end.
Definition clear_operand_uses_of (c : ctx) (u : nat -> list use) (o : nat) : nat -> list use :=
  match nth_error (ops c) o with
  | Some d => clear_uses u o 0 (o_operands d)
  | None => u
  end.
(** context.rs:399-432 remove_op; also returns the disposed subtree. *)
Definition remove_op (fuel : nat) (c : ctx) (o : nat) : option (ctx * list nat) :=
  match nth_error (ops c) o with
  | None => None
  | Some d =>
      match o_parent d with
      | Some _ => None
      | None =>
          if forallb (fun v => match uses c v with [] => true | _ => false end) (op_results c o) then
            match walk_op (B := Empty_set) fuel c (fun l x => (l ++ [x], Advance)) [] o with
            | Continued subtree =>
                Some (set_uses c (fold_left (clear_operand_uses_of c) subtree (uses c)), subtree)
            | _ => None
            end
          else None
      end
  end.

(** context.rs:475-490 create_block, for a block without operations or parent. *)
Definition create_block (c : ctx) (argts : list nat) : ctx * nat :=
  let b := length (blocks c) in
  let n := length argts in
  let first := length (vals c) in
  let c1 := set_blocks c (blocks c ++ [{| b_arg_types := argts; b_ops := []; b_parent := None |}]) in
  let c2 := set_vals c1 (vals c1 ++ map (BlockArg b) (seq 0 n)) in
  (set_block_args c2 (fupd (block_args c2) b (seq first n)), b).

(** context.rs:513-521 add_block_arg *)
Definition add_block_arg (c : ctx) (b t : nat) : option (ctx * nat) :=
  match nth_error (blocks c) b with
  | None => None
  | Some bd =>
      let i := length (b_arg_types bd) in
      let v := length (vals c) in
      let c1 := set_blocks c (upd (blocks c) b (fun x => set_bargs x (b_arg_types x ++ [t]))) in
      let c2 := set_vals c1 (vals c1 ++ [BlockArg b i]) in
      Some (set_block_args c2 (fupd (block_args c2) b (block_args c2 b ++ [v])), v)
  end.

(** context.rs:533-539 *)
Definition bump (d : vdef) : vdef := match d with BlockArg b i => BlockArg b (S i) | d => d end.
(** context.rs:529-557 prepend_block_arg *)
Definition prepend_block_arg (c : ctx) (b t : nat) : option (ctx * nat) :=
  match nth_error (blocks c) b with
  | None => None
  | Some bd =>
      let existing := block_args c b in
      let c1 := set_vals c (fold_left (fun vs v => upd vs v bump) existing (vals c)) in
      let c2 := set_blocks c1 (upd (blocks c1) b (fun x => set_bargs x (t :: b_arg_types x))) in
      let v := length (vals c2) in
      let c3 := set_vals c2 (vals c2 ++ [BlockArg b 0]) in
      Some (set_block_args c3 (fupd (block_args c3) b (v :: existing)), v)
  end.

(** context.rs:560-562 set_block_arg_type *)
Definition set_block_arg_type (c : ctx) (b i t : nat) : option ctx :=
  match nth_error (blocks c) b with
  | None => None
  | Some bd =>
      match nth_error (b_arg_types bd) i with
      | None => None
      | Some _ => Some (set_blocks c (upd (blocks c) b (fun x => set_bargs x (upd (b_arg_types x) i (fun _ => t)))))
      end
  end.

(** context.rs:569-578 push_op *)
Definition push_op (c : ctx) (b o : nat) : option ctx :=
  match nth_error (ops c) o, nth_error (blocks c) b with
  | Some d, Some _ =>
      match o_parent d with
      | Some _ => None
      | None =>
          let c1 := set_ops c (upd (ops c) o (fun x => set_parent x (Some b))) in
          Some (set_blocks c1 (upd (blocks c1) b (fun x => set_bops x (b_ops x ++ [o]))))
      end
  | _, _ => None
  end.

Fixpoint position (x : nat) (l : list nat) : option nat :=
  match l with
  | [] => None
  | y :: r => if Nat.eqb y x then Some 0 else option_map S (position x r)
  end.
(** context.rs:586-600 insert_op_before *)
Definition insert_op_before (c : ctx) (b before o : nat) : option ctx :=
  match nth_error (ops c) o, nth_error (blocks c) b with
  | Some d, Some bd =>
      match o_parent d with
      | Some _ => None
      | None =>
          match position before (b_ops bd) with
          | None => None
          | Some p =>
              let c1 := set_blocks c (upd (blocks c) b (fun x => set_bops x (firstn p (b_ops x) ++ o :: skipn p (b_ops x)))) in
              Some (set_ops c1 (upd (ops c1) o (fun x => set_parent x (Some b))))
          end
      end
  | _, _ => None
  end.

(** context.rs:605-610 remove_op_from_block *)
Definition remove_op_from_block (c : ctx) (b o : nat) : option ctx :=
  match nth_error (ops c) o, nth_error (blocks c) b with
  | Some d, Some _ =>
      let c1 := set_blocks c (upd (blocks c) b (fun x => set_bops x (filter (fun y => negb (Nat.eqb y o)) (b_ops x)))) in
      Some (match o_parent d with
            | Some p => if Nat.eqb p b then set_ops c1 (upd (ops c1) o (fun x => set_parent x None)) else c1
            | None => c1
            end)
  | _, _ => None
  end.
(** context.rs:617-621 detach_op *)
Definition detach_op (c : ctx) (o : nat) : option ctx :=
  match nth_error (ops c) o with
  | None => None
  | Some d => match o_parent d with Some b => remove_op_from_block c b o | None => Some c end
  end.

(** context.rs:636-645 *)
Fixpoint link_blocks (c : ctx) (r : nat) (bs : list nat) : option ctx :=
  match bs with
  | [] => Some c
  | b :: rest =>
      match nth_error (blocks c) b with
      | Some bd =>
          match b_parent bd with
          | Some _ => None
          | None => link_blocks (set_blocks c (upd (blocks c) b (fun x => set_bparent x (Some r)))) r rest
          end
      | None => None
      end
  end.
(** context.rs:632-648 create_region, without a parent operation. *)
Definition create_region (c : ctx) (bs : list nat) : option (ctx * nat) :=
  let r := length (regions c) in
  match link_blocks (set_regions c (regions c ++ [{| r_blocks := bs; r_parent := None |}])) r bs with
  | Some c' => Some (c', r)
  | None => None
  end.
(** context.rs:655-659 detach_region *)
Definition detach_region (c : ctx) (r : nat) : option ctx :=
  match nth_error (regions c) r with
  | None => None
  | Some rd =>
      match r_parent rd with
      | None => Some c
      | Some p =>
          let c1 := set_regions c (upd (regions c) r (fun x => set_rparent x None)) in
          Some (set_ops c1 (upd (ops c1) p (fun x => set_oregions x (filter (fun y => negb (Nat.eqb y r)) (o_regions x)))))
      end
  end.

(** context.rs:831-851 replace_all_uses *)
Definition replace_one (new : nat) (c : ctx) (u : use) : ctx :=
  let c1 := set_ops c (upd (ops c) (fst u) (fun d => set_operands d (upd (o_operands d) (snd u) (fun _ => new)))) in
  set_uses c1 (push_use (uses c1) new (fst u) (snd u)).
Definition replace_all_uses (c : ctx) (old new : nat) : ctx :=
  if Nat.eqb old new then c
  else fold_left (replace_one new) (uses c old) (set_uses c (fupd (uses c) old [])).

(** context.rs:452-461 value_ty *)
Definition value_ty (c : ctx) (v : nat) : option nat :=
  match nth_error (vals c) v with
  | Some (OpResult o i) => match nth_error (ops c) o with Some d => nth_error (o_result_types d) i | None => None end
  | Some (BlockArg b i) => match nth_error (blocks c) b with Some d => nth_error (b_arg_types d) i | None => None end
  | None => None
  end.

(** ** Cloning.  ir_mapping.rs:16-81: maps with identity as the default. *)
Record mapping := { m_vals : nat -> option nat; m_blocks : nat -> option nat }.
Definition empty_mapping : mapping := {| m_vals := fun _ => None; m_blocks := fun _ => None |}.
Definition lookup_or (m : nat -> option nat) (x : nat) : nat := match m x with Some y => y | None => x end.
Fixpoint map_all (m : nat -> option nat) (kvs : list (nat * nat)) : nat -> option nat :=
  match kvs with [] => m | (k, v) :: r => map_all (fupd m k (Some v)) r end.

(** A loop threading a state and collecting one output per element. *)
Fixpoint thread {S A B} (f : S -> A -> option (S * B)) (s : S) (l : list A) : option (S * list B) :=
  match l with
  | [] => Some (s, [])
  | a :: r =>
      match f s a with
      | None => None
      | Some (s1, b) => match thread f s1 r with Some (s2, bs) => Some (s2, b :: bs) | None => None end
      end
  end.

(** context.rs:764-797: pass 1, one block header. *)
Definition clone_header (s : ctx * mapping) (b : nat) : option ((ctx * mapping) * nat) :=
  let '(c, m) := s in
  match nth_error (blocks c) b with
  | None => None
  | Some bd =>
      let '(c1, nb) := create_block c (b_arg_types bd) in
      Some ((c1, {| m_vals := map_all (m_vals m) (combine (block_args c b) (block_args c1 nb));
                    m_blocks := fupd (m_blocks m) b (Some nb) |}), nb)
  end.
(** context.rs:800-806: pass 2, one block. *)
Definition clone_body (cl : ctx * mapping -> nat -> option ((ctx * mapping) * nat))
    (s : ctx * mapping) (p : nat * nat) : option ((ctx * mapping) * unit) :=
  match nth_error (blocks (fst s)) (fst p) with
  | None => None
  | Some bd =>
      match thread (fun s o =>
              match cl s o with
              | None => None
              | Some ((c1, m1), o1) => match push_op c1 (snd p) o1 with Some c2 => Some ((c2, m1), tt) | None => None end
              end) s (b_ops bd) with
      | Some (s1, _) => Some (s1, tt)
      | None => None
      end
  end.
(** context.rs:758-812 clone_region, given the operation cloner. *)
Definition clone_region_with (cl : ctx * mapping -> nat -> option ((ctx * mapping) * nat))
    (s : ctx * mapping) (r : nat) : option ((ctx * mapping) * nat) :=
  match nth_error (regions (fst s)) r with
  | None => None
  | Some rd =>
      match thread clone_header s (r_blocks rd) with
      | None => None
      | Some (s1, nbs) =>
          match thread (clone_body cl) s1 (combine (r_blocks rd) nbs) with
          | None => None
          | Some ((c2, m2), _) =>
              match create_region c2 nbs with Some (c3, nr) => Some ((c3, m2), nr) | None => None end
          end
      end
  end.
(** context.rs:703-747 clone_op.  Fuel bounds the region nesting. *)
Fixpoint clone_op (fuel : nat) (s : ctx * mapping) (o : nat) : option ((ctx * mapping) * nat) :=
  match fuel with
  | O => None
  | S n =>
      match nth_error (ops (fst s)) o with
      | None => None
      | Some d =>
          let operands := map (lookup_or (m_vals (snd s))) (o_operands d) in
          match thread (clone_region_with (clone_op n)) s (o_regions d) with
          | None => None
          | Some ((c1, m1), rs) =>
              let succs := map (lookup_or (m_blocks m1)) (o_succs d) in
              match create_op c1 (o_kind d) operands (o_result_types d) rs succs with
              | None => None
              | Some (c2, no) =>
                  Some ((c2, {| m_vals := map_all (m_vals m1) (combine (op_results c2 o) (op_results c2 no));
                                m_blocks := m_blocks m1 |}), no)
              end
          end
      end
  end.
Definition clone_region (fuel : nat) : ctx * mapping -> nat -> option ((ctx * mapping) * nat) :=
  clone_region_with (clone_op fuel).

(** ** Histories: one constructor per mutator.  [Dispose] is remove_op. *)
Inductive cmd :=
| CreateOp (kind : nat) (operands rtypes rgns succs : list nat)
| SetOperand (o i v : nat)
| PushOperand (o v : nat)
| RemoveOperand (o i : nat)
| Dispose (fuel o : nat)
| CreateBlock (argts : list nat)
| AddArg (b t : nat)
| PrependArg (b t : nat)
| PushOp (b o : nat)
| InsertBefore (b before o : nat)
| RemoveFromBlock (b o : nat)
| Detach (o : nat)
| CreateRegion (bs : list nat)
| DetachRegion (r : nat)
| ReplaceAll (old new : nat)
| SetResultType (o i t : nat)
| SetArgType (b i t : nat)
| CloneOp (fuel : nat) (m : mapping) (o : nat)
| CloneRegion (fuel : nat) (m : mapping) (r : nat).

(** A context together with the operations disposed of so far.  [None]: the
    command panicked, or it edits the operands of a disposed operation (use after
    dispose, outside the API contract). *)
Definition exec (s : ctx * list nat) (x : cmd) : option (ctx * list nat) :=
  let '(c, dead) := s in
  let keep r := match r with Some c' => Some (c', dead) | None => None end in
  let live o k := if existsb (Nat.eqb o) dead then None else k in
  match x with
  | CreateOp k vs ts rs ss => match create_op c k vs ts rs ss with Some (c', _) => Some (c', dead) | None => None end
  | SetOperand o i v => live o (keep (set_op_operand c o i v))
  | PushOperand o v => live o (keep (push_op_operand c o v))
  | RemoveOperand o i => live o (keep (remove_op_operand c o i))
  | Dispose f o => match remove_op f c o with Some (c', sub) => Some (c', dead ++ sub) | None => None end
  | CreateBlock ts => Some (fst (create_block c ts), dead)
  | AddArg b t => match add_block_arg c b t with Some (c', _) => Some (c', dead) | None => None end
  | PrependArg b t => match prepend_block_arg c b t with Some (c', _) => Some (c', dead) | None => None end
  | PushOp b o => keep (push_op c b o)
  | InsertBefore b p o => keep (insert_op_before c b p o)
  | RemoveFromBlock b o => keep (remove_op_from_block c b o)
  | Detach o => keep (detach_op c o)
  | CreateRegion bs => match create_region c bs with Some (c', _) => Some (c', dead) | None => None end
  | DetachRegion r => keep (detach_region c r)
  | ReplaceAll a b => Some (replace_all_uses c a b, dead)
  | SetResultType o i t => keep (set_op_result_type c o i t)
  | SetArgType b i t => keep (set_block_arg_type c b i t)
  | CloneOp f m o => match clone_op f (c, m) o with Some ((c', _), _) => Some (c', dead) | None => None end
  | CloneRegion f m r => match clone_region f (c, m) r with Some ((c', _), _) => Some (c', dead) | None => None end
  end.
Fixpoint exec_all (s : ctx * list nat) (xs : list cmd) : option (ctx * list nat) :=
  match xs with
  | [] => Some s
  | x :: r => match exec s x with Some s' => exec_all s' r | None => None end
  end.
