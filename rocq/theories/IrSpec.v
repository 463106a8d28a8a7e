(** What a consistent IR arena is, stated over what the accessors return. *)
From Verif Require Import Base IrModel.

(** Operation [o] reads value [v] at operand position [i]. *)
Definition reads (c : ctx) (o i v : nat) : Prop :=
  exists d, nth_error (ops c) o = Some d /\ nth_error (o_operands d) i = Some v.

(** C15: each value's use list names exactly the operand positions of
    undisposed operations that read it, each once. *)
Definition uses_exact (c : ctx) (dead : list nat) : Prop :=
  forall v, NoDup (uses c v) /\
    forall o i, In (o, i) (uses c v) <-> (~ In o dead /\ reads c o i v).

(** C17: an operation names a block as its parent exactly when that block lists
    it, and no block lists an operation twice.  Likewise blocks in regions and
    regions in operations. *)
Definition op_in (c : ctx) (o b : nat) : Prop := exists d, nth_error (blocks c) b = Some d /\ In o (b_ops d).
Definition op_parent (c : ctx) (o b : nat) : Prop := exists d, nth_error (ops c) o = Some d /\ o_parent d = Some b.
Definition block_in (c : ctx) (b r : nat) : Prop := exists d, nth_error (regions c) r = Some d /\ In b (r_blocks d).
Definition block_parent (c : ctx) (b r : nat) : Prop := exists d, nth_error (blocks c) b = Some d /\ b_parent d = Some r.
Definition region_in (c : ctx) (r o : nat) : Prop := exists d, nth_error (ops c) o = Some d /\ In r (o_regions d).
Definition region_parent (c : ctx) (r o : nat) : Prop := exists d, nth_error (regions c) r = Some d /\ r_parent d = Some o.

Record placed (c : ctx) : Prop := {
  pl_op : forall o b, op_in c o b <-> op_parent c o b;
  pl_op_once : forall b d, nth_error (blocks c) b = Some d -> NoDup (b_ops d);
  pl_block : forall b r, block_in c b r <-> block_parent c b r;
  pl_block_once : forall r d, nth_error (regions c) r = Some d -> NoDup (r_blocks d);
  pl_region : forall r o, region_in c r o <-> region_parent c r o;
  pl_region_once : forall o d, nth_error (ops c) o = Some d -> NoDup (o_regions d);
}.

(** C45: every value is defined exactly where the result and argument lists say,
    and there is one value per declared result and argument. *)
Record defs_exact (c : ctx) : Prop := {
  de_result : forall o i v, nth_error (op_results c o) i = Some v <-> nth_error (vals c) v = Some (OpResult o i);
  de_arg : forall b i v, nth_error (block_args c b) i = Some v <-> nth_error (vals c) v = Some (BlockArg b i);
  de_result_count : forall o d, nth_error (ops c) o = Some d -> length (op_results c o) = length (o_result_types d);
  de_arg_count : forall b d, nth_error (blocks c) b = Some d -> length (block_args c b) = length (b_arg_types d);
  de_result_range : forall o, length (ops c) <= o -> op_results c o = [];
  de_arg_range : forall b, length (blocks c) <= b -> block_args c b = [];
}.

(** C16: every operand of an undisposed operation that read [old] now reads
    [new]; every other one is as before; the use lists follow. *)
Definition redirected (dead : list nat) (c c' : ctx) (old new : nat) : Prop :=
  (forall o i v, ~ In o dead -> (reads c' o i v <-> exists w, reads c o i w /\ v = if Nat.eqb w old then new else w)) /\
  uses c' old = [] /\
  (forall u, In u (uses c' new) <-> In u (uses c new) \/ In u (uses c old)) /\
  (forall v, v <> old -> v <> new -> uses c' v = uses c v).

(** Nothing but operand lists (and use lists) differs. *)
Definition shell (d : op) : op := set_operands d [].
Definition only_operands (c c' : ctx) : Prop :=
  vals c' = vals c /\ blocks c' = blocks c /\ regions c' = regions c /\ op_results c' = op_results c /\ block_args c' = block_args c /\
  map shell (ops c') = map shell (ops c).
