(** Liveness along paths. *)
From Verif Require Export RcLiveModel.

(** [v] is a reference of the function that is counted: a block argument of reference type, or a result or
    operand of that type that is not static data (the address of a symbol, or the null reference). *)
Definition static (f : nfunc) (v : nat) : Prop := exists o, In o (f_ops f) /\ In v (o_results o) /\
  (o_kind o = KSymbolAddr \/ (o_kind o = KIconst 0 /\ f_anyref f v = true)).
Definition counted (f : nfunc) (v : nat) : Prop := f_anyref f v = true /\
  ((exists b, In b (f_blocks f) /\ In v (b_args b)) \/
   (~ static f v /\ exists o, In o (f_ops f) /\ (In v (o_results o) \/ In v (o_args o)))).

(** [x] is [v] seen through casts that do not make it an integer. *)
Inductive cast_of (f : nfunc) (v : nat) : nat -> Prop :=
| cast_self : cast_of f v v
| cast_step o x y rest more :
    In o (f_ops f) -> o_kind o = KCast -> o_args o = x :: rest -> o_results o = y :: more -> f_int f y = false ->
    cast_of f v x -> cast_of f v y.

(** Every value is defined once, and casts come after what they cast. *)
Definition casts_in_order (f : nfunc) : Prop :=
  NoDup (flat_map o_results (f_ops f)) /\
  forall pre o post x rest, f_ops f = pre ++ o :: post -> o_kind o = KCast -> o_args o = x :: rest ->
    ~ In x (flat_map o_results (o :: post)).

(** [w] keeps [v] alive, directly or through other owners. *)
Inductive keeps (deps : nat -> option nat) : nat -> nat -> Prop :=
| keeps_one v w : deps v = Some w -> keeps deps v w
| keeps_more v u w : deps v = Some u -> keeps deps u w -> keeps deps v w.

(** Every value has one definition: as a block argument or as the result of an operation. *)
Definition one_definition (f : nfunc) : Prop := NoDup (flat_map b_args (f_blocks f) ++ flat_map o_results (f_ops f)).

(** A counted reference that is not a cast of another one. *)
Inductive root (f : nfunc) (v : nat) : Prop :=
| is_root : counted f v -> (forall r, counted f r -> cast_of f r v -> r = v) -> root f v.

(** Liveness.  An operand [x] uses [v] if it is [v] seen through casts, or if [v] keeps [x] alive.  Operation [o]
    defines its root results; a block's arguments of reference type are defined at its start. *)
Section Live.
  Variables (f : nfunc) (deps : nat -> option nat).
  Definition uses_value (v x : nat) : Prop := (root f v /\ cast_of f v x) \/ keeps deps x v.
  Definition defines (o : nop) (v : nat) : Prop := In v (o_results o) /\ root f v.
  Definition takes (b : nat) (v : nat) : Prop := In v (b_args (blk f b)) /\ f_anyref f v = true.
  Definition goes_to (b s : nat) : Prop := exists ops o, b_ops (blk f b) = ops ++ [o] /\ In s (o_succs o).

  (** [v] is needed from operation [k] of block [b] on: some path through the function reaches a use of [v] before a
      new definition of [v]. *)
  Inductive needed (v : nat) : nat -> nat -> Prop :=
  | needed_here b k o x :
      nth_error (b_ops (blk f b)) k = Some o -> In x (o_args o) -> uses_value v x -> needed v b k
  | needed_after b k o :
      nth_error (b_ops (blk f b)) k = Some o -> ~ defines o v -> needed v b (S k) -> needed v b k
  | needed_next b s :
      goes_to b s -> ~ takes s v -> needed v s 0 -> needed v b (List.length (b_ops (blk f b))).
  Definition needed_at_start (v b : nat) : Prop := ~ takes b v /\ needed v b 0.
  Definition needed_at_end (v b : nat) : Prop := exists s, goes_to b s /\ needed_at_start v s.
End Live.
