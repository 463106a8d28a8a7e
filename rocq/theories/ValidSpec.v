(** Scopes of values in the region tree. *)
From Verif Require Export IrModel IrSpec IrTreeSpec DceSpec.

(** [v] is defined directly in region [q]: an argument of one of its blocks, or a result of an operation in one. *)
Definition defined_in (c : ctx) (q v : nat) : Prop :=
  exists rd b, nth_error (regions c) q = Some rd /\ In b (r_blocks rd) /\
    (In v (block_args c b) \/ exists bd o, nth_error (blocks c) b = Some bd /\ In o (b_ops bd) /\ In v (op_results c o)).
(** Region [q] belongs to [f] or to an operation inside [f]. *)
Definition region_within (c : ctx) (f q : nat) : Prop := exists z d, within c f z /\ nth_error (ops c) z = Some d /\ In q (o_regions d).
(** At operation [x] of function [f], [v] is in scope: it is defined in a region of the function around [x]. *)
Definition in_scope (c : ctx) (f x v : nat) : Prop := exists q, region_within c f q /\ inside c q x /\ defined_in c q v.
(** [x] stands in the body of [f]. *)
Definition in_body (c : ctx) (f x : nat) : Prop := exists d r, nth_error (ops c) f = Some d /\ In r (o_regions d) /\ inside c r x.

(** No operation is inside itself. *)
Definition nests (c : ctx) (rank : nat -> nat) : Prop := forall x o, nested_in c x o -> rank x < rank o.

(** Values that operations in a region read or define. *)
Definition concerns (c : ctx) (r v : nat) : Prop :=
  (exists o i, inside c r o /\ reads c o i v) \/ (exists o, inside c r o /\ In v (op_results c o)) \/
  (exists q rd b, (q = r \/ exists z d, inside c r z /\ nth_error (ops c) z = Some d /\ In q (o_regions d)) /\
     nth_error (regions c) q = Some rd /\ In b (r_blocks rd) /\ In v (block_args c b)).
