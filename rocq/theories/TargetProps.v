(** Theorems about conversion targets (C26). *)
From Verif Require Import Base IrModel IrSpec IrTreeSpec IrWalkProofs TargetModel TargetSpec TargetProofs.

(** C26: for every sequence of registrations the target accepts, an operation's
    legality is the ruling of the most specific rule that rules, and unknown exactly
    when none does. *)
Theorem legality_is_first_ruling : forall dialect name h t c o l,
  register_all new_target h = Some t ->
  (is_legal dialect name t c o = l <-> has_legality dialect name h c o l).
Proof. exact legality_iff. Qed.
Print Assumptions legality_is_first_ruling.

(** C26: rules at one precedence level never contradict each other, so the ruling is
    independent of registration order. *)
Theorem accepted_rules_are_consistent : forall dialect name h t c o,
  register_all new_target h = Some t ->
  forall n l l', rules dialect name h c o n l -> rules dialect name h c o n l' -> l = l'.
Proof. exact rules_functional. Qed.
Print Assumptions accepted_rules_are_consistent.

(** C26: whatever has been registered, a further registration is accepted exactly when
    it neither repeats nor contradicts an earlier one and extends an existing rule if
    it asks for recursion. *)
Theorem registration_accepted_exactly : forall h t r, register_all new_target h = Some t ->
  (exists t', register t r = Some t') <-> acceptable h r.
Proof. exact register_accepts. Qed.
Print Assumptions registration_accepted_exactly.

(** C26: verification reports exactly the failing operations that are not inside a
    recursively legal one, with their name and legality, in textual order. *)
Theorem verification_exact : forall dialect name h t c rb fuel m,
  register_all new_target h = Some t -> region_tree_of c rb -> (forall u, In u (region_trees rb) -> height u <= fuel) ->
  exists l, verify_mode dialect name fuel t c (fst rb) m = Some l /\
    (forall o k r, In (o, k, r) l <->
       (looked_at dialect name h c (tops_of c rb) o /\ k = key_of dialect name c o /\ has_legality dialect name h c o r /\ fails m r)) /\
    subseq (map (fun x => fst (fst x)) l) (flat_map preorder (region_trees rb)).
Proof. exact verify_ok. Qed.
Print Assumptions verification_exact.

(** Demo: dialect 1 illegal, operation (1,2) legal with its body, a dynamic rule that
    rules (1,3) out only for handle 5. *)
Definition demo_rules : list reg :=
  [IllegalDialect 1; LegalOp (1, 2); RecursiveLegalOp (1, 2); DynamicOp (1, 3) (fun _ o => if Nat.eqb o 5 then DIllegal else DLegal)].
Definition demo_ctx (o : nat) (kind : nat) : ctx :=
  {| ops := repeat {| o_kind := kind; o_operands := []; o_result_types := []; o_regions := []; o_succs := []; o_parent := None |} (S o);
     vals := []; blocks := []; regions := []; uses := fun _ => []; op_results := fun _ => []; block_args := fun _ => [] |}.
Example demo_accepted : exists t, register_all new_target demo_rules = Some t /\
  is_legal (fun k => k / 10) (fun k => k mod 10) t (demo_ctx 4 13) 4 = Legal /\
  is_legal (fun k => k / 10) (fun k => k mod 10) t (demo_ctx 5 13) 5 = Illegal /\
  is_legal (fun k => k / 10) (fun k => k mod 10) t (demo_ctx 5 14) 5 = Illegal /\
  is_legal (fun k => k / 10) (fun k => k mod 10) t (demo_ctx 5 24) 5 = Unknown /\
  register t (LegalDialect 1) = None /\ register t (RecursiveLegalOp (1, 3)) = None.
Proof. eexists. split; [reflexivity|]. vm_compute. repeat split. Qed.
(** Two nested operations: the outer one recursively legal hides the inner one. *)
Definition nest (outer : nat) : ctx :=
  {| ops := [{| o_kind := outer; o_operands := []; o_result_types := []; o_regions := [1]; o_succs := []; o_parent := Some 0 |};
             {| o_kind := 14; o_operands := []; o_result_types := []; o_regions := []; o_succs := []; o_parent := Some 1 |}];
     vals := []; blocks := [{| b_arg_types := []; b_ops := [0]; b_parent := Some 0 |}; {| b_arg_types := []; b_ops := [1]; b_parent := Some 1 |}];
     regions := [{| r_blocks := [0]; r_parent := None |}; {| r_blocks := [1]; r_parent := Some 0 |}];
     uses := fun _ => []; op_results := fun _ => []; block_args := fun _ => [] |}.
Definition nest_tree : nat * list (nat * list tree) := (0, [(0, [Node 0 [(1, [(1, [Node 1 []])])]])]).
Example nest_meets : forall outer, region_tree_of (nest outer) nest_tree /\ (forall u, In u (region_trees nest_tree) -> height u <= 2).
Proof. intro outer. split; [cbn; repeat split; eexists; split; reflexivity|]. intros u [<-|[]]. vm_compute. constructor. Qed.
Example nest_verified : exists t, register_all new_target demo_rules = Some t /\
  verify_mode (fun k => k / 10) (fun k => k mod 10) 2 t (nest 12) 0 Partial = Some [] /\
  verify_mode (fun k => k / 10) (fun k => k mod 10) 2 t (nest 13) 0 Partial = Some [(1, (1, 4), Illegal)] /\
  verify_mode (fun k => k / 10) (fun k => k mod 10) 2 t (nest 25) 0 Full = Some [(0, (2, 5), Unknown); (1, (1, 4), Illegal)].
Proof. eexists. split; [reflexivity|]. vm_compute. repeat split. Qed.
