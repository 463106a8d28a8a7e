(** C15-C19, C45: the IR arena. *)
From Verif Require Import Base IrModel IrSpec IrTreeSpec DominanceSpec IrProofs IrInvProofs IrWalkProofs IrCloneProofs IrMainProofs.
From Coq Require Import Lia.

(** For running examples. *)
Lemma runs_ex : forall xs (P : ctx -> list nat -> Prop),
  match exec_all (empty_ctx, []) xs with Some (c, dead) => P c dead | None => False end ->
  exists c dead, exec_all (empty_ctx, []) xs = Some (c, dead) /\ P c dead.
Proof. intros xs P H. destruct (exec_all (empty_ctx, []) xs) as [[c dead]|]; [|destruct H]. exists c, dead. split; [reflexivity|exact H]. Qed.
Lemma some_ex : forall A (x : option A) (P : A -> Prop), match x with Some a => P a | None => False end -> exists a, x = Some a /\ P a.
Proof. intros A x P H. destruct x as [a|]; [|destruct H]. exists a. split; [reflexivity|exact H]. Qed.

(** A history: a block with an argument; an operation reading it; one reading both;
    the block in a region, the region in an operation; and some edits. *)
Definition demo : list cmd :=
  [CreateBlock [7]; CreateOp 1 [0] [5] [] []; PushOp 0 0; CreateOp 2 [1; 0; 1] [] [] []; PushOp 0 1;
   CreateOp 3 [0] [6; 6] [] []; InsertBefore 0 1 2; CreateRegion [0]; CreateOp 9 [] [4] [0] []; CreateBlock [];
   PushOp 1 3; CreateRegion [1]; RemoveOperand 1 0; SetOperand 2 0 1; AddArg 0 8; PrependArg 0 9].
Example demo_runs : exists c dead, exec_all (empty_ctx, []) demo = Some (c, dead) /\
  map (uses c) (seq 0 6) = [[(0, 0); (1, 0)]; [(1, 1); (2, 0)]; []; []; []; []] /\
  map (block_ops_of c) [0; 1] = [[0; 2; 1]; [3]] /\ map (block_args c) [0; 1] = [[6; 0; 5]; []] /\ map (op_results c) [0; 1; 2; 3] = [[1]; []; [2; 3]; [4]].
Proof. apply runs_ex. vm_compute. repeat split. Qed.

(** ** C15 *)
Theorem use_lists_exact : forall xs c dead, exec_all (empty_ctx, []) xs = Some (c, dead) -> uses_exact c dead.
Proof. exact use_lists. Qed.
Print Assumptions use_lists_exact.
(** Disposal: the operation that read the argument is gone from its use list. *)
Example disposal : exists c dead, exec_all (empty_ctx, []) [CreateBlock [7]; CreateOp 1 [0] [] [] []; CreateOp 2 [0; 0] [] [] []; Dispose 5 1] = Some (c, dead) /\ dead = [1] /\ uses c 0 = [(0, 0)].
Proof. apply runs_ex. vm_compute. repeat split. Qed.

(** ** C16 *)
Theorem replace_all_uses_redirects : forall xs c dead old new,
  exec_all (empty_ctx, []) xs = Some (c, dead) -> old <> new -> redirected dead c (replace_all_uses c old new) old new.
Proof. exact replace_all. Qed.
Print Assumptions replace_all_uses_redirects.
Theorem replace_all_uses_changes_only_operands : forall c old new, only_operands c (replace_all_uses c old new).
Proof. exact replace_all_frame. Qed.
Print Assumptions replace_all_uses_changes_only_operands.
Example replace_demo : exists c dead, exec_all (empty_ctx, []) demo = Some (c, dead) /\
  map o_operands (ops c) = [[0]; [0; 1]; [1]; []] /\ map o_operands (ops (replace_all_uses c 1 4)) = [[0]; [0; 4]; [4]; []].
Proof. apply runs_ex. vm_compute. repeat split. Qed.

(** ** C17 *)
Theorem placement_consistent : forall xs c dead, exec_all (empty_ctx, []) xs = Some (c, dead) -> placed c.
Proof. exact placement. Qed.
Print Assumptions placement_consistent.
Theorem push_op_appends : forall c b o c', push_op c b o = Some c' ->
  (forall x, block_ops_of c' x = if Nat.eqb x b then block_ops_of c b ++ [o] else block_ops_of c x) /\ op_parent c' o b.
Proof. exact push_effect. Qed.
Print Assumptions push_op_appends.
Theorem insert_op_before_inserts : forall c b before o c', insert_op_before c b before o = Some c' ->
  exists pre post, block_ops_of c b = pre ++ before :: post /\ block_ops_of c' b = pre ++ o :: before :: post /\
    (forall x, x <> b -> block_ops_of c' x = block_ops_of c x) /\ op_parent c' o b.
Proof. exact insert_effect. Qed.
Print Assumptions insert_op_before_inserts.
Theorem remove_op_from_block_removes : forall c b o c', remove_op_from_block c b o = Some c' ->
  forall x, block_ops_of c' x = if Nat.eqb x b then filter (fun y => negb (Nat.eqb y o)) (block_ops_of c b) else block_ops_of c x.
Proof. exact remove_effect. Qed.
Print Assumptions remove_op_from_block_removes.
Theorem detach_op_detaches : forall xs c dead o c', exec_all (empty_ctx, []) xs = Some (c, dead) -> detach_op c o = Some c' ->
  (forall x, block_ops_of c' x = filter (fun y => negb (Nat.eqb y o)) (block_ops_of c x)) /\ (forall b, ~ op_parent c' o b).
Proof. exact detach_effect. Qed.
Print Assumptions detach_op_detaches.
Example placement_demo : exists c dead, exec_all (empty_ctx, []) demo = Some (c, dead) /\
  exists c1, detach_op c 2 = Some c1 /\ block_ops_of c1 0 = [0; 1] /\
    (exists c2, push_op c1 1 2 = Some c2 /\ block_ops_of c2 1 = [3; 2] /\ push_op c2 0 2 = None) /\
    (exists c3, insert_op_before c1 0 0 2 = Some c3 /\ block_ops_of c3 0 = [2; 0; 1]).
Proof.
  apply runs_ex. vm_compute. eexists. split; [reflexivity|]. split; [reflexivity|]. split; eexists; (split; [reflexivity|]); [split|]; reflexivity.
Qed.

(** ** C45 *)
Theorem value_definitions_exact : forall xs c dead, exec_all (empty_ctx, []) xs = Some (c, dead) -> defs_exact c.
Proof. exact definitions. Qed.
Print Assumptions value_definitions_exact.
Theorem every_value_has_a_type : forall xs c dead v, exec_all (empty_ctx, []) xs = Some (c, dead) -> v < length (vals c) -> exists t, value_ty c v = Some t.
Proof. exact types_total. Qed.
Print Assumptions every_value_has_a_type.
Example types_demo : exists c dead, exec_all (empty_ctx, []) demo = Some (c, dead) /\ map (value_ty c) (seq 0 7) = map Some [7; 5; 6; 6; 4; 8; 9] /\
  nth_error (vals c) 0 = Some (BlockArg 0 1).
Proof. apply runs_ex. vm_compute. repeat split. Qed.

(** ** C19: walks.  [region_tree_of] holds of every region of an arena without
    nesting cycles ([trees_exist]). *)
Theorem walk_region_visits_in_order : forall St Bk (f : St -> nat -> St * action Bk) rb c fuel s,
  region_tree_of c rb -> (forall t, In t (region_trees rb) -> height t <= fuel) ->
  walk_region fuel c f s (fst rb) = run f s 0 (flat_map marks (region_trees rb)).
Proof. exact (fun St Bk f => walk_region_run f). Qed.
Print Assumptions walk_region_visits_in_order.
Theorem walk_op_visits_in_order : forall St Bk (f : St -> nat -> St * action Bk) t c fuel s,
  tree_of c t -> height t <= fuel -> walk_op fuel c f s (root t) = run f s 0 (marks t).
Proof. exact (fun St Bk f => walk_run f). Qed.
Print Assumptions walk_op_visits_in_order.
(** What is visited: the operation and everything nested in it, once. *)
Theorem preorder_is_nesting : forall t c, tree_of c t -> forall x, In x (preorder t) <-> within c (root t) x.
Proof. exact preorder_within. Qed.
Print Assumptions preorder_is_nesting.
Theorem preorder_has_no_repeats : forall t c, placed c -> tree_of c t -> NoDup (preorder t).
Proof. exact preorder_NoDup. Qed.
Print Assumptions preorder_has_no_repeats.
Theorem region_preorder_is_nesting : forall rb c, region_tree_of c rb -> forall x,
  In x (flat_map preorder (region_trees rb)) <->
  exists b bd o, In b (map fst (snd rb)) /\ nth_error (blocks c) b = Some bd /\ In o (b_ops bd) /\ within c o x.
Proof. exact region_trees_within. Qed.
Print Assumptions region_preorder_is_nesting.
Theorem trees_exist : forall c (rank : nat -> nat), placed c -> (forall x o, nested_in c x o -> rank x < rank o) ->
  forall n o, rank o < n -> o < length (ops c) -> exists t, tree_of c t /\ root t = o /\ height t <= n.
Proof. exact tree_exists. Qed.
Print Assumptions trees_exist.

Definition demo_tree : tree := Node 3 [(0, [(0, [Node 0 []; Node 2 []; Node 1 []])])].
Definition demo_region : nat * list (nat * list tree) := (1, [(1, [demo_tree])]).
Example demo_is_tree : exists c dead, exec_all (empty_ctx, []) demo = Some (c, dead) /\ region_tree_of c demo_region.
Proof.
  apply runs_ex. vm_compute. repeat split; eexists; split; reflexivity.
Qed.
(** A callback that logs, skips below 3 or breaks at 2. *)
Example walk_demo : exists c dead, exec_all (empty_ctx, []) demo = Some (c, dead) /\
  walk_region (B := nat) 5 c (fun l o => (l ++ [o], Advance)) [] 1 = Continued [3; 0; 2; 1] /\
  walk_region (B := nat) 5 c (fun l o => (l ++ [o], if Nat.eqb o 3 then Skip else Advance)) [] 1 = Continued [3] /\
  walk_region (B := nat) 5 c (fun l o => (l ++ [o], if Nat.eqb o 2 then Break 77 else Advance)) [] 1 = Broke [3; 0; 2] 77.
Proof. apply runs_ex. vm_compute. repeat split. Qed.

(** ** C18: cloning, for IR whose listing has every definition before its uses. *)
Theorem clone_region_copies_partial : forall xs c dead fuel m rb, exec_all (empty_ctx, []) xs = Some (c, dead) ->
  region_tree_of c rb -> (forall t, In t (region_trees rb) -> height t <= fuel) -> in_order (region_events c rb) ->
  exists c' m' r', clone_region fuel (c, m) (fst rb) = Some ((c', m'), r') /\ intact c c' /\ length (regions c) <= r' /\
    is_region_copy c c' (lookup_or (m_vals m')) (lookup_or (m_blocks m')) rb r' /\ renames c m m' (region_events c rb).
Proof. exact clone_region_copies. Qed.
Print Assumptions clone_region_copies_partial.
Theorem clone_op_copies_partial : forall xs c dead fuel m t, exec_all (empty_ctx, []) xs = Some (c, dead) ->
  tree_of c t -> height t <= fuel -> in_order (events c t) ->
  exists c' m' o', clone_op fuel (c, m) (root t) = Some ((c', m'), o') /\ intact c c' /\ length (ops c) <= o' /\
    is_copy c c' (lookup_or (m_vals m')) (lookup_or (m_blocks m')) t o' /\ renames c m m' (events c t).
Proof. exact clone_op_copies. Qed.
Print Assumptions clone_op_copies_partial.
Example demo_in_order : exists c dead, exec_all (empty_ctx, []) demo = Some (c, dead) /\ in_order (region_events c demo_region) /\
  region_events c demo_region = [DefB 1; DefB 0; DefV 6; DefV 0; DefV 5; UseV 0; DefV 1; UseV 1; DefV 2; DefV 3; UseV 0; UseV 1; DefV 4].
Proof.
  apply runs_ex. vm_compute. split; [|reflexivity]. intros pre e post E.
  repeat (destruct pre as [|? pre]; cbn [app] in E; [injection E as <- <-; cbn; intuition discriminate|injection E as _ E]).
  destruct pre; discriminate.
Qed.
Example clone_demo : exists c dead, exec_all (empty_ctx, []) demo = Some (c, dead) /\
  exists x, clone_region 5 (c, empty_mapping) 1 = Some x /\ snd x = 3 /\
  skipn 4 (map o_operands (ops (fst (fst x)))) = [[8]; [10]; [8; 10]; []] /\ map (block_ops_of (fst (fst x))) [2; 3] = [[7]; [4; 5; 6]].
Proof. apply runs_ex. vm_compute. eexists. split; [reflexivity|]. repeat split. Qed.

(** Without that condition the copy can leak references into the original: block 2
    defines value 0 and dominates block 1, which uses it, but block 1 is listed
    first; the copy of the user still reads the original value. *)
Definition out_of_order : list cmd :=
  [CreateBlock []; CreateBlock []; CreateBlock []; CreateOp 1 [] [5] [] []; PushOp 2 0; CreateOp 2 [0] [] [] []; PushOp 1 1;
   CreateOp 3 [] [] [] [2]; PushOp 0 2; CreateOp 3 [] [] [] [1]; PushOp 2 3; CreateRegion [0; 1; 2]].
Definition block_succs (c : ctx) (b : nat) : list nat :=
  flat_map (fun o => match nth_error (ops c) o with Some d => o_succs d | None => [] end) (block_ops_of c b).
Lemma out_of_order_dominated : dominates_spec [0; 1; 2] (fun b => nth b [[2]; []; [1]] []) 0 2 1.
Proof.
  split.
  - exists ([0] ++ [2] ++ [1]). apply (path_step _ _ _ ([0] ++ [2]) 2 1); [|cbn; auto|cbn; auto].
    apply (path_step _ _ _ [0] 0 2); [constructor; cbn; auto|cbn; auto|cbn; auto].
  - intros l Hp. inversion Hp as [|l' b' c' Hp' Hs Hc]; subst. apply in_app_iff. left.
    destruct b' as [|[|[|b']]]; cbn in Hs; try (destruct Hs as [Hs|[]]; discriminate); try contradiction; [|destruct b'; destruct Hs].
    clear -Hp'. inversion Hp' as [|l b c Hp Hs Hc]; subst. apply in_app_iff. right. left. reflexivity.
Qed.
Theorem clone_region_leaks_reference_refuted : exists c dead,
  exec_all (empty_ctx, []) out_of_order = Some (c, dead) /\
  (region_blocks_of c 0 = [0; 1; 2] /\ (forall b, b < 3 -> block_succs c b = nth b [[2]; []; [1]] [])) /\
  dominates_spec [0; 1; 2] (fun b => nth b [[2]; []; [1]] []) 0 2 1 /\
  nth_error (vals c) 0 = Some (OpResult 0 0) /\ op_in c 0 2 /\ op_in c 1 1 /\ reads c 1 0 0 /\
  exists x, clone_region 5 (c, empty_mapping) 0 = Some x /\
    exists b' o' d', In b' (region_blocks_of (fst (fst x)) (snd x)) /\ In o' (block_ops_of (fst (fst x)) b') /\
      nth_error (ops (fst (fst x))) o' = Some d' /\ o_kind d' = 2 /\ o_operands d' = [0].
Proof.
  apply runs_ex. set (D := dominates_spec _ _ _ _ _). assert (HD : D) by apply out_of_order_dominated. clearbody D. vm_compute.
  split; [split; [reflexivity|intros [|[|[|b]]] Hb; try reflexivity; lia]|]. split; [exact HD|].
  split; [reflexivity|]. split; [eexists; split; [reflexivity|cbn; auto]|]. split; [eexists; split; [reflexivity|cbn; auto]|].
  split; [eexists; split; reflexivity|]. eexists. split; [reflexivity|]. exists 4. do 2 eexists. split; [cbn; auto|]. split; [left; reflexivity|]. split; [reflexivity|]. split; reflexivity.
Qed.
Print Assumptions clone_region_leaks_reference_refuted.
