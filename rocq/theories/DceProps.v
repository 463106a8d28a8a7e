(** C22: dead code elimination. *)
From Verif Require Import Base IrModel IrSpec IrTreeSpec IrWalkProofs IrProps DceModel DceSpec DceProofs DceRunProofs.

(** Structure.  On the region of any scope in any arena built through the API
    (with enough stack for its nesting, and none of its operations disposed):
    elimination never panics; what it takes out are pure operations of that
    region; everything else is untouched and in the same order; no operation
    left in the region reads a result that is gone; the arena's bookkeeping is
    still exact, counting as disposed exactly what was removed and what was
    nested in it; with more iterations than operations it reaches its fixpoint;
    and at a fixpoint every pure operation left has a result that is still read
    by an operation that was neither disposed before nor removed now. *)
Theorem dce_removes_only_unused_pure_ops : forall pure xs c dead rb fuel depth maxit recursive,
  exec_all (empty_ctx, []) xs = Some (c, dead) -> region_tree_of c rb -> (forall t, In t (region_trees rb) -> height t < fuel /\ height t <= depth) -> 0 < fuel ->
  (forall x, inside c (fst rb) x -> ~ In x dead) ->
  exists c' res rem, eliminate_dead_code pure fuel depth maxit recursive c [fst rb] = Some (c', res) /\
    prunes c c' rem /\ NoDup rem /\ length rem = removed_count res /\
    (forall o, In o rem -> inside c (fst rb) o /\ is_pure pure c o) /\
    (forall x o, inside c' (fst rb) x -> In o rem -> ~ reads_result c' x o) /\
    placed c' /\ defs_exact c' /\
    (exists dead', uses_exact c' dead' /\ (forall x, In x dead' <-> In x dead \/ exists o, In o rem /\ within c o x) /\ forall x, inside c' (fst rb) x -> ~ In x dead') /\
    (length (flat_map preorder (region_trees rb)) < (if Nat.eqb maxit 0 then 100 else maxit) -> reached_fixpoint res = true) /\
    (reached_fixpoint res = true -> forall x, (if recursive then inside c' (fst rb) x else directly_in c' (fst rb) x) -> is_pure pure c' x ->
       exists v y i, In v (op_results c' x) /\ reads c' y i v /\ ~ In y dead /\ forall o, In o rem -> ~ within c o y).
Proof. exact only_dead_pure_removed. Qed.
Print Assumptions dce_removes_only_unused_pure_ops.

(** Meaning.  If pure operations cannot trap, running the region afterwards has
    the same interactions, ends the same way with the same values, for every
    behaviour of the other operations, every outside world, every start. *)
Theorem dce_preserves_runs_partial : forall (V E A : Type) pure compute effect answer xs c dead rb fuel depth maxit recursive c' res,
  exec_all (empty_ctx, []) xs = Some (c, dead) -> region_tree_of c rb -> (forall t, In t (region_trees rb) -> height t < fuel /\ height t <= depth) -> 0 < fuel ->
  (forall x, inside c (fst rb) x -> ~ In x dead) ->
  eliminate_dead_code pure fuel depth maxit recursive c [fst rb] = Some (c', res) ->
  (forall k vs, pure k = true -> compute k vs <> None) ->
  exists rem, prunes c c' rem /\ forall n args env tr,
    same_run (fun v => exists o, In o rem /\ In v (op_results c o))
      (run_region (V := V) (E := E) (A := A) pure compute effect answer n c (fst rb) args env tr)
      (run_region pure compute effect answer n c' (fst rb) args env tr).
Proof. exact runs_preserved. Qed.
Print Assumptions dce_preserves_runs_partial.

(** What is missing: pure operations that can trap.  arith.rs registers the
    integer divisions and remainders as pure, so an unused division by zero is
    removed and the program no longer traps. *)
Definition div_pure (k : nat) : bool := Nat.ltb k 3.
Definition div_compute (k : nat) (vs : list nat) : option (list nat) :=
  match k, vs with
  | 0, [] => Some [7]
  | 1, [] => Some [0]
  | 2, [a; b] => if Nat.eqb b 0 then None else Some [Nat.div a b]
  | _, _ => Some []
  end.
Definition div_effect (k : nat) (vs : list nat) : @act nat unit unit := Yield vs.
Definition div_prog : list cmd :=
  [CreateOp 0 [] [0] [] []; CreateOp 1 [] [0] [] []; CreateOp 2 [0; 1] [0] [] []; CreateOp 3 [0] [] [] [];
   CreateBlock []; PushOp 0 0; PushOp 0 1; PushOp 0 2; PushOp 0 3; CreateRegion [0]].
Lemma traps_lost : exists xs c dead,
  exec_all (empty_ctx, []) xs = Some (c, dead) /\ exists c' res, eliminate_dead_code div_pure 5 5 0 true c [0] = Some (c', res) /\
  fst (run_region div_pure div_compute div_effect (fun _ _ => tt) 9 c 0 [] (fun _ => 0) []) = Trapped /\
  exists env, fst (run_region div_pure div_compute div_effect (fun _ _ => tt) 9 c' 0 [] (fun _ => 0) []) = Yielded [7] env.
Proof.
  exists div_prog. apply (runs_ex div_prog (fun c dead => exists c' res, eliminate_dead_code div_pure 5 5 0 true c [0] = Some (c', res) /\
  fst (run_region div_pure div_compute div_effect (fun _ _ => tt) 9 c 0 [] (fun _ => 0) []) = Trapped /\
  exists env, fst (run_region div_pure div_compute div_effect (fun _ _ => tt) 9 c' 0 [] (fun _ => 0) []) = Yielded [7] env)).
  vm_compute. eexists _, _. split; [reflexivity|]. split; [reflexivity|]. eexists. reflexivity.
Qed.
Theorem dce_keeps_traps_refuted : exists xs c dead,
  exec_all (empty_ctx, []) xs = Some (c, dead) /\ exists c' res, eliminate_dead_code div_pure 5 5 0 true c [0] = Some (c', res) /\
  fst (run_region div_pure div_compute div_effect (fun _ _ => tt) 9 c 0 [] (fun _ => 0) []) = Trapped /\
  exists env, fst (run_region div_pure div_compute div_effect (fun _ _ => tt) 9 c' 0 [] (fun _ => 0) []) = Yielded [7] env.
Proof. exact traps_lost. Qed.
Print Assumptions dce_keeps_traps_refuted.

(** Scopes that meet the hypotheses: a function body whose conditional holds an
    unused addition fed by an outer, otherwise unused constant.  The addition
    goes in the first sweep (nested regions first), then the constant; the used
    constant and the conditional stay. *)
Definition nest_prog : list cmd :=
  [CreateOp 0 [] [0] [] [];            (* 0: constant, result 0, used by the return *)
   CreateOp 0 [] [0] [] [];            (* 1: constant, result 1, used by the addition *)
   CreateOp 1 [1; 1] [0] [] [];        (* 2: addition, result 2, unused *)
   CreateOp 9 [] [] [] [];             (* 3: yield *)
   CreateBlock []; PushOp 0 2; PushOp 0 3; CreateRegion [0];
   CreateOp 8 [] [] [0] [];            (* 4: conditional with region 0 *)
   CreateOp 9 [0] [] [] [];            (* 5: return *)
   CreateBlock []; PushOp 1 0; PushOp 1 1; PushOp 1 4; PushOp 1 5; CreateRegion [1]].
Definition nest_tree : nat * list (nat * list tree) :=
  (1, [(1, [Node 0 []; Node 1 []; Node 4 [(0, [(0, [Node 2 []; Node 3 []])])]; Node 5 []])]).
Example dce_hypotheses : exists c dead, exec_all (empty_ctx, []) nest_prog = Some (c, dead) /\
  region_tree_of c nest_tree /\ (forall t, In t (region_trees nest_tree) -> height t < 4 /\ height t <= 3) /\ dead = [].
Proof.
  apply runs_ex. vm_compute. repeat split; try (eexists; split; reflexivity);
    repeat match goal with H : _ \/ _ |- _ => destruct H as [<-|H] end; try contradiction; lia.
Qed.
Example dce_demo : exists c dead, exec_all (empty_ctx, []) nest_prog = Some (c, dead) /\
  match eliminate_dead_code (fun k => Nat.ltb k 8) 4 3 0 true c [1] with
  | Some (c', res) => block_ops_of c' 1 = [0; 4; 5] /\ block_ops_of c' 0 = [3] /\ res = {| removed_count := 2; iterations := 2; reached_fixpoint := true |}
  | None => False
  end.
Proof. apply runs_ex. vm_compute. repeat split. Qed.
