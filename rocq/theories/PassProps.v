(** Theorems about the pass manager (C28). *)
From Verif Require Import Base IrModel IrTreeSpec IrWalkProofs PassModel PassSpec PassProofs.

(** C28: for every pipeline, IR and pass behaviour.  Each event is followed by exactly
    what must follow it: passes run in registration order on the world the previous
    one left, every surviving pass is observed and verified by the innermost hooks
    before anything else happens, nothing follows a failure, and a manager abandons a
    target that vanished. *)
Theorem pipeline_well_sequenced : forall St tag isolated fuel m w t w' tr r,
  run St tag isolated fuel m w t = (w', tr, r) ->
  well_sequenced St tag m tr /\ reports St tr r /\ Forall (proper_visit St tag isolated m) tr /\
  (exists rest, tr = Visit St [] t w :: rest) /\ (exists pre e, tr = pre ++ [e] /\ now St m e w').
Proof. exact run_ok. Qed.
Print Assumptions pipeline_well_sequenced.

(** C28: a nested manager dispatches, in textual order, each operation of its class
    found when it starts, once, passing over those that have changed class by then. *)
Theorem nested_targets_in_turn : forall St tag isolated fuel p h parent j n (w : world St) w' tr tree,
  root tree = parent -> tree_of (fst w) tree -> height tree <= fuel ->
  run_nested St tag isolated fuel p h parent j n w = (w', tr, Ok) ->
  takes_turns tag (cls_of St n) (run_on St tag isolated fuel (p ++ [j]) n h) w
    (filter (matches St tag (cls_of St n) w) (preorder tree)) tr w'.
Proof. exact nested_ok. Qed.
Print Assumptions nested_targets_in_turn.

(** Demo IR: operation 0 (class 0) holds operations 1 and 2 (class 1). *)
Definition demo_op (k : nat) (rs : list nat) (p : option nat) : op :=
  {| o_kind := k; o_operands := []; o_result_types := []; o_regions := rs; o_succs := []; o_parent := p |}.
Definition demo_ir : ctx :=
  {| ops := [demo_op 0 [0] None; demo_op 1 [] (Some 0); demo_op 1 [] (Some 0)]; vals := [];
     blocks := [{| b_arg_types := []; b_ops := [1; 2]; b_parent := Some 0 |}]; regions := [{| r_blocks := [0]; r_parent := Some 0 |}];
     uses := fun _ => []; op_results := fun _ => []; block_args := fun _ => [] |}.
Definition noop : passfn nat := fun w _ => (w, None).
Definition count : passfn nat := fun w t => ((fst w, S (snd w)), if Nat.eqb (snd w) 2 then Some 99 else None).
(** Shape of an event, without the world. *)
Definition brief (e : event nat) : (nat * list nat) * (nat * nat) :=
  match e with
  | Visit _ p t _ => (0, p, (t, 0)) | Ran _ p i t _ _ => (1, p, (t, i)) | Failed _ p i t _ _ => (2, p, (t, i)) | Vanished _ p i t _ => (3, p, (t, i))
  | Observed _ p i t _ _ _ => (4, p, (t, i)) | Verified _ p i t _ _ => (5, p, (t, i)) | Rejected _ p i t _ _ => (6, p, (t, i)) | NotIsolated _ p t _ => (7, p, (t, 0))
  end.
Definition demo_manager : manager nat :=
  Manager nat 0 [noop] [Manager nat 1 [count; count] [] (Some (fun _ _ => None)) None] None None.
Example demo_run : exists w' tr, run nat (fun k => k) (fun _ => true) 5 demo_manager (demo_ir, 0) 0 = (w', tr, ExecutionError [0] 0 99) /\ snd w' = 3 /\
  map brief tr = [(0, [], (0, 0)); (1, [], (0, 0)); (0, [0], (1, 0)); (1, [0], (1, 0)); (5, [0], (1, 0)); (1, [0], (1, 1)); (5, [0], (1, 1)); (0, [0], (2, 0)); (1, [0], (2, 0)); (2, [0], (2, 0))].
Proof. eexists. eexists. split; [vm_compute; reflexivity|]. split; reflexivity. Qed.
Definition demo_tree : tree := Node 0 [(0, [(0, [Node 1 []; Node 2 []])])].
Example demo_tree_ok : tree_of demo_ir demo_tree /\ height demo_tree <= 5.
Proof. split; [cbn; repeat split; eexists; split; reflexivity|vm_compute; repeat constructor]. Qed.

(** C28, refuted part: "nested managers run on surviving targets only".  A pass that
    erases a later target (detaching it from its block) does not keep the manager from
    running on the erased operation: a detached operation keeps its class. *)
Definition eraser : passfn nat := fun w t => ((match detach_op (fst w) 2 with Some c => c | None => fst w end, snd w), None).
Definition eraser_manager : manager nat := Manager nat 0 [] [Manager nat 1 [eraser; noop] [] None None] None None.
Theorem nested_runs_on_surviving_targets_refuted : exists (m : manager nat) (w : world nat) w' tr p t wt,
  run nat (fun k => k) (fun _ => true) 5 m w 0 = (w', tr, Ok) /\ In (Visit nat p t wt) tr /\
  is_attached nat w t /\ ~ is_attached nat wt t /\ ~ (exists b bd, nth_error (blocks (fst wt)) b = Some bd /\ In t (b_ops bd)).
Proof.
  exists eraser_manager, (demo_ir, 0). eexists. eexists. exists [0], 2. eexists. split; [vm_compute; reflexivity|].
  split; [right; right; right; right; left; reflexivity|]. split; [eexists; split; [reflexivity|discriminate]|]. split.
  - intros (d & E & N). vm_compute in E. injection E as <-. apply N. reflexivity.
  - intros ([|[|b]] & bd & E & I); cbn in E; try discriminate. injection E as <-. cbn in I. destruct I as [I|[]]. discriminate.
Qed.
Print Assumptions nested_runs_on_surviving_targets_refuted.
