(** * C25, C50: what validation of a module reports. *)
From Verif Require Import ValidModel ValidSpec ValidProofs IrProps.
From Coq Require Import Lia.

(** A function whose body reads, after a nested region, a value defined in that region. *)
Definition leaky : list cmd :=
  [CreateBlock [7]; CreateOp 1 [0] [5] [] []; PushOp 0 0; CreateBlock []; CreateOp 2 [1; 0] [5] [] []; PushOp 1 1; CreateRegion [1];
   CreateOp 3 [0] [] [0] []; PushOp 0 2; CreateOp 4 [0; 2] [] [] []; PushOp 0 3; CreateRegion [0]; CreateOp 9 [] [] [1] []; CreateBlock []; PushOp 2 4; CreateRegion [2]].
Definition leaky_rank (o : nat) : nat := nth o [0; 0; 1; 0; 2] 0.
(** Ranks can be checked operation by operation. *)
Definition checked_rank (c : ctx) (rank : nat -> nat) : bool :=
  forallb (fun o => match nth_error (ops c) o with
                    | None => true
                    | Some d => forallb (fun r => match nth_error (regions c) r with
                                                  | None => true
                                                  | Some rd => forallb (fun b => match nth_error (blocks c) b with
                                                                                 | None => true
                                                                                 | Some bd => forallb (fun x => rank x <? rank o) (b_ops bd)
                                                                                 end) (r_blocks rd)
                                                  end) (o_regions d)
                    end) (seq 0 (length (ops c))).
Lemma checked_rank_nests : forall c rank, checked_rank c rank = true -> nests c rank.
Proof.
  intros c rank H x o (d & r & rd & b & bd & Ed & Ir & Er & Ib & Eb & Ix). unfold checked_rank in H. rewrite forallb_forall in H.
  assert (L : o < length (ops c)) by (apply nth_error_Some; congruence). specialize (H o (proj2 (in_seq _ _ _) (conj (Nat.le_0_l o) L))). rewrite Ed in H.
  rewrite forallb_forall in H. specialize (H r Ir). rewrite Er, forallb_forall in H. specialize (H b Ib). rewrite Eb, forallb_forall in H. specialize (H x Ix). apply Nat.ltb_lt, H.
Qed.

(** ** C25 *)
Theorem scope_validation_exact : forall is_function xs c dead rank fuel r errors,
  exec_all (empty_ctx, []) xs = Some (c, dead) -> nests c rank -> validate_functions is_function fuel c r = Some errors ->
  forall f x i, In (f, (x, i)) errors <->
    exists d v, inside c r f /\ nth_error (ops c) f = Some d /\ is_function (o_kind d) = true /\ in_body c f x /\ reads c x i v /\ ~ in_scope c f x v.
Proof. exact (fun is_function xs c dead rank fuel r errors E N H f x i => validation_exact c rank (placement_consistent xs c dead E) N is_function fuel r errors f x i H). Qed.
Print Assumptions scope_validation_exact.
Theorem scope_validation_terminates : forall is_function xs c dead rank fuel r,
  exec_all (empty_ctx, []) xs = Some (c, dead) -> nests c rank -> r < length (regions c) -> (forall x, inside c r x -> rank x < fuel) ->
  validate_functions is_function (S fuel) c r <> None.
Proof. exact (fun is_function xs c dead rank fuel r E N L R => validate_total c rank (placement_consistent xs c dead E) N is_function fuel r L R). Qed.
Print Assumptions scope_validation_terminates.
Example leaky_reported : exists c dead, exec_all (empty_ctx, []) leaky = Some (c, dead) /\ checked_rank c leaky_rank = true /\
  validate_functions (Nat.eqb 9) 5 c 2 = Some [(4, (3, 1))] /\ validate_functions (Nat.eqb 8) 5 c 2 = Some [].
Proof. apply runs_ex. vm_compute. repeat split. Qed.
(** The order of operations within a region is not looked at: a value read before its definition passes. *)
Example read_before_definition_passes : exists c dead,
  exec_all (empty_ctx, []) [CreateBlock []; CreateOp 1 [] [5] [] []; CreateOp 2 [0] [] [] []; PushOp 0 1; PushOp 0 0; CreateRegion [0]; CreateOp 9 [] [] [0] []; CreateBlock []; PushOp 1 2; CreateRegion [1]] = Some (c, dead) /\
  map (block_ops_of c) [0] = [[1; 0]] /\ validate_functions (Nat.eqb 9) 5 c 1 = Some [].
Proof. apply runs_ex. vm_compute. repeat split. Qed.

(** ** C50 *)
Theorem use_validation_exact : forall c fuel r missing stale, validate_uses fuel c r = Some (missing, stale) ->
  (forall v o i, In (v, (o, i)) missing <-> inside c r o /\ reads c o i v /\ ~ In (o, i) (uses c v)) /\
  (forall v o i, In (v, (o, i)) stale <-> concerns c r v /\ In (o, i) (uses c v) /\ ~ (inside c r o /\ reads c o i v)).
Proof. exact uses_report. Qed.
Print Assumptions use_validation_exact.
(** For arenas built through the API, the module passes exactly when nothing in it has been disposed of and no
    surviving operation outside it reads a value that it defines or reads. *)
Theorem use_validation_accepts_closed_modules : forall xs c dead fuel r missing stale,
  exec_all (empty_ctx, []) xs = Some (c, dead) -> validate_uses fuel c r = Some (missing, stale) ->
  (missing = [] /\ stale = [] <->
   (forall o i v, inside c r o -> reads c o i v -> ~ In o dead) /\
   (forall v o i, concerns c r v -> ~ In o dead -> reads c o i v -> inside c r o)).
Proof. exact (fun xs c dead fuel r missing stale E H => uses_accepted c fuel r dead missing stale (use_lists_exact xs c dead E) H). Qed.
Print Assumptions use_validation_accepts_closed_modules.
Theorem use_validation_terminates : forall xs c dead rank fuel r,
  exec_all (empty_ctx, []) xs = Some (c, dead) -> nests c rank -> r < length (regions c) -> (forall x, inside c r x -> rank x < fuel) ->
  validate_uses (S fuel) c r <> None.
Proof. exact (fun xs c dead rank fuel r E N L R => validate_uses_total c rank (placement_consistent xs c dead E) N fuel r L R). Qed.
Print Assumptions use_validation_terminates.
(** The module passes; an operation created but never placed is then reported. *)
Example stray_reader_reported : exists c dead, exec_all (empty_ctx, []) (leaky ++ [CreateOp 5 [2; 0] [] [] []]) = Some (c, dead) /\
  validate_uses 5 c 2 = Some ([], [(2, (5, 0)); (0, (5, 1))]).
Proof. apply runs_ex. vm_compute. repeat split. Qed.
Example leaky_uses_pass : exists c dead, exec_all (empty_ctx, []) leaky = Some (c, dead) /\ validate_uses 5 c 2 = Some ([], []).
Proof. apply runs_ex. vm_compute. repeat split. Qed.
