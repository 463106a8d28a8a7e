(** Theorems about the detection of tail-resumptive handler bodies (property C41). *)
From Verif Require Import TailResModel TailResSpec TailResProofs IrProps.
From Coq Require Import Lia.

(** The detector accepts exactly the bodies that resume their continuation once, as the last action before yielding, and
    names the resume operation and its value. *)
Theorem tail_resumptive_detection_exact : forall xs c dead is_resume is_yield body r v, exec_all (empty_ctx, []) xs = Some (c, dead) ->
  (forall z, inside c body z -> ~ In z dead) ->
  (tail_resumptive is_resume is_yield c body = Some (Some (r, v)) <-> exists prefix k x y, resumes_last is_resume is_yield c dead body prefix k r v x y).
Proof. exact detection. Qed.
Print Assumptions tail_resumptive_detection_exact.

(** It does not panic. *)
Theorem tail_resumptive_detection_never_panics : forall xs c dead is_resume is_yield body, exec_all (empty_ctx, []) xs = Some (c, dead) ->
  body < List.length (regions c) ->
  (forall o d, nth_error (ops c) o = Some d -> is_resume (o_kind d) = true -> 2 <= List.length (o_operands d) /\ 1 <= List.length (op_results c o)) ->
  tail_resumptive is_resume is_yield c body <> None.
Proof. exact detection_total. Qed.
Print Assumptions tail_resumptive_detection_never_panics.

(** Running an accepted body is the same as running it with any other continuation argument, yielding the value, and
    resuming with that. *)
Theorem tail_resumptive_body_is_a_plain_yield : forall xs c dead is_resume is_yield body r v, exec_all (empty_ctx, []) xs = Some (c, dead) ->
  (forall z, inside c body z -> ~ In z dead) -> (exists rank : nat -> nat, forall z o, nested_in c z o -> rank z < rank o) ->
  tail_resumptive is_resume is_yield c body = Some (Some (r, v)) ->
  exists prefix k y, (exists rd b bs, nth_error (regions c) body = Some rd /\ r_blocks rd = b :: bs /\ block_ops_of c b = prefix ++ [r; y] /\ hd_error (block_args c b) = Some k) /\
    forall V St (behave : @behaviour V St) resume e kv kv' st, sees_only_what_it_reads c behave -> List.length (operands c y) = 1 ->
    run_body c behave prefix r y resume (fupd e k kv) st =
    match run_plain c behave prefix v (fupd e k kv') st with
    | Some (w, st1) => match resume kv w st1 with Some (w', st2) => Some ([w'], st2) | None => None end
    | None => None
    end.
Proof. exact plain. Qed.
Print Assumptions tail_resumptive_body_is_a_plain_yield.

(** ** An accepted body (kind 1 resumes, kind 2 yields) with a nested operation that reads the handler's second argument, and
    one in which the nested operation reads the continuation. *)
Definition body_with (x : nat) : list cmd :=
  [CreateBlock [7; 7]; CreateBlock []; CreateOp 5 [x] [3] [] []; PushOp 1 0; CreateRegion [1]; CreateOp 6 [] [4] [0] [];
   CreateOp 1 [0; 3] [7] [] []; CreateOp 2 [4] [] [] []; PushOp 0 1; PushOp 0 2; PushOp 0 3; CreateRegion [0]].
Example accepted_body : exists c dead, exec_all (empty_ctx, []) (body_with 1) = Some (c, dead) /\
  tail_resumptive (Nat.eqb 1) (Nat.eqb 2) c 1 = Some (Some (2, 3)).
Proof. apply runs_ex. vm_compute. reflexivity. Qed.
Example rejected_body : exists c dead, exec_all (empty_ctx, []) (body_with 0) = Some (c, dead) /\
  tail_resumptive (Nat.eqb 1) (Nat.eqb 2) c 1 = Some None.
Proof. apply runs_ex. vm_compute. reflexivity. Qed.
Definition mkop k vs ts rs p := {| o_kind := k; o_operands := vs; o_result_types := ts; o_regions := rs; o_succs := []; o_parent := Some p |}.
Example accepted_data : exists c dead, exec_all (empty_ctx, []) (body_with 1) = Some (c, dead) /\ dead = [] /\
  ops c = [mkop 5 [1] [3] [] 1; mkop 6 [] [4] [0] 0; mkop 1 [0; 3] [7] [] 0; mkop 2 [4] [] [] 0] /\
  regions c = [{| r_blocks := [1]; r_parent := Some 1 |}; {| r_blocks := [0]; r_parent := None |}] /\
  blocks c = [{| b_arg_types := [7; 7]; b_ops := [1; 2; 3]; b_parent := Some 1 |}; {| b_arg_types := []; b_ops := [0]; b_parent := Some 0 |}] /\
  map (op_results c) (seq 0 4) = [[2]; [3]; [4]; []].
Proof. apply runs_ex. vm_compute. repeat split. Qed.
Example accepted_meets : exists c dead, exec_all (empty_ctx, []) (body_with 1) = Some (c, dead) /\
  (forall z, inside c 1 z -> ~ In z dead) /\ (exists rank : nat -> nat, forall z o, nested_in c z o -> rank z < rank o) /\ 1 < List.length (regions c) /\
  (forall o d, nth_error (ops c) o = Some d -> (1 =? o_kind d) = true -> 2 <= List.length (o_operands d) /\ 1 <= List.length (op_results c o)).
Proof.
  destruct accepted_data as (c & dead & E & D & Eo & Er & Eb & Ers). exists c, dead. split; [exact E|]. clear E. subst dead. split; [intros z _ []|]. split; [|split].
  - exists (fun o => match o with 0 => 0 | _ => 1 end). intros z o (d & r & rd & b & bd & Ed & Ir & Erd & Ib & Ebd & Iz). rewrite Eo in Ed. rewrite Er in Erd. rewrite Eb in Ebd.
    destruct o as [|[|[|[|o]]]]; cbn in Ed; try (destruct o; discriminate); injection Ed as <-; cbn in Ir; try tauto. destruct Ir as [<-|[]]. cbn in Erd. injection Erd as <-.
    destruct Ib as [<-|[]]. cbn in Ebd. injection Ebd as <-. destruct Iz as [<-|[]]. lia.
  - rewrite Er. cbn. lia.
  - intros o d Ed K. rewrite Eo in Ed. destruct o as [|[|[|[|o]]]]; cbn in Ed; try (destruct o; discriminate); injection Ed as <-; try discriminate. cbn in Ers. injection Ers as _ _ -> _. cbn. lia.
Qed.
