(** Handler bodies that resume their continuation once, at the end. *)
From Verif Require Export IrModel IrSpec IrTreeSpec DceSpec.

(** The only place where a live operation reads [v]. *)
Definition only_reader (c : ctx) (dead : list nat) (v o i : nat) : Prop :=
  forall o' i', ~ In o' dead -> (reads c o' i' v <-> o' = o /\ i' = i).

(** The first block of [body] has the continuation as first argument and is [prefix], then a resume of that continuation
    with value [v], then a yield; nothing else anywhere reads the continuation or the result [x] of the resume. *)
Record resumes_last (is_resume is_yield : nat -> bool) (c : ctx) (dead : list nat) (body : nat) (prefix : list nat) (k r v x y : nat) : Prop := {
  rl_block : exists rd b bs bd args, nth_error (regions c) body = Some rd /\ r_blocks rd = b :: bs /\ block_args c b = k :: args /\
    nth_error (blocks c) b = Some bd /\ b_ops bd = prefix ++ [r; y];
  rl_resume : exists d vs, nth_error (ops c) r = Some d /\ is_resume (o_kind d) = true /\ o_operands d = k :: v :: vs;
  rl_result : exists xs, op_results c r = x :: xs;
  rl_yield : exists d, nth_error (ops c) y = Some d /\ is_yield (o_kind d) = true;
  rl_once : only_reader c dead k r 0;
  rl_flows : exists i, only_reader c dead x y i }.

(** ** Running a handler body.  An operation may do anything (change the state, fail), but what it does only depends on
    the values that it, or an operation nested in it, reads. *)
Section Run.
  Context {V St : Type}.
  Variable c : ctx.
  Definition behaviour := nat -> (nat -> V) -> St -> option (list V * St).
  Definition sees_only_what_it_reads (behave : behaviour) : Prop := forall o e e' st,
    (forall x i v, within c o x -> reads c x i v -> e v = e' v) -> behave o e st = behave o e' st.
  Definition results_bound (e : nat -> V) (o : nat) (vs : list V) : nat -> V := DceSpec.bind e (op_results c o) vs.
  Variable behave : behaviour.

  (** The operations before the resume. *)
  Fixpoint run_all (l : list nat) (e : nat -> V) (st : St) : option ((nat -> V) * St) :=
    match l with
    | [] => Some (e, st)
    | o :: l => match behave o e st with Some (vs, st) => run_all l (results_bound e o vs) st | None => None end
    end.
  Definition operands (o : nat) : list nat := match nth_error (ops c) o with Some d => o_operands d | None => [] end.
  (** The whole body; resuming continuation [kv] with a value runs [resume kv value]. *)
  Definition run_body (prefix : list nat) (r y : nat) (resume : V -> V -> St -> option (V * St)) (e : nat -> V) (st : St) : option (list V * St) :=
    match run_all prefix e st with
    | None => None
    | Some (e1, st1) =>
        match operands r with
        | k :: v :: _ =>
            match resume (e1 k) (e1 v) st1 with
            | Some (w, st2) => Some (map (results_bound e1 r [w]) (operands y), st2)
            | None => None
            end
        | _ => None
        end
    end.
  (** The body without a continuation: it yields the value. *)
  Definition run_plain (prefix : list nat) (v : nat) (e : nat -> V) (st : St) : option (V * St) :=
    match run_all prefix e st with Some (e1, st1) => Some (e1 v, st1) | None => None end.
End Run.
