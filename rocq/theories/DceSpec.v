(** What dead code elimination may change, and what running IR means. *)
From Verif Require Import Base IrModel IrTreeSpec.

Definition member (x : nat) (l : list nat) : bool := existsb (Nat.eqb x) l.

(** [c'] is [c] with the operations [rem] taken out of their blocks; nothing
    else about operations, blocks, regions or values differs. *)
Record prunes (c c' : ctx) (rem : list nat) : Prop := {
  pr_ops : forall o, nth_error (ops c') o =
    option_map (fun d => if member o rem then set_parent d None else d) (nth_error (ops c) o);
  pr_blocks : forall b, nth_error (blocks c') b =
    option_map (fun d => set_bops d (filter (fun o => negb (member o rem)) (b_ops d))) (nth_error (blocks c) b);
  pr_regions : regions c' = regions c;
  pr_vals : vals c' = vals c;
  pr_results : op_results c' = op_results c;
  pr_args : block_args c' = block_args c;
}.

(** Operation [x] stands somewhere inside region [r]. *)
Inductive inside (c : ctx) (r : nat) : nat -> Prop :=
| inside_top : forall rd b bd x, nth_error (regions c) r = Some rd -> In b (r_blocks rd) ->
    nth_error (blocks c) b = Some bd -> In x (b_ops bd) -> inside c r x
| inside_nested : forall x y, inside c r y -> nested_in c x y -> inside c r x.
(** … or directly in one of its blocks. *)
Definition directly_in (c : ctx) (r x : nat) : Prop :=
  exists rd b bd, nth_error (regions c) r = Some rd /\ In b (r_blocks rd) /\ nth_error (blocks c) b = Some bd /\ In x (b_ops bd).

(** [x] reads a result of [o]. *)
Definition reads_result (c : ctx) (x o : nat) : Prop :=
  exists d v, nth_error (ops c) x = Some d /\ In v (o_operands d) /\ In v (op_results c o).

(** [o] is of a kind registered as pure. *)
Definition is_pure (pure : nat -> bool) (c : ctx) (o : nat) : Prop := exists d, nth_error (ops c) o = Some d /\ pure (o_kind d) = true.

(** ** Running a region.  Values are [V]; operations of pure kinds compute their
    results from their operand values ([None]: they trap); the others behave as
    interaction trees: they may consult the outside world, run their own regions
    any number of times, branch to a successor, leave the region, or trap. *)
Section Run.
  Context {V E A : Type}.
  CoInductive act :=
  | Finish (results : list V)
  | Goto (successor : nat) (args : list V)
  | Yield (vs : list V)
  | Trap
  | Perform (e : E) (k : A -> act)
  | Enter (region : nat) (args : list V) (k : list V -> act).

  Inductive outcome := Yielded (vs : list V) (env : nat -> V) | Trapped | Malformed | OutOfFuel.
  Definition trace := list (E * A).

  Variable pure : nat -> bool.
  Variable compute : nat -> list V -> option (list V).
  Variable effect : nat -> list V -> act.
  Variable answer : trace -> E -> A.

  Fixpoint bind (env : nat -> V) (names : list nat) (xs : list V) : nat -> V :=
    match names, xs with
    | v :: vs, x :: r => bind (fupd env v x) vs r
    | _, _ => env
    end.

  Definition run_ops (c : ctx) (go : nat -> nat -> op -> list nat -> (nat -> V) -> trace -> act -> outcome * trace) (r : nat)
    : list nat -> (nat -> V) -> trace -> outcome * trace :=
    fix run_ops l env tr :=
      match l with
      | [] => (Malformed, tr)
      | o :: rest =>
          match nth_error (ops c) o with
          | None => (Malformed, tr)
          | Some d =>
              let xs := map env (o_operands d) in
              if pure (o_kind d)
              then match compute (o_kind d) xs with
                   | None => (Trapped, tr)
                   | Some rs => run_ops rest (bind env (op_results c o) rs) tr
                   end
              else go r o d rest env tr (effect (o_kind d) xs)
          end
      end.
  (** Control enters block [b] of region [r]. *)
  Definition run_block (c : ctx) go (r b : nat) (args : list V) (env : nat -> V) (tr : trace) : outcome * trace :=
    match nth_error (blocks c) b with
    | None => (Malformed, tr)
    | Some bd => run_ops c go r (b_ops bd) (bind env (block_args c b) args) tr
    end.
  Definition run_entry (c : ctx) go (r : nat) (args : list V) (env : nat -> V) (tr : trace) : outcome * trace :=
    match nth_error (regions c) r with
    | Some rd => match r_blocks rd with b :: _ => run_block c go r b args env tr | [] => (Malformed, tr) end
    | None => (Malformed, tr)
    end.
  (** Operation [o] (data [d]) of region [r] goes on as [a] says; [rest] follows
      it in its block.  Fuel bounds the number of interactions. *)
  Fixpoint go (n : nat) (c : ctx) (r o : nat) (d : op) (rest : list nat) (env : nat -> V) (tr : trace) (a : act) : outcome * trace :=
    match n with
    | O => (OutOfFuel, tr)
    | S n' =>
        match a with
        | Finish rs => run_ops c (go n' c) r rest (bind env (op_results c o) rs) tr
        | Goto i args =>
            match nth_error (o_succs d) i, nth_error (regions c) r with
            | Some b, Some rd => if member b (r_blocks rd) then run_block c (go n' c) r b args env tr else (Malformed, tr)
            | _, _ => (Malformed, tr)
            end
        | Yield vs => (Yielded vs env, tr)
        | Trap => (Trapped, tr)
        | Perform e k => let x := answer tr e in go n' c r o d rest env (tr ++ [(e, x)]) (k x)
        | Enter i args k =>
            match nth_error (o_regions d) i with
            | None => (Malformed, tr)
            | Some r2 =>
                match run_entry c (go n' c) r2 args env tr with
                | (Yielded vs env', tr') => go n' c r o d rest env' tr' (k vs)
                | other => other
                end
            end
        end
    end.
  Definition run_region (n : nat) (c : ctx) (r : nat) (args : list V) (env : nat -> V) (tr : trace) : outcome * trace :=
    run_entry c (go n c) r args env tr.

  (** Same interactions with the world, same way of ending, same values yielded,
      and the same value in every name outside [gone]. *)
  Definition same_run (gone : nat -> Prop) (x y : outcome * trace) : Prop :=
    snd x = snd y /\
    match fst x, fst y with
    | Yielded vs e, Yielded vs' e' => vs = vs' /\ forall v, ~ gone v -> e v = e' v
    | Trapped, Trapped | Malformed, Malformed | OutOfFuel, OutOfFuel => True
    | _, _ => False
    end.
End Run.
