(** What it means that a function only borrows a parameter. *)
From Verif Require Export CallGraphSpec OwnModel.

(** ** As a rule over the code *)

(** [y] is [x] seen through casts. *)
Inductive alias (ops : list oop) (x : nat) : nat -> Prop :=
| alias_self : alias ops x x
| alias_cast o y z : alias ops x y -> In o ops -> q_kind o = OCast -> q_args o = [y] -> q_results o = [z] -> alias ops x z.

(** Being operand [i] of [o] does not need a count of its own, if the parameters in [T] do not. *)
Definition harmless (T : nat -> nat -> Prop) (o : oop) (i : nat) : Prop :=
  q_nested o = false /\
  match q_kind o with
  | OCall g => T g i
  | OLoad => i = 0
  | OStore a => i = a
  | OCmp => True
  | OCast => i = 0 /\ List.length (q_args o) = 1 /\ List.length (q_results o) = 1
  | _ => False
  end.
Definition only_lent (T : nat -> nat -> Prop) (ops : list oop) (v : nat) : Prop :=
  forall x, alias ops v x -> forall o i, In o ops -> nth_error (q_args o) i = Some x -> harmless T o i.

(** [f] is defined once, as [fn]. *)
Definition only_definition (P : omodule) (f : nat) (fn : ofunc) : Prop :=
  n_name fn = f /\ exists pre post, P = pre ++ fn :: post /\ forall g, In g pre \/ In g post -> n_name g <> f.

(** [f] mentions [g]; [f] is part of a cycle. *)
Definition mentions (P : omodule) (f g : nat) : Prop :=
  (exists fn o, In fn P /\ n_name fn = f /\ In o (n_ops fn) /\ (q_kind o = OCall g \/ q_kind o = OTail g \/ q_kind o = OConst g)) /\
  exists fn, In fn P /\ n_name fn = g.
(** Every use of [f] is a direct call that returns. *)
Definition only_called (P : omodule) (f : nat) (fn : ofunc) : Prop :=
  n_abi fn = false /\ ~ reach1 (mentions P) f f /\
  forall g o, In g P -> In o (n_ops g) -> q_kind o <> OConst f /\ q_kind o <> OTail f.

(** The largest set of parameters that are only lent. *)
Definition lendable (P : omodule) (f i : nat) : Prop :=
  exists T : nat -> nat -> Prop, T f i /\
    forall g j, T g j -> exists fn v, only_definition P g fn /\ only_called P g fn /\ nth_error (n_params fn) j = Some v /\
      n_anyref fn v = true /\ only_lent T (n_ops fn) v.

(** The order in which the code visits the functions: any list with all functions that are defined once. *)
Definition visits_all (P : omodule) (order : list nat) : Prop := forall f fn, only_definition P f fn -> In f order.

(** ** As a fact about runs *)

(** A frame: the function, and which of its values are the reference in question.  Operations run in any order: that
    includes every way the control flow can go. *)
Definition frame : Type := ofunc * (nat -> bool).
Definition assign (xs : list nat) (b : bool) (m : nat -> bool) : nat -> bool := fun x => if in_dec Nat.eq_dec x xs then b else m x.
Definition carried (m : nat -> bool) (xs : list nat) : bool := existsb m xs.
(** The values of a function that starts: its parameters are the reference if the arguments are. *)
Fixpoint entering (m : nat -> bool) (params args : list nat) : nat -> bool :=
  match params, args with
  | p :: params, a :: args => fun x => if x =? p then m a else entering m params args x
  | _, _ => fun _ => false
  end.

(** A stack: the running frame, and the callers with the results their calls will have. *)
Definition stack : Type := frame * list (frame * list nat).

Inductive runs (P : omodule) : stack -> stack -> Prop :=
| runs_local fn m o rest :
    In o (n_ops fn) -> (q_kind o = OLoad \/ (exists a, q_kind o = OStore a) \/ q_kind o = OCmp \/ (exists g, q_kind o = OConst g)) ->
    runs P (fn, m, rest) (fn, assign (q_results o) false m, rest)
| runs_cast fn m o rest :
    In o (n_ops fn) -> q_kind o = OCast -> runs P (fn, m, rest) (fn, assign (q_results o) (carried m (q_args o)) m, rest)
| runs_other fn m o rest :                           (* also a jump: any values may be given what the operands are *)
    In o (n_ops fn) -> q_kind o = OOther -> forall xs, runs P (fn, m, rest) (fn, assign xs (carried m (q_args o)) m, rest)
| runs_call fn m o rest g callee :
    In o (n_ops fn) -> q_kind o = OCall g -> In callee P -> n_name callee = g ->
    runs P (fn, m, rest) (callee, entering m (n_params callee) (q_args o), (fn, m, q_results o) :: rest)
| runs_call_unknown fn m o rest g :
    In o (n_ops fn) -> q_kind o = OCall g -> (forall callee, In callee P -> n_name callee <> g) ->
    runs P (fn, m, rest) (fn, assign (q_results o) (carried m (q_args o)) m, rest)
| runs_indirect fn m o rest callee :
    In o (n_ops fn) -> q_kind o = OCallInd -> In callee P ->
    runs P (fn, m, rest) (callee, entering m (n_params callee) (tl (q_args o)), (fn, m, q_results o) :: rest)
| runs_tail fn m o rest g callee :
    In o (n_ops fn) -> q_kind o = OTail g -> In callee P -> n_name callee = g ->
    runs P (fn, m, rest) (callee, entering m (n_params callee) (q_args o), rest)
| runs_tail_indirect fn m o rest callee :
    In o (n_ops fn) -> q_kind o = OTailInd -> In callee P ->
    runs P (fn, m, rest) (callee, entering m (n_params callee) (tl (q_args o)), rest)
| runs_return fn m o caller m' results rest :
    In o (n_ops fn) -> q_kind o = OReturn ->
    runs P (fn, m, (caller, m', results) :: rest) (caller, assign results (carried m (q_args o)) m', rest).

Inductive runs_many (P : omodule) : stack -> stack -> Prop :=
| runs_none s : runs_many P s s
| runs_more s t u : runs_many P s t -> runs P t u -> runs_many P s u.

(** The running function does something with the reference for which it needs a count: anything but reading through it,
    writing through it, comparing it, casting it, and passing it to a function of the module. *)
Definition needs_count (P : omodule) (st : stack) : Prop :=
  match st with
  | (fn, m, _) => exists o i x, In o (n_ops fn) /\ nth_error (q_args o) i = Some x /\ m x = true /\
      match q_kind o with
      | OLoad => i <> 0
      | OStore a => i <> a
      | OCmp => False
      | OCast => q_args o <> [x] \/ List.length (q_results o) <> 1
      | OCall g => forall callee, In callee P -> n_name callee <> g
      | _ => True
      end
  end.

(** A call of [fn] in which some arguments are the reference, each at a parameter that [fn] says it borrows. *)
Definition lent_call (s : nat -> nat -> bool) (fn : ofunc) (m : nat -> bool) : Prop :=
  forall x, m x = true -> exists i, nth_error (n_params fn) i = Some x /\ s (n_name fn) i = true.

(** ** Counts at a call *)

(** What a call passes: the callee of an indirect call is its first operand and not among them. *)
Definition passed_on (o : oop) : list nat :=
  match q_kind o with OCallInd | OTailInd => match q_args o with [] => [] | _ :: xs => xs end | _ => q_args o end.

(** How many counts on an argument pass from the caller to the callee: what the caller adds or gives up for the call,
    and what the callee takes over. *)
Definition caller_gives (a : ownership) : nat := match a with Acquire | Transfer => 1 | _ => 0 end.
Definition callee_takes (fn : ofunc) (v : nat) : nat := if n_anyref fn v && n_cps fn then 1 else 0.
