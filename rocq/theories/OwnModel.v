(** Which parameters a function only borrows, and what each call does with the counts of its arguments.
    Models crates/tribute-passes/src/native/ownership_summary.rs:89-440 and 715-940.

    A function is the list of the operations of its body in walk order, with a mark on those inside the region of
    another operation; values are numbers, local to the function; symbols are numbers.  Hash maps are functions, and
    the order in which the code iterates over them is an input.  Attributes that carry the results to the next pass are
    left out. *)
From Coq Require Export List.
From Verif Require Export Base CallGraphModel.
Export ListNotations.

(** The operations the analysis tells apart ([borrowed_use_kind], ownership_summary.rs:913-945).  [OLoad] are mem.load,
    clif.load and the reading operations of adt; [OStore n] is a store whose address is operand [n]; [OCast] are
    core.unrealized_conversion_cast, adt.variant_cast and adt.ref_cast. *)
Inductive okind : Type :=
| OCall (callee : nat) | OTail (callee : nat) | OCallInd | OTailInd | OConst (func_ref : nat)
| OLoad | OStore (address : nat) | OCmp | OCast | OReturn | OOther.

(** [q_nested]: the operation is in a region of another operation; [q_cps]: it carries the convention Cps;
    [q_sig]: the signature of an indirect call: for each parameter whether it becomes a reference, and whether the
    result is core.nil. *)
Record oop : Type := mkOop { q_kind : okind; q_args : list nat; q_results : list nat; q_nested : bool; q_cps : bool;
                             q_sig : option (list bool * bool) }.
(** [n_anyref v]: the type of [v] lowers to tribute_rt.anyref; [n_abi]: the function has an [abi] attribute; [n_cps]:
    [is_defined_physical_cps_function] (ownership_summary.rs:260-284). *)
Record ofunc : Type := mkOfunc { n_name : nat; n_params : list nat; n_anyref : nat -> bool; n_abi : bool; n_cps : bool;
                                 n_ops : list oop }.
Definition omodule := list ofunc.

Definition omem (x : nat) (l : list nat) : bool := existsb (Nat.eqb x) l.

(** ownership_summary.rs:98-113: functions whose symbol is defined once. *)
Definition named_fns (P : omodule) (f : nat) : list ofunc := filter (fun fn => n_name fn =? f) P.
Definition unique_fn (P : omodule) (f : nat) : option ofunc := match named_fns P f with [fn] => Some fn | _ => None end.

(** The call graph (call_graph.rs, see CallGraphModel) and the functions on its cycles. *)
Definition op_ref (o : oop) : list nat := match q_kind o with OCall g | OTail g | OConst g => [g] | _ => [] end.
Definition graph_of (P : omodule) : graph nat :=
  {| keys := nodup Nat.eq_dec (map n_name P); edges := fun f => flat_map (fun fn => flat_map op_ref (n_ops fn)) (named_fns P f) |}.
Definition recursive_names (P : omodule) : list nat :=
  match tarjan_scc Nat.eqb (S (List.length (keys (graph_of P)))) (graph_of P) with
  | Some s => recursive_functions Nat.eqb (graph_of P) s
  | None => []
  end.

(** [collect_escaping_function_symbols], ownership_summary.rs:737-790. *)
Definition escaping (o : oop) : list nat := match q_kind o with OConst g | OTail g => [g] | _ => [] end.
Definition escaping_names (P : omodule) : list nat := flat_map (fun fn => flat_map escaping (n_ops fn)) P.
(** ownership_summary.rs:114-122 *)
Definition ineligible (P : omodule) (f : nat) : bool :=
  omem f (recursive_names P) || match unique_fn P f with Some fn => n_abi fn | None => false end || omem f (escaping_names P).

(** ** Borrowed uses *)

(** For a symbol and the number of a parameter: [Borrowed]?  False where there is no entry. *)
Definition summary := nat -> nat -> bool.

(** [classify_borrowed_use] and [borrowed_use_kind], ownership_summary.rs:791-850, 913-945. *)
Inductive verdict : Type := Safe | Alias (v : nat) | Direct (callee : nat) | Escapes.
Definition classify (o : oop) (i : nat) : verdict :=
  if q_nested o then Escapes else
  match q_kind o with
  | OCall g => Direct g
  | OLoad => if i =? 0 then Safe else Escapes
  | OStore a => if i =? a then Safe else Escapes
  | OCmp => Safe
  | OCast => if i =? 0 then match q_args o, q_results o with [_], [r] => Alias r | _, _ => Escapes end else Escapes
  | _ => Escapes
  end.

(** [ctx.uses]: the operations with their operand numbers. *)
Fixpoint positions (v : nat) (i : nat) (args : list nat) : list nat :=
  match args with
  | [] => []
  | x :: args => (if x =? v then [i] else []) ++ positions v (S i) args
  end.
Definition uses (ops : list oop) (v : nat) : list (oop * nat) :=
  flat_map (fun o => map (pair o) (positions v 0 (q_args o))) ops.

(** [value_is_borrowed], ownership_summary.rs:852-911; [seen] is its visited set.  The fuel bounds the depth of the
    recursion. *)
Section Value.
  Variables (ops : list oop) (s : summary).
  Section Uses.
    Variable rec : list nat -> nat -> option (bool * list nat).
    Fixpoint all_uses (us : list (oop * nat)) (seen : list nat) : option (bool * list nat) :=
      match us with
      | [] => Some (true, seen)
      | (o, i) :: us =>
          match classify o i with
          | Safe => all_uses us seen
          | Alias r => match rec seen r with Some (true, seen') => all_uses us seen' | other => other end
          | Direct g => if s g i then all_uses us seen else Some (false, seen)
          | Escapes => Some (false, seen)
          end
      end.
  End Uses.
  Fixpoint value_is_borrowed (fuel : nat) (seen : list nat) (v : nat) : option (bool * list nat) :=
    match fuel with
    | O => None
    | S fuel => if omem v seen then Some (true, seen) else all_uses (value_is_borrowed fuel) (uses ops v) (v :: seen)
    end.
End Value.

(** ** The summaries *)

(** ownership_summary.rs:124-141 *)
Definition initial (P : omodule) : summary := fun f i =>
  match unique_fn P f with
  | Some fn => match nth_error (n_params fn) i with Some v => negb (ineligible P f) && n_anyref fn v | None => false end
  | None => false
  end.

Definition lower_entry (s : summary) (f i : nat) : summary := fun g j => if (g =? f) && (j =? i) then false else s g j.
Definition depth (fn : ofunc) : nat := S (S (List.length (flat_map q_results (n_ops fn)))).

(** One parameter, one function, one round of the loop at ownership_summary.rs:143-166. *)
Definition lower_param (fn : ofunc) (st : summary * bool) (p : nat * nat) : option (summary * bool) :=
  let (s, changed) := st in
  let (i, v) := p in
  if s (n_name fn) i then
    match value_is_borrowed (n_ops fn) s (depth fn) [] v with
    | Some (true, _) => Some (s, changed)
    | Some (false, _) => Some (lower_entry s (n_name fn) i, true)
    | None => None
    end
  else Some (s, changed).
Fixpoint lower_params (fn : ofunc) (ps : list (nat * nat)) (st : summary * bool) : option (summary * bool) :=
  match ps with
  | [] => Some st
  | p :: ps => match lower_param fn st p with Some st => lower_params fn ps st | None => None end
  end.
Definition numbered (vs : list nat) : list (nat * nat) := combine (seq 0 (List.length vs)) vs.
Fixpoint one_round (P : omodule) (order : list nat) (st : summary * bool) : option (summary * bool) :=
  match order with
  | [] => Some st
  | f :: order =>
      match (if ineligible P f then Some st
             else match unique_fn P f with Some fn => lower_params fn (numbered (n_params fn)) st | None => Some st end) with
      | Some st => one_round P order st
      | None => None
      end
  end.
Fixpoint rounds (fuel : nat) (P : omodule) (order : list nat) (s : summary) : option summary :=
  match fuel with
  | O => None
  | S fuel => match one_round P order (s, false) with
              | Some (s', true) => rounds fuel P order s'
              | Some (s', false) => Some s'
              | None => None
              end
  end.
(** [compute_and_attach], first half; the code has no bound on the rounds: one more than the number of parameters is
    enough ([summaries_computed]). *)
Definition parameter_count (P : omodule) : nat := List.length (flat_map n_params P).
Definition compute_summaries (P : omodule) (order : list nat) : option summary :=
  rounds (S (parameter_count P)) P order (initial P).

(** ** Contracts *)

(** [RcOwnership] *)
Inductive ownership : Type := Plain | Borrowed | Retained | Consumed | Acquire | Transfer.

(** Entry contracts, ownership_summary.rs:168-190: none for symbols that are not defined once. *)
Definition entry_of (s : summary) (fn : ofunc) (p : nat * nat) : ownership :=
  let (i, v) := p in
  if negb (n_anyref fn v) then Plain else if n_cps fn then Consumed else if s (n_name fn) i then Borrowed else Retained.
Definition entry_contract (P : omodule) (s : summary) (f : nat) : option (list ownership) :=
  match unique_fn P f with
  | Some fn => Some (map (entry_of s fn) (numbered (n_params fn)))
  | None => None
  end.

(** [action_for_entry], ownership_summary.rs:412-438; [None] is the error. *)
Definition action_for_entry (e : ownership) (tail : bool) : option ownership :=
  if tail then match e with Plain => Some Plain | Consumed => Some Transfer | _ => None end
  else match e with Plain => Some Plain | Borrowed => Some Borrowed | Retained => Some Retained | Consumed => Some Acquire
       | Acquire | Transfer => None end.
Fixpoint actions_for (es : list ownership) (tail : bool) : option (list ownership) :=
  match es with
  | [] => Some []
  | e :: es => match action_for_entry e tail, actions_for es tail with Some a, Some l => Some (a :: l) | _, _ => None end
  end.

(** What becomes of one operation, ownership_summary.rs:296-398. *)
Inductive outcome : Type := NoContract | Contract (actions : list ownership) | Rejected.
Definition is_tail_op (o : oop) : bool := match q_kind o with OTail _ | OTailInd => true | _ => false end.
Definition is_indirect_op (o : oop) : bool := match q_kind o with OCallInd | OTailInd => true | _ => false end.
Definition call_args (o : oop) : list nat := if is_indirect_op o then tl (q_args o) else q_args o.
Definition call_contract (P : omodule) (s : summary) (fn : ofunc) (o : oop) : outcome :=
  if is_tail_op o && negb (q_cps o) then if existsb (n_anyref fn) (call_args o) then Rejected else NoContract
  else
  match q_kind o with
  | OCall g | OTail g =>
      match entry_contract P s g with
      | None => if is_tail_op o then Rejected else NoContract
      | Some es =>
          if List.length (q_args o) =? List.length es
          then match actions_for es (is_tail_op o) with Some l => Contract l | None => Rejected end
          else Rejected
      end
  | OTailInd =>
      match q_sig o with
      | Some (ps, true) =>
          if List.length (call_args o) =? List.length ps then Contract (map (fun r : bool => if r then Transfer else Plain) ps)
          else Rejected
      | _ => Rejected
      end
  | _ => NoContract
  end.
(** [compute_and_attach], second half: an error if any call is rejected.  Only functions defined once are looked at. *)
Definition contracts_ok (P : omodule) (s : summary) : bool :=
  forallb (fun fn => match unique_fn P (n_name fn) with
                     | Some _ => forallb (fun o => match call_contract P s fn o with Rejected => false | _ => true end) (n_ops fn)
                     | None => true end) P.
