(** Reachability through calls, and what the functions of a module are. *)
From Verif Require Import CallGraphModel.

Section reach.
  Context {K : Type}.
  Inductive reach (R : K -> K -> Prop) (x : K) : K -> Prop :=
  | reach_refl : reach R x x
  | reach_step : forall y z, reach R x y -> R y z -> reach R x z.
  (** Through at least one step. *)
  Definition reach1 (R : K -> K -> Prop) (x z : K) : Prop := exists y, R x y /\ reach R y z.
  (** A call between functions of the module; calls of undefined functions do not count. *)
  Definition calls (g : graph K) (x y : K) : Prop := In y (edges g x) /\ In y (keys g).
End reach.

(** The functions of a module with their qualified names, under a rule saying which
    segment a nested module contributes. *)
Fixpoint functions_in (seg : option string -> option string -> option string) (path : list string) (i : item) : list (string * item) :=
  match i with
  | Mod name sym items => flat_map (functions_in seg (extend path (seg name sym))) items
  | Func (Some n) abi body => [(join path n, i)]
  | _ => []
  end.
(** Nested modules named by [sym_name] (call_graph.rs) or by [name] (global_dce.rs). *)
Definition by_sym (name sym : option string) : option string := sym.
Definition by_name (name sym : option string) : option string := name.
Definition functions (seg : option string -> option string -> option string) (items : list item) : list (string * item) :=
  flat_map (functions_in seg []) items.
Definition body_of (i : item) : list bop := match i with Func _ _ body => body | _ => [] end.

(** An operation of a body, at any depth. *)
Inductive op_in_body : bkind -> list bop -> Prop :=
| oib_here : forall k nested l, In (BOp k nested) l -> op_in_body k l
| oib_deep : forall k k' nested l, In (BOp k' nested) l -> op_in_body k nested -> op_in_body k l.
Definition refers (body : list bop) (c : string) : Prop :=
  op_in_body (BCall (Some c)) body \/ op_in_body (BTailCall (Some c)) body \/ op_in_body (BConstant (Some c)) body.
(** A function named [f] whose body refers to [c]. *)
Definition refers_to (fs : list (string * item)) (f c : string) : Prop := exists i, In (f, i) fs /\ refers (body_of i) c.

(** A call site of [f]. *)
Definition is_call (f : string) (k : bkind) : nat :=
  match k with BCall (Some c) | BTailCall (Some c) => if string_dec c f then 1 else 0 | _ => 0 end.
Fixpoint call_sites (f : string) (b : bop) : nat :=
  match b with BOp k nested => is_call f k + list_sum (map (call_sites f) nested) end.
(** One order of the functions and callee sets collected from a module: the code
    keeps them in hash maps and sets, whose iteration order is arbitrary. *)
Definition view_of (c : cg) (g : graph string) : Prop :=
  NoDup (keys g) /\ (forall f, In f (keys g) <-> In f (cg_funcs c)) /\ (forall f x, In x (edges g f) <-> In (f, x) (cg_edges c)).

(** Entry points. *)
Fixpoint exports_in (i : item) : list string :=
  match i with Mod _ _ items => flat_map exports_in items | Export (Some f) => [f] | _ => [] end.
Definition entry (cfg : dce_config) (fs : list (string * item)) (exports : list string) (f : string) : Prop :=
  In f exports \/
  exists n abi body, In (f, Func (Some n) abi body) fs /\
    (n = "main"%string \/ n = "_start"%string \/ abi = true \/ In f (extra_entry_points cfg) \/ In n (extra_entry_points cfg)).

(** What dead-function elimination looks at: nested modules only if configured. *)
Definition visible (cfg : dce_config) (i : item) : bool := match i with Mod _ _ _ => recursive cfg | _ => true end.
Definition dce_functions (cfg : dce_config) (items : list item) : list (string * item) := functions by_name (filter (visible cfg) items).
Definition dce_exports (cfg : dce_config) (items : list item) : list string := flat_map exports_in (filter (visible cfg) items).
(** Reachable from an entry point through references. *)
Definition live (cfg : dce_config) (items : list item) (f : string) : Prop :=
  exists r, entry cfg (dce_functions cfg items) (dce_exports cfg items) r /\ reach (refers_to (dce_functions cfg items)) r f.

(** Everything in a module except its named functions. *)
Fixpoint rest_of (i : item) : list item :=
  match i with
  | Mod name sym items => [Mod name sym (flat_map rest_of items)]
  | Func (Some _) _ _ => []
  | _ => [i]
  end.
(** The same for what elimination sees; modules it does not look into stay whole. *)
Definition dce_rest (cfg : dce_config) (i : item) : list item := if visible cfg i then rest_of i else [i].
(** Every nested module has the same [name] and [sym_name]. *)
Fixpoint named_alike (i : item) : Prop :=
  match i with
  | Mod name sym items => name = sym /\ fold_right and True (map named_alike items)
  | _ => True
  end.
