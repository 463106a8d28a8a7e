(** Finding the call around the cursor for signature help.
    Models src/lsp/server.rs:1104-1186 on the syntax tree of the parser.

    Simplifications: the callee is given by its place in the text instead of the text
    there; kinds of nodes and names of fields that do not matter are numbers; the count
    does not overflow 32 bits. *)
From Coq Require Export List Arith Lia Bool.
Export ListNotations.
Open Scope list_scope.

Inductive kind := CallExpression | MethodCall | ArgumentList | Comma | OtherKind (n : nat).
Inductive field := Function | Arguments | OtherField (n : nat).
Inductive node := Node (k : kind) (start stop : nat) (children : list (option field * node)).
Definition node_kind (n : node) : kind := let '(Node k _ _ _) := n in k.
Definition start_byte (n : node) : nat := let '(Node _ s _ _) := n in s.
Definition end_byte (n : node) : nat := let '(Node _ _ e _) := n in e.
Definition children (n : node) : list (option field * node) := let '(Node _ _ _ cs) := n in cs.

(** [descendant_for_byte_range(offset, offset)] of the parser library and the walk
    upwards with [parent], 1116 and 1125: the nodes from the smallest one to the root.
    A child is entered if it begins at or before the offset and ends after it. *)
Definition enters (o : nat) (n : node) : bool := (start_byte n <=? o) && (o <? end_byte n).
Fixpoint upward (o : nat) (n : node) : list node :=
  let '(Node _ _ _ cs) := n in
  (fix first (cs : list (option field * node)) : list node :=
     match cs with
     | [] => []
     | (_, c) :: cs' => if enters o c then upward o c else first cs'
     end) cs ++ [n].

(** [child_by_field_name] *)
Definition field_eqb (f g : field) : bool :=
  match f, g with Function, Function | Arguments, Arguments => true | OtherField a, OtherField b => a =? b | _, _ => false end.
Definition child_by_field_name (n : node) (f : field) : option node :=
  option_map snd (find (fun c => match fst c with Some g => field_eqb g f | None => false end) (children n)).

(** 1155-1186 *)
Fixpoint count_commas (cs : list (option field * node)) (o : nat) : nat :=
  match cs with
  | [] => 0
  | (_, c) :: cs' =>
      if o <=? start_byte c then 0
      else (match node_kind c with Comma => if end_byte c <=? o then 1 else 0 | _ => 0 end) + count_commas cs' o
  end.
Definition count_commas_before (args : node) (o : nat) : nat := count_commas (children args) o.

(** 1129-1152 *)
Definition extract_call_info (n : node) (o : nat) : option (nat * nat * nat) :=
  match child_by_field_name n Function with
  | None => None
  | Some f => match child_by_field_name n Arguments with None => None | Some args => Some (start_byte f, end_byte f, count_commas_before args o) end
  end.
(** 1112-1127 *)
Definition is_call (n : node) : bool := match node_kind n with CallExpression => true | _ => false end.
Definition find_enclosing_call (root : node) (o : nat) : option (nat * nat * nat) :=
  match find is_call (upward o root) with None => None | Some n => extract_call_info n o end.
