(** The pass that turns calls of the list construction intrinsic into list operations.
    Models crates/tribute-passes/src/list_intrinsics.rs:18-151.

    Simplifications: the replaced call keeps its result number (new values and the
    renaming of uses are those of the rewrite engine, see [DriverModel]); types and
    locations are left out; both patterns run in one round, since neither makes work
    for the other: which declarations count is settled before (49-64). *)
From Coq Require Export String Ascii List Arith Lia Bool.
Export ListNotations.
Open Scope list_scope.

Definition text := list ascii.
Definition txt (s : string) : text := list_ascii_of_string s.
Definition text_eqb (a b : text) : bool := if list_eq_dec ascii_dec a b then true else false.

(** Operations with the numbers of their values.  [Call]: [func.call]; [Ref]:
    [func.constant]; [Indirect]: [func.call_indirect]; [Other]: any operation that
    computes with values; [Field]: takes a part; [Prepend]: [list.prepend]; [If]:
    operations with nested code. *)
Inductive instr :=
| Call (callee : text) (args : list nat) (results : list nat)
| Ref (callee : text) (result : nat)
| Indirect (callee : nat) (args : list nat) (result : nat)
| Other (kind : nat) (args : list nat) (result : nat)
| Field (value index result : nat)
| Prepend (element tail result : nat)
| If (cond : nat) (yes no : list instr).
(** [func.func] with the attribute [abi = "intrinsic"] as a flag. *)
Record decl := { name : text; intrinsic : bool; params : list nat; body : list instr; ret : nat }.
Definition program := list decl.

(** 18 *)
Definition base : text := txt "List::__tribute_list_prepend_intrinsic".
Fixpoint strip_prefix (pre t : text) : option text :=
  match pre, t with
  | [], _ => Some t
  | c :: pre', d :: t' => if ascii_dec c d then strip_prefix pre' t' else None
  | _ :: _, [] => None
  end.
(** 20-27 *)
Definition is_prepend_intrinsic (n : text) : bool :=
  text_eqb n base || match strip_prefix base n with Some (c :: _) => Ascii.eqb c "$" | _ => false end.
(** 29-31 *)
Definition intrinsic_declaration (n : text) : option text := if is_prepend_intrinsic n then Some base else None.

Definition mem (n : text) (l : list text) : bool := existsb (text_eqb n) l.
(** 49-63 *)
Definition all_names (p : program) : list text := List.map name p.
Definition eligible_names (p : program) : list text := List.map name (filter (fun d => is_prepend_intrinsic (name d) && intrinsic d) p).

(** 94-109 *)
Definition eligible_call (all eligible : list text) (callee : text) : bool :=
  match intrinsic_declaration callee with
  | None => false
  | Some b => if mem callee all then mem callee eligible else mem b eligible
  end.
(** 84-127 *)
Fixpoint lower (all eligible : list text) (i : instr) : instr :=
  match i with
  | Call callee args results =>
      if eligible_call all eligible callee then
        match args, results with [e; t], [r] => Prepend e t r | _, _ => i end
      else i
  | If c a b => If c (List.map (lower all eligible) a) (List.map (lower all eligible) b)
  | _ => i
  end.
(** 133-151 and 45-74 *)
Definition lower_decl (all eligible : list text) (d : decl) : decl :=
  {| name := name d; intrinsic := intrinsic d; params := params d; body := List.map (lower all eligible) (body d); ret := ret d |}.
Definition run (p : program) : program :=
  let all := all_names p in let eligible := eligible_names p in
  List.map (lower_decl all eligible) (filter (fun d => negb (mem (name d) eligible)) p).
