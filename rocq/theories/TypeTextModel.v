(** How types are shown in the editor.
    Models [print_ast_type], src/lsp/type_index.rs:23-130, and [primitive_name],
    crates/tribute-front/src/ast/types.rs:157-169.

    Simplifications: texts are lists of characters; an effect is written as the named
    type with its name and arguments, which lines 84-93 print like lines 55-62;
    numbers do not overflow (the sums of lines 43-45 are in 32 bits). *)
From Coq Require Export String Ascii List NArith Lia Bool.
From Coq Require Import DecimalString.
Export ListNotations.
Open Scope list_scope.

Definition text := list ascii.
Definition txt (s : string) : text := list_ascii_of_string s.

(** ast/types.rs:60-150, [TypeKind]; a definition is a number. *)
Inductive prim := Int | Nat' | Float | Bool' | Bytes | Rune | Nil | Never.
(** 42-46: the sources of inference variables. *)
Inductive source := FunctionLocal (index : N) | Anonymous (counter : N) | Solver (index : N).
Inductive ty :=
| Prim (p : prim)
| BoundVar (index : N)
| UniVar (s : source) (index : N)
| Named (id : nat) (name : text) (args : list ty)
| Func (params : list ty) (result : ty) (effects : list ty) (rest : option nat)
| Tuple (elems : list ty)
| App (ctor : ty) (args : list ty)
| Error.

Definition primitive_name (p : prim) : text :=
  txt match p with Int => "Int" | Nat' => "Nat" | Float => "Float" | Bool' => "Bool" | Bytes => "Bytes" | Rune => "Rune" | Nil => "Nil" | Never => "Never" end.

Definition decimal (n : N) : text := txt (NilZero.string_of_uint (N.to_uint n)).
(** [char::from_u32('a' as u32 + index)] *)
Definition letter (n : N) : ascii := ascii_of_N (97 + n).
(** 31-39 and 48-54 *)
Definition variable (other : text) (n : N) : text := if (n <? 26)%N then [letter n] else other ++ decimal n.
(** 41-46 *)
Definition display_index (s : source) (i : N) : N := match s with FunctionLocal n | Anonymous n | Solver n => (n + i)%N end.

(** [join(", ")] *)
Fixpoint join (l : list text) : text :=
  match l with [] => [] | [x] => x | x :: l' => x ++ txt ", " ++ join l' end.

(** 23-130 *)
Fixpoint print (t : ty) : text :=
  match t with
  | Prim p => primitive_name p
  | BoundVar i => variable (txt "t") i
  | UniVar s i => variable (txt "?") (display_index s i)
  | Named _ name args => match args with [] => name | _ => name ++ txt "(" ++ join (List.map print args) ++ txt ")" end
  | Func params result effects rest =>
      let ps := txt "fn(" ++ join (List.map print params) ++ txt ")" in
      match effects, rest with
      | [], None => ps ++ txt " -> " ++ print result
      | _, _ =>
          let es := match rest, effects with
                    | None, _ => join (List.map print effects)
                    | Some _, [] => txt "e"
                    | Some _, _ => join (List.map print effects) ++ txt " | e"
                    end in
          ps ++ txt " ->{" ++ es ++ txt "} " ++ print result
      end
  | Tuple elems => txt "(" ++ join (List.map print elems) ++ txt ")"
  | App ctor args => print ctor ++ txt "(" ++ join (List.map print args) ++ txt ")"
  | Error => txt "<error>"
  end.
