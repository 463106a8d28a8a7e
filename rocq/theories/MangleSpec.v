(** What names must distinguish, stated without reference to how names are built. *)
From Coq Require Import Ascii.
From Verif Require Export TyModel.
Open Scope string_scope.

Definition is_digit (c : ascii) : bool :=
  let n := N_of_ascii c in (48 <=? n)%N && (n <=? 57)%N.

Fixpoint mentions (c : ascii) (s : string) : bool :=
  match s with
  | EmptyString => false
  | String d s => Ascii.eqb c d || mentions c s
  end.

Definition no_dollar (s : string) : Prop := mentions "$" s = false.

Definition starts_with_digit (s : string) : bool :=
  match s with
  | EmptyString => false
  | String c _ => is_digit c
  end.

Fixpoint all_digits (s : string) : bool :=
  match s with
  | EmptyString => true
  | String c s => is_digit c && all_digits s
  end.

(** What the surface syntax guarantees of (qualified) names: not empty, no dollar sign, no
    leading digit. *)
Definition identifier (s : string) : bool :=
  match s with EmptyString => false | _ => true end
  && negb (mentions "$" s) && negb (starts_with_digit s).

(** Names that already mean something else in a mangled symbol. *)
Definition reserved (s : string) : bool :=
  existsb (String.eqb s)
    ["Int"; "Nat"; "Float"; "Bool"; "Bytes"; "Rune"; "Nil"; "Never"; "Fn"; "Tup"; "BuiltinList";
     "error"]
  || match s with String c s' => Ascii.eqb c "T" && all_digits s' | _ => false end.

(** Concrete types over nominal types whose qualified names satisfy [ok]: no inference
    variable, no type application, no continuation type. *)
Inductive concrete (ok : string -> bool) : ty -> Prop :=
| concrete_prim p : concrete ok (TPrim p)
| concrete_bound i : concrete ok (TBound i)
| concrete_local s i : concrete ok (TLocal s i)
| concrete_error : concrete ok TError
| concrete_named id name args :
    ok (td_qualified id) = true \/ td_origin id = BuiltinList ->
    Forall (concrete ok) args -> concrete ok (TNamed id name args)
| concrete_func ps r e c : Forall (concrete ok) ps -> concrete ok r -> concrete ok (TFunc ps r e c)
| concrete_tuple ts : Forall (concrete ok) ts -> concrete ok (TTuple ts).

Definition unreserved (s : string) : bool := identifier s && negb (reserved s).

(** Types that differ at most in what monomorphization forgets: effect rows and minimum
    conventions of function types, the scope of a quantified variable, and which source
    declaration a qualified name belongs to. *)
Inductive same_shape : ty -> ty -> Prop :=
| same_prim p : same_shape (TPrim p) (TPrim p)
| same_bound i : same_shape (TBound i) (TBound i)
| same_local s s' i : same_shape (TLocal s i) (TLocal s' i)
| same_bound_local s i : same_shape (TBound i) (TLocal s i)
| same_local_bound s i : same_shape (TLocal s i) (TBound i)
| same_error : same_shape TError TError
| same_list id id' n n' args args' :
    td_origin id = BuiltinList -> td_origin id' = BuiltinList ->
    Forall2 same_shape args args' -> same_shape (TNamed id n args) (TNamed id' n' args')
| same_named id id' n n' args args' :
    td_origin id <> BuiltinList -> td_origin id' <> BuiltinList ->
    td_qualified id = td_qualified id' ->
    Forall2 same_shape args args' -> same_shape (TNamed id n args) (TNamed id' n' args')
| same_func ps ps' r r' e e' c c' :
    Forall2 same_shape ps ps' -> same_shape r r' -> same_shape (TFunc ps r e c) (TFunc ps' r' e' c')
| same_tuple ts ts' : Forall2 same_shape ts ts' -> same_shape (TTuple ts) (TTuple ts').

(** Types in which nothing is forgotten: pure functions with the default convention,
    variables of the enclosing scheme only, and nominal types whose declaration is
    determined by its qualified name. *)
Inductive plain (decl : string -> tydef * string) : ty -> Prop :=
| plain_prim p : plain decl (TPrim p)
| plain_bound i : plain decl (TBound i)
| plain_error : plain decl TError
| plain_list args : Forall (plain decl) args ->
    plain decl (TNamed (mkTyDef BuiltinList "List") "List" args)
| plain_named id name args :
    td_origin id <> BuiltinList -> decl (td_qualified id) = (id, name) ->
    unreserved (td_qualified id) = true ->
    Forall (plain decl) args -> plain decl (TNamed id name args)
| plain_func ps r : Forall (plain decl) ps -> plain decl r ->
    plain decl (TFunc ps r pure_row Direct)
| plain_tuple ts : Forall (plain decl) ts -> plain decl (TTuple ts).
