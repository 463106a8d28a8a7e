(** Attribute maps and their typed getters.  crates/trunk-ir/src/types.rs:28-58, 115-372

    Strings are lists of bytes' numbers only compared for equality ([string]); floats,
    types, locations and byte strings are opaque numbers; the ordered map is an
    association list (only keyed access is modelled).  The symbol table is the list of
    interned texts (InternModel covers the table itself); a symbol is a position. *)
From Coq Require Export String List ZArith.
From Verif Require Export Base.
Open Scope Z_scope.

(** types.rs:29-46 *)
Inductive attr :=
| AUnit | ABool (b : bool) | AInt (v : Z) | AFloatBits (n : Z) | AString (s : string) | ABytes (n : Z)
| ASymbol (s : nat) | AType (t : nat) | AList (l : list attr) | ALocation (n : Z).

(** types.rs:133-154 *)
Definition as_i128 (a : attr) : option Z := match a with AInt v => Some v | _ => None end.
Definition as_bool (a : attr) : option bool := match a with ABool b => Some b | _ => None end.
Definition as_str (a : attr) : option string := match a with AString s => Some s | _ => None end.

(** Rust's integer types; the bounds of [TryFrom<i128>]. *)
Inductive ity := I64 | I32 | U64 | U32 | U8.
Definition min_of (t : ity) : Z := match t with I64 => - 2 ^ 63 | I32 => - 2 ^ 31 | _ => 0 end.
Definition max_of (t : ity) : Z :=
  match t with I64 => 2 ^ 63 - 1 | I32 => 2 ^ 31 - 1 | U64 => 2 ^ 64 - 1 | U32 => 2 ^ 32 - 1 | U8 => 2 ^ 8 - 1 end.
Definition try_from (t : ity) (v : Z) : option Z := if (min_of t <=? v) && (v <=? max_of t) then Some v else None.
(** [value as i128] for a wider target is exact (types.rs:183-205). *)
Definition from_int (v : Z) : attr := AInt v.

(** types.rs:242-275; a key is a symbol or a text to look up. *)
Inductive akey := BySymbol (s : nat) | ByText (t : string).
Fixpoint position (l : list string) (t : string) : option nat :=
  match l with
  | [] => None
  | x :: r => if String.eqb x t then Some O else option_map S (position r t)
  end.
Definition lookup_symbol (table : list string) (k : akey) : option nat :=
  match k with BySymbol s => Some s | ByText t => position table t end.
(** Symbol::new: the existing symbol, or a new one. *)
Definition intern (table : list string) (t : string) : list string * nat :=
  match position table t with Some s => (table, s) | None => ((table ++ [t])%list, List.length table) end.

Definition amap := list (nat * attr).
Fixpoint aget (m : amap) (s : nat) : option attr :=
  match m with [] => None | (s', a) :: r => if Nat.eqb s s' then Some a else aget r s end.
Definition adrop (m : amap) (s : nat) : amap := filter (fun e => negb (Nat.eqb s (fst e))) m.

(** types.rs:285-288 *)
Definition get (table : list string) (m : amap) (k : akey) : option attr :=
  match lookup_symbol table k with Some s => aget m s | None => None end.
(** types.rs:295-301 *)
Definition bind {A B} (x : option A) (f : A -> option B) : option B := match x with Some a => f a | None => None end.
Definition get_bool table m k : option bool := bind (get table m k) as_bool.
Definition get_i128 table m k : option Z := bind (get table m k) as_i128.
Definition get_str table m k : option string := bind (get table m k) as_str.
(** types.rs:342-355 with 303-321; the error carries the value and the target type. *)
Inductive gres := OkInt (v : option Z) | OutOfRange (v : Z) (t : ity).
Definition get_integer (t : ity) (table : list string) (m : amap) (k : akey) : gres :=
  match get_i128 table m k with
  | None => OkInt None
  | Some v => match try_from t v with Some x => OkInt (Some x) | None => OutOfRange v t end
  end.

(** ** Histories: other code interns texts; this map is written by key text. *)
Inductive aop := Intern (t : string) | Insert (t : string) (a : attr) | Remove (k : string) | ClearAll.
Definition astate := (list string * amap)%type.
Definition aexec (s : astate) (o : aop) : astate :=
  let '(table, m) := s in
  match o with
  | Intern t => (fst (intern table t), m)
  (** types.rs:364-366 with the key made by Symbol::new *)
  | Insert t a => let '(table', sym) := intern table t in (table', (sym, a) :: adrop m sym)
  (** types.rs:368-371 *)
  | Remove k => match position table k with Some sym => (table, adrop m sym) | None => (table, m) end
  (** types.rs:404-406 *)
  | ClearAll => (table, [])
  end.
Definition arun (h : list aop) : astate := fold_left aexec h ([], []).
