(** Names of specialized functions and types.
    Models crates/tribute-front/src/monomorphize/mangle.rs. *)
From Coq Require Import Decimal DecimalString.
From Verif Require Export TyModel.
Open Scope string_scope.

(** Decimal rendering of an index, as [write!(f, "T{index}")] does (mangle.rs:82,86). *)
Definition decimal (n : nat) : string := NilEmpty.string_of_uint (Nat.to_uint n).

(** The primitive arms of [write_type_mangled], mangle.rs:53-60. *)
Definition prim_text (p : prim) : string :=
  match p with
  | PInt => "Int" | PNat => "Nat" | PFloat => "Float" | PBool => "Bool"
  | PBytes => "Bytes" | PRune => "Rune" | PNil => "Nil" | PNever => "Never"
  end.

(** [nominal_mangle_base], mangle.rs:38-45. *)
Definition nominal_base (id : tydef) (name : string) : string :=
  match td_origin id with
  | BuiltinList => "BuiltinList"
  | _ => if String.eqb (td_qualified id) name then name else td_qualified id
  end.

(** All results, or [None] if one of them panicked. *)
Definition sequence {A} : list (option A) -> option (list A) :=
  fix sequence l :=
    match l with
    | [] => Some []
    | Some x :: l => match sequence l with Some xs => Some (x :: xs) | None => None end
    | None :: _ => None
    end.

(** [write_type_mangled] and [write_type_mangled_list], mangle.rs:47-105.  [None] is the
    panic of line 88. *)
Fixpoint mangle (t : ty) : option string :=
  let mangle_list := fun ts => option_map (String.concat "$") (sequence (List.map mangle ts)) in
  match t with
  | TPrim p => Some (prim_text p)
  | TNamed id name args =>
      match args with
      | [] => Some (nominal_base id name)
      | _ => option_map (fun s => nominal_base id name ++ "$0$" ++ s ++ "$1") (mangle_list args)
      end
  | TFunc params result _ _ =>
      match mangle_list params, mangle result with
      | Some s, Some r => Some ("Fn$0$" ++ s ++ "$1$" ++ r)
      | _, _ => None
      end
  | TTuple elems => option_map (fun s => "Tup$0$" ++ s ++ "$1") (mangle_list elems)
  | TBound index => Some ("T" ++ decimal index)
  | TLocal _ index => Some ("T" ++ decimal index)
  | TUni _ | TApp _ _ | TCont _ _ _ => None
  | TError => Some "error"
  end.

(** [mangle_name], mangle.rs:19-27. *)
Definition mangle_name (base : string) (args : list ty) : option string :=
  option_map (fun ss => base ++ String.concat "" (List.map (fun s => "$" ++ s) ss))
             (sequence (List.map mangle args)).

(** [mangle_type_name], mangle.rs:29-36. *)
Definition mangle_type_name (id : tydef) (name : string) (args : list ty) : option string :=
  mangle_name (nominal_base id name) args.
