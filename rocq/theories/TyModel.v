(** Front-end types, effect rows and schemes.
    Models crates/tribute-front/src/ast/types.rs and the identities of
    crates/tribute-front/src/ast/phases.rs. *)
From Coq Require Export String List.
From Verif Require Export Base.

(** The eight primitive kinds of [TypeKind], types.rs:66-84. *)
Inductive prim := PInt | PNat | PFloat | PBool | PBytes | PRune | PNil | PNever.

(** [TypeOrigin], phases.rs:128-141.  A source declaration is named by a node id. *)
Inductive origin := Source (node : nat) | BuiltinList | Synthetic.

(** [TypeDefId], phases.rs:149-154.  Interning makes equality of ids equality of these
    two fields. *)
Record tydef := mkTyDef { td_origin : origin; td_qualified : string }.

(** [AbilityId], phases.rs:228-233.  The only builtin ability is [Io]. *)
Record ability := mkAbility { ab_builtin : bool; ab_qualified : string }.

(** [CallingConvention], crates/tribute-core/src/calling_convention.rs:23-31. *)
Inductive conv := Direct | EvidenceDirect | Cps.

(** [TypeKind], types.rs:64-153.  A type is interned ([Type], types.rs:24-28), so
    equality of types is structural equality here.  An effect row (types.rs:335-345) is a
    pair of its effect list and its optional tail variable; an effect (types.rs:370-375)
    is a pair of an ability and its type arguments.  Unification variables ([UniVarId],
    types.rs:55-60) and row variables ([EffectVar], types.rs:402-404) are numbers. *)
Inductive ty :=
| TPrim (p : prim)
| TBound (index : nat)
| TLocal (scope index : nat)
| TUni (id : nat)
| TNamed (id : tydef) (name : string) (args : list ty)
| TFunc (params : list ty) (result : ty) (eff : list (ability * list ty) * option nat)
        (minimum : conv)
| TTuple (elems : list ty)
| TApp (ctor : ty) (args : list ty)
| TCont (arg result : ty) (eff : list (ability * list ty) * option nat)
| TError.

Definition effect : Type := ability * list ty.
Definition row : Type := list effect * option nat.

Definition pure_row : row := ([], None).

(** [EffectRow::is_pure], types.rs:363-365. *)
Definition is_pure (r : row) : bool :=
  match r with
  | ([], None) => true
  | _ => false
  end.

(** Boolean equalities.  The code compares interned ids; these are the structural
    equalities they stand for. *)
Definition prim_eqb (a b : prim) : bool :=
  match a, b with
  | PInt, PInt | PNat, PNat | PFloat, PFloat | PBool, PBool
  | PBytes, PBytes | PRune, PRune | PNil, PNil | PNever, PNever => true
  | _, _ => false
  end.

Definition conv_eqb (a b : conv) : bool :=
  match a, b with
  | Direct, Direct | EvidenceDirect, EvidenceDirect | Cps, Cps => true
  | _, _ => false
  end.

Definition origin_eqb (a b : origin) : bool :=
  match a, b with
  | Source n, Source m => Nat.eqb n m
  | BuiltinList, BuiltinList | Synthetic, Synthetic => true
  | _, _ => false
  end.

Definition tydef_eqb (a b : tydef) : bool :=
  origin_eqb (td_origin a) (td_origin b) && String.eqb (td_qualified a) (td_qualified b).

Definition ability_eqb (a b : ability) : bool :=
  Bool.eqb (ab_builtin a) (ab_builtin b) && String.eqb (ab_qualified a) (ab_qualified b).

Definition opt_eqb (a b : option nat) : bool :=
  match a, b with
  | Some x, Some y => Nat.eqb x y
  | None, None => true
  | _, _ => false
  end.

Definition all2 {A B} (f : A -> B -> bool) : list A -> list B -> bool :=
  fix all2 (xs : list A) (ys : list B) : bool :=
    match xs, ys with
    | [], [] => true
    | x :: xs, y :: ys => f x y && all2 xs ys
    | _, _ => false
    end.

Fixpoint ty_eqb (a b : ty) {struct a} : bool :=
  let effs := fun (r1 r2 : list (ability * list ty) * option nat) =>
    match r1, r2 with
    | (es1, t1), (es2, t2) =>
        all2 (fun e1 e2 => match e1, e2 with
                           | (a1, xs1), (a2, xs2) => ability_eqb a1 a2 && all2 ty_eqb xs1 xs2
                           end) es1 es2
        && opt_eqb t1 t2
    end in
  match a, b with
  | TPrim p, TPrim q => prim_eqb p q
  | TBound i, TBound j => Nat.eqb i j
  | TLocal s i, TLocal t j => Nat.eqb s t && Nat.eqb i j
  | TUni i, TUni j => Nat.eqb i j
  | TNamed d n xs, TNamed e m ys => tydef_eqb d e && String.eqb n m && all2 ty_eqb xs ys
  | TFunc ps r e c, TFunc ps' r' e' c' =>
      all2 ty_eqb ps ps' && ty_eqb r r' && effs e e' && conv_eqb c c'
  | TTuple xs, TTuple ys => all2 ty_eqb xs ys
  | TApp c xs, TApp d ys => ty_eqb c d && all2 ty_eqb xs ys
  | TCont x r e, TCont x' r' e' => ty_eqb x x' && ty_eqb r r' && effs e e'
  | TError, TError => true
  | _, _ => false
  end.

Definition effect_eqb (e1 e2 : effect) : bool :=
  match e1, e2 with
  | (a1, xs1), (a2, xs2) => ability_eqb a1 a2 && all2 ty_eqb xs1 xs2
  end.

Definition row_eqb (r1 r2 : row) : bool :=
  match r1, r2 with
  | (es1, t1), (es2, t2) => all2 effect_eqb es1 es2 && opt_eqb t1 t2
  end.
