(** What equations between types and rows mean.

    A semantics of types interprets every type constructor as an operation on some carrier,
    and an effect row as a set: extending a row by an effect is commutative and idempotent.
    Display names and calling conventions are not part of a type's identity. *)
From Verif Require Export UnifyModel SubstSpec.

Record semantics := {
  s_ty : Type;
  s_row : Type;
  s_prim : prim -> s_ty;
  s_bound : nat -> s_ty;
  s_local : nat -> nat -> s_ty;
  s_named : tydef -> list s_ty -> s_ty;
  s_func : list s_ty -> s_ty -> s_row -> s_ty;
  s_tuple : list s_ty -> s_ty;
  s_app : s_ty -> list s_ty -> s_ty;
  s_cont : s_ty -> s_ty -> s_row -> s_ty;
  s_error : s_ty;
  s_empty : s_row;
  s_ext : ability -> list s_ty -> s_row -> s_row;
  s_comm : forall a xs b ys r, s_ext a xs (s_ext b ys r) = s_ext b ys (s_ext a xs r);
  s_idem : forall a xs r, s_ext a xs (s_ext a xs r) = s_ext a xs r }.

Section Meaning.
  Variable S : semantics.

  (** Values of the type variables and of the row variables. *)
  Definition valuation : Type := (nat -> s_ty S) * (nat -> s_row S).

  Fixpoint meaning (th : valuation) (t : ty) {struct t} : s_ty S :=
    let row := fun r : list (ability * list ty) * option nat =>
      fold_right (fun e acc => match e with (a, xs) => s_ext S a (List.map (meaning th) xs) acc end)
                 (match snd r with Some v => snd th v | None => s_empty S end) (fst r) in
    match t with
    | TPrim p => s_prim S p
    | TBound i => s_bound S i
    | TLocal s i => s_local S s i
    | TUni v => fst th v
    | TNamed d _ xs => s_named S d (List.map (meaning th) xs)
    | TFunc ps r e _ => s_func S (List.map (meaning th) ps) (meaning th r) (row e)
    | TTuple xs => s_tuple S (List.map (meaning th) xs)
    | TApp c xs => s_app S (meaning th c) (List.map (meaning th) xs)
    | TCont a r e => s_cont S (meaning th a) (meaning th r) (row e)
    | TError => s_error S
    end.

  Definition meaning_effects (th : valuation) (es : list effect) (base : s_row S) : s_row S :=
    fold_right (fun e acc => match e with (a, xs) => s_ext S a (List.map (meaning th) xs) acc end) base es.
  Definition meaning_row (th : valuation) (r : row) : s_row S :=
    meaning_effects th (fst r) (match snd r with Some v => snd th v | None => s_empty S end).

  (** The valuation agrees with every binding of the solver. *)
  Definition solves (th : valuation) (st : ust) : Prop :=
    (forall v t, tget (u_ts st) v = Some t -> fst th v = meaning th t) /\
    (forall v r, rget (u_rs st) v = Some r -> snd th v = meaning_row th r).

  (** A notion of sameness on the carriers that all constructors respect. *)
  Record sameness := {
    same_ty : s_ty S -> s_ty S -> Prop;
    same_row : s_row S -> s_row S -> Prop;
    same_refl : forall x, same_ty x x;
    same_row_refl : forall x, same_row x x;
    same_sym : forall x y, same_ty x y -> same_ty y x;
    same_row_sym : forall x y, same_row x y -> same_row y x;
    same_named : forall d xs ys, Forall2 same_ty xs ys -> same_ty (s_named S d xs) (s_named S d ys);
    same_func : forall xs ys r q e f, Forall2 same_ty xs ys -> same_ty r q -> same_row e f ->
      same_ty (s_func S xs r e) (s_func S ys q f);
    same_tuple : forall xs ys, Forall2 same_ty xs ys -> same_ty (s_tuple S xs) (s_tuple S ys);
    same_app : forall c d xs ys, same_ty c d -> Forall2 same_ty xs ys -> same_ty (s_app S c xs) (s_app S d ys);
    same_cont : forall a b r q e f, same_ty a b -> same_ty r q -> same_row e f ->
      same_ty (s_cont S a r e) (s_cont S b q f);
    same_ext : forall a xs ys r q, Forall2 same_ty xs ys -> same_row r q ->
      same_row (s_ext S a xs r) (s_ext S a ys q) }.

  (** The three places where the solver accepts unequal things. *)
  Definition lenient (Q : sameness) : Prop :=
    (forall x, same_ty Q (s_error S) x) /\ (forall x, same_ty Q (s_prim S PNever) x) /\
    (forall x, same_row Q (s_empty S) x).

  (** What a constraint demands. *)
  Fixpoint holds (Q : sameness) (th : valuation) (c : constr) {struct c} : Prop :=
    match c with
    | CType t1 t2 => same_ty Q (meaning th t1) (meaning th t2)
    | CRow r1 r2 => same_row Q (meaning_row th r1) (meaning_row th r2)
    | CAnd cs => fold_right (fun c P => holds Q th c /\ P) True cs
    end.
End Meaning.

(** Plain equality. *)
Definition equality (S : semantics) : sameness S.
Proof.
  refine (Build_sameness S eq eq _ _ _ _ _ _ _ _ _ _); auto.
  all: intros; repeat match goal with
    | H : Forall2 eq ?l ?m |- _ =>
        assert (l = m) by (clear - H; induction H; [reflexivity | congruence]); clear H
    end; congruence.
Defined.

(** Log conditions.  An effect list is unambiguous if it lists no ability twice. *)
Definition unambiguous (es : list effect) : Prop := NoDup (List.map fst es).
Definition ordinary (e : event) : Prop :=
  match e with
  | Coerced => True
  | Compared es => unambiguous es
  | Rebound _ => False
  end.
Definition exact (e : event) : Prop := ordinary e /\ e <> Coerced.

(** * The first-order fragment *)

(** Types without effects, quantified variables, [Never] and error types. *)
Fixpoint first_order (t : ty) : Prop :=
  let all := fix all (l : list ty) : Prop := match l with [] => True | x :: l => first_order x /\ all l end in
  match t with
  | TPrim p => p <> PNever
  | TUni _ => True
  | TNamed _ _ xs | TTuple xs => all xs
  | TFunc ps r e _ => all ps /\ first_order r /\ e = pure_row
  | TApp c xs => first_order c /\ all xs
  | TCont a r e => first_order a /\ first_order r /\ e = pure_row
  | TBound _ | TLocal _ _ | TError => False
  end.

(** A type up to display names and calling conventions. *)
Fixpoint strip (t : ty) : ty :=
  match t with
  | TNamed d _ xs => TNamed d EmptyString (List.map strip xs)
  | TFunc ps r e _ => TFunc (List.map strip ps) (strip r) e Direct
  | TTuple xs => TTuple (List.map strip xs)
  | TApp c xs => TApp (strip c) (List.map strip xs)
  | TCont a r e => TCont (strip a) (strip r) e
  | _ => t
  end.
Definition same_type (t1 t2 : ty) : Prop := strip t1 = strip t2.

(** [f] assigns a type to every variable; it solves an equation if both sides become the
    same type, and a solver state if it solves all its bindings. *)
Definition unifies (f : nat -> ty) (t1 t2 : ty) : Prop := same_type (fill f t1) (fill f t2).
Definition solves_bindings (f : nat -> ty) (ts : type_subst) : Prop :=
  forall v t, tget ts v = Some t -> unifies f (TUni v) t.

(** Constraints between first-order types, and their solutions. *)
Fixpoint first_order_constr (c : constr) : Prop :=
  match c with
  | CType t1 t2 => first_order t1 /\ first_order t2
  | CRow _ _ => False
  | CAnd cs => fold_right (fun c P => first_order_constr c /\ P) True cs
  end.
Fixpoint satisfies (f : nat -> ty) (c : constr) : Prop :=
  match c with
  | CType t1 t2 => unifies f t1 t2
  | CRow _ _ => False
  | CAnd cs => fold_right (fun c P => satisfies f c /\ P) True cs
  end.

(** [f] is a most general solution of [cs]: every solution is an instance of it. *)
Definition most_general (f : nat -> ty) (cs : list constr) : Prop :=
  satisfies f (CAnd cs) /\
  forall g, satisfies g (CAnd cs) -> forall v, same_type (g v) (fill g (f v)).

(** Every type has a resolved form: following the bindings ends. *)
Definition acyclic (ts : type_subst) : Prop := forall t, exists fuel r, tapply fuel ts [] t = Some r.
