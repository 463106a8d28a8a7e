(** Instantiation, substitution and generalization of types.
    Models crates/tribute-front/src/typeck/subst.rs and the substitution half of
    crates/tribute-front/src/typeck/solver.rs. *)
From Verif Require Export TyModel EffectRowModel.
From Verif Require Import InternModel.

(** * Bound variables *)

(** [SubstResult], subst.rs:12-18, and the panic of [substitute_effect_row], subst.rs:183-188. *)
Inductive sres (A : Type) :=
| SOk (a : A)
| SOut (index max : nat)
| SPanic (index max : nat).
Arguments SOk {A}. Arguments SOut {A}. Arguments SPanic {A}.

Definition sbind {A B} (x : sres A) (f : A -> sres B) : sres B :=
  match x with
  | SOk a => f a
  | SOut i m => SOut i m
  | SPanic i m => SPanic i m
  end.

(** A [for] loop that returns at the first error. *)
Definition straverse {A B} (f : A -> sres B) : list A -> sres (list B) :=
  fix go (l : list A) : sres (list B) :=
    match l with
    | [] => SOk []
    | x :: l => sbind (f x) (fun y => sbind (go l) (fun ys => SOk (y :: ys)))
    end.

Definition or_panic {A} (x : sres A) : sres A :=
  match x with
  | SOut i m => SPanic i m
  | _ => x
  end.

(** [substitute_bound_vars], subst.rs:45-162, and [substitute_effect_row], subst.rs:167-205
    (keeping an unchanged row is the same as rebuilding it). *)
Fixpoint subst_bound (s : list ty) (t : ty) {struct t} : sres ty :=
  let on_row := fun (r : list (ability * list ty) * option nat) =>
    match r with
    | (es, tail) =>
        sbind (straverse (fun e => match e with
                                   | (a, xs) => sbind (straverse (fun x => or_panic (subst_bound s x)) xs)
                                                      (fun ys => SOk (a, ys))
                                   end) es)
              (fun es' => SOk (es', tail))
    end in
  match t with
  | TBound i =>
      match nth_error s i with
      | Some u => SOk u
      | None => SOut i (List.length s)
      end
  | TNamed d n args => sbind (straverse (subst_bound s) args) (fun args' => SOk (TNamed d n args'))
  | TFunc ps r e c =>
      sbind (straverse (subst_bound s) ps) (fun ps' =>
      sbind (subst_bound s r) (fun r' =>
      sbind (on_row e) (fun e' => SOk (TFunc ps' r' e' c))))
  | TTuple xs => sbind (straverse (subst_bound s) xs) (fun xs' => SOk (TTuple xs'))
  | TApp c xs =>
      sbind (subst_bound s c) (fun c' =>
      sbind (straverse (subst_bound s) xs) (fun xs' => SOk (TApp c' xs')))
  | TCont a r e =>
      sbind (subst_bound s a) (fun a' =>
      sbind (subst_bound s r) (fun r' =>
      sbind (on_row e) (fun e' => SOk (TCont a' r' e'))))
  | _ => SOk t
  end.

(** * Effect variables *)

(** The fresh counter and the map from quantified variables to their replacements. *)
Definition fresh_state : Type := nat * list (nat * nat).

Definition smap {S A B} (f : A -> S -> B * S) : list A -> S -> list B * S :=
  fix go (l : list A) (st : S) : list B * S :=
    match l with
    | [] => ([], st)
    | x :: l => let (y, st) := f x st in
                let (ys, st) := go l st in (y :: ys, st)
    end.

(** The tail of [freshen_row], subst.rs:281-286: quantified tails are looked up or given the
    next fresh variable. *)
Definition freshen_tail (q : list nat) (tail : option nat) (st : fresh_state) : option nat * fresh_state :=
  match tail with
  | None => (None, st)
  | Some v =>
      if existsb (Nat.eqb v) q then
        match mget Nat.eqb (snd st) v with
        | Some w => (Some w, st)
        | None => (Some (fst st), (S (fst st), minsert Nat.eqb (snd st) v (fst st)))
        end
      else (Some v, st)
  end.

(** [freshen_effect_vars_inner], subst.rs:252-412. *)
Fixpoint freshen (q : list nat) (t : ty) (st : fresh_state) {struct t} : ty * fresh_state :=
  let on_row := fun (r : list (ability * list ty) * option nat) (st : fresh_state) =>
    match r with
    | (es, tail) =>
        let (es', st) := smap (fun e st => match e with
                                           | (a, xs) => let (ys, st) := smap (freshen q) xs st in ((a, ys), st)
                                           end) es st in
        let (tail', st) := freshen_tail q tail st in
        ((es', tail'), st)
    end in
  match t with
  | TNamed d n args => let (args', st) := smap (freshen q) args st in (TNamed d n args', st)
  | TFunc ps r e c =>
      let (ps', st) := smap (freshen q) ps st in
      let (r', st) := freshen q r st in
      let (e', st) := on_row e st in
      (TFunc ps' r' e' c, st)
  | TTuple xs => let (xs', st) := smap (freshen q) xs st in (TTuple xs', st)
  | TApp c xs =>
      let (c', st) := freshen q c st in
      let (xs', st) := smap (freshen q) xs st in
      (TApp c' xs', st)
  | TCont a r e =>
      let (a', st) := freshen q a st in
      let (r', st) := freshen q r st in
      let (e', st) := on_row e st in
      (TCont a' r' e', st)
  | _ => (t, st)
  end.

(** [collect_effect_vars], types.rs:408-467: [acc] is the vector so far. *)
Definition add_var (acc : list nat) (v : nat) : list nat :=
  if existsb (Nat.eqb v) acc then acc else acc ++ [v].

Fixpoint collect_tails (t : ty) (acc : list nat) {struct t} : list nat :=
  let on_row := fun (r : list (ability * list ty) * option nat) (acc : list nat) =>
    match r with
    | (es, tail) =>
        let acc := fold_left (fun acc e => match e with
                                           | (_, xs) => fold_left (fun acc x => collect_tails x acc) xs acc
                                           end) es acc in
        match tail with
        | Some v => add_var acc v
        | None => acc
        end
    end in
  match t with
  | TNamed _ _ xs | TTuple xs => fold_left (fun acc x => collect_tails x acc) xs acc
  | TFunc ps r e _ =>
      on_row e (collect_tails r (fold_left (fun acc x => collect_tails x acc) ps acc))
  | TApp c xs => fold_left (fun acc x => collect_tails x acc) xs (collect_tails c acc)
  | TCont a r e => on_row e (collect_tails r (collect_tails a acc))
  | _ => acc
  end.
Definition collect_effect_vars (t : ty) : list nat := collect_tails t [].

(** * Schemes *)

(** [TypeScheme], types.rs: the number of type parameters, the quantified rows and the body. *)
Record scheme := mkScheme { sc_params : nat; sc_rows : list nat; sc_body : ty }.

(** [TypeSolver::reserve_effect_vars_in_type], solver.rs:764-776 (the overflow panic at
    2^64 variables is not modelled). *)
Definition reserve (next : nat) (t : ty) : nat :=
  fold_left (fun next v => Nat.max next (S v)) (collect_effect_vars t) next.

(** [TypeSolver::fresh_type_var], solver.rs:749-754.  Solver variables are the odd numbers,
    function-scoped ones the even numbers. *)
Definition solver_var (n : nat) : nat := 2 * n + 1.
(** [UniVarSource::FunctionLocal] variables, types.rs:35-48 (of the one function being checked). *)
Definition function_var (n : nat) : nat := 2 * n.

(** [instantiate_scheme_for_solver], subst.rs:212-233: the instance (or the panic) and the
    counter afterwards. *)
Definition instantiate (sc : scheme) (next : nat) : sres ty * nat :=
  let next := reserve next (sc_body sc) in
  let subst := List.map (fun i => TUni (solver_var i)) (seq next (sc_params sc)) in
  let next := next + sc_params sc in
  match or_panic (subst_bound subst (sc_body sc)) with
  | SOk t => let (t', st) := freshen (sc_rows sc) t (next, []) in (SOk t', fst st)
  | err => (err, next)
  end.

(** * Type substitutions *)

(** [TypeSubst], solver.rs:132-151. *)
Definition type_subst := list (nat * ty).
Definition tget (s : type_subst) (v : nat) : option ty := mget Nat.eqb s v.

Definition obind {A B} (x : option A) (f : A -> option B) : option B :=
  match x with Some a => f a | None => None end.
Definition otraverse {A B} (f : A -> option B) : list A -> option (list B) :=
  fix go (l : list A) : option (list B) :=
    match l with
    | [] => Some []
    | x :: l => obind (f x) (fun y => obind (go l) (fun ys => Some (y :: ys)))
    end.

(** [map_effect_row_type_args], solver.rs:21-42 (keeping an unchanged row is the same as
    rebuilding it). *)
Definition omap_row (f : ty -> option ty) (r : row) : option row :=
  obind (otraverse (fun e : effect => obind (otraverse f (snd e)) (fun ys => Some (fst e, ys))) (fst r))
        (fun es => Some (es, snd r)).

(** [replace_univars_with_bound_and_local], solver.rs:396-565.  With an empty [index] and
    [local] it is [TypeSubst::apply_with_rows], solver.rs:163-257.  [None]: no result within
    [fuel] nested calls, which for a cyclic substitution is the case for every [fuel] (the
    code then overflows its stack). *)
Fixpoint replace (fuel : nat) (ts : type_subst) (rs : row_subst)
    (index : list (nat * nat)) (local : list (nat * (nat * nat))) (t : ty) : option ty :=
  match fuel with
  | O => None
  | S fuel =>
      let rec := replace fuel ts rs index local in
      let on_row := fun e => omap_row rec (rapply rs e) in
      match t with
      | TUni v =>
          match mget Nat.eqb local v with
          | Some (scope, i) => Some (TLocal scope i)
          | None =>
              match mget Nat.eqb index v with
              | Some i => Some (TBound i)
              | None =>
                  match tget ts v with
                  | Some u => rec u
                  | None => Some t
                  end
              end
          end
      | TNamed d n args => obind (otraverse rec args) (fun args' => Some (TNamed d n args'))
      | TFunc ps r e c =>
          obind (otraverse rec ps) (fun ps' => obind (rec r) (fun r' =>
          obind (on_row e) (fun e' => Some (TFunc ps' r' e' c))))
      | TTuple xs => obind (otraverse rec xs) (fun xs' => Some (TTuple xs'))
      | TApp c xs => obind (rec c) (fun c' => obind (otraverse rec xs) (fun xs' => Some (TApp c' xs')))
      | TCont a r e =>
          obind (rec a) (fun a' => obind (rec r) (fun r' =>
          obind (on_row e) (fun e' => Some (TCont a' r' e'))))
      | _ => Some t
      end
  end.

(** [TypeSubst::apply_with_rows], solver.rs:163-257. *)
Fixpoint tapply (fuel : nat) (ts : type_subst) (rs : row_subst) (t : ty) : option ty :=
  match fuel with
  | O => None
  | S fuel =>
      let rec := tapply fuel ts rs in
      let on_row := fun e => omap_row rec (rapply rs e) in
      match t with
      | TUni v =>
          match tget ts v with
          | Some u => rec u
          | None => Some t
          end
      | TNamed d n args => obind (otraverse rec args) (fun args' => Some (TNamed d n args'))
      | TFunc ps r e c =>
          obind (otraverse rec ps) (fun ps' => obind (rec r) (fun r' =>
          obind (on_row e) (fun e' => Some (TFunc ps' r' e' c))))
      | TTuple xs => obind (otraverse rec xs) (fun xs' => Some (TTuple xs'))
      | TApp c xs => obind (rec c) (fun c' => obind (otraverse rec xs) (fun xs' => Some (TApp c' xs')))
      | TCont a r e =>
          obind (rec a) (fun a' => obind (rec r) (fun r' =>
          obind (on_row e) (fun e' => Some (TCont a' r' e'))))
      | _ => Some t
      end
  end.

(** A [for] loop threading an accumulator. *)
Definition ofold {A B} (f : A -> B -> option A) : list B -> A -> option A :=
  fix go (l : list B) (acc : A) : option A :=
    match l with
    | [] => Some acc
    | x :: l => obind (f acc x) (go l)
    end.

(** [collect_unresolved_univars], solver.rs:581-636. *)
Fixpoint collect (fuel : nat) (ts : type_subst) (rs : row_subst) (acc : list nat) (t : ty) : option (list nat) :=
  match fuel with
  | O => None
  | S fuel =>
      let rec := collect fuel ts rs in
      let on_row := fun (e : row) acc => ofold (fun acc (ef : effect) => ofold rec (snd ef) acc) (fst (rapply rs e)) acc in
      match t with
      | TUni v =>
          match tget ts v with
          | Some u => rec acc u
          | None => Some (add_var acc v)
          end
      | TFunc ps r e _ => obind (ofold rec ps acc) (fun acc => obind (rec acc r) (on_row e))
      | TNamed _ _ xs | TTuple xs => ofold rec xs acc
      | TApp c xs => obind (rec acc c) (ofold rec xs)
      | TCont a r e => obind (rec acc a) (fun acc => obind (rec acc r) (on_row e))
      | _ => Some acc
      end
  end.

(** [univars.iter().enumerate().map(|(i, id)| (id, i))] collected into a map. *)
Definition number (vs : list nat) : list (nat * nat) := combine vs (seq 0 (List.length vs)).

(** [generalize_excluding_with_mapping], solver.rs:315-335: the generalized type, the number
    of type parameters and the mapping. *)
Definition generalize_excluding (fuel : nat) (ts : type_subst) (rs : row_subst) (excluded : list nat) (t : ty)
  : option (ty * nat * list (nat * nat)) :=
  obind (collect fuel ts rs [] t) (fun vs =>
    let vs := filter (fun v => negb (existsb (Nat.eqb v) excluded)) vs in
    obind (replace fuel ts rs (number vs) [] t) (fun t' =>
      Some (t', List.length vs, number vs))).

(** [generalize_with_mapping], solver.rs:341-371, of which [generalize], solver.rs:267-297,
    returns the first two components. *)
Definition generalize (fuel : nat) (ts : type_subst) (rs : row_subst) (t : ty)
  : option (ty * nat * list (nat * nat)) :=
  obind (collect fuel ts rs [] t) (fun vs =>
    match vs with
    | [] => Some (t, 0, [])
    | _ => obind (replace fuel ts rs (number vs) [] t) (fun t' => Some (t', List.length vs, number vs))
    end).
