(** The type constraint solver.
    Models [TypeSolver] of crates/tribute-front/src/typeck/solver.rs:732-1590 and the
    constraints of crates/tribute-front/src/typeck/constraint.rs.

    [fuel] bounds the nesting of calls.  A run that exceeds every bound is one on which the
    code overflows its stack; it is reported as [Out].  The state carries a log of three kinds
    of events that the code does not record; nothing reads it, it only lets the theorems name
    the runs in which something special happened. *)
From Verif Require Export SubstModel.
From Verif Require Import InternModel.

(** [SolveError], solver.rs:44-66. *)
Inductive uerr :=
| EMismatch (expected actual : ty)
| EOccurs (var : nat) (t : ty)
| ERow (expected actual : row)
| EArity (a : ability) (expected found : nat).

Inductive event :=
| Coerced                          (* Error, Never or a pure row accepted against something else *)
| Compared (es : list effect)      (* two effect lists matched; [es] is the list whose entries are looked up *)
| Rebound (v : nat).               (* a row variable that already had a binding is bound again *)

(** [TypeSolver], solver.rs:716-724. *)
Record ust := mkU { u_ts : type_subst; u_rs : row_subst; u_next : nat; u_log : list event }.

Inductive ures (A : Type) := UOk (a : A) | UErr (e : uerr) | Out.
Arguments UOk {A}. Arguments UErr {A}. Arguments Out {A}.

(** Computations that may fail; what was changed before a failure stays changed. *)
Definition U (A : Type) := ust -> ures A * ust.
Definition uret {A} (a : A) : U A := fun st => (UOk a, st).
Definition uerror {A} (e : uerr) : U A := fun st => (UErr e, st).
Definition ubind {A B} (m : U A) (f : A -> U B) : U B := fun st =>
  match m st with
  | (UOk a, st) => f a st
  | (UErr e, st) => (UErr e, st)
  | (Out, st) => (Out, st)
  end.
Notation "x <- m ;; k" := (ubind m (fun x => k)) (at level 100, m at next level, right associativity).
Notation "m ;;; k" := (ubind m (fun _ => k)) (at level 100, right associativity).
(** Read the state; [None] is a computation without result. *)
Definition ask {A} (f : ust -> option A) : U A := fun st =>
  match f st with Some a => (UOk a, st) | None => (Out, st) end.
Definition log (e : event) : U unit := fun st => (UOk tt, mkU (u_ts st) (u_rs st) (u_next st) (e :: u_log st)).

(** [iter().zip()] loops. *)
Definition each2 {A B} (f : A -> B -> U unit) : list A -> list B -> U unit :=
  fix go (l : list A) (l' : list B) : U unit :=
    match l, l' with
    | x :: l, y :: l' => f x y ;;; go l l'
    | _, _ => uret tt
    end.

(** [iter().any()] and [iter().zip().all()] of checks that may have no result. *)
Definition oany {A} (f : A -> option bool) : list A -> option bool :=
  fix go (l : list A) : option bool :=
    match l with
    | [] => Some false
    | x :: l => match f x with
                | Some true => Some true
                | Some false => go l
                | None => None
                end
    end.
Definition oall2 {A B} (f : A -> B -> option bool) : list A -> list B -> option bool :=
  fix go (l : list A) (l' : list B) : option bool :=
    match l, l' with
    | x :: l, y :: l' => match f x y with
                         | Some true => go l l'
                         | Some false => Some false
                         | None => None
                         end
    | _, _ => Some true
    end.
Definition oor (a b : option bool) : option bool :=
  match a with Some true => Some true | Some false => b | None => None end.
Definition oand (a b : option bool) : option bool :=
  match a with Some true => b | Some false => Some false | None => None end.

(** [occurs_in] and [occurs_in_effect_row], solver.rs:1063-1101. *)
Fixpoint occurs (fuel : nat) (rs : row_subst) (v : nat) (t : ty) : option bool :=
  match fuel with
  | O => None
  | S fuel =>
      let rec := occurs fuel rs v in
      let in_row := fun e : row => oany (fun ef : effect => oany rec (snd ef)) (fst (rapply rs e)) in
      match t with
      | TUni w => Some (Nat.eqb w v)
      | TNamed _ _ xs | TTuple xs => oany rec xs
      | TFunc ps r e _ => oor (oany rec ps) (oor (rec r) (in_row e))
      | TApp c xs => oor (rec c) (oany rec xs)
      | TCont a r e => oor (rec a) (oor (rec r) (in_row e))
      | _ => Some false
      end
  end.

(** [row_occurs_in], solver.rs:1104-1124, given the check on types. *)
Definition row_occurs (on_type : ty -> option bool) (rs : row_subst) (v : nat) (e : row) : option bool :=
  let e := rapply rs e in
  if opt_eqb (snd e) (Some v) then Some true
  else oany (fun ef : effect => oany on_type (snd ef)) (fst e).

(** [row_occurs_in_type], solver.rs:1127-1162. *)
Fixpoint row_occurs_ty (fuel : nat) (ts : type_subst) (rs : row_subst) (v : nat) (t : ty) : option bool :=
  match fuel with
  | O => None
  | S fuel =>
      let rec := row_occurs_ty fuel ts rs v in
      match t with
      | TFunc ps r e _ => oor (row_occurs rec rs v e) (oor (oany rec ps) (rec r))
      | TNamed _ _ xs | TTuple xs => oany rec xs
      | TApp c xs => oor (rec c) (oany rec xs)
      | TCont a r e => oor (rec a) (oor (rec r) (row_occurs rec rs v e))
      | TUni w => match tget ts w with Some u => rec u | None => Some false end
      | _ => Some false
      end
  end.

(** [types_unifiable], solver.rs:1391-1477. *)
Fixpoint unifiable (fuel : nat) (ts : type_subst) (t1 t2 : ty) : option bool :=
  match fuel with
  | O => None
  | S fuel =>
      obind (tapply fuel ts [] t1) (fun t1 => obind (tapply fuel ts [] t2) (fun t2 =>
        if ty_eqb t1 t2 then Some true else
        let rec := unifiable fuel ts in
        match t1, t2 with
        | TUni _, _ | _, TUni _ => Some true
        | TError, _ | _, TError => Some true
        | TPrim PNever, _ | _, TPrim PNever => Some true
        | TNamed i1 _ a1, TNamed i2 _ a2 =>
            if tydef_eqb i1 i2 && Nat.eqb (List.length a1) (List.length a2) then oall2 rec a1 a2 else Some false
        | TTuple a1, TTuple a2 =>
            if Nat.eqb (List.length a1) (List.length a2) then oall2 rec a1 a2 else Some false
        | TFunc p1 r1 _ _, TFunc p2 r2 _ _ =>
            if Nat.eqb (List.length p1) (List.length p2) then oand (oall2 rec p1 p2) (rec r1 r2) else Some false
        | TApp c1 a1, TApp c2 a2 =>
            oand (rec c1 c2) (if Nat.eqb (List.length a1) (List.length a2) then oall2 rec a1 a2 else Some false)
        | TCont a1 r1 _, TCont a2 r2 _ => oand (rec a1 a2) (rec r1 r2)
        | _, _ => Some false
        end))
  end.

(** [bind_type_var], solver.rs:1053-1060. *)
Definition bind_type (fuel : nat) (v : nat) (t : ty) : U unit :=
  o <- ask (fun st => occurs fuel (u_rs st) v t) ;;
  if o then uerror (EOccurs v t)
  else fun st => (UOk tt, mkU (minsert Nat.eqb (u_ts st) v t) (u_rs st) (u_next st) (u_log st)).

(** [row_subst.insert]. *)
Definition bind_row (v : nat) (r : row) : U unit := fun st =>
  (UOk tt, mkU (u_ts st) (minsert Nat.eqb (u_rs st) v r) (u_next st)
               (match rget (u_rs st) v with Some _ => Rebound v :: u_log st | None => u_log st end)).

(** [fresh_row_var], solver.rs:757-761 (the counter's overflow at 2^64 is not modelled). *)
Definition fresh_row : U nat := fun st =>
  (UOk (u_next st), mkU (u_ts st) (u_rs st) (S (u_next st)) (u_log st)).

Section Rows.
  (** The recursive call to [unify_types] and the fuel for the checks. *)
  Variable rec : ty -> ty -> U unit.
  Variable fuel : nat.

  (** The arguments of one candidate pair: checked first, unified if the check passes
      (solver.rs:1355-1370, 1503-1516, 1560-1572). *)
  Definition match_args (e1 e2 : effect) : U bool :=
    ok <- ask (fun st => oall2 (unifiable fuel (u_ts st)) (snd e1) (snd e2)) ;;
    if ok then each2 rec (snd e1) (snd e2) ;;; uret true else uret false.

  (** The inner loops: the first candidate that matches. *)
  Definition first_match (f : effect -> U bool) : list effect -> U bool :=
    fix go (l : list effect) : U bool :=
      match l with
      | [] => uret false
      | e :: l => b <- f e ;; if b then uret true else go l
      end.

  (** The arity checks: the first candidate with another number of arguments. *)
  Definition check_arity (report : nat -> uerr) (n : nat) (cands : list effect) : U unit :=
    match List.find (fun e : effect => negb (Nat.eqb n (List.length (snd e)))) cands with
    | Some e => uerror (report (List.length (snd e)))
    | None => uret tt
    end.

  (** [unify_effects_as_sets], solver.rs:1316-1386. *)
  Definition sets_step (es2 : list effect) (r1 r2 : row) (e1 : effect) : U unit :=
    let same := filter (fun e2 : effect => ability_eqb (fst e1) (fst e2)) es2 in
    match same with
    | [] => uerror (ERow r1 r2)
    | _ =>
        check_arity (EArity (fst e1) (List.length (snd e1))) (List.length (snd e1)) same ;;;
        b <- first_match (match_args e1) same ;;
        if b then uret tt else uerror (ERow r1 r2)
    end.
  Fixpoint each (f : effect -> U unit) (l : list effect) : U unit :=
    match l with
    | [] => uret tt
    | e :: l => f e ;;; each f l
    end.
  Definition unify_sets (es1 es2 : list effect) (r1 r2 : row) : U unit :=
    if Nat.eqb (List.length es1) (List.length es2) then
      log (Compared es1) ;;; each (sets_step es2 r1 r2) es1
    else uerror (ERow r1 r2).

  (** [compute_effect_difference_with_unify], solver.rs:1482-1526. *)
  Fixpoint difference_loop (l1 l2 : list effect) : U (list effect) :=
    match l2 with
    | [] => uret []
    | e2 :: l2 =>
        let same := filter (fun e1 : effect => ability_eqb (fst e1) (fst e2)) l1 in
        check_arity (fun n => EArity (fst e2) n (List.length (snd e2))) (List.length (snd e2)) same ;;;
        b <- first_match (fun e1 => match_args e1 e2) same ;;
        only <- difference_loop l1 l2 ;;
        uret (if b : bool then only else e2 :: only)
    end.
  Definition difference (l1 l2 : list effect) : U (list effect) :=
    log (Compared l2) ;;; difference_loop l1 l2.

  (** [compute_effect_split_with_unify], solver.rs:1531-1589.  The second list carries the
      [matched_in_list2] flags. *)
  Definition split_match (e1 : effect) : list (effect * bool) -> U (option (list (effect * bool))) :=
    fix go (l : list (effect * bool)) : U (option (list (effect * bool))) :=
      match l with
      | [] => uret None
      | (e2, matched) :: l =>
          if negb (ability_eqb (fst e1) (fst e2)) || matched then
            rest <- go l ;; uret (option_map (cons (e2, matched)) rest)
          else
            b <- match_args e1 e2 ;;
            if b : bool then uret (Some ((e2, true) :: l))
            else rest <- go l ;; uret (option_map (cons (e2, matched)) rest)
      end.
  Fixpoint split_loop (l1 : list effect) (l2 : list (effect * bool)) : U (list effect * list (effect * bool)) :=
    match l1 with
    | [] => uret ([], l2)
    | e1 :: l1 =>
        check_arity (EArity (fst e1) (List.length (snd e1))) (List.length (snd e1))
                    (filter (fun e2 : effect => ability_eqb (fst e2) (fst e1)) (List.map fst l2)) ;;;
        m <- split_match e1 l2 ;;
        p <- split_loop l1 (match m with Some l2' => l2' | None => l2 end) ;;
        uret (match m with Some _ => fst p | None => e1 :: fst p end, snd p)
    end.
  Definition split_effects (l1 l2 : list effect) : U (list effect * list effect) :=
    p <- split_loop l1 (List.map (fun e => (e, false)) l2) ;;
    uret (fst p, List.map fst (filter (fun e : effect * bool => negb (snd e)) (snd p))).

  Definition occurs_in_row (v : nat) (r : row) : U bool :=
    ask (fun st => row_occurs (row_occurs_ty fuel (u_ts st) (u_rs st) v) (u_rs st) v r).

  (** [unify_rows], solver.rs:1171-1308. *)
  Definition unify_rows (r1 r2 : row) : U unit :=
    r1 <- ask (fun st => omap_row (tapply fuel (u_ts st) []) (rapply (u_rs st) r1)) ;;
    r2 <- ask (fun st => omap_row (tapply fuel (u_ts st) []) (rapply (u_rs st) r2)) ;;
    if row_eqb r1 r2 then uret tt
    else if is_pure r1 && is_pure r2 then uret tt
    else match snd r1, snd r2 with
    | None, None => unify_sets (fst r1) (fst r2) r1 r2
    | Some v1, None =>
        o <- occurs_in_row v1 r2 ;;
        if o : bool then uerror (ERow r1 r2) else
        only <- difference (fst r1) (fst r2) ;;
        if Nat.eqb (List.length (fst r2) - List.length only) (List.length (fst r1))
        then bind_row v1 (only, None)
        else uerror (ERow r1 r2)
    | None, Some v2 =>
        if is_pure r1 && negb (match fst r2 with [] => true | _ => false end) then log Coerced else
        o <- occurs_in_row v2 r1 ;;
        if o : bool then uerror (ERow r1 r2) else
        only <- difference (fst r2) (fst r1) ;;
        if Nat.eqb (List.length (fst r1) - List.length only) (List.length (fst r2))
        then bind_row v2 (only, None)
        else uerror (ERow r1 r2)
    | Some v1, Some v2 =>
        if Nat.eqb v1 v2 then unify_sets (fst r1) (fst r2) r1 r2
        else
          o1 <- occurs_in_row v1 r2 ;;
          if o1 : bool then uerror (ERow r1 r2) else
          o2 <- occurs_in_row v2 r1 ;;
          if o2 : bool then uerror (ERow r1 r2) else
          p <- split_effects (fst r1) (fst r2) ;;
          v3 <- fresh_row ;;
          bind_row v1 (snd p, Some v3) ;;;
          bind_row v2 (fst p, Some v3)
    end.
End Rows.

(** [unify_types], solver.rs:893-1050.  (In a debug build the quantified-variable case is a
    failed assertion instead of an error.) *)
Fixpoint unify (fuel : nat) (t1 t2 : ty) : U unit :=
  match fuel with
  | O => ask (fun _ => None)
  | S fuel =>
      let rec := unify fuel in
      t1 <- ask (fun st => tapply fuel (u_ts st) [] t1) ;;
      t2 <- ask (fun st => tapply fuel (u_ts st) [] t2) ;;
      if ty_eqb t1 t2 then uret tt else
      match t1, t2 with
      | TUni v, _ => bind_type fuel v t2
      | _, TUni v => bind_type fuel v t1
      | TBound _, _ | _, TBound _ | TLocal _ _, _ | _, TLocal _ _ => uerror (EMismatch t1 t2)
      | TError, _ | _, TError => log Coerced
      | TPrim PNever, _ | _, TPrim PNever => log Coerced
      | TNamed i1 _ a1, TNamed i2 _ a2 =>
          if negb (tydef_eqb i1 i2) || negb (Nat.eqb (List.length a1) (List.length a2))
          then uerror (EMismatch t1 t2) else each2 rec a1 a2
      | TFunc p1 r1 e1 _, TFunc p2 r2 e2 _ =>
          if negb (Nat.eqb (List.length p1) (List.length p2)) then uerror (EMismatch t1 t2) else
          each2 rec p1 p2 ;;; rec r1 r2 ;;; unify_rows rec fuel e1 e2
      | TTuple a1, TTuple a2 =>
          if negb (Nat.eqb (List.length a1) (List.length a2)) then uerror (EMismatch t1 t2) else
          each2 rec a1 a2
      | TApp c1 a1, TApp c2 a2 =>
          rec c1 c2 ;;;
          if negb (Nat.eqb (List.length a1) (List.length a2)) then uerror (EMismatch t1 t2) else
          each2 rec a1 a2
      | TCont a1 r1 e1, TCont a2 r2 e2 =>
          rec a1 a2 ;;; rec r1 r2 ;;; unify_rows rec fuel e1 e2
      | _, _ => uerror (EMismatch t1 t2)
      end
  end.

(** [Constraint], constraint.rs:36-51, without source origins. *)
Inductive constr :=
| CType (t1 t2 : ty)
| CRow (r1 r2 : row)
| CAnd (cs : list constr).

(** [reserve_effect_vars_in_row] and [reserve_effect_vars_in_constraint], solver.rs:778-806. *)
Definition reserve_row (next : nat) (r : row) : nat :=
  let next := match snd r with Some v => Nat.max next (S v) | None => next end in
  fold_left (fun next (e : effect) => fold_left reserve (snd e) next) (fst r) next.
Fixpoint reserve_constr (next : nat) (c : constr) {struct c} : nat :=
  match c with
  | CType t1 t2 => reserve (reserve next t1) t2
  | CRow r1 r2 => reserve_row (reserve_row next r1) r2
  | CAnd cs => fold_left reserve_constr cs next
  end.

(** Attempt every constraint and return the first error (solver.rs:836-852, 877-890). *)
Definition attempt {A} (f : A -> U unit) : list A -> U unit :=
  fix go (l : list A) : U unit :=
    match l with
    | [] => uret tt
    | c :: l => fun st =>
        match f c st with
        | (UOk _, st) => go l st
        | (UErr e, st) => match go l st with
                          | (Out, st) => (Out, st)
                          | (_, st) => (UErr e, st)
                          end
        | (Out, st) => (Out, st)
        end
    end.

(** [solve_constraint_with_origin], solver.rs:856-890. *)
Fixpoint solve_constr (fuel : nat) (c : constr) {struct c} : U unit :=
  match c with
  | CType t1 t2 => unify fuel t1 t2
  | CRow r1 r2 => unify_rows (unify fuel) fuel r1 r2
  | CAnd cs => attempt (solve_constr fuel) cs
  end.

(** [solve_with_origin], solver.rs:830-853. *)
Definition solve (fuel : nat) (cs : list constr) : U unit := fun st =>
  attempt (solve_constr fuel) cs
    (mkU (u_ts st) (u_rs st) (fold_left reserve_constr cs (u_next st)) (u_log st)).

(** [TypeSolver::new], solver.rs:728-735. *)
Definition new_solver : ust := mkU [] [] 0 [].
