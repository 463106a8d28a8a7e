(** Type inference for function bodies: which equations between types the checker
    generates, how a [let] generalizes, and how functions are checked one after the other.
    Models crates/tribute-front/src/typeck/checker/expr.rs, .../checker/func_check.rs and the
    tables of crates/tribute-front/src/typeck/func_context.rs.

    The fragment: literals, local variables, functions, calls, constructors, lambdas, tuples,
    lists, [&&] and [||], blocks with [let], and [case] with guards and all patterns except
    record patterns.  Not modelled: records, method calls, abilities, handlers and [resume];
    the lookup of locals by name (every local has its id); effect rows (every row is empty, and
    whether the right-hand side of a [let] is pure is asked of an oracle).  The table of
    expression types is only ever read for the node just checked, so that type is returned
    instead.  The solver is the one of C32; [rev] restores the order of the constraints. *)
From Coq Require Export String List ZArith.
From Verif Require Export UnifyModel SubstSpec.

Inductive lit := LNat (n : N) | LInt (z : Z) | LBool (b : bool) | LText (s : string) | LNil.

(** Patterns with the ids of their nodes (ast/pattern.rs); a record pattern is left out. *)
Inductive pat :=
| PWild (id : nat)
| PBind (id x : nat)
| PLit (id : nat) (l : lit)
| PVariant (id c : nat) (ps : list pat)
| PTuple (id : nat) (ps : list pat)
| PList (id : nat) (ps : list pat)
| PRest (id : nat) (ps : list pat) (rest : option nat)
| PAs (id : nat) (p : pat) (x : nat).

Definition pat_id (p : pat) : nat :=
  match p with
  | PWild i | PBind i _ | PLit i _ | PVariant i _ _ | PTuple i _ | PList i _ | PRest i _ _ | PAs i _ _ => i
  end.

(** Expressions (ast/expr.rs).  Only references to locals and lambdas have an id that matters.
    A statement is an expression, or a [let] with its pattern and annotation. *)
Inductive expr :=
| ELit (l : lit)
| EVar (id x : nat)
| EFn (f : nat)
| ECall (callee : expr) (args : list expr)
| ECons (c : nat) (args : list expr)
| ELam (id : nat) (params : list (nat * option ty)) (body : expr)
| ETuple (es : list expr)
| EList (es : list expr)
| ELogic (both : bool) (a b : expr)
| EBlock (ss : list (option (pat * option ty) * expr)) (v : expr)
| ECase (s : expr) (arms : list (pat * option expr * expr)).

Definition text_ty : ty := TNamed (mkTyDef Synthetic "String") "String" [].
Definition list_ty (t : ty) : ty := TNamed (mkTyDef BuiltinList "List") "List" [t].
Definition func_ty (ps : list ty) (r : ty) : ty := TFunc ps r pure_row Direct.
Definition bool_ty : ty := TPrim PBool.

(** expr.rs:116-123, 1774-1782. *)
Definition lit_ty (l : lit) : ty :=
  match l with
  | LNat _ => TPrim PNat
  | LInt _ => TPrim PInt
  | LBool _ => bool_ty
  | LText _ => text_ty
  | LNil => TPrim PNil
  end.

(** A type scheme: the number of its type parameters and its body. *)
Definition poly : Type := nat * ty.

(** Places where the checker invents a type variable it never connects to anything. *)
Inductive guess :=
| Unknown       (* a reference to something without a type *)
| Unlinked      (* the type of [&&] or [||] during inference *)
| Opened        (* a tuple or list pattern against a type not yet known to be one *)
| Arity         (* a constructor pattern with another number of fields *)
| Guarded.      (* a guard, which inference does not look at *)

(** [FunctionInferenceContext], func_context.rs:82-158: the counter, the constraints (newest
    first), the types of pattern nodes, the first inferred type of each lambda, the first
    instance at each reference to a generalized local.  The log is not in the code. *)
Record ist := mkI {
  i_next : nat;
  i_cs : list (ty * ty);
  i_nodes : list (nat * ty);
  i_lams : list (nat * ty);
  i_refs : list (nat * ty);
  i_log : list guess }.

Definition M (A : Type) := ist -> A * ist.
Definition ret {A} (a : A) : M A := fun st => (a, st).
Definition bnd {A B} (m : M A) (f : A -> M B) : M B := fun st => let (a, st) := m st in f a st.
Notation "x <~ m ;; k" := (bnd m (fun x => k)) (at level 100, m at next level, right associativity).
Notation "m ;~ k" := (bnd m (fun _ => k)) (at level 100, right associativity).

Definition mmap {A B} (f : A -> M B) : list A -> M (list B) :=
  fix go (l : list A) : M (list B) :=
    match l with
    | [] => ret []
    | a :: l => b <~ f a ;; bs <~ go l ;; ret (b :: bs)
    end.
(** [iter().zip()] with a body that returns something. *)
Definition mzip {A B C} (f : A -> B -> M C) : list A -> list B -> M (list C) :=
  fix go (l : list A) (l' : list B) : M (list C) :=
    match l, l' with
    | a :: l, b :: l' => c <~ f a b ;; cs <~ go l l' ;; ret (c :: cs)
    | _, _ => ret []
    end.

Definition look {A} (k : nat) (l : list (nat * A)) : option A :=
  option_map snd (List.find (fun e => Nat.eqb (fst e) k) l).

(** [fresh_type_var], func_context.rs:209-221. *)
Definition fresh : M ty := fun st =>
  (TUni (i_next st), mkI (S (i_next st)) (i_cs st) (i_nodes st) (i_lams st) (i_refs st) (i_log st)).
Definition fresh_for {A} (l : list A) : M (list ty) := mmap (fun _ => fresh) l.
Definition guessed (g : guess) : M unit := fun st =>
  (tt, mkI (i_next st) (i_cs st) (i_nodes st) (i_lams st) (i_refs st) (g :: i_log st)).
(** [constrain_eq] and [constrain_eq_at], func_context.rs:575-590. *)
Definition eqn (t1 t2 : ty) : M unit := fun st =>
  (tt, mkI (i_next st) ((t1, t2) :: i_cs st) (i_nodes st) (i_lams st) (i_refs st) (i_log st)).
(** [record_node_type] and [get_node_type], func_context.rs:328-335. *)
Definition record (id : nat) (t : ty) : M unit := fun st =>
  (tt, mkI (i_next st) (i_cs st) ((id, t) :: i_nodes st) (i_lams st) (i_refs st) (i_log st)).
Definition node (id : nat) : M (option ty) := fun st => (look id (i_nodes st), st).
(** [record_inferred_lambda_type] and [get_inferred_lambda_type], func_context.rs:469-475. *)
Definition record_lam (id : nat) (t : ty) : M unit := fun st =>
  (tt, match look id (i_lams st) with
       | Some _ => st
       | None => mkI (i_next st) (i_cs st) (i_nodes st) ((id, t) :: i_lams st) (i_refs st) (i_log st)
       end).
Definition lam_type (id : nat) : M (option ty) := fun st => (look id (i_lams st), st).

(** [instantiate_scheme], func_context.rs:537-560.  An index out of range is a panic there and
    an error type here. *)
Definition instantiate_poly (sc : poly) : M ty :=
  ts <~ fresh_for (seq 0 (fst sc)) ;; ret (plug (fun i => nth i ts TError) (snd sc)).

(** The local variables in scope, innermost first; scopes are pushed and popped by passing
    the longer or the shorter list. *)
Definition env : Type := list (nat * poly).
Definition mono (bs : list (nat * ty)) : env := List.map (fun b => (fst b, (0, snd b))) bs.

(** [instantiate_function] and [instantiate_constructor] with their fallback,
    expr.rs:852-857. *)
Definition known (sc : option poly) : M ty :=
  match sc with
  | Some sc => instantiate_poly sc
  | None => guessed Unknown ;~ fresh
  end.

(** [lookup_local_reference], func_context.rs:402-428, and its fallback, expr.rs:932-933: a
    generalized local is instantiated at the first visit of the node and keeps that type. *)
Definition local_ref (D : env) (id x : nat) : M ty :=
  match look x D with
  | None => guessed Unknown ;~ fresh
  | Some (0, body) => ret body
  | Some sc => fun st =>
      match look id (i_refs st) with
      | Some t => (t, st)
      | None =>
          let (t, st) := instantiate_poly sc st in
          (t, mkI (i_next st) (i_cs st) (i_nodes st) (i_lams st) ((id, t) :: i_refs st) (i_log st))
      end
  end.

(** [infer_call_with_ctx], expr.rs:946-1041.  With one argument two variables for a
    continuation are made and not used. *)
Definition infer_call (callee : ty) (args : list ty) : M ty :=
  ps <~ fresh_for args ;;
  r <~ fresh ;;
  (if Nat.eqb (List.length args) 1 then fresh ;~ fresh ;~ ret tt else ret tt) ;~
  eqn callee (func_ty ps r) ;~
  mzip eqn ps args ;~
  ret r.

(** [extract_list_element_type], expr.rs:1087-1110. *)
Definition list_elem (t : ty) : M ty :=
  match t with
  | TNamed (mkTyDef BuiltinList _) _ [a] => ret a
  | TApp (TNamed (mkTyDef BuiltinList _) _ _) [a] => ret a
  | _ => guessed Opened ;~ fresh
  end.

Section Decls.
  (** The registered schemes of functions and constructors. *)
  Variable fns : nat -> option poly.
  Variable ctors : nat -> option poly.
  (** The answer of the solver: a substitution, or nothing. *)
  Variable solver : list (ty * ty) -> option (nat -> ty).
  (** Whether the right-hand side of a [let] is pure. *)
  Variable pure : nat -> bool.

  (** [infer_pattern_type_with_ctx], expr.rs:1767-1835. *)
  Fixpoint infer_pat (p : pat) : M ty :=
    match p with
    | PWild i => t <~ fresh ;; record i t ;~ ret t
    | PBind i _ => t <~ fresh ;; record i t ;~ ret t
    | PLit i l => record i (lit_ty l) ;~ ret (lit_ty l)
    | PVariant i c ps =>
        t <~ known (ctors c) ;;
        record i t ;~
        match t with
        | TFunc params r _ _ =>
            (if Nat.eqb (List.length ps) (List.length params) then ret tt else guessed Arity) ;~
            mzip (fun p param => u <~ infer_pat p ;; eqn u param) ps params ;~
            ret r
        | _ => match ps with [] => ret tt | _ => guessed Arity end ;~ ret t
        end
    | PTuple i ps => ts <~ mmap infer_pat ps ;; record i (TTuple ts) ;~ ret (TTuple ts)
    | PList i ps | PRest i ps _ =>
        a <~ fresh ;;
        mmap (fun p => u <~ infer_pat p ;; eqn u a) ps ;~
        record i (list_ty a) ;~ ret (list_ty a)
    | PAs i p _ => t <~ infer_pat p ;; record i t ;~ ret t
    end.

  (** [bind_pattern_vars_with_ctx], expr.rs:1838-1919. *)
  Fixpoint bind_pat (p : pat) (t : ty) : M (list (nat * ty)) :=
    match p with
    | PWild _ | PLit _ _ => ret []
    | PBind _ x => ret [(x, t)]
    | PTuple _ ps =>
        ts <~ match t with TTuple ts => ret ts | _ => guessed Opened ;~ fresh_for ps end ;;
        bs <~ mzip bind_pat ps ts ;; ret (concat bs)
    | PVariant _ _ ps =>
        bs <~ mmap (fun p => o <~ node (pat_id p) ;;
                             t <~ match o with Some t => ret t | None => guessed Unknown ;~ fresh end ;;
                             bind_pat p t) ps ;;
        ret (concat bs)
    | PList _ ps =>
        a <~ list_elem t ;; bs <~ mmap (fun p => bind_pat p a) ps ;; ret (concat bs)
    | PRest _ ps rest =>
        a <~ list_elem t ;; bs <~ mmap (fun p => bind_pat p a) ps ;;
        ret (concat bs ++ match rest with Some x => [(x, list_ty a)] | None => [] end)
    | PAs _ p x => bs <~ bind_pat p t ;; ret ((x, t) :: bs)
    end.

  (** [collect_pattern_bindings_with_ctx], expr.rs:1660-1764. *)
  Fixpoint collect_pat (nodes : list (nat * ty)) (f : nat -> ty) (p : pat) (t : ty) : list (nat * ty) :=
    let sub := fun p => collect_pat nodes f p (match look (pat_id p) nodes with Some t => fill f t | None => fill f t end) in
    match p with
    | PWild _ | PLit _ _ => []
    | PBind _ x => [(x, fill f t)]
    | PTuple _ ps | PVariant _ _ ps | PList _ ps => concat (List.map sub ps)
    | PRest _ ps rest =>
        concat (List.map sub ps) ++ match rest with Some x => [(x, fill f t)] | None => [] end
    | PAs _ p x => (x, fill f t) :: collect_pat nodes f p (fill f t)
    end.

  (** [generalize_excluding_with_mapping], solver.rs:315-335, on a resolved type. *)
  Definition generalize_over (excluded : list nat) (t : ty) : poly :=
    let vs := filter (fun v => negb (existsb (Nat.eqb v) excluded)) (uniq (univars t)) in
    (List.length vs, close_over vs t).

  (** [generalize_and_bind_pattern_with_ctx], expr.rs:1577-1657. *)
  Definition bind_let (D : env) (p : pat) (t : ty) : M env := fun st =>
    match solver (rev (i_cs st)) with
    | None => (bs <~ bind_pat p t ;; ret (mono bs ++ D)) st
    | Some f =>
        let excluded := flat_map (fun e : nat * poly => univars (fill f (snd (snd e)))) D in
        let bs := collect_pat (i_nodes st) f p (fill f t) in
        ((if pure (i_next st) then List.map (fun b => (fst b, generalize_over excluded (snd b))) bs
          else mono bs) ++ D, st)
    end.

  (** Annotations of lambda parameters, expr.rs:314-320, 746-752. *)
  Definition param_types (params : list (nat * option ty)) : M (list ty) :=
    mmap (fun p : nat * option ty => match snd p with Some t => ret t | None => fresh end) params.

  (** [infer_expr_type_with_ctx], expr.rs:610-798, and [infer_stmt_and_bind_with_ctx],
      expr.rs:1480-1519. *)
  Fixpoint infer (D : env) (e : expr) {struct e} : M ty :=
    match e with
    | ELit l => ret (lit_ty l)
    | EVar id x => local_ref D id x
    | EFn f => known (fns f)
    | ECall c args =>
        t <~ infer D c ;; ts <~ mmap (infer D) args ;; infer_call t ts
    | ECons c args =>
        t <~ known (ctors c) ;;
        match args with
        | [] => ret t
        | _ => ts <~ mmap (infer D) args ;; infer_call t ts
        end
    | ELam id params body =>
        ts <~ param_types params ;;
        r <~ infer (mono (combine (List.map fst params) ts) ++ D) body ;;
        record_lam id (func_ty ts r) ;~ ret (func_ty ts r)
    | ETuple es => ts <~ mmap (infer D) es ;; ret (TTuple ts)
    | EList es =>
        a <~ fresh ;; mmap (fun e => t <~ infer D e ;; eqn t a) es ;~ ret (list_ty a)
    | ELogic _ _ _ => guessed Unlinked ;~ fresh
    | EBlock ss v =>
        (fix go (D : env) (ss : list (option (pat * option ty) * expr)) : M ty :=
           match ss with
           | [] => infer D v
           | (None, e) :: ss => infer D e ;~ go D ss
           | (Some (p, ann), e) :: ss =>
               t <~ infer D e ;;
               t <~ match ann with Some a => eqn t a ;~ ret a | None => ret t end ;;
               u <~ infer_pat p ;;
               eqn u t ;~
               D' <~ bind_let D p t ;;
               go D' ss
           end) D ss
    | ECase s arms =>
        t <~ infer D s ;;
        r <~ fresh ;;
        mmap (fun arm : pat * option expr * expr =>
                match arm with
                | (p, g, body) =>
                    u <~ infer_pat p ;;
                    eqn u t ;~
                    bs <~ bind_pat p t ;;
                    match g with Some _ => guessed Guarded | None => ret tt end ;~
                    b <~ infer (mono bs ++ D) body ;;
                    eqn b r
                end) arms ;~
        ret r
    end.

  (** [convert_pattern_with_expected_ctx], expr.rs:2044-2169: the equations it adds. *)
  Fixpoint convert_pat (p : pat) (expected : ty) : M unit :=
    match p with
    | PWild _ | PBind _ _ | PLit _ _ => ret tt
    | PVariant i c ps =>
        o <~ node i ;;
        t <~ match o with Some t => ret t | None => known (ctors c) end ;;
        match t with
        | TFunc params r _ _ => eqn r expected ;~ mzip convert_pat ps params ;~ ret tt
        | _ => eqn t expected
        end
    | PTuple _ ps =>
        ts <~ match expected with TTuple ts => ret ts | _ => fresh_for ps end ;;
        mzip convert_pat ps ts ;~ ret tt
    | PList _ ps | PRest _ ps _ =>
        a <~ fresh ;; eqn expected (list_ty a) ;~ mmap (fun p => convert_pat p a) ps ;~ ret tt
    | PAs _ p _ => convert_pat p expected
    end.

  Definition closed (t : ty) : bool := match univars t with [] => true | _ => false end.

  (** [check_expr_with_ctx], expr.rs:107-606, with [convert_expr_kind_with_ctx],
      expr.rs:1192-1455, [convert_stmt_with_ctx], expr.rs:1522-1571, and
      [convert_arm_with_scrutinee_ctx], expr.rs:2024-2041.  The whole expression is inferred
      first; then its parts are checked on their own.  [mode] is the expected type. *)
  Fixpoint check (D : env) (mode : option ty) (e : expr) {struct e} : M ty :=
    let expected t := match mode with Some u => eqn t u | None => ret tt end in
    match e with
    | ELit _ | EVar _ _ | EFn _ => t <~ infer D e ;; expected t ;~ ret t
    | ECall c args =>
        t <~ infer D e ;; expected t ;~
        u <~ check D None c ;;
        let params := match u with TFunc ps _ _ _ => ps | _ => [] end in
        (fix go (args : list expr) (params : list ty) : M unit :=
           match args with
           | [] => ret tt
           | a :: args =>
               check D (match params with p :: _ => if closed p then Some p else None | [] => None end) a ;~
               go args (tl params)
           end) args params ;~
        ret t
    | ECons _ args =>
        t <~ infer D e ;; expected t ;~ mmap (check D None) args ;~ ret t
    | ETuple es | EList es =>
        t <~ infer D e ;; expected t ;~ mmap (check D None) es ;~ ret t
    | ELogic _ a b =>
        t <~ infer D a ;; u <~ infer D b ;; eqn t bool_ty ;~ eqn u bool_ty ;~ expected bool_ty ;~
        check D None a ;~ check D None b ;~ ret bool_ty
    | ELam id params body =>
        ts <~ param_types params ;;
        b <~ infer (mono (combine (List.map fst params) ts) ++ D) body ;;
        r <~ fresh ;;
        eqn r b ;~
        match mode with
        | Some (TFunc ps q _ _) => mzip eqn ts ps ;~ eqn r q
        | _ => ret tt
        end ;~
        o <~ lam_type id ;;
        match o with Some u => eqn (func_ty ts r) u | None => ret tt end ;~
        check (mono (combine (List.map fst params) ts) ++ D) None body ;~
        ret (func_ty ts r)
    | EBlock ss v =>
        t <~ infer D e ;; expected t ;~
        (fix go (D : env) (ss : list (option (pat * option ty) * expr)) : M ty :=
           match ss with
           | [] => check D None v
           | (None, e) :: ss => check D None e ;~ go D ss
           | (Some (p, ann), e) :: ss =>
               t <~ check D ann e ;;
               u <~ infer_pat p ;;
               eqn u t ;~
               D' <~ bind_let D p t ;;
               go D' ss
           end) D ss ;~
        ret t
    | ECase s arms =>
        t <~ infer D e ;; expected t ;~
        u <~ check D None s ;;
        mmap (fun arm : pat * option expr * expr =>
                match arm with
                | (p, g, body) =>
                    w <~ infer_pat p ;;
                    eqn w u ;~
                    bs <~ bind_pat p u ;;
                    convert_pat p u ;~
                    match g with
                    | Some g => check (mono bs ++ D) (Some bool_ty) g ;~ ret tt
                    | None => ret tt
                    end ;~
                    check (mono bs ++ D) None body
                end) arms ;~
        ret t
    end.

  Definition start (n : nat) : ist := mkI n [] [] [] [] [].

  (** A function declaration: its parameters, its registered signature, its body, which is a
      block. *)
  Record fdecl := mkFn {
    fd_params : list nat;
    fd_arity : nat;               (* type parameters: one per name and per omitted type *)
    fd_types : list ty;
    fd_result : ty;
    fd_stmts : list (option (pat * option ty) * expr);
    fd_value : expr }.
  Definition fd_body (d : fdecl) : expr := EBlock (fd_stmts d) (fd_value d).
  Definition declared (d : fdecl) : poly := (fd_arity d, func_ty (fd_types d) (fd_result d)).

  (** The signature with a fresh variable for every type parameter,
      [get_func_signature_with_type], func_check.rs:623-645: the first variables of the
      context. *)
  Definition opened (t : ty) : ty := plug TUni t.

  (** The parameters bound, func_check.rs:99-108. *)
  Definition param_env (d : fdecl) : env :=
    mono (combine (fd_params d) (List.map opened (fd_types d))).

  (** [check_func_decl], func_check.rs:77-482: the constraints of the body checked against the
      declared result; if they have no solution an error is reported, otherwise the function
      is registered again with its solved type generalized. *)
  Definition body_constraints (d : fdecl) : list (ty * ty) :=
    i_cs (snd (check (param_env d) (Some (opened (fd_result d))) (fd_body d) (start (fd_arity d)))).
  Definition check_fn (d : fdecl) : option poly :=
    option_map (fun f => generalize_over [] (fill f (opened (snd (declared d)))))
               (solver (rev (body_constraints d))).
  (** What inference had to guess when it first went through the body. *)
  Definition guesses (d : fdecl) : list guess :=
    i_log (snd (infer (param_env d) (fd_body d) (start (fd_arity d)))).
End Decls.

(** A constructor: its type, the number of the type's parameters, its fields. *)
Record cdecl := mkCtor { cd_type : tydef; cd_arity : nat; cd_fields : list ty }.
(** The scheme registered for it, collect.rs:332-377: the type itself without fields,
    otherwise a function to it. *)
Definition ctor_poly (c : cdecl) : poly :=
  let t := TNamed (cd_type c) (td_qualified (cd_type c)) (List.map TBound (seq 0 (cd_arity c))) in
  (cd_arity c, match cd_fields c with [] => t | fs => func_ty fs t end).

(** The functions are checked in the order of their declarations; each is registered again
    as soon as it has been checked (checker/mod.rs, func_check.rs:399-401). *)
Definition ctor_table (cs : list cdecl) (c : nat) : option poly := option_map ctor_poly (nth_error cs c).
Definition set_nth {A} (l : list A) (i : nat) (a : A) : list A := firstn i l ++ a :: skipn (S i) l.
Section Program.
  Variable cs : list cdecl.
  Variable solver : list (ty * ty) -> option (nat -> ty).
  Variable pure : nat -> bool.
  Fixpoint check_fns (sigs : list poly) (i : nat) (ds : list fdecl) : option (list poly) :=
    match ds with
    | [] => Some sigs
    | d :: ds =>
        match check_fn (nth_error sigs) (ctor_table cs) solver pure d with
        | Some sc => check_fns (set_nth sigs i sc) (S i) ds
        | None => None
        end
    end.
  Definition check_program (ds : list fdecl) : option (list poly) :=
    check_fns (List.map declared ds) 0 ds.
End Program.

(** The solver's answer with so much fuel: all equations solved and every binding resolved. *)
Definition solve_with (fuel : nat) (cs : list (ty * ty)) : option (nat -> ty) :=
  match solve (S fuel) (List.map (fun c => CType (fst c) (snd c)) cs) new_solver with
  | (UOk _, st) =>
      if forallb (fun b : nat * ty => match tapply (S fuel) (u_ts st) (u_rs st) (TUni (fst b)) with Some _ => true | None => false end)
                 (u_ts st)
      then Some (fun v => match tapply (S fuel) (u_ts st) (u_rs st) (TUni v) with Some t => t | None => TError end)
      else None
  | _ => None
  end.
