(** Name resolution.  crates/tribute-front/src/resolve/{env,mod,resolver}.rs, with the syntax of ast/{expr,pattern,decl}.rs.

    Symbols are texts.  Node identifiers, spans, literals' values, type annotations of parameters and bindings, type parameters and visibility are not
    modelled: name resolution passes them through.  Literals are given by a number.  Diagnostics are the texts of the names that were not found, without
    the suggestions.  A hash map is a list of entries with different keys; where the code iterates over one, [shuffle] gives the order. *)
From Coq Require Export NArith.
From Verif Require Export PathModel.
Open Scope string_scope. Open Scope list_scope.
Export ListNotations.

(** ** Hash maps *)
Definition map_of (A : Type) := list (string * A).
Fixpoint at_key {A} (m : map_of A) (k : string) : option A :=
  match m with [] => None | (j, v) :: m => if String.eqb j k then Some v else at_key m k end.
Fixpoint insert {A} (m : map_of A) (k : string) (v : A) : map_of A :=
  match m with [] => [(k, v)] | (j, w) :: m => if String.eqb j k then (j, v) :: m else (j, w) :: insert m k v end.
Definition insert_if_absent {A} (m : map_of A) (k : string) (v : A) : map_of A :=
  match at_key m k with Some _ => m | None => insert m k v end.

(** ** Bindings and environments, env.rs:12-90 *)
Inductive type_id := SourceType (qualified : string) (node : N) | BuiltinList.
Inductive ability_id := SourceAbility (qualified : string) | BuiltinIo.
Inductive binding :=
| Function (id : string) | Constructor (id : string) (tag : option string) (arity : nat) | TypeDef (id : type_id) | Module (path : list string)
| AbilityOp (ability : ability_id) (op : string) (is_fn : bool) | Ability (id : ability_id).
Record env := { definitions : map_of binding; imports : map_of binding; namespaces : map_of (map_of binding); use_paths : map_of (list string) }.
Definition empty_env : env := {| definitions := []; imports := []; namespaces := []; use_paths := [] |}.
(** env.rs:92-131: add_function, add_constructor, add_type and add_ability. *)
Definition define (e : env) (name : string) (b : binding) : env :=
  {| definitions := insert (definitions e) name b; imports := imports e; namespaces := namespaces e; use_paths := use_paths e |}.
Definition members (e : env) (ns : string) : map_of binding := match at_key (namespaces e) ns with Some m => m | None => [] end.
(** env.rs:133-139. *)
Definition add_to_namespace (e : env) (ns name : string) (b : binding) : env :=
  {| definitions := definitions e; imports := imports e; namespaces := insert (namespaces e) ns (insert (members e ns) name b); use_paths := use_paths e |}.
(** env.rs:141-144. *)
Definition add_import (e : env) (name : string) (b : binding) : env :=
  {| definitions := definitions e; imports := insert (imports e) name b; namespaces := namespaces e; use_paths := use_paths e |}.
(** env.rs:146-154. *)
Definition add_import_if_absent (e : env) (name : string) (b : binding) : env :=
  match at_key (definitions e) name, at_key (imports e) name with None, None => add_import e name b | _, _ => e end.
(** env.rs:156-168. *)
Definition add_to_namespace_if_absent (e : env) (ns name : string) (b : binding) : env :=
  {| definitions := definitions e; imports := imports e; namespaces := insert (namespaces e) ns (insert_if_absent (members e ns) name b); use_paths := use_paths e |}.
(** env.rs:170-178. *)
Definition lookup (e : env) (name : string) : option binding :=
  match at_key (definitions e) name with Some b => Some b | None => at_key (imports e) name end.
(** env.rs:185-188. *)
Definition lookup_qualified (e : env) (ns name : string) : option binding :=
  match at_key (namespaces e) ns with Some m => at_key m name | None => None end.
(** env.rs:217-221. *)
Definition replace_import (e : env) (name : string) (b : binding) (path : list string) : env :=
  {| definitions := definitions e; imports := insert (imports e) name b; namespaces := namespaces e; use_paths := insert (use_paths e) name path |}.

(** ** Syntax *)
(** [R] is the type of references: texts before resolution. *)
Inductive pat (R : Type) :=
| PWild | PBind (name : string) (id : option N) | PLit (l : N) | PVariant (ctor : R) (fields : list (pat R))
| PRecord (type_name : option R) (fields : list (field R)) (rest : bool) | PTuple (ps : list (pat R)) | PList (ps : list (pat R))
| PListRest (head : list (pat R)) (rest : option string) (id : option N) | PAs (p : pat R) (name : string) (id : option N) | PError
with field (R : Type) := Short (name : string) | Full (name : string) (p : pat R).
Arguments PWild {R}. Arguments PBind {R}. Arguments PLit {R}. Arguments PVariant {R}. Arguments PRecord {R}. Arguments PTuple {R}. Arguments PList {R}.
Arguments PListRest {R}. Arguments PAs {R}. Arguments PError {R}. Arguments Short {R}. Arguments Full {R}.
Inductive hkind (R : Type) := Do (p : pat R) | HFn (ability : R) (op : string) (params : list (pat R)) | HOp (ability : R) (op : string) (params : list (pat R)) (resume : option N).
Arguments Do {R}. Arguments HFn {R}. Arguments HOp {R}.
Definition param := (string * option N)%type.
Inductive expr (R : Type) :=
| Var (r : R) | Lit (l : N) | Call (callee : expr R) (args : list (expr R)) | Cons (ctor : R) (args : list (expr R))
| Record_ (type_name : R) (fields : list (string * expr R)) (spread : option (expr R)) | MethodCall (receiver : expr R) (method : string) (args : list (expr R))
| Block (stmts : list (stmt R)) (value : expr R) | Case (scrutinee : expr R) (arms : list (arm R)) | Lambda (params : list param) (body : expr R)
| Handle (body : expr R) (handlers : list (harm R)) | Resume (arg : expr R) (id : option N) | Tuple (es : list (expr R)) | List_ (es : list (expr R))
| BinOp (op : N) (lhs rhs : expr R) | Error
with stmt (R : Type) := Let (p : pat R) (value : expr R) | Do_ (e : expr R)
with arm (R : Type) := Arm (p : pat R) (guard : option (expr R)) (body : expr R)
with harm (R : Type) := HArm (k : hkind R) (body : expr R).
Arguments Var {R}. Arguments Lit {R}. Arguments Call {R}. Arguments Cons {R}. Arguments Record_ {R}. Arguments MethodCall {R}. Arguments Block {R}.
Arguments Case {R}. Arguments Lambda {R}. Arguments Handle {R}. Arguments Resume {R}. Arguments Tuple {R}. Arguments List_ {R}. Arguments BinOp {R}.
Arguments Error {R}. Arguments Let {R}. Arguments Do_ {R}. Arguments Arm {R}. Arguments HArm {R}.
(** [TypeAnnotation]: the forms looked at. *)
Inductive ann := Named (s : string) | Path (segments : list string) | App (ctor : ann) (args : list ann) | OtherAnn.
Inductive decl (R : Type) :=
| DFunction (name : string) (params : list param) (effects : option (list ann)) (body : expr R)
| DExtern (name : string)
| DStruct (name : string) (node : N) (fields : list (option string))
| DEnum (name : string) (node : N) (variants : list (string * nat))
| DAbility (name : string) (operations : list (string * bool))
| DUse (path : list string) (alias : option string)
| DModule (name : string) (body : option (list (decl R))).
Arguments DFunction {R}. Arguments DExtern {R}. Arguments DStruct {R}. Arguments DEnum {R}. Arguments DAbility {R}. Arguments DUse {R}. Arguments DModule {R}.

(** [ResolvedRef], ast/phases.rs. *)
Inductive ref :=
| RLocal (id : N) (name : string) | RFunction (id : string) | RConstructor (id tag : string) | RTypeDef (id : type_id) | RModule (path : list string)
| RAbilityOp (ability : ability_id) (op : string) (is_fn : bool) | RAbility (id : ability_id).
(** [LocalId::UNRESOLVED], ast/phases.rs:91. *)
Definition unresolved : N := 4294967295.

(** ** Environments of modules, resolve/mod.rs *)
Definition join (path : list string) : string := String.concat "::" path.
Section Env.
  Variable shuffle : forall A, map_of A -> map_of A.
  (** [collect_definition], mod.rs:159-309.  [prefix] is the qualified name of the enclosing module. *)
  Definition add_variant (name prefix : string) (e : env) (v : string * nat) : env :=
    let id := fst (qualified_symbol prefix (fst v)) in
    let b := Constructor id (Some (fst v)) (snd v) in define (add_to_namespace e name (fst v) b) (fst v) b.
  Definition add_field (name prefix : string) (e : env) (f : option string) : env :=
    match f with Some f => add_to_namespace e name f (Function (fst (qualified_symbol prefix f))) | None => e end.
  Definition add_operation (name : string) (id : ability_id) (e : env) (o : string * bool) : env :=
    add_to_namespace e name (fst o) (AbilityOp id (fst o) (snd o)).
  Definition add_members (ns : string) (e : env) (m : map_of binding) : env :=
    fold_left (fun e d => add_to_namespace e ns (fst d) (snd d)) (shuffle _ m) e.
  Definition add_nested (name : string) (e : env) (n : string * map_of binding) : env :=
    add_to_namespace_if_absent (add_members (name ++ "::" ++ fst n) e (snd n)) name (fst n) (Module [name; fst n]).
  Fixpoint collect_definition {R} (prefix : string) (e : env) (d : decl R) : env :=
    match d with
    | DFunction name _ _ _ | DExtern name => define e name (Function (fst (qualified_symbol prefix name)))
    | DStruct name node fields =>
        let q := fst (qualified_symbol prefix name) in
        let e := define (define e name (TypeDef (SourceType q node))) name (Constructor q None (List.length fields)) in
        fold_left (add_field name (fst (push_prefix prefix name))) fields e
    | DEnum name node variants =>
        fold_left (add_variant name prefix) variants (define e name (TypeDef (SourceType (fst (qualified_symbol prefix name)) node)))
    | DAbility name operations =>
        let id := SourceAbility (fst (qualified_symbol prefix name)) in fold_left (add_operation name id) operations (define e name (Ability id))
    | DUse path alias =>
        match split_last path with
        | Some (name, _) => add_import e (match alias with Some a => a | None => name end) (Module path)
        | None => e
        end
    | DModule name None => e
    | DModule name (Some body) =>
        let inner := fold_left (collect_definition (fst (push_prefix prefix name))) body empty_env in
        let e := add_members name e (definitions inner) in
        let e := fold_left (add_nested name) (shuffle _ (namespaces inner)) e in
        add_import e name (Module [name])
    end.
  (** [inject_builtin_bindings], mod.rs:136-157. *)
  Definition inject_builtin_bindings (e : env) : env :=
    let e := add_import_if_absent e "List" (TypeDef BuiltinList) in
    let e := add_to_namespace_if_absent e "std::collections" "List" (TypeDef BuiltinList) in
    add_to_namespace e "std::io" "Io" (Ability BuiltinIo).
  (** [build_env], mod.rs:112-134. *)
  Definition build_env {R} (decls : list (decl R)) : env := inject_builtin_bindings (fold_left (collect_definition "") decls empty_env).
  (** [ModuleEnv::merge], env.rs:244-262. *)
  Definition merge (e other : env) : env :=
    let e := fold_left (fun e d => add_import_if_absent e (fst d) (snd d)) (shuffle _ (definitions other)) e in
    fold_left (fun e n => fold_left (fun e d => add_to_namespace_if_absent e (fst n) (fst d) (snd d)) (shuffle _ (snd n)) e) (shuffle _ (namespaces other)) e.
  (** [resolve_use_imports], mod.rs:70-109. *)
  Definition pending (i : string * binding) : list (string * list string) :=
    match snd i with Module path => match path with _ :: _ :: _ => [(fst i, path)] | _ => [] end | _ => [] end.
  Definition resolve_use (e : env) (i : string * list string) : env :=
    match split_last (snd i) with
    | None => e
    | Some (target, front) =>
        match lookup_qualified e (join front) target with
        | None => e
        | Some b =>
            let e := fold_left (fun e d => add_to_namespace_if_absent e (fst i) (fst d) (snd d)) (shuffle _ (members e (join (snd i)))) e in
            replace_import e (fst i) b (snd i)
        end
    end.
  Definition resolve_use_imports (e : env) : env := fold_left resolve_use (flat_map pending (shuffle _ (imports e))) e.

  (** ** The resolver, resolver.rs *)
  (** Scopes innermost first.  [ops]: the operations injected for the effect annotation; [mpath]: innermost module last. *)
  Record st := { scopes : list (map_of N); gen : N; resumes : list N; ops : map_of binding; mpath : list string; diags : list string }.
  Definition push_scope (s : st) : st :=
    {| scopes := [] :: scopes s; gen := gen s; resumes := resumes s; ops := ops s; mpath := mpath s; diags := diags s |}.
  Definition pop_scope (s : st) : st :=
    {| scopes := tl (scopes s); gen := gen s; resumes := resumes s; ops := ops s; mpath := mpath s; diags := diags s |}.
  (** [LocalIdGen::fresh], ast/phases.rs:414-419, without the overflow, which [resolve_module] checks at the end: the counter only grows. *)
  Definition fresh (s : st) : st * N :=
    ({| scopes := scopes s; gen := gen s + 1; resumes := resumes s; ops := ops s; mpath := mpath s; diags := diags s |}, gen s).
  (** [bind_local], resolver.rs:128-135. *)
  Definition bind_local (s : st) (name : string) : st * N :=
    let '(s, id) := fresh s in
    ({| scopes := match scopes s with top :: rest => insert top name id :: rest | [] => [] end;
        gen := gen s; resumes := resumes s; ops := ops s; mpath := mpath s; diags := diags s |}, id).
  (** [lookup_local], resolver.rs:137-145. *)
  Fixpoint lookup_scopes (l : list (map_of N)) (name : string) : option N :=
    match l with [] => None | m :: l => match at_key m name with Some id => Some id | None => lookup_scopes l name end end.
  (** [binding_to_ref], resolver.rs:238-255. *)
  Definition binding_to_ref (b : binding) (name : string) : ref :=
    match b with
    | Function id => RFunction id
    | Constructor id tag _ => RConstructor id (match tag with Some t => t | None => name end)
    | TypeDef id => RTypeDef id
    | Module path => RModule path
    | AbilityOp a o k => RAbilityOp a o k
    | Ability id => RAbility id
    end.
  Variable e : env.
  (** [resolve_name], resolver.rs:147-193. *)
  Definition global_binding (path : list string) (injected : map_of binding) (sym : string) : option binding :=
    match match path with [] => None | _ => lookup_qualified e (join path) sym end with
    | Some b => Some b
    | None => match lookup e sym with Some b => Some b | None => at_key injected sym end
    end.
  Definition report (s : st) (name : string) : st :=
    {| scopes := scopes s; gen := gen s; resumes := resumes s; ops := ops s; mpath := mpath s; diags := diags s ++ [name] |}.
  Definition resolve_name (s : st) (name : string) : st * ref :=
    let sym := last_segment_of name in
    let found :=
      if is_simple name then
        match lookup_scopes (scopes s) sym with
        | Some id => Some (RLocal id sym)
        | None => match global_binding (mpath s) (ops s) sym with Some b => Some (binding_to_ref b sym) | None => None end
        end
      else match parent_path name with
           | Some ns => match lookup_qualified e ns sym with Some b => Some (binding_to_ref b sym) | None => None end
           | None => None
           end in
    match found with Some r => (s, r) | None => (report s name, RLocal unresolved sym) end.
  (** [resolve_handler_ability], resolver.rs:717-725. *)
  Definition resolve_handler_ability (s : st) (name : string) : st * ref :=
    if String.eqb name "_" then (s, RLocal unresolved name) else resolve_name s name.

  Section Each.
    Context {A B : Type} (f : st -> A -> st * B).
    Fixpoint each (s : st) (l : list A) : st * list B :=
      match l with [] => (s, []) | x :: l => let '(s, x) := f s x in let '(s, l) := each s l in (s, x :: l) end.
    Definition maybe (s : st) (o : option A) : st * option B :=
      match o with Some x => let '(s, x) := f s x in (s, Some x) | None => (s, None) end.
  End Each.
  Definition bind_param (s : st) (p : param) : st * param := let '(s, id) := bind_local s (fst p) in (s, (fst p, Some id)).

  (** [resolve_pattern_with_bindings], resolver.rs:727-842. *)
  Fixpoint resolve_pattern (s : st) (p : pat string) : st * pat ref :=
    match p with
    | PWild => (s, PWild)
    | PBind name _ => let '(s, id) := bind_local s name in (s, PBind name (Some id))
    | PLit l => (s, PLit l)
    | PVariant ctor fields => let '(s, ctor) := resolve_name s ctor in let '(s, fields) := each resolve_pattern s fields in (s, PVariant ctor fields)
    | PRecord t fields rest =>
        let '(s, t) := maybe resolve_name s t in let '(s, fields) := each resolve_field s fields in (s, PRecord t fields rest)
    | PTuple ps => let '(s, ps) := each resolve_pattern s ps in (s, PTuple ps)
    | PList ps => let '(s, ps) := each resolve_pattern s ps in (s, PList ps)
    | PListRest head rest _ =>
        let '(s, head) := each resolve_pattern s head in
        match rest with
        | Some name => if String.eqb name "_" then (s, PListRest head rest None) else let '(s, id) := bind_local s name in (s, PListRest head rest (Some id))
        | None => (s, PListRest head rest None)
        end
    | PAs p name _ => let '(s, p) := resolve_pattern s p in let '(s, id) := bind_local s name in (s, PAs p name (Some id))
    | PError => (s, PError)
    end
  with resolve_field (s : st) (f : field string) : st * field ref :=
    match f with
    | Full name p => let '(s, p) := resolve_pattern s p in (s, Full name p)
    | Short name => let '(s, id) := bind_local s name in (s, Full name (PBind name (Some id)))
    end.
  Definition push_resume (s : st) (id : N) : st :=
    {| scopes := scopes s; gen := gen s; resumes := id :: resumes s; ops := ops s; mpath := mpath s; diags := diags s |}.
  Definition pop_resume (s : st) : st :=
    {| scopes := scopes s; gen := gen s; resumes := tl (resumes s); ops := ops s; mpath := mpath s; diags := diags s |}.
  (** The kind of a handler arm, resolver.rs:664-705. *)
  Definition resolve_kind (s : st) (k : hkind string) : st * hkind ref :=
    match k with
    | Do p => let '(s, p) := resolve_pattern s p in (s, Do p)
    | HFn a op params => let '(s, a) := resolve_handler_ability s a in let '(s, params) := each resolve_pattern s params in (s, HFn a op params)
    | HOp a op params _ =>
        let '(s, a) := resolve_handler_ability s a in let '(s, params) := each resolve_pattern s params in
        let '(s, id) := fresh s in (push_resume s id, HOp a op params (Some id))
    end.
  (** [resolve_expr], resolver.rs:474-611, [resolve_stmt], [resolve_arm] and [resolve_handler_arm]. *)
  Fixpoint resolve_expr (s : st) (x : expr string) : st * expr ref :=
    match x with
    | Var name => let '(s, r) := resolve_name s name in (s, Var r)
    | Lit l => (s, Lit l)
    | Call callee args => let '(s, callee) := resolve_expr s callee in let '(s, args) := each resolve_expr s args in (s, Call callee args)
    | Cons ctor args => let '(s, ctor) := resolve_name s ctor in let '(s, args) := each resolve_expr s args in (s, Cons ctor args)
    | Record_ t fields spread =>
        let '(s, t) := resolve_name s t in
        let '(s, fields) := each (fun s f => let '(s, x) := resolve_expr s (snd f) in (s, (fst f, x))) s fields in
        let '(s, spread) := maybe resolve_expr s spread in (s, Record_ t fields spread)
    | MethodCall receiver method args =>
        let '(s, receiver) := resolve_expr s receiver in let '(s, args) := each resolve_expr s args in (s, MethodCall receiver method args)
    | Block stmts value =>
        let s := push_scope s in
        let '(s, stmts) := each resolve_stmt s stmts in let '(s, value) := resolve_expr s value in (pop_scope s, Block stmts value)
    | Case scrutinee arms => let '(s, scrutinee) := resolve_expr s scrutinee in let '(s, arms) := each resolve_arm s arms in (s, Case scrutinee arms)
    | Lambda params body =>
        let s := push_scope s in
        let '(s, params) := each bind_param s params in let '(s, body) := resolve_expr s body in (pop_scope s, Lambda params body)
    | Handle body handlers => let '(s, body) := resolve_expr s body in let '(s, handlers) := each resolve_handler s handlers in (s, Handle body handlers)
    | Resume arg _ => let '(s, arg) := resolve_expr s arg in (s, Resume arg (hd_error (resumes s)))
    | Tuple es => let '(s, es) := each resolve_expr s es in (s, Tuple es)
    | List_ es => let '(s, es) := each resolve_expr s es in (s, List_ es)
    | BinOp op lhs rhs => let '(s, lhs) := resolve_expr s lhs in let '(s, rhs) := resolve_expr s rhs in (s, BinOp op lhs rhs)
    | Error => (s, Error)
    end
  with resolve_stmt (s : st) (x : stmt string) : st * stmt ref :=
    match x with
    | Let p value => let '(s, value) := resolve_expr s value in let '(s, p) := resolve_pattern s p in (s, Let p value)
    | Do_ x => let '(s, x) := resolve_expr s x in (s, Do_ x)
    end
  with resolve_arm (s : st) (x : arm string) : st * arm ref :=
    match x with
    | Arm p guard body =>
        let s := push_scope s in
        let '(s, p) := resolve_pattern s p in let '(s, guard) := maybe resolve_expr s guard in let '(s, body) := resolve_expr s body in
        (pop_scope s, Arm p guard body)
    end
  with resolve_handler (s : st) (x : harm string) : st * harm ref :=
    match x with
    | HArm k body =>
        let s := push_scope s in
        let '(s, k) := resolve_kind s k in let '(s, body) := resolve_expr s body in
        let s := match k with HOp _ _ _ _ => pop_resume s | _ => s end in (pop_scope s, HArm k body)
    end.

  (** [extract_ability_name], resolver.rs:379-408. *)
  Definition upper_start (s : string) : bool := match s with String c _ => (65 <=? N_of_ascii c)%N && (N_of_ascii c <=? 90)%N | EmptyString => false end.
  Fixpoint extract_ability_name (a : ann) : option string :=
    match a with
    | Named s => if upper_start s then Some s else None
    | Path segs => match segs with [] => None | _ => Some (join segs) end
    | App ctor _ => extract_ability_name ctor
    | OtherAnn => None
    end.
  (** [inject_ability_operations], resolver.rs:352-377. *)
  Definition inject_one (m : map_of binding) (d : string * binding) : map_of binding :=
    match snd d with AbilityOp _ _ _ => insert_if_absent m (fst d) (snd d) | _ => m end.
  Definition inject_ability (m : map_of binding) (a : ann) : map_of binding :=
    match extract_ability_name a with Some n => fold_left inject_one (shuffle _ (members e n)) m | None => m end.
  Definition with_ops (s : st) (m : map_of binding) : st :=
    {| scopes := scopes s; gen := gen s; resumes := resumes s; ops := m; mpath := mpath s; diags := diags s |}.
  Definition with_path (s : st) (p : list string) : st :=
    {| scopes := scopes s; gen := gen s; resumes := resumes s; ops := ops s; mpath := p; diags := diags s |}.
  (** [resolve_ability_in_annotation], resolver.rs:431-462. *)
  Fixpoint resolve_annotation (a : ann) : ann :=
    match a with
    | Named s =>
        if upper_start s then
          match at_key (definitions e) s, at_key (use_paths e) s with None, Some ((_ :: _ :: _) as path) => Path path | _, _ => a end
        else a
    | App ctor args => App (resolve_annotation ctor) args
    | _ => a
    end.
  (** [resolve_decl], resolver.rs:272-346. *)
  Fixpoint resolve_decl (s : st) (d : decl string) : st * decl ref :=
    match d with
    | DFunction name params effects body =>
        let s := push_scope s in
        let '(s, params) := each bind_param s params in
        let s := match effects with Some l => with_ops s (fold_left inject_ability l []) | None => s end in
        let '(s, body) := resolve_expr s body in
        (pop_scope (with_ops s []), DFunction name params (option_map (map resolve_annotation) effects) body)
    | DExtern name => (s, DExtern name)
    | DStruct name node fields => (s, DStruct name node fields)
    | DEnum name node variants => (s, DEnum name node variants)
    | DAbility name operations => (s, DAbility name operations)
    | DUse path alias => (s, DUse path alias)
    | DModule name body =>
        let s := with_path s (mpath s ++ [name]) in
        let '(s, body) := maybe (each resolve_decl) s body in
        (with_path s (removelast (mpath s)), DModule name body)
    end.
  Definition start : st := {| scopes := [[]]; gen := 0; resumes := []; ops := []; mpath := []; diags := [] |}.
  (** [resolve_with_env], mod.rs:53-60 and resolver.rs:257-270.  [None]: more than 2^32 - 1 local variables, where the code panics. *)
  Definition resolve_with_env (decls : list (decl string)) : option (list (decl ref) * list string) :=
    let '(s, decls) := each resolve_decl start decls in if (gen s <=? unresolved)%N then Some (decls, diags s) else None.
End Env.
(** [resolve_module], mod.rs:33-46, and parse_and_lower_ast of /repo/src/pipeline.rs:1345-1354 with the environment of the prelude. *)
Definition module_env (shuffle : forall A, map_of A -> map_of A) (prelude : option env) (decls : list (decl string)) : env :=
  let e := build_env shuffle decls in
  resolve_use_imports shuffle (match prelude with Some p => merge shuffle e p | None => e end).
Definition resolve_module shuffle prelude (decls : list (decl string)) : option (list (decl ref) * list string) :=
  resolve_with_env shuffle (module_env shuffle prelude decls) decls.
