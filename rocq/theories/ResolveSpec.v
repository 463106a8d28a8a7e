(** What names mean: specification for C56.  It knows nothing of stacks, counters or hash maps: a scope is the list of the bindings visible at a place. *)
From Verif Require Export ResolveModel PathSpec.
From Coq Require Export Permutation.
Local Open Scope N_scope.

(** ** Scopes *)
(** The newest binding first. *)
Definition scope := list (string * N).
(** [x] is bound, by the binder [id], and not again since. *)
Definition visible (x : string) (id : N) (sc : scope) : Prop := exists newer older, sc = newer ++ (x, id) :: older /\ ~ In x (map fst newer).
Section Thread.
  Context {A B : Type} (P : scope -> A -> B -> scope -> Prop).
  (** One after the other, each in the scope left by those before. *)
  Inductive thread : scope -> list A -> list B -> scope -> Prop :=
  | thread_nil sc : thread sc [] [] sc
  | thread_cons sc x y sc' l m sc'' : P sc x y sc' -> thread sc' l m sc'' -> thread sc (x :: l) (y :: m) sc''.
End Thread.
Inductive option_ok {A B} (P : A -> B -> Prop) : option A -> option B -> Prop :=
| none_ok : option_ok P None None
| some_ok x y : P x y -> option_ok P (Some x) (Some y).

Section Meaning.
  (** What a text means where no local variable is meant, and the texts reported as meaning nothing. *)
  Variable global : string -> option ref.
  Variable reported : list string.

  Inductive refers (sc : scope) (x : string) : ref -> Prop :=
  | to_local id : simple_text x -> visible x id sc -> refers sc x (RLocal id x)
  | to_global r : (simple_text x -> ~ exists id, visible x id sc) -> global x = Some r -> refers sc x r
  | to_nothing : (simple_text x -> ~ exists id, visible x id sc) -> global x = None -> In x reported -> refers sc x (RLocal unresolved (last_segment_of x)).

  (** ** Patterns: the names they bind become visible from left to right. *)
  Inductive pat_ok : scope -> pat string -> pat ref -> scope -> Prop :=
  | wild_ok sc : pat_ok sc PWild PWild sc
  | bind_ok sc x i id : pat_ok sc (PBind x i) (PBind x (Some id)) ((x, id) :: sc)
  | plit_ok sc l : pat_ok sc (PLit l) (PLit l) sc
  | variant_ok sc c c' ps ps' sc' : refers sc c c' -> thread pat_ok sc ps ps' sc' -> pat_ok sc (PVariant c ps) (PVariant c' ps') sc'
  | record_ok sc t t' fs fs' sc' b : option_ok (refers sc) t t' -> thread field_ok sc fs fs' sc' -> pat_ok sc (PRecord t fs b) (PRecord t' fs' b) sc'
  | ptuple_ok sc ps ps' sc' : thread pat_ok sc ps ps' sc' -> pat_ok sc (PTuple ps) (PTuple ps') sc'
  | plist_ok sc ps ps' sc' : thread pat_ok sc ps ps' sc' -> pat_ok sc (PList ps) (PList ps') sc'
  | rest_ok sc ps ps' sc' x i id : thread pat_ok sc ps ps' sc' -> x <> "_"%string ->
      pat_ok sc (PListRest ps (Some x) i) (PListRest ps' (Some x) (Some id)) ((x, id) :: sc')
  | no_rest_ok sc ps ps' sc' r i : thread pat_ok sc ps ps' sc' -> r = None \/ r = Some "_"%string ->
      pat_ok sc (PListRest ps r i) (PListRest ps' r None) sc'
  | as_ok sc p p' sc' x i id : pat_ok sc p p' sc' -> pat_ok sc (PAs p x i) (PAs p' x (Some id)) ((x, id) :: sc')
  | perror_ok sc : pat_ok sc PError PError sc
  with field_ok : scope -> field string -> field ref -> scope -> Prop :=
  | short_ok sc x id : field_ok sc (Short x) (Full x (PBind x (Some id))) ((x, id) :: sc)
  | full_ok sc x p p' sc' : pat_ok sc p p' sc' -> field_ok sc (Full x p) (Full x p') sc'.
  Inductive param_ok : scope -> param -> param -> scope -> Prop :=
  | a_param sc x i id : param_ok sc (x, i) (x, Some id) ((x, id) :: sc).

  (** ** Expressions.  [r] is the binder of [resume]: that of the closest enclosing arm for an [op]. *)
  Inductive ability_ok (sc : scope) : string -> ref -> Prop :=
  | any_ability : ability_ok sc "_" (RLocal unresolved "_")
  | an_ability x y : x <> "_"%string -> refers sc x y -> ability_ok sc x y.
  Inductive kind_ok (r : option N) : scope -> hkind string -> hkind ref -> scope -> option N -> Prop :=
  | do_ok sc p p' sc' : pat_ok sc p p' sc' -> kind_ok r sc (Do p) (Do p') sc' r
  | hfn_ok sc a a' op ps ps' sc' : ability_ok sc a a' -> thread pat_ok sc ps ps' sc' -> kind_ok r sc (HFn a op ps) (HFn a' op ps') sc' r
  | hop_ok sc a a' op ps ps' sc' i id : ability_ok sc a a' -> thread pat_ok sc ps ps' sc' ->
      kind_ok r sc (HOp a op ps i) (HOp a' op ps' (Some id)) sc' (Some id).
  Inductive expr_ok (r : option N) : scope -> expr string -> expr ref -> Prop :=
  | var_ok sc x y : refers sc x y -> expr_ok r sc (Var x) (Var y)
  | lit_ok sc l : expr_ok r sc (Lit l) (Lit l)
  | call_ok sc f f' es es' : expr_ok r sc f f' -> Forall2 (expr_ok r sc) es es' -> expr_ok r sc (Call f es) (Call f' es')
  | cons_ok sc c c' es es' : refers sc c c' -> Forall2 (expr_ok r sc) es es' -> expr_ok r sc (Cons c es) (Cons c' es')
  | recorde_ok sc t t' fs fs' sp sp' : refers sc t t' -> Forall2 (fun f f' => fst f = fst f' /\ expr_ok r sc (snd f) (snd f')) fs fs' ->
      option_ok (expr_ok r sc) sp sp' -> expr_ok r sc (Record_ t fs sp) (Record_ t' fs' sp')
  | method_ok sc o o' m es es' : expr_ok r sc o o' -> Forall2 (expr_ok r sc) es es' -> expr_ok r sc (MethodCall o m es) (MethodCall o' m es')
  | block_ok sc ss ss' sc' v v' : thread (stmt_ok r) sc ss ss' sc' -> expr_ok r sc' v v' -> expr_ok r sc (Block ss v) (Block ss' v')
  | case_ok sc x x' l l' : expr_ok r sc x x' -> Forall2 (arm_ok r sc) l l' -> expr_ok r sc (Case x l) (Case x' l')
  | lambda_ok sc ps ps' sc' b b' : thread param_ok sc ps ps' sc' -> expr_ok r sc' b b' -> expr_ok r sc (Lambda ps b) (Lambda ps' b')
  | handle_ok sc x x' l l' : expr_ok r sc x x' -> Forall2 (handler_ok r sc) l l' -> expr_ok r sc (Handle x l) (Handle x' l')
  | resume_ok sc x x' i : expr_ok r sc x x' -> expr_ok r sc (Resume x i) (Resume x' r)
  | tuple_ok sc es es' : Forall2 (expr_ok r sc) es es' -> expr_ok r sc (Tuple es) (Tuple es')
  | list_ok sc es es' : Forall2 (expr_ok r sc) es es' -> expr_ok r sc (List_ es) (List_ es')
  | binop_ok sc o x x' y y' : expr_ok r sc x x' -> expr_ok r sc y y' -> expr_ok r sc (BinOp o x y) (BinOp o x' y')
  | error_ok sc : expr_ok r sc Error Error
  (** A [let] is visible after its own value. *)
  with stmt_ok (r : option N) : scope -> stmt string -> stmt ref -> scope -> Prop :=
  | let_ok sc v v' p p' sc' : expr_ok r sc v v' -> pat_ok sc p p' sc' -> stmt_ok r sc (Let p v) (Let p' v') sc'
  | exec_ok sc x x' : expr_ok r sc x x' -> stmt_ok r sc (Do_ x) (Do_ x') sc
  with arm_ok (r : option N) : scope -> arm string -> arm ref -> Prop :=
  | an_arm sc p p' sc' g g' b b' : pat_ok sc p p' sc' -> option_ok (expr_ok r sc') g g' -> expr_ok r sc' b b' -> arm_ok r sc (Arm p g b) (Arm p' g' b')
  with handler_ok (r : option N) : scope -> harm string -> harm ref -> Prop :=
  | a_handler sc k k' sc' r' b b' : kind_ok r sc k k' sc' r' -> expr_ok r' sc' b b' -> handler_ok r sc (HArm k b) (HArm k' b').
End Meaning.

(** ** Names that are not local variables *)
(** The ability a part of an effect annotation names. *)
Inductive ability_named : ann -> string -> Prop :=
| by_name c s : 65 <= N_of_ascii c <= 90 -> ability_named (Named (String c s)) (String c s)
| by_path segs : segs <> [] -> ability_named (Path segs) (path_text segs)
| by_app a args n : ability_named a n -> ability_named (App a args) n.
(** The operation [x] of the leftmost ability of the annotation that has one. *)
Definition operation_of (e : env) (a : ann) (x : string) (b : binding) : Prop :=
  exists n, ability_named a n /\ lookup_qualified e n x = Some b /\ exists i o k, b = AbilityOp i o k.
Definition declared_operation (e : env) (effects : option (list ann)) (x : string) (b : binding) : Prop :=
  exists before a after, effects = Some (before ++ a :: after) /\ operation_of e a x b /\ forall a', In a' before -> ~ exists b', operation_of e a' x b'.
(** A simple name: an item of the module around, else of the file, else an import, else an operation of a declared effect. *)
Inductive item_of (e : env) (path : list string) (effects : option (list ann)) (x : string) : binding -> Prop :=
| of_module b : path <> [] -> lookup_qualified e (path_text path) x = Some b -> item_of e path effects x b
| of_file b : (path <> [] -> lookup_qualified e (path_text path) x = None) -> at_key (definitions e) x = Some b -> item_of e path effects x b
| of_import b : (path <> [] -> lookup_qualified e (path_text path) x = None) -> at_key (definitions e) x = None -> at_key (imports e) x = Some b -> item_of e path effects x b
| of_effect b : (path <> [] -> lookup_qualified e (path_text path) x = None) -> at_key (definitions e) x = None -> at_key (imports e) x = None ->
    declared_operation e effects x b -> item_of e path effects x b.
Definition as_ref (b : binding) (x : string) : ref :=
  match b with
  | Function id => RFunction id | Constructor id (Some t) _ => RConstructor id t | Constructor id None _ => RConstructor id x | TypeDef id => RTypeDef id
  | Module path => RModule path | AbilityOp a o k => RAbilityOp a o k | Ability id => RAbility id
  end.
(** [global] is what texts mean in a function of module [path] with the effect annotation [effects]. *)
Definition global_ok (e : env) (path : list string) (effects : option (list ann)) (global : string -> option ref) : Prop :=
  forall x,
    (simple_text x -> (exists b, item_of e path effects x b /\ global x = Some (as_ref b x)) \/ ((forall b, ~ item_of e path effects x b) /\ global x = None)) /\
    (~ simple_text x -> exists ns n, x = join_path ns n /\ simple_text (":" ++ n) /\
       global x = match lookup_qualified e ns n with Some b => Some (as_ref b n) | None => None end).

(** ** Declarations *)
(** In effect annotations, the name of an imported ability becomes its full path. *)
Definition upper (s : string) : Prop := exists c r, s = String c r /\ 65 <= N_of_ascii c <= 90.
Inductive ann_ok (e : env) : ann -> ann -> Prop :=
| ann_imported s path : upper s -> at_key (definitions e) s = None -> at_key (use_paths e) s = Some path -> (2 <= List.length path)%nat -> ann_ok e (Named s) (Path path)
| ann_app a a' args : ann_ok e a a' -> ann_ok e (App a args) (App a' args)
| ann_named s : (upper s -> at_key (definitions e) s = None -> forall path, at_key (use_paths e) s = Some path -> (List.length path < 2)%nat) -> ann_ok e (Named s) (Named s)
| ann_path segs : ann_ok e (Path segs) (Path segs)
| ann_other : ann_ok e OtherAnn OtherAnn.
Inductive decl_ok (e : env) (reported : list string) : list string -> decl string -> decl ref -> Prop :=
| function_ok path name ps ps' sc effects effects' b b' global :
    thread param_ok [] ps ps' sc -> global_ok e path effects global -> expr_ok global reported None sc b b' ->
    option_ok (Forall2 (ann_ok e)) effects effects' ->
    decl_ok e reported path (DFunction name ps effects b) (DFunction name ps' effects' b')
| extern_ok path n : decl_ok e reported path (DExtern n) (DExtern n)
| struct_ok path n i fs : decl_ok e reported path (DStruct n i fs) (DStruct n i fs)
| enum_ok path n i vs : decl_ok e reported path (DEnum n i vs) (DEnum n i vs)
| adecl_ok path n os : decl_ok e reported path (DAbility n os) (DAbility n os)
| use_ok path p a : decl_ok e reported path (DUse p a) (DUse p a)
| module_ok path n b b' : option_ok (Forall2 (decl_ok e reported (path ++ [n]))) b b' -> decl_ok e reported path (DModule n b) (DModule n b').

(** ** The binders of a resolved program, in order *)
Definition of_option {A B} (f : A -> list B) (o : option A) : list B := match o with Some x => f x | None => [] end.
Fixpoint pat_binders (p : pat ref) : list N :=
  match p with
  | PWild | PLit _ | PError => []
  | PBind _ id => of_option (fun i => [i]) id
  | PVariant _ ps | PTuple ps | PList ps => flat_map pat_binders ps
  | PRecord _ fs _ => flat_map field_binders fs
  | PListRest ps _ id => flat_map pat_binders ps ++ of_option (fun i => [i]) id
  | PAs p _ id => pat_binders p ++ of_option (fun i => [i]) id
  end
with field_binders (f : field ref) : list N := match f with Short _ => [] | Full _ p => pat_binders p end.
Definition param_binders (p : param) : list N := of_option (fun i => [i]) (snd p).
Definition kind_binders (k : hkind ref) : list N :=
  match k with Do p => pat_binders p | HFn _ _ ps => flat_map pat_binders ps | HOp _ _ ps id => flat_map pat_binders ps ++ of_option (fun i => [i]) id end.
Fixpoint expr_binders (x : expr ref) : list N :=
  match x with
  | Var _ | Lit _ | Error => []
  | Call f es => expr_binders f ++ flat_map expr_binders es
  | Cons _ es | Tuple es | List_ es => flat_map expr_binders es
  | Record_ _ fs sp => flat_map (fun f => expr_binders (snd f)) fs ++ of_option expr_binders sp
  | MethodCall o _ es => expr_binders o ++ flat_map expr_binders es
  | Block ss v => flat_map stmt_binders ss ++ expr_binders v
  | Case x l => expr_binders x ++ flat_map arm_binders l
  | Lambda ps b => flat_map param_binders ps ++ expr_binders b
  | Handle x l => expr_binders x ++ flat_map handler_binders l
  | Resume x _ => expr_binders x
  | BinOp _ x y => expr_binders x ++ expr_binders y
  end
with stmt_binders (x : stmt ref) : list N := match x with Let p v => expr_binders v ++ pat_binders p | Do_ x => expr_binders x end
with arm_binders (x : arm ref) : list N := match x with Arm p g b => pat_binders p ++ of_option expr_binders g ++ expr_binders b end
with handler_binders (x : harm ref) : list N := match x with HArm k b => kind_binders k ++ expr_binders b end.
Fixpoint decl_binders (d : decl ref) : list N :=
  match d with
  | DFunction _ ps _ b => flat_map param_binders ps ++ expr_binders b
  | DModule _ (Some l) => flat_map decl_binders l
  | _ => []
  end.

(** ** Maps *)
Definition keys_distinct {A} (m : map_of A) : Prop := NoDup (map fst m).
Record env_ok (e : env) : Prop := { defs_ok : keys_distinct (definitions e); imports_ok : keys_distinct (imports e); nss_ok : keys_distinct (namespaces e);
  ns_ok : forall n m, In (n, m) (namespaces e) -> keys_distinct m; uses_ok : keys_distinct (use_paths e) }.
(** Any order of iteration. *)
Definition any_order (shuffle : forall A, map_of A -> map_of A) : Prop := forall A (m : map_of A), Permutation m (shuffle A m).

(** ** The references of a resolved program *)
Fixpoint pat_refs (p : pat ref) : list ref :=
  match p with
  | PWild | PLit _ | PError | PBind _ _ => []
  | PVariant c ps => c :: flat_map pat_refs ps
  | PTuple ps | PList ps | PListRest ps _ _ => flat_map pat_refs ps
  | PRecord t fs _ => of_option (fun t => [t]) t ++ flat_map field_refs fs
  | PAs p _ _ => pat_refs p
  end
with field_refs (f : field ref) : list ref := match f with Short _ => [] | Full _ p => pat_refs p end.
Definition kind_refs (k : hkind ref) : list ref := match k with Do p => pat_refs p | HFn a _ ps | HOp a _ ps _ => a :: flat_map pat_refs ps end.
Fixpoint expr_refs (x : expr ref) : list ref :=
  match x with
  | Lit _ | Error => []
  | Var r => [r]
  | Call f es => expr_refs f ++ flat_map expr_refs es
  | Cons c es => c :: flat_map expr_refs es
  | Tuple es | List_ es => flat_map expr_refs es
  | Record_ t fs sp => t :: flat_map (fun f => expr_refs (snd f)) fs ++ of_option expr_refs sp
  | MethodCall o _ es => expr_refs o ++ flat_map expr_refs es
  | Block ss v => flat_map stmt_refs ss ++ expr_refs v
  | Case x l => expr_refs x ++ flat_map arm_refs l
  | Lambda _ b => expr_refs b
  | Handle x l => expr_refs x ++ flat_map handler_refs l
  | Resume x _ => expr_refs x
  | BinOp _ x y => expr_refs x ++ expr_refs y
  end
with stmt_refs (x : stmt ref) : list ref := match x with Let p v => expr_refs v ++ pat_refs p | Do_ x => expr_refs x end
with arm_refs (x : arm ref) : list ref := match x with Arm p g b => pat_refs p ++ of_option expr_refs g ++ expr_refs b end
with handler_refs (x : harm ref) : list ref := match x with HArm k b => kind_refs k ++ expr_refs b end.
Fixpoint decl_refs (d : decl ref) : list ref :=
  match d with DFunction _ _ _ b => expr_refs b | DModule _ (Some l) => flat_map decl_refs l | _ => [] end.
