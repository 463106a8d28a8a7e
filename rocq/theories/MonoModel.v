(** Specialization of generic functions.  crates/tribute-front/src/monomorphize/{mod,collect,specialize,rewrite}.rs, with the syntax of
    ast/{expr,pattern,decl}.rs.

    Symbols are texts.  A node id is the number of a source node and the variant, [None] for a source node.  Literals, annotations and visibility are
    given by numbers: they are passed through.  A hash map or set that is iterated over is visited in the order given by the oracle [shuffle]; otherwise
    maps are lists of entries and sets lists of elements.  The hash of type arguments ([type_args_variant], specialize.rs:645-651) is the oracle
    [variant].  A substitution of an absent argument panics; the model checks first and substitutes afterwards. *)
From Coq Require Export NArith.
From Verif Require Export SubstModel MangleModel PathModel.
From Verif Require Import InternModel.
Open Scope string_scope. Open Scope list_scope.
Export ListNotations.

(** ** Syntax *)
(** [NodeId], ast/node_id.rs:28-59. *)
Definition nid := (N * option N)%type.
Definition nid_eqb (a b : nid) : bool :=
  N.eqb (fst a) (fst b) && match snd a, snd b with None, None => true | Some x, Some y => N.eqb x y | _, _ => false end.
Definition with_variant (v : N) (i : nid) : nid := (fst i, Some v).
(** [ResolvedRef] and [TypedRef], ast/phases.rs.  References that are neither functions, constructors nor types are given by a number. *)
Inductive resolved := RFunction (q : string) | RConstructor (id tag : string) | RTypeDef (id : tydef) | ROther (n : N).
Record tref := mkRef { target : resolved; rty : ty }.
Inductive pat :=
| PWild (i : nid) | PBind (i : nid) (name : string) (l : option N) | PLit (i : nid) (l : N) | PVariant (i : nid) (ctor : tref) (fields : list pat)
| PRecord (i : nid) (t : option tref) (fields : list fpat) (rest : bool) | PTuple (i : nid) (ps : list pat) | PList (i : nid) (ps : list pat)
| PListRest (i : nid) (head : list pat) (rest : option string) (l : option N) | PAs (i : nid) (p : pat) (name : string) (l : option N) | PError (i : nid)
with fpat := Field (i : nid) (name : string) (p : option pat).
Inductive hkind := HDo (p : pat) | HFn (ability : tref) (op : string) (params : list pat) | HOp (ability : tref) (op : string) (params : list pat) (resume : option N).
(** The annotation of a parameter or binding is a number. *)
Record param := mkParam { p_id : nid; p_name : string; p_ann : N; p_local : option N }.
Inductive expr :=
| Var (i : nid) (r : tref) | Lit (i : nid) (l : N) | Call (i : nid) (callee : expr) (args : list expr) | Cons (i : nid) (ctor : tref) (args : list expr)
| Record_ (i : nid) (type_name : tref) (fields : list (string * expr)) (spread : option expr) | MethodCall (i : nid) (receiver : expr) (method : string) (args : list expr)
| Block (i : nid) (stmts : list stmt) (value : expr) | Case (i : nid) (scrutinee : expr) (arms : list arm) | Lambda (i : nid) (params : list param) (body : expr)
| Handle (i : nid) (body : expr) (handlers : list harm) | Resume (i : nid) (arg : expr) (l : option N) | Tuple (i : nid) (es : list expr) | List_ (i : nid) (es : list expr)
| BinOp (i : nid) (op : N) (lhs rhs : expr)
with stmt := Let (i : nid) (p : pat) (ann : N) (value : expr) | Do_ (i : nid) (e : expr)
with arm := Arm (i : nid) (p : pat) (guard : option expr) (body : expr)
with harm := HArm (i : nid) (k : hkind) (body : expr).
Record func := mkFunc { f_id : nid; f_pub : bool; f_name : string; f_tparams : list string; f_params : list param; f_ret : N; f_effects : N; f_body : expr }.
(** Structs, enums, abilities and imports are numbered. *)
Inductive decl := DFunction (f : func) | DExtern (name : string) | DModule (name : string) (body : option (list decl)) | DOther (n : N).

(** ** Type arguments, collect.rs *)
Definition set_nth {A} (l : list A) (i : nat) (a : A) : list A := firstn i l ++ a :: skipn (S i) l.
(** [extract_recursive], collect.rs:46-115.  [None] is [false]: what was extracted by then is dropped. *)
Fixpoint extract_rec (s c : ty) (acc : list (option ty)) {struct s} : option (list (option ty)) :=
  let zip := fix zip (ss cs : list ty) (acc : list (option ty)) {struct ss} : option (list (option ty)) :=
    match ss, cs with
    | [], [] => Some acc
    | s :: ss, c :: cs => obind (extract_rec s c acc) (zip ss cs)
    | _, _ => None
    end in
  match s, c with
  | TBound i, _ =>
      match nth_error acc i with
      | None => None
      | Some (Some existing) => if ty_eqb existing c then Some acc else None
      | Some None => Some (set_nth acc i (Some c))
      end
  | TFunc sp sr _ _, TFunc cp cr _ _ => obind (zip sp cp acc) (extract_rec sr cr)
  | TNamed si _ sa, TNamed ci _ ca => if tydef_eqb si ci then zip sa ca acc else None
  | TTuple se, TTuple ce => zip se ce acc
  | _, _ => if ty_eqb s c then Some acc else None
  end.
(** [extract_type_args], collect.rs:30-44. *)
Definition extract_type_args (sc : scheme) (c : ty) : option (list ty) :=
  match sc_params sc with
  | O => None
  | n => obind (extract_rec (sc_body sc) c (repeat None n)) (otraverse (fun o => o))
  end.
(** [is_concrete_type] and [is_concrete_effect_row], collect.rs:275-322. *)
Fixpoint is_concrete (t : ty) : bool :=
  let row := fun r : list (ability * list ty) * option nat =>
    match snd r with None => true | Some _ => false end && forallb (fun e => match e with (_, xs) => forallb is_concrete xs end) (fst r) in
  match t with
  | TNamed _ _ args => forallb is_concrete args
  | TFunc ps r e _ => forallb is_concrete ps && is_concrete r && row e
  | TTuple ts => forallb is_concrete ts
  | TPrim _ => true
  | TBound _ | TLocal _ _ | TUni _ | TApp _ _ | TError => false
  | TCont a r e => is_concrete a && is_concrete r && row e
  end.

(** ** Tables *)
Definition table (A : Type) := list (nid * A).
Fixpoint lookup {A} (t : table A) (i : nid) : option A := match t with [] => None | (j, a) :: t => if nid_eqb j i then Some a else lookup t i end.
Fixpoint put {A} (t : table A) (i : nid) (a : A) : table A :=
  match t with [] => [(i, a)] | (j, b) :: t => if nid_eqb j i then (j, a) :: t else (j, b) :: put t i a end.
Fixpoint at_name {A} (t : list (string * A)) (q : string) : option A := match t with [] => None | (p, a) :: t => if String.eqb p q then Some a else at_name t q end.
(** The entry that is inserted last. *)
Fixpoint at_name_last {A} (t : list (string * A)) (q : string) : option A :=
  match t with [] => None | (p, a) :: t => match at_name_last t q with Some b => Some b | None => if String.eqb p q then Some a else None end end.

(** ** Collecting instances, collect.rs:122-273 *)
Definition inst := (string * list ty)%type.
(** [visit_expr], collect.rs:192-265, and [visit_stmt], collect.rs:267-272: the variable references in the order of the visit. *)
Fixpoint visit_expr (e : expr) : list (nid * tref) :=
  match e with
  | Var i r => [(i, r)]
  | Call _ f args => visit_expr f ++ flat_map visit_expr args
  | Block _ ss v => flat_map visit_stmt ss ++ visit_expr v
  | Case _ x arms => visit_expr x ++ flat_map visit_arm arms
  | Lambda _ _ b => visit_expr b
  | Handle _ b hs => visit_expr b ++ flat_map visit_handler hs
  | Resume _ a _ => visit_expr a
  | Cons _ _ args => flat_map visit_expr args
  | Record_ _ _ fs sp => flat_map (fun f => visit_expr (snd f)) fs ++ match sp with Some s => visit_expr s | None => [] end
  | BinOp _ _ l r => visit_expr l ++ visit_expr r
  | Tuple _ es | List_ _ es => flat_map visit_expr es
  | MethodCall _ o _ args => visit_expr o ++ flat_map visit_expr args
  | Lit _ _ => []
  end
with visit_stmt (s : stmt) : list (nid * tref) := match s with Let _ _ _ v => visit_expr v | Do_ _ e => visit_expr e end
with visit_arm (a : arm) : list (nid * tref) := match a with Arm _ _ g b => match g with Some g => visit_expr g | None => [] end ++ visit_expr b end
with visit_handler (h : harm) : list (nid * tref) := match h with HArm _ _ b => visit_expr b end.
(** [visit_decl], collect.rs:178-190. *)
Fixpoint visit_decl (d : decl) : list (nid * tref) :=
  match d with
  | DFunction f => visit_expr (f_body f)
  | DModule _ (Some body) => flat_map visit_decl body
  | _ => []
  end.
(** [TypeScheme::is_mono], ast/types.rs:282-284. *)
Definition is_mono (sc : scheme) : bool := Nat.eqb (sc_params sc) 0 && match sc_rows sc with [] => true | _ => false end.
(** [try_record], collect.rs:148-170, with the schemes of [new], collect.rs:130-146. *)
Definition try_record (types : list (string * scheme)) (callees : table ty) (v : nid * tref) : list inst :=
  match target (snd v) with
  | RFunction q =>
      match at_name (filter (fun p => negb (is_mono (snd p))) types) q with
      | None => []
      | Some sc =>
          let c := match lookup callees (fst v) with Some t => t | None => rty (snd v) end in
          match extract_type_args sc c with
          | None => []
          | Some args => if forallb is_concrete args then [(q, args)] else []
          end
      end
  | _ => []
  end.
(** [collect_instantiations], collect.rs:13-22. *)
Definition collect_instantiations (types : list (string * scheme)) (callees : table ty) (decls : list decl) : list inst :=
  flat_map (fun d => flat_map (try_record types callees) (visit_decl d)) decls.

(** ** Copies, specialize.rs *)
Definition in_range (args : list ty) (t : ty) : bool := match subst_bound args t with SOk _ => true | _ => false end.
(** [subst_type], specialize.rs:676-686, and [substitute_type], mod.rs:330-338, where they do not panic. *)
Definition subst_type (args : list ty) (t : ty) : ty := match subst_bound args t with SOk u => u | _ => t end.
(** [subst_typed_ref], specialize.rs:688-697. *)
Definition subst_ref (args : list ty) (r : tref) : tref := {| target := target r; rty := subst_type args (rty r) |}.
Section Substitute.
  Variables (args : list ty) (v : N).
  (** [substitute_pattern], specialize.rs:888-958. *)
  Fixpoint substitute_pat (p : pat) : pat :=
    match p with
    | PVariant i c fs => PVariant (with_variant v i) (subst_ref args c) (List.map substitute_pat fs)
    | PRecord i t fs rest => PRecord (with_variant v i) (option_map (subst_ref args) t) (List.map substitute_field fs) rest
    | PTuple i ps => PTuple (with_variant v i) (List.map substitute_pat ps)
    | PList i ps => PList (with_variant v i) (List.map substitute_pat ps)
    | PListRest i head rest l => PListRest (with_variant v i) (List.map substitute_pat head) rest l
    | PAs i p name l => PAs (with_variant v i) (substitute_pat p) name l
    | PWild i => PWild (with_variant v i)
    | PBind i name l => PBind (with_variant v i) name l
    | PLit i l => PLit (with_variant v i) l
    | PError i => PError (with_variant v i)
    end
  with substitute_field (f : fpat) : fpat := match f with Field i name p => Field (with_variant v i) name (option_map substitute_pat p) end.
  (** The kind of a handler arm, specialize.rs:850-880. *)
  Definition substitute_kind (k : hkind) : hkind :=
    match k with
    | HDo p => HDo (substitute_pat p)
    | HFn a op ps => HFn (subst_ref args a) op (List.map substitute_pat ps)
    | HOp a op ps l => HOp (subst_ref args a) op (List.map substitute_pat ps) l
    end.
  (** [substitute_expr], specialize.rs:699-801, [substitute_stmt], [substitute_arm] and [substitute_handler_arm], specialize.rs:803-886.  The literals,
      [Nil] and the error expression are [Lit]. *)
  Fixpoint substitute_expr (e : expr) : expr :=
    match e with
    | Var i r => Var (with_variant v i) (subst_ref args r)
    | Lit i l => Lit (with_variant v i) l
    | Call i f es => Call (with_variant v i) (substitute_expr f) (List.map substitute_expr es)
    | Block i ss x => Block (with_variant v i) (List.map substitute_stmt ss) (substitute_expr x)
    | Case i x arms => Case (with_variant v i) (substitute_expr x) (List.map substitute_arm arms)
    | Lambda i ps b => Lambda (with_variant v i) ps (substitute_expr b)
    | Handle i b hs => Handle (with_variant v i) (substitute_expr b) (List.map substitute_handler hs)
    | Resume i a l => Resume (with_variant v i) (substitute_expr a) l
    | Cons i c es => Cons (with_variant v i) (subst_ref args c) (List.map substitute_expr es)
    | Record_ i t fs sp =>
        Record_ (with_variant v i) (subst_ref args t) (List.map (fun f => (fst f, substitute_expr (snd f))) fs) (option_map substitute_expr sp)
    | MethodCall i o m es => MethodCall (with_variant v i) (substitute_expr o) m (List.map substitute_expr es)
    | BinOp i op l r => BinOp (with_variant v i) op (substitute_expr l) (substitute_expr r)
    | Tuple i es => Tuple (with_variant v i) (List.map substitute_expr es)
    | List_ i es => List_ (with_variant v i) (List.map substitute_expr es)
    end
  with substitute_stmt (s : stmt) : stmt :=
    match s with
    | Let i p ann x => Let (with_variant v i) (substitute_pat p) ann (substitute_expr x)
    | Do_ i x => Do_ (with_variant v i) (substitute_expr x)
    end
  with substitute_arm (a : arm) : arm :=
    match a with Arm i p g b => Arm (with_variant v i) (substitute_pat p) (option_map substitute_expr g) (substitute_expr b) end
  with substitute_handler (h : harm) : harm :=
    match h with HArm i k b => HArm (with_variant v i) (substitute_kind k) (substitute_expr b) end.
End Substitute.
(** The types that are substituted, for the panic. *)
Fixpoint pat_types (p : pat) : list ty :=
  match p with
  | PVariant _ c fs => rty c :: flat_map pat_types fs
  | PRecord _ t fs _ => match t with Some t => [rty t] | None => [] end ++ flat_map field_types fs
  | PTuple _ ps | PList _ ps | PListRest _ ps _ _ => flat_map pat_types ps
  | PAs _ p _ _ => pat_types p
  | _ => []
  end
with field_types (f : fpat) : list ty := match f with Field _ _ (Some p) => pat_types p | _ => [] end.
Definition kind_types (k : hkind) : list ty :=
  match k with HDo p => pat_types p | HFn a _ ps | HOp a _ ps _ => rty a :: flat_map pat_types ps end.
Fixpoint expr_types (e : expr) : list ty :=
  match e with
  | Var _ r => [rty r]
  | Call _ f args => expr_types f ++ flat_map expr_types args
  | Block _ ss v => flat_map stmt_types ss ++ expr_types v
  | Case _ x arms => expr_types x ++ flat_map arm_types arms
  | Lambda _ _ b => expr_types b
  | Handle _ b hs => expr_types b ++ flat_map handler_types hs
  | Resume _ a _ => expr_types a
  | Cons _ c args => rty c :: flat_map expr_types args
  | Record_ _ t fs sp => rty t :: flat_map (fun f => expr_types (snd f)) fs ++ match sp with Some s => expr_types s | None => [] end
  | BinOp _ _ l r => expr_types l ++ expr_types r
  | Tuple _ es | List_ _ es => flat_map expr_types es
  | MethodCall _ o _ args => expr_types o ++ flat_map expr_types args
  | Lit _ _ => []
  end
with stmt_types (s : stmt) : list ty := match s with Let _ p _ v => pat_types p ++ expr_types v | Do_ _ e => expr_types e end
with arm_types (a : arm) : list ty := match a with Arm _ p g b => pat_types p ++ match g with Some g => expr_types g | None => [] end ++ expr_types b end
with handler_types (h : harm) : list ty := match h with HArm _ k b => kind_types k ++ expr_types b end.
(** [semantic_node_ids], specialize.rs:112-241. *)
Fixpoint pat_ids (p : pat) : list nid :=
  match p with
  | PVariant i _ ps | PTuple i ps | PList i ps | PListRest i ps _ _ => i :: flat_map pat_ids ps
  | PRecord i _ fs _ => i :: flat_map field_ids fs
  | PAs i p _ _ => i :: pat_ids p
  | PWild i | PBind i _ _ | PLit i _ | PError i => [i]
  end
with field_ids (f : fpat) : list nid := match f with Field i _ p => i :: match p with Some p => pat_ids p | None => [] end end.
Definition kind_ids (k : hkind) : list nid := match k with HDo p => pat_ids p | HFn _ _ ps | HOp _ _ ps _ => flat_map pat_ids ps end.
Fixpoint expr_ids (e : expr) : list nid :=
  match e with
  | Call i f args => i :: expr_ids f ++ flat_map expr_ids args
  | Block i ss v => i :: flat_map stmt_ids ss ++ expr_ids v
  | Case i x arms => i :: expr_ids x ++ flat_map arm_ids arms
  | Lambda i _ b => i :: expr_ids b
  | Handle i b hs => i :: expr_ids b ++ flat_map handler_ids hs
  | Resume i a _ => i :: expr_ids a
  | Cons i _ args | Tuple i args | List_ i args => i :: flat_map expr_ids args
  | Record_ i _ fs sp => i :: flat_map (fun f => expr_ids (snd f)) fs ++ match sp with Some s => expr_ids s | None => [] end
  | MethodCall i o _ args => i :: expr_ids o ++ flat_map expr_ids args
  | BinOp i _ l r => i :: expr_ids l ++ expr_ids r
  | Var i _ | Lit i _ => [i]
  end
with stmt_ids (s : stmt) : list nid := match s with Let i p _ v => i :: pat_ids p ++ expr_ids v | Do_ i e => i :: expr_ids e end
with arm_ids (a : arm) : list nid := match a with Arm i p g b => i :: pat_ids p ++ match g with Some g => expr_ids g | None => [] end ++ expr_ids b end
with handler_ids (h : harm) : list nid := match h with HArm i k b => i :: kind_ids k ++ expr_ids b end.
Definition semantic_node_ids (f : func) : list nid := f_id f :: expr_ids (f_body f).

(** [collect_func_decls_inner], specialize.rs:589-610, in the order of the insertions, and [collect_extern_function_names_inner], specialize.rs:619-639. *)
Fixpoint functions (prefix : string) (d : decl) : list (string * func) :=
  match d with
  | DFunction f => [(fst (qualified_symbol prefix (f_name f)), f)]
  | DModule name (Some body) => flat_map (functions (fst (push_prefix prefix name))) body
  | _ => []
  end.
Definition collect_func_decls (decls : list decl) : list (string * func) := flat_map (functions "") decls.
Fixpoint externs (prefix : string) (d : decl) : list string :=
  match d with
  | DExtern name => [fst (qualified_symbol prefix name)]
  | DModule name (Some body) => flat_map (externs (fst (push_prefix prefix name))) body
  | _ => []
  end.
Definition collect_extern_function_names (decls : list decl) : list string := flat_map (externs "") decls.

Section Mono.
  Variable variant : list ty -> N.
  Variable shuffle : nat -> list inst -> list inst.

  (** [specialize_func_decl], specialize.rs:653-670. *)
  Definition specialize_func (f : func) (args : list ty) (name : string) : func :=
    let v := variant args in
    {| f_id := with_variant v (f_id f); f_pub := false; f_name := name; f_tparams := []; f_params := f_params f; f_ret := f_ret f; f_effects := f_effects f;
       f_body := substitute_expr args v (f_body f) |}.
  Record entry := { e_name : string; e_func : func; e_scheme : scheme; e_args : list ty; e_origins : list nid }.
  (** [sort_by_key] is stable. *)
  Fixpoint insert_sorted {A} (key : A -> string) (a : A) (l : list A) : list A :=
    match l with [] => [a] | b :: l => if String.ltb (key a) (key b) then a :: b :: l else b :: insert_sorted key a l end.
  Definition sort_by_key {A} (key : A -> string) (l : list A) : list A := fold_left (fun l a => insert_sorted key a l) l [].
  (** The body of the loops of [generate_specializations], specialize.rs:47-95.  [None] is a panic. *)
  Inductive generated := Skipped | Copied (e : entry) | External (name : string) (sc : scheme).
  Definition generate_one (types : list (string * scheme)) (funcs : list (string * func)) (exts : list string) (i : inst) : option generated :=
    let '(q, args) := i in
    let f := at_name_last funcs q in
    if match f with None => negb (existsb (String.eqb q) exts) | Some _ => false end then Some Skipped
    else match at_name types q with
         | None => Some Skipped
         | Some sc =>
             obind (mangle_name q args) (fun mangled =>
             if in_range args (sc_body sc) then
               let sc := {| sc_params := 0; sc_rows := sc_rows sc; sc_body := subst_type args (sc_body sc) |} in
               match f with
               | Some f =>
                   if forallb (in_range args) (expr_types (f_body f)) then
                     Some (Copied {| e_name := mangled; e_func := specialize_func f args mangled; e_scheme := sc; e_args := args; e_origins := semantic_node_ids f |})
                   else None
               | None => Some (External mangled sc)
               end
             else None)
         end.
  Definition copied (g : generated) : list entry := match g with Copied e => [e] | _ => [] end.
  Definition external (g : generated) : list (string * scheme) := match g with External n sc => [(n, sc)] | _ => [] end.
  (** [generate_specializations], specialize.rs:34-110: the copies and the new function types. *)
  Definition generate_specializations (types : list (string * scheme)) (decls : list decl) (order : list inst)
    : option (list entry * list (string * scheme)) :=
    obind (otraverse (generate_one types (collect_func_decls decls) (collect_extern_function_names decls)) order) (fun gs =>
      let entries := sort_by_key e_name (flat_map copied gs) in
      Some (entries, sort_by_key fst (List.map (fun e => (e_name e, e_scheme e)) entries ++ flat_map external gs))).

  (** ** Metadata, mod.rs:16-25 and 213-328 *)
  (** [InstantiatedHandlerOperation] and [InstantiatedPerformOperation]; the kind is a number. *)
  Record opmeta := { o_ability : ability; o_args : list ty; o_kind : N; o_params : list ty; o_result : ty }.
  Record meta := { node_types : table ty; callees : table ty; handlers : table opmeta; performs : table opmeta; lambdas : table (ty * conv); exhaustive : list nid }.
  Definition subst_op (args : list ty) (o : opmeta) : opmeta :=
    {| o_ability := o_ability o; o_args := List.map (subst_type args) (o_args o); o_kind := o_kind o; o_params := List.map (subst_type args) (o_params o);
       o_result := subst_type args (o_result o) |}.
  Definition subst_lambda (args : list ty) (l : ty * conv) : ty * conv := (subst_type args (fst l), snd l).
  (** [clone_type_table], mod.rs:314-328; the other tables are treated alike. *)
  Definition clone_table {A} (f : A -> A) (v : N) (origins : list nid) (t : table A) : table A :=
    fold_left (fun t' i => match lookup t i with Some a => put t' (with_variant v i) (f a) | None => t' end) origins t.
  Definition values {A} (origins : list nid) (t : table A) : list A := flat_map (fun i => match lookup t i with Some a => [a] | None => [] end) origins.
  (** [specialize_metadata], mod.rs:213-312.  [None]: a substitution panics. *)
  Definition specialize_metadata (m : meta) (args : list ty) (origins : list nid) : option meta :=
    let v := variant args in
    if forallb (in_range args) (values origins (node_types m) ++ values origins (callees m)
         ++ flat_map (fun o => o_args o ++ o_params o ++ [o_result o]) (values origins (handlers m) ++ values origins (performs m))
         ++ List.map fst (values origins (lambdas m)))
    then Some {| node_types := clone_table (subst_type args) v origins (node_types m);
                 callees := clone_table (subst_type args) v origins (callees m);
                 handlers := clone_table (subst_op args) v origins (handlers m);
                 performs := clone_table (subst_op args) v origins (performs m);
                 lambdas := clone_table (subst_lambda args) v origins (lambdas m);
                 exhaustive := exhaustive m ++ List.map (with_variant v) (filter (fun i => existsb (nid_eqb i) (exhaustive m)) origins) |}
    else None.

  (** ** Call sites, rewrite.rs *)
  Definition rewrite_map := list (string * list (list ty * string)).
  (** [build_rewrite_map], mod.rs:342-370. *)
  Definition args_eqb (a b : list ty) : bool := all2 ty_eqb a b.
  Definition build_entry (q : string) (args : list ty) : option (list ty * string) := option_map (fun m => (args, m)) (mangle_name q args).
  Definition args_of (known : list inst) (q : string) : list (list ty) := List.map snd (filter (fun i => String.eqb (fst i) q) known).
  Definition build_rewrite_map (types : list (string * scheme)) (known : list inst) : option rewrite_map :=
    otraverse (fun q => obind (otraverse (build_entry q) (args_of known q)) (fun es => Some (q, sort_by_key snd es)))
      (filter (fun q => match at_name types q with Some _ => true | None => false end) (nodup string_dec (List.map fst known))).
  (** [try_rewrite_ref] and [rewrite_typed_ref], rewrite.rs:76-103. *)
  Definition try_rewrite_ref (types : list (string * scheme)) (m : rewrite_map) (r : tref) : option tref :=
    match target r with
    | RFunction q =>
        obind (at_name m q) (fun entries => obind (at_name types q) (fun sc => obind (extract_type_args sc (rty r)) (fun args =>
        obind (find (fun e => args_eqb (fst e) args) entries) (fun e => Some {| target := RFunction (snd e); rty := rty r |}))))
    | _ => None
    end.
  Definition rewrite_ref (types : list (string * scheme)) (m : rewrite_map) (r : tref) : tref :=
    match try_rewrite_ref types m r with Some r' => r' | None => r end.
  Section Rewrite.
    Variables (types : list (string * scheme)) (m : rewrite_map).
    (** [rewrite_expr], rewrite.rs:126-204, [rewrite_stmt], [rewrite_arm] and [rewrite_handler_arm], rewrite.rs:206-243. *)
    Fixpoint rewrite_expr (e : expr) : expr :=
      match e with
      | Var i r => Var i (rewrite_ref types m r)
      | Lit i l => Lit i l
      | Call i f es => Call i (rewrite_expr f) (List.map rewrite_expr es)
      | Block i ss x => Block i (List.map rewrite_stmt ss) (rewrite_expr x)
      | Case i x arms => Case i (rewrite_expr x) (List.map rewrite_arm arms)
      | Lambda i ps b => Lambda i ps (rewrite_expr b)
      | Handle i b hs => Handle i (rewrite_expr b) (List.map rewrite_handler hs)
      | Resume i a l => Resume i (rewrite_expr a) l
      | Cons i c es => Cons i c (List.map rewrite_expr es)
      | Record_ i t fs sp => Record_ i t (List.map (fun f => (fst f, rewrite_expr (snd f))) fs) (option_map rewrite_expr sp)
      | MethodCall i o n es => MethodCall i (rewrite_expr o) n (List.map rewrite_expr es)
      | BinOp i op l r => BinOp i op (rewrite_expr l) (rewrite_expr r)
      | Tuple i es => Tuple i (List.map rewrite_expr es)
      | List_ i es => List_ i (List.map rewrite_expr es)
      end
    with rewrite_stmt (s : stmt) : stmt := match s with Let i p ann x => Let i p ann (rewrite_expr x) | Do_ i x => Do_ i (rewrite_expr x) end
    with rewrite_arm (a : arm) : arm := match a with Arm i p g b => Arm i p (option_map rewrite_expr g) (rewrite_expr b) end
    with rewrite_handler (h : harm) : harm := match h with HArm i k b => HArm i k (rewrite_expr b) end.
    Definition with_body (f : func) (b : expr) : func :=
      {| f_id := f_id f; f_pub := f_pub f; f_name := f_name f; f_tparams := f_tparams f; f_params := f_params f; f_ret := f_ret f; f_effects := f_effects f; f_body := b |}.
    (** [rewrite_decl], rewrite.rs:105-124. *)
    Fixpoint rewrite_decl (d : decl) : decl :=
      match d with
      | DFunction f => DFunction (with_body f (rewrite_expr (f_body f)))
      | DModule name body => DModule name (option_map (List.map rewrite_decl) body)
      | _ => d
      end.
  End Rewrite.

  (** ** The rounds, mod.rs:55-110 *)
  Record state := { decls : list decl; known : list inst; ftypes : list (string * scheme); metadata : meta }.
  Definition inst_eqb (a b : inst) : bool := String.eqb (fst a) (fst b) && args_eqb (snd a) (snd b).
  (** [known.insert], mod.rs:66-77: the instances that were not known, once each. *)
  Definition unseen (known discovered : list inst) : list inst :=
    fold_left (fun new i => if existsb (inst_eqb i) (known ++ new) then new else new ++ [i]) discovered [].
  (** [MAX_TRANSITIVE_SPECIALIZATION_ROUNDS], mod.rs:14. *)
  Definition max_rounds : nat := 64.
  (** One round, mod.rs:59-104: [None] is a panic, [Some None] the end.  [types]: the function types of the source. *)
  Definition round (types : list (string * scheme)) (n : nat) (s : state) : option (option state) :=
    let new := unseen (known s) (collect_instantiations types (callees (metadata s)) (decls s)) in
    match new with
    | [] => Some None
    | _ =>
        obind (generate_specializations types (decls s) (shuffle n new)) (fun g =>
        obind (ofold (fun m e => specialize_metadata m (e_args e) (e_origins e)) (fst g) (metadata s)) (fun m =>
        obind (build_rewrite_map types (known s ++ new)) (fun rm =>
        Some (Some {| decls := List.map (rewrite_decl types rm) (decls s) ++ List.map (fun e => rewrite_decl types rm (DFunction (e_func e))) (fst g);
                      known := known s ++ new; ftypes := ftypes s ++ snd g; metadata := m |}))))
    end.
  Inductive outcome := Panicked | Exceeded | Done (s : state).
  Fixpoint rounds (types : list (string * scheme)) (fuel n : nat) (s : state) : outcome :=
    match fuel with
    | O => Exceeded
    | S fuel => match round types n s with None => Panicked | Some None => Done s | Some (Some s) => rounds types fuel (S n) s end
    end.
  (** The part of [monomorphize_functions], mod.rs:41-110, for functions.  [Exceeded] is the assertion of mod.rs:106-109. *)
  Definition monomorphize (types : list (string * scheme)) (ds : list decl) (m : meta) : outcome :=
    rounds types max_rounds 0 {| decls := ds; known := []; ftypes := types; metadata := m |}.
End Mono.
