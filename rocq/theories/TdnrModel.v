(** Method calls: crates/tribute-front/src/tdnr/resolver.rs, the receivers of typeck/context.rs and the report of src/pipeline.rs.

    The syntax is that of [MonoModel], in which annotations, literals and type declarations are numbers.  What the numbers stand for is given by [ann],
    [effs], [lit] and [other].  The method index, a hash map from names to lists of entries, is the list of all entries with their names in the order of
    the insertions; the type identities are the list of all insertions.  [None] is a panic. *)
From Verif Require Export MonoModel.
Open Scope string_scope. Open Scope list_scope.

(** [TypeAnnotationKind], ast/types.rs:688-716, without node ids. *)
Inductive annot := ANamed (n : string) | APath (p : list string) | AApp (c : annot) (args : list annot)
| AFunc (ps : list annot) (r : annot) (abilities : list annot) | ATuple (ts : list annot) | AInfer | AErr.
(** The literals of [ExprKind]; the error expression is [LErr]. *)
Inductive literal := LNat | LInt | LFloat | LBool | LString | LBytes | LRune | LNil | LErr.
(** The declarations that are not functions: [StructDecl] and [EnumDecl], ast/decl.rs:134-173, with their node ids.  Others are [Opaque]. *)
Inductive other_decl := Struct (node : nat) (name : string) (tparams : list string) (fields : list (option string * annot)) | Enum (node : nat) (name : string) | Opaque.

(** [TypeKind::from_primitive_name], ast/types.rs:183-195. *)
Definition from_primitive_name (n : string) : option prim :=
  if String.eqb n "Int" then Some PInt else if String.eqb n "Nat" then Some PNat else if String.eqb n "Float" then Some PFloat
  else if String.eqb n "Bool" then Some PBool else if String.eqb n "Bytes" then Some PBytes else if String.eqb n "Rune" then Some PRune
  else if String.eqb n "Nil" then Some PNil else if String.eqb n "Never" then Some PNever else None.
(** [receiver_type_matches], typeck/context.rs:95-119, for the receiver type of an entry. *)
Fixpoint same_constructor (declared : ty) : ty -> bool :=
  match declared with
  | TApp c _ => same_constructor c
  | _ => fix go (actual : ty) : bool :=
      match actual with
      | TApp c _ => go c
      | _ => match declared, actual with TNamed d _ _, TNamed e _ _ => tydef_eqb d e | TPrim p, TPrim q => prim_eqb p q | _, _ => false end
      end
  end.
(** [MethodEntry], typeck/context.rs:56-70. *)
Record mentry := { m_func : string; m_type : ty }.
Definition receiver_ty (e : mentry) : option ty := match m_type e with TFunc (p :: _) _ _ _ => Some p | _ => None end.
Definition receiver_matches (e : mentry) (actual : ty) : bool := match receiver_ty e with Some declared => same_constructor declared actual | None => false end.

(** [is_type_variable], ast/types.rs:536-538. *)
Definition is_type_variable (n : string) : bool :=
  match n with String c _ => (97 <=? N_of_ascii c)%N && (N_of_ascii c <=? 122)%N | EmptyString => false end.
(** [TypeDefId::builtin_list] and [synthetic], ast/phases.rs:160-171; [AbilityId], ast/phases.rs:236-262. *)
Definition builtin_list : tydef := mkTyDef BuiltinList "List".
Definition synthetic (n : string) : tydef := mkTyDef Synthetic n.
Definition ability_source (q : string) : ability := mkAbility false q.
Definition ability_resolved (q : string) : ability := if String.eqb q "std::io::Io" then mkAbility true q else ability_source q.

(** [lookup_type_identity], resolver.rs:410-433: [str::trim_end_matches("::")] and the loop over the enclosing scopes.  A scope is at most as long as its
    text, which is the fuel. *)
Fixpoint trim_rev (s : list ascii) : list ascii :=
  match s with c :: d :: rest => if Ascii.eqb c ":" && Ascii.eqb d ":" then trim_rev rest else s | _ => s end.
Definition trim_end (s : string) : string := string_of_list_ascii (rev (trim_rev (rev (list_ascii_of_string s)))).
Definition get_identity (ids : list (string * tydef)) (n : string) : tydef := match at_name_last ids n with Some d => d | None => synthetic n end.
Fixpoint scoped_identity (fuel : nat) (ids : list (string * tydef)) (scope name : string) : tydef :=
  match fuel, scope with
  | O, _ | _, EmptyString => get_identity ids name
  | S fuel, _ =>
      match at_name_last ids (scope ++ "::" ++ name) with
      | Some d => d
      | None => scoped_identity fuel ids (match rsplit_once scope with Some (parent, _) => parent | None => "" end) name
      end
  end.
Definition lookup_type_identity (ids : list (string * tydef)) (name prefix : string) : tydef :=
  if negb (is_simple name) then get_identity ids name else scoped_identity (String.length prefix) ids (trim_end prefix) name.
(** [annotation_to_type_in_scope] and [nominal_type_in_scope], resolver.rs:347-408. *)
Definition nominal (ids : list (string * tydef)) (prefix name : string) : ty := TNamed (lookup_type_identity ids name prefix) name [].
Fixpoint annotation_type (ids : list (string * tydef)) (prefix : string) (a : annot) : ty :=
  match a with
  | ANamed n => match from_primitive_name n with Some p => TPrim p | None => nominal ids prefix n end
  | APath p => match qualified_path_symbol p with Some n => nominal ids prefix n | None => TError end
  | AApp c args => TApp (annotation_type ids prefix c) (List.map (annotation_type ids prefix) args)
  | _ => TError
  end.
Definition opt_annotation_type (ids : list (string * tydef)) (prefix : string) (a : option annot) : ty :=
  match a with Some a => annotation_type ids prefix a | None => TError end.
(** [extract_receiver_type_from_annotation], resolver.rs:440-456. *)
Fixpoint receiver_name (a : annot) : option string :=
  match a with ANamed n => Some n | APath p => qualified_path_symbol p | AApp c _ => receiver_name c | _ => None end.

(** [annotation_to_effect] with the empty prefix, ast/types.rs:547-610. *)
Definition annotation_effect (convert : annot -> ty) (a : annot) : option effect :=
  match a with
  | ANamed n => if is_type_variable n then None else Some (ability_source (fst (qualified_symbol "" n)), [])
  | APath p =>
      match split_last p with
      | None => None
      | Some (n, prefix) => if is_type_variable n then None else Some (ability_resolved (fst (qualified_symbol (push_all "" prefix) n)), [])
      end
  | AApp (ANamed n) args => if is_type_variable n then None else Some (ability_source (fst (qualified_symbol "" n)), List.map convert args)
  | AApp (APath p) args =>
      match split_last p with
      | None => None
      | Some (n, prefix) => if is_type_variable n then None else Some (ability_resolved (fst (qualified_symbol (push_all "" prefix) n)), List.map convert args)
      end
  | _ => None
  end.
(** The row variables of [abilities_to_effect_row], ast/types.rs:643-664. *)
Definition is_row_variable (a : annot) : bool := match a with ANamed n => is_type_variable n | AInfer => true | _ => false end.
(** [annotations_to_effect_row], resolver.rs:317-340: [fresh_row_var] is unreachable. *)
Definition annotations_effect_row (convert : annot -> ty) (anns : option (list annot)) : option row :=
  match anns with
  | None => Some ([], Some 0)
  | Some [] => Some ([], None)
  | Some anns => if existsb is_row_variable anns then None else Some (flat_map (fun a => match annotation_effect convert a with Some e => [e] | None => [] end) anns, None)
  end.

Section Tdnr.
  Variables (ann : N -> option annot) (effs : N -> option (list annot)) (lit : N -> literal) (other : N -> other_decl).

  (** [get_expr_type], resolver.rs:648-733.  [BinOp] is [And] or [Or]. *)
  Definition constructed (t : ty) : ty := match t with TFunc _ r _ _ => r | _ => t end.
  Definition literal_type (str : option ty) (l : literal) : option ty :=
    match l with
    | LNat => Some (TPrim PNat) | LInt => Some (TPrim PInt) | LFloat => Some (TPrim PFloat) | LBool => Some (TPrim PBool) | LBytes => Some (TPrim PBytes)
    | LRune => Some (TPrim PRune) | LNil => Some (TPrim PNil)
    | LString => Some (match str with Some t => t | None => TNamed (synthetic "String") "String" [] end)
    | LErr => None
    end.
  Fixpoint get_expr_type (str : option ty) (e : expr) : option ty :=
    match e with
    | Var _ r => Some (rty r)
    | Cons _ c _ => Some (constructed (rty c))
    | Call _ f _ => match get_expr_type str f with Some (TFunc _ r _ _) => Some r | _ => None end
    | Lit _ l => literal_type str (lit l)
    | BinOp _ _ _ _ => Some (TPrim PBool)
    | Tuple _ es =>
        let ts := flat_map (fun e => match get_expr_type str e with Some t => [t] | None => [] end) es in
        if Nat.eqb (List.length ts) (List.length es) then Some (TTuple ts) else None
    | Block _ _ v => get_expr_type str v
    | Record_ _ t _ _ => Some (constructed (rty t))
    | _ => None
    end.

  (** [collect_type_identities], resolver.rs:126-150. *)
  Fixpoint type_identities (prefix : string) (d : decl) : list (string * tydef) :=
    match d with
    | DOther n =>
        match other n with
        | Struct node name _ _ | Enum node name => let q := fst (qualified_symbol prefix name) in [(q, mkTyDef (Source node) q)]
        | Opaque => []
        end
    | DModule name (Some body) => flat_map (type_identities (fst (push_prefix prefix name))) body
    | _ => []
    end.
  (** [build_func_type], resolver.rs:285-315. *)
  Definition build_func_type (ids : list (string * tydef)) (str : option ty) (prefix : string) (f : func) : option ty :=
    let result :=
      match ann (f_ret f) with
      | Some a => annotation_type ids prefix a
      | None => match get_expr_type str (f_body f) with Some t => t | None => TPrim PNil end
      end in
    option_map (fun e => TFunc (List.map (fun p => opt_annotation_type ids prefix (ann (p_ann p))) (f_params f)) result e Direct)
      (annotations_effect_row (annotation_type ids prefix) (effs (f_effects f))).
  (** The accessors of a struct, resolver.rs:195-262: the prefix is that of the struct. *)
  Definition accessor (ids : list (string * tydef)) (prefix name : string) (tparams : list string) (field : option string * annot) : list (string * mentry) :=
    match fst field with
    | None => []
    | Some n =>
        let self := match tparams with [] => ANamed name | _ => AApp (ANamed name) (List.map ANamed tparams) end in
        [(n, {| m_func := fst (qualified_symbol prefix n);
                m_type := TFunc [annotation_type ids prefix self] (annotation_type ids prefix (snd field)) ([], None) Direct |})]
    end.
  (** [index_decls], resolver.rs:153-283. *)
  Fixpoint index_decl (ids : list (string * tydef)) (str : option ty) (prefix : string) (d : decl) : option (list (string * mentry)) :=
    match d with
    | DFunction f =>
        match f_params f with
        | [] => Some []
        | p :: _ =>
            match obind (ann (p_ann p)) receiver_name with
            | None => Some []
            | Some _ => option_map (fun t => [(f_name f, {| m_func := fst (qualified_symbol prefix (f_name f)); m_type := t |})]) (build_func_type ids str prefix f)
            end
        end
    | DOther n =>
        match other n with
        | Struct _ name tparams fields => Some (flat_map (accessor ids (fst (push_prefix prefix name)) name tparams) fields)
        | _ => Some []
        end
    | DModule name (Some body) => option_map (@concat _) (otraverse (index_decl ids str (fst (push_prefix prefix name))) body)
    | _ => Some []
    end.
  Definition index_decls (ids : list (string * tydef)) (str : option ty) (ds : list decl) : option (list (string * mentry)) :=
    option_map (@concat _) (otraverse (index_decl ids str "") ds).

  (** The state of the resolver, resolver.rs:21-53. *)
  Record resolver := { ids : list (string * tydef); methods : list (string * mentry); string_type : option ty }.
  Definition new : resolver := {| ids := [("List", builtin_list); ("std::collections::List", builtin_list)]; methods := []; string_type := None |}.
  (** [index_external_module], resolver.rs:99-124. *)
  Definition string_decl (d : decl) : option ty :=
    match d with
    | DOther n =>
        match other n with
        | Struct node name _ _ | Enum node name => if String.eqb name "String" then Some (TNamed (mkTyDef (Source node) name) name []) else None
        | Opaque => None
        end
    | _ => None
    end.
  Fixpoint find_map {A B} (f : A -> option B) (l : list A) : option B := match l with [] => None | a :: l => match f a with Some b => Some b | None => find_map f l end end.
  Definition add_module (r : resolver) (str : option ty) (ds : list decl) : option resolver :=
    let ids' := ids r ++ flat_map (type_identities "") ds in
    option_map (fun ms => {| ids := ids'; methods := methods r ++ ms; string_type := str |}) (index_decls ids' str ds).
  Definition index_external_module (r : resolver) (ds : list decl) : option resolver :=
    add_module r (match string_type r with Some t => Some t | None => find_map string_decl ds end) ds.

  (** [lookup_method], resolver.rs:740-756. *)
  Definition lookup_method (r : resolver) (receiver : option ty) (method : string) : option mentry :=
    obind receiver (fun t =>
      match filter (fun e => receiver_matches e t) (List.map snd (filter (fun m => String.eqb (fst m) method) (methods r))) with
      | [e] => Some e
      | _ => None
      end).
  (** [resolve_method_call], resolver.rs:594-642, for a resolved receiver and resolved arguments. *)
  Definition method_call (r : resolver) (i : nid) (receiver : expr) (method : string) (args : list expr) : expr :=
    match lookup_method r (get_expr_type (string_type r) receiver) method with
    | Some e => Call i (Var i {| target := RFunction (m_func e); rty := m_type e |}) (receiver :: args)
    | None => MethodCall i receiver method args
    end.
  Section Resolve.
    Variable r : resolver.
    (** [resolve_expr], resolver.rs:507-588, [resolve_stmt], [resolve_arm] and [resolve_handler_arm], resolver.rs:763-844. *)
    Fixpoint resolve_expr (e : expr) : expr :=
      match e with
      | MethodCall i o m es => method_call r i (resolve_expr o) m (List.map resolve_expr es)
      | Var i v => Var i v
      | Lit i l => Lit i l
      | Call i f es => Call i (resolve_expr f) (List.map resolve_expr es)
      | Cons i c es => Cons i c (List.map resolve_expr es)
      | Record_ i t fs sp => Record_ i t (List.map (fun f => (fst f, resolve_expr (snd f))) fs) (option_map resolve_expr sp)
      | BinOp i op x y => BinOp i op (resolve_expr x) (resolve_expr y)
      | Block i ss v => Block i (List.map resolve_stmt ss) (resolve_expr v)
      | Case i x arms => Case i (resolve_expr x) (List.map resolve_arm arms)
      | Lambda i ps b => Lambda i ps (resolve_expr b)
      | Handle i b hs => Handle i (resolve_expr b) (List.map resolve_handler_arm hs)
      | Resume i x l => Resume i (resolve_expr x) l
      | Tuple i es => Tuple i (List.map resolve_expr es)
      | List_ i es => List_ i (List.map resolve_expr es)
      end
    with resolve_stmt (s : stmt) : stmt := match s with Let i p a x => Let i p a (resolve_expr x) | Do_ i x => Do_ i (resolve_expr x) end
    with resolve_arm (a : arm) : arm := match a with Arm i p g b => Arm i p (option_map resolve_expr g) (resolve_expr b) end
    with resolve_handler_arm (h : harm) : harm := match h with HArm i k b => HArm i k (resolve_expr b) end.
    (** [resolve_decl], [resolve_module_decl] and [resolve_func_decl], resolver.rs:463-503. *)
    Fixpoint resolve_decl (d : decl) : decl :=
      match d with
      | DFunction f => DFunction (with_body f (resolve_expr (f_body f)))
      | DModule n b => DModule n (option_map (List.map resolve_decl) b)
      | _ => d
      end.
  End Resolve.
  (** [resolve_module], resolver.rs:56-76, and [resolve_tdnr], tdnr/mod.rs:35-45. *)
  Definition index_all (imports : list (list decl)) (ds : list decl) : option resolver :=
    obind (ofold index_external_module imports new) (fun r => add_module r (string_type r) ds).
  Definition resolve_tdnr (imports : list (list decl)) (ds : list decl) : option (list decl) :=
    option_map (fun r => List.map (resolve_decl r) ds) (index_all imports ds).
End Tdnr.

(** [report_unresolved_methods], src/pipeline.rs:1400-1515: the nodes and methods that are reported. *)
Fixpoint report_expr (e : expr) : list (nid * string) :=
  match e with
  | MethodCall i o m es => (i, m) :: report_expr o ++ flat_map report_expr es
  | Call _ f es => report_expr f ++ flat_map report_expr es
  | Cons _ _ es => flat_map report_expr es
  | Record_ _ _ fs sp => flat_map (fun f => report_expr (snd f)) fs ++ match sp with Some s => report_expr s | None => [] end
  | Block _ ss v => flat_map report_stmt ss ++ report_expr v
  | Case _ x arms => report_expr x ++ flat_map report_arm arms
  | Lambda _ _ b => report_expr b
  | Handle _ b hs => report_expr b ++ flat_map report_handler hs
  | Resume _ x _ => report_expr x
  | Tuple _ es | List_ _ es => flat_map report_expr es
  | BinOp _ _ x y => report_expr x ++ report_expr y
  | Var _ _ | Lit _ _ => []
  end
with report_stmt (s : stmt) : list (nid * string) := match s with Let _ _ _ x => report_expr x | Do_ _ x => report_expr x end
with report_arm (a : arm) : list (nid * string) := match a with Arm _ _ g b => match g with Some g => report_expr g | None => [] end ++ report_expr b end
with report_handler (h : harm) : list (nid * string) := match h with HArm _ _ b => report_expr b end.
Fixpoint report_decl (d : decl) : list (nid * string) :=
  match d with
  | DFunction f => report_expr (f_body f)
  | DModule _ (Some body) => flat_map report_decl body
  | _ => []
  end.
Definition report_unresolved_methods (ds : list decl) : list (nid * string) := flat_map report_decl ds.
