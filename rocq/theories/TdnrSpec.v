(** What method calls mean, with paths as lists of names. *)
From Verif Require Export TdnrModel MonoSpec.

(** ** Types *)
(** The declaration or primitive that a type is made of. *)
Inductive head_of : ty -> tydef + prim -> Prop :=
| head_named d n ts : head_of (TNamed d n ts) (inl d) | head_prim p : head_of (TPrim p) (inr p) | head_app c ts h : head_of c h -> head_of (TApp c ts) h.
(** A function of type [f] takes a value of type [t] first. *)
Definition takes (f t : ty) : Prop := exists p ps r e c h, f = TFunc (p :: ps) r e c /\ head_of p h /\ head_of t h.

(** Types that no declaration makes, and the list type. *)
Definition unknown (n : string) : tydef := mkTyDef Synthetic n.
Definition list_type : tydef := mkTyDef BuiltinList "List".

(** The types declared so far with their paths.  The last declaration of a path counts. *)
Definition typelist := list (list string * tydef).
Definition path_eqb (a b : list string) : bool := if list_eq_dec string_dec a b then true else false.
Definition declared (k : typelist) (p : list string) : option tydef := option_map snd (find (fun e => path_eqb (fst e) p) (rev k)).
(** The modules around a place, the innermost first. *)
Fixpoint around (scope : list string) : list (list string) := match scope with [] => [[]] | s :: scope => List.map (cons s) (around scope) ++ [[]] end.
(** A name is looked for in the modules around it, a longer path from the root. *)
Definition meant (k : typelist) (scope p : list string) : tydef :=
  match p with
  | [n] => match find (fun m => if declared k (m ++ [n]) then true else false) (around scope) with
           | Some m => match declared k (m ++ [n]) with Some d => d | None => unknown n end
           | None => unknown n
           end
  | _ => match declared k p with Some d => d | None => unknown (path_text p) end
  end.
Definition prim_text (p : prim) : string :=
  match p with PInt => "Int" | PNat => "Nat" | PFloat => "Float" | PBool => "Bool" | PBytes => "Bytes" | PRune => "Rune" | PNil => "Nil" | PNever => "Never" end.
Inductive annotated (k : typelist) (scope : list string) : annot -> ty -> Prop :=
| an_prim p : annotated k scope (ANamed (prim_text p)) (TPrim p)
| an_name n : (forall p, n <> prim_text p) -> annotated k scope (ANamed n) (TNamed (meant k scope [n]) n [])
| an_path p : p <> [] -> annotated k scope (APath p) (TNamed (meant k scope p) (path_text p) [])
| an_app c ts c' ts' : annotated k scope c c' -> Forall2 (annotated k scope) ts ts' -> annotated k scope (AApp c ts) (TApp c' ts')
| an_nothing : annotated k scope (APath []) TError | an_func ps r es : annotated k scope (AFunc ps r es) TError
| an_tuple ts : annotated k scope (ATuple ts) TError | an_infer : annotated k scope AInfer TError | an_error : annotated k scope AErr TError.
(** An annotation that names a type. *)
Inductive names_type : annot -> Prop := nt_name n : names_type (ANamed n) | nt_path p : p <> [] -> names_type (APath p) | nt_app c ts : names_type c -> names_type (AApp c ts).

(** ** Effects *)
Definition lower_case (n : string) : Prop := exists c s, n = String c s /\ (97 <= N_of_ascii c <= 122)%N.
Definition row_variable (a : annot) : Prop := a = AInfer \/ exists n, a = ANamed n /\ lower_case n.
Definition named_ability (q : string) : ability := mkAbility false q.
Definition path_ability (p : list string) : ability := if path_eqb p ["std"; "io"; "Io"] then mkAbility true "std::io::Io" else mkAbility false (path_text p).
Inductive effect_of (k : typelist) (scope : list string) : annot -> list effect -> Prop :=
| eo_name n : ~ lower_case n -> effect_of k scope (ANamed n) [(named_ability n, [])]
| eo_path p n : ~ lower_case n -> effect_of k scope (APath (p ++ [n])) [(path_ability (p ++ [n]), [])]
| eo_app_name n ts ts' : ~ lower_case n -> Forall2 (annotated k scope) ts ts' -> effect_of k scope (AApp (ANamed n) ts) [(named_ability n, ts')]
| eo_app_path p n ts ts' : ~ lower_case n -> Forall2 (annotated k scope) ts ts' -> effect_of k scope (AApp (APath (p ++ [n])) ts) [(path_ability (p ++ [n]), ts')]
| eo_lower n : lower_case n -> effect_of k scope (ANamed n) [] | eo_lower_path p n : lower_case n -> effect_of k scope (APath (p ++ [n])) []
| eo_lower_app n ts : lower_case n -> effect_of k scope (AApp (ANamed n) ts) [] | eo_lower_app_path p n ts : lower_case n -> effect_of k scope (AApp (APath (p ++ [n])) ts) []
| eo_none : effect_of k scope (APath []) [] | eo_app_none ts : effect_of k scope (AApp (APath []) ts) []
| eo_app c ts : (forall n, c <> ANamed n) -> (forall p, c <> APath p) -> effect_of k scope (AApp c ts) []
| eo_func ps r es : effect_of k scope (AFunc ps r es) [] | eo_tuple ts : effect_of k scope (ATuple ts) [] | eo_infer : effect_of k scope AInfer [] | eo_error : effect_of k scope AErr [].
Inductive row_of (k : typelist) (scope : list string) : option (list annot) -> row -> Prop :=
| ro_open : row_of k scope None ([], Some 0)
| ro_closed l es : Forall (fun a => ~ row_variable a) l -> Forall2 (effect_of k scope) l es -> row_of k scope (Some l) (concat es, None).

Section Tdnr.
  Variables (ann : N -> option annot) (effs : N -> option (list annot)) (lit : N -> literal) (other : N -> other_decl).

  (** ** Types of expressions *)
  (** What can be read off an expression without inference; [str] is the type of texts. *)
  Inductive made (t : ty) : ty -> Prop := made_func ps e c : made t (TFunc ps t e c) | made_value : (forall ps r e c, t <> TFunc ps r e c) -> made t t.
  Definition literal_prim (l : literal) : option prim :=
    match l with LNat => Some PNat | LInt => Some PInt | LFloat => Some PFloat | LBool => Some PBool | LBytes => Some PBytes | LRune => Some PRune | LNil => Some PNil | _ => None end.
  Inductive typed (str : ty) : expr -> ty -> Prop :=
  | ty_var i r : typed str (Var i r) (rty r)
  | ty_cons i c es t : made t (rty c) -> typed str (Cons i c es) t
  | ty_record i c fs sp t : made t (rty c) -> typed str (Record_ i c fs sp) t
  | ty_call i f es ps r e c : typed str f (TFunc ps r e c) -> typed str (Call i f es) r
  | ty_lit i l p : literal_prim (lit l) = Some p -> typed str (Lit i l) (TPrim p) | ty_text i l : lit l = LString -> typed str (Lit i l) str
  | ty_bool i op x y : typed str (BinOp i op x y) (TPrim PBool)
  | ty_tuple i es ts : Forall2 (typed str) es ts -> typed str (Tuple i es) (TTuple ts)
  | ty_block i ss v t : typed str v t -> typed str (Block i ss v) t.

  (** ** Candidates *)
  Fixpoint types_in (path : list string) (d : decl) : typelist :=
    match d with
    | DOther n =>
        match other n with
        | Struct node name _ _ | Enum node name => [(path ++ [name], mkTyDef (Source node) (path_text (path ++ [name])))]
        | Opaque => []
        end
    | DModule n (Some b) => flat_map (types_in (path ++ [n])) b
    | _ => []
    end.
  (** The first parameter names a type. *)
  Definition method_like (f : func) : Prop := exists p ps a, f_params f = p :: ps /\ ann (p_ann p) = Some a /\ names_type a.
  Definition parameter (k : typelist) (scope : list string) (p : param) (t : ty) : Prop :=
    match ann (p_ann p) with Some a => annotated k scope a t | None => t = TError end.
  Definition returned (k : typelist) (str : ty) (scope : list string) (f : func) (t : ty) : Prop :=
    match ann (f_ret f) with Some a => annotated k scope a t | None => typed str (f_body f) t \/ t = TPrim PNil /\ forall u, ~ typed str (f_body f) u end.
  Definition function_type (k : typelist) (str : ty) (scope : list string) (f : func) (t : ty) : Prop :=
    exists ps r e, Forall2 (parameter k scope) (f_params f) ps /\ returned k str scope f r /\ row_of k scope (effs (f_effects f)) e /\ t = TFunc ps r e Direct.
  (** A method: its name, the path of the function, and its type. *)
  Definition method := (string * (list string * ty))%type.
  Definition self_annotation (name : string) (tparams : list string) : annot := match tparams with [] => ANamed name | _ => AApp (ANamed name) (List.map ANamed tparams) end.
  (** The accessors of the struct at [path]; the names in it are those of the struct's own scope. *)
  Inductive accessor_of (k : typelist) (path : list string) (name : string) (tparams : list string) : option string * annot -> list method -> Prop :=
  | ac_unnamed a : accessor_of k path name tparams (None, a) []
  | ac_named n a s t : annotated k path (self_annotation name tparams) s -> annotated k path a t ->
      accessor_of k path name tparams (Some n, a) [(n, (path ++ [n], TFunc [s] t ([], None) Direct))].
  Inductive offers (k : typelist) (str : ty) : list string -> decl -> list method -> Prop :=
  | of_function path f t : method_like f -> function_type k str path f t -> offers k str path (DFunction f) [(f_name f, (path ++ [f_name f], t))]
  | of_no_method path f : ~ method_like f -> offers k str path (DFunction f) []
  | of_struct path n node name tparams fields ms : other n = Struct node name tparams fields -> Forall2 (accessor_of k (path ++ [name]) name tparams) fields ms ->
      offers k str path (DOther n) (concat ms)
  | of_other path n : (forall node name tparams fields, other n <> Struct node name tparams fields) -> offers k str path (DOther n) []
  | of_extern path n : offers k str path (DExtern n) [] | of_empty path n : offers k str path (DModule n None) []
  | of_module path n b ms : Forall2 (offers k str (path ++ [n])) b ms -> offers k str path (DModule n (Some b)) (concat ms).
  (** The type of texts is the first type named String at the top of an import. *)
  Definition text_type (d : decl) : option ty :=
    match d with
    | DOther n => match other n with
                  | Struct node s _ _ | Enum node s => if string_dec s "String" then Some (TNamed (mkTyDef (Source node) "String") "String" []) else None
                  | Opaque => None
                  end
    | _ => None
    end.
  Definition text (imports : list (list decl)) : ty :=
    match flat_map (fun d => match text_type d with Some t => [t] | None => [] end) (concat imports) with t :: _ => t | [] => TNamed (unknown "String") "String" [] end.
  Definition builtin_types : typelist := [(["List"], list_type); (["std"; "collections"; "List"], list_type)].
  Definition known_in (modules : list (list decl)) : typelist := builtin_types ++ flat_map (types_in []) (concat modules).
  (** All methods: those of the imports, each with the types of itself and the imports before it, and those of the module. *)
  Definition import_offers (imports : list (list decl)) (i : nat) (ms : list method) : Prop :=
    exists m l, nth_error imports i = Some m /\ Forall2 (offers (known_in (firstn (S i) imports)) (text (firstn (S i) imports)) []) m l /\ ms = concat l.
  Definition all_methods (imports : list (list decl)) (ds : list decl) (ms : list method) : Prop :=
    exists l l', Forall2 (import_offers imports) (seq 0 (List.length imports)) l /\
      Forall2 (offers (known_in (imports ++ [ds])) (text imports) []) ds l' /\ ms = concat l ++ concat l'.

  (** ** Calls *)
  (** [m] is the only method of this name for a receiver of type [t]. *)
  Definition fits_call (name : string) (t : ty) (m : method) : Prop := fst m = name /\ takes (snd (snd m)) t.
  Definition the_method (ms : list method) (name : string) (t : ty) (m : method) : Prop :=
    exists before after, ms = before ++ m :: after /\ fits_call name t m /\ forall m', In m' (before ++ after) -> ~ fits_call name t m'.
  Section Becomes.
    Variables (ms : list method) (str : ty).
    Inductive opt_rel {A} (R : A -> A -> Prop) : option A -> option A -> Prop := or_none : opt_rel R None None | or_some a b : R a b -> opt_rel R (Some a) (Some b).
    Inductive becomes : expr -> expr -> Prop :=
    | be_call i o o' name es es' t path f : becomes o o' -> Forall2 becomes es es' -> typed str o' t -> the_method ms name t (name, (path, f)) ->
        becomes (MethodCall i o name es) (Call i (Var i (mkRef (RFunction (path_text path)) f)) (o' :: es'))
    | be_left i o o' name es es' : becomes o o' -> Forall2 becomes es es' -> (forall t m, typed str o' t -> ~ the_method ms name t m) ->
        becomes (MethodCall i o name es) (MethodCall i o' name es')
    | be_var i r : becomes (Var i r) (Var i r) | be_lit i l : becomes (Lit i l) (Lit i l)
    | be_apply i f f' es es' : becomes f f' -> Forall2 becomes es es' -> becomes (Call i f es) (Call i f' es')
    | be_cons i c es es' : Forall2 becomes es es' -> becomes (Cons i c es) (Cons i c es')
    | be_record i t fs fs' sp sp' : Forall2 (fun a b => fst a = fst b /\ becomes (snd a) (snd b)) fs fs' -> opt_rel becomes sp sp' -> becomes (Record_ i t fs sp) (Record_ i t fs' sp')
    | be_block i ss ss' v v' : Forall2 becomes_stmt ss ss' -> becomes v v' -> becomes (Block i ss v) (Block i ss' v')
    | be_case i x x' l l' : becomes x x' -> Forall2 becomes_arm l l' -> becomes (Case i x l) (Case i x' l')
    | be_lambda i ps b b' : becomes b b' -> becomes (Lambda i ps b) (Lambda i ps b')
    | be_handle i b b' l l' : becomes b b' -> Forall2 becomes_harm l l' -> becomes (Handle i b l) (Handle i b' l')
    | be_resume i x x' l : becomes x x' -> becomes (Resume i x l) (Resume i x' l)
    | be_tuple i es es' : Forall2 becomes es es' -> becomes (Tuple i es) (Tuple i es') | be_list i es es' : Forall2 becomes es es' -> becomes (List_ i es) (List_ i es')
    | be_bin i op x x' y y' : becomes x x' -> becomes y y' -> becomes (BinOp i op x y) (BinOp i op x' y')
    with becomes_stmt : stmt -> stmt -> Prop :=
    | be_let i p a x x' : becomes x x' -> becomes_stmt (Let i p a x) (Let i p a x') | be_do i x x' : becomes x x' -> becomes_stmt (Do_ i x) (Do_ i x')
    with becomes_arm : arm -> arm -> Prop := be_arm i p g g' b b' : opt_rel becomes g g' -> becomes b b' -> becomes_arm (Arm i p g b) (Arm i p g' b')
    with becomes_harm : harm -> harm -> Prop := be_harm i k b b' : becomes b b' -> becomes_harm (HArm i k b) (HArm i k b').
    Inductive becomes_decl : decl -> decl -> Prop :=
    | bd_function f b : becomes (f_body f) b ->
        becomes_decl (DFunction f) (DFunction (mkFunc (f_id f) (f_pub f) (f_name f) (f_tparams f) (f_params f) (f_ret f) (f_effects f) b))
    | bd_module n b b' : Forall2 becomes_decl b b' -> becomes_decl (DModule n (Some b)) (DModule n (Some b'))
    | bd_empty n : becomes_decl (DModule n None) (DModule n None) | bd_extern n : becomes_decl (DExtern n) (DExtern n) | bd_other n : becomes_decl (DOther n) (DOther n).
  End Becomes.

  (** ** The input *)
  (** Names are identifiers. *)
  Fixpoint annot_ok (a : annot) : Prop :=
    match a with
    | ANamed n => name_ok n | APath p => Forall name_ok p
    | AApp c ts => annot_ok c /\ fold_right (fun t P => annot_ok t /\ P) True ts
    | _ => True
    end.
  Definition other_ok (o : other_decl) : Prop :=
    match o with
    | Struct _ n tps fs => name_ok n /\ Forall name_ok tps /\ Forall (fun f => match fst f with Some m => name_ok m | None => True end /\ annot_ok (snd f)) fs
    | Enum _ n => name_ok n
    | Opaque => True
    end.
  Inductive decl_ok : decl -> Prop :=
  | do_function f : name_ok (f_name f) -> decl_ok (DFunction f) | do_extern n : decl_ok (DExtern n) | do_other n : decl_ok (DOther n)
  | do_module n b : name_ok n -> Forall decl_ok b -> decl_ok (DModule n (Some b)) | do_empty n : decl_ok (DModule n None).
  Definition meanings_ok : Prop :=
    (forall n a, ann n = Some a -> annot_ok a) /\ (forall n l, effs n = Some l -> Forall annot_ok l) /\ forall n, other_ok (other n).
  (** A function with a receiver whose effects have a row variable. *)
  Definition open_method (d : decl) : Prop :=
    exists path f l a, In (path, f) (all_functions [] d) /\ method_like f /\ effs (f_effects f) = Some l /\ In a l /\ row_variable a.
  (** The declarations that are not functions, with the paths of their modules. *)
  Fixpoint others (path : list string) (d : decl) : list (list string * N) :=
    match d with DOther n => [(path, n)] | DModule m (Some b) => flat_map (others (path ++ [m])) b | _ => [] end.
End Tdnr.
