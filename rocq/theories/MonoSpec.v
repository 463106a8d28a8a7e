(** What specialization of generic functions must do, stated without collecting, rewriting or rounds. *)
From Verif Require Export MonoModel SubstSpec MangleSpec PathSpec.
From Coq Require Export Permutation.

(** ** Mapping over syntax *)
(** Node ids by [fi], variable references by [fv], the references of constructors, records, patterns and handlers by [fr].  Everything else stays,
    parameters included. *)
Section Map.
  Variables (fi : nid -> nid) (fv fr : tref -> tref).
  Fixpoint map_pat (p : pat) : pat :=
    match p with
    | PWild i => PWild (fi i) | PBind i n l => PBind (fi i) n l | PLit i l => PLit (fi i) l
    | PVariant i c ps => PVariant (fi i) (fr c) (List.map map_pat ps)
    | PRecord i t fs rest => PRecord (fi i) (option_map fr t) (List.map map_field fs) rest
    | PTuple i ps => PTuple (fi i) (List.map map_pat ps) | PList i ps => PList (fi i) (List.map map_pat ps)
    | PListRest i ps rest l => PListRest (fi i) (List.map map_pat ps) rest l | PAs i p n l => PAs (fi i) (map_pat p) n l | PError i => PError (fi i)
    end
  with map_field (f : fpat) : fpat := match f with Field i n p => Field (fi i) n (option_map map_pat p) end.
  Definition map_kind (k : hkind) : hkind :=
    match k with
    | HDo p => HDo (map_pat p) | HFn a op ps => HFn (fr a) op (List.map map_pat ps) | HOp a op ps l => HOp (fr a) op (List.map map_pat ps) l
    end.
  Fixpoint map_expr (e : expr) : expr :=
    match e with
    | Var i r => Var (fi i) (fv r) | Lit i l => Lit (fi i) l
    | Call i f es => Call (fi i) (map_expr f) (List.map map_expr es) | Cons i c es => Cons (fi i) (fr c) (List.map map_expr es)
    | Record_ i t fs sp => Record_ (fi i) (fr t) (List.map (fun f => (fst f, map_expr (snd f))) fs) (option_map map_expr sp)
    | MethodCall i o n es => MethodCall (fi i) (map_expr o) n (List.map map_expr es)
    | Block i ss x => Block (fi i) (List.map map_stmt ss) (map_expr x) | Case i x l => Case (fi i) (map_expr x) (List.map map_arm l)
    | Lambda i ps b => Lambda (fi i) ps (map_expr b) | Handle i b l => Handle (fi i) (map_expr b) (List.map map_harm l)
    | Resume i x l => Resume (fi i) (map_expr x) l | Tuple i es => Tuple (fi i) (List.map map_expr es) | List_ i es => List_ (fi i) (List.map map_expr es)
    | BinOp i op x y => BinOp (fi i) op (map_expr x) (map_expr y)
    end
  with map_stmt (s : stmt) : stmt := match s with Let i p a x => Let (fi i) (map_pat p) a (map_expr x) | Do_ i x => Do_ (fi i) (map_expr x) end
  with map_arm (a : arm) : arm := match a with Arm i p g b => Arm (fi i) (map_pat p) (option_map map_expr g) (map_expr b) end
  with map_harm (h : harm) : harm := match h with HArm i k b => HArm (fi i) (map_kind k) (map_expr b) end.
  Definition map_func (f : func) : func :=
    {| f_id := fi (f_id f); f_pub := f_pub f; f_name := f_name f; f_tparams := f_tparams f; f_params := f_params f; f_ret := f_ret f; f_effects := f_effects f;
       f_body := map_expr (f_body f) |}.
  Fixpoint map_decl (d : decl) : decl :=
    match d with DFunction f => DFunction (map_func f) | DModule n b => DModule n (option_map (List.map map_decl) b) | _ => d end.
End Map.

(** ** What occurs in an expression *)
(** The node ids, patterns included, and the variable references with their nodes. *)
Inductive pat_node (i : nid) : pat -> Prop :=
| pn_wild : pat_node i (PWild i) | pn_bind n l : pat_node i (PBind i n l) | pn_lit l : pat_node i (PLit i l) | pn_error : pat_node i (PError i)
| pn_variant c ps : pat_node i (PVariant i c ps) | pn_variant_in j c ps p : In p ps -> pat_node i p -> pat_node i (PVariant j c ps)
| pn_record t fs b : pat_node i (PRecord i t fs b) | pn_field j t fs b n p : In (Field i n p) fs -> pat_node i (PRecord j t fs b)
| pn_field_in j t fs b k n p : In (Field k n (Some p)) fs -> pat_node i p -> pat_node i (PRecord j t fs b)
| pn_tuple ps : pat_node i (PTuple i ps) | pn_tuple_in j ps p : In p ps -> pat_node i p -> pat_node i (PTuple j ps)
| pn_list ps : pat_node i (PList i ps) | pn_list_in j ps p : In p ps -> pat_node i p -> pat_node i (PList j ps)
| pn_rest ps r l : pat_node i (PListRest i ps r l) | pn_rest_in j ps r l p : In p ps -> pat_node i p -> pat_node i (PListRest j ps r l)
| pn_as p n l : pat_node i (PAs i p n l) | pn_as_in j p n l : pat_node i p -> pat_node i (PAs j p n l).
(** The patterns of a handler arm. *)
Definition kind_pats (k : hkind) : list pat := match k with HDo p => [p] | HFn _ _ ps | HOp _ _ ps _ => ps end.
(** The direct parts of an expression: subexpressions, and the patterns and nodes that belong to it itself. *)
Inductive part : expr -> expr -> Prop :=
| part_callee i f es : part f (Call i f es) | part_arg i f es x : In x es -> part x (Call i f es) | part_cons i c es x : In x es -> part x (Cons i c es)
| part_field i t fs sp n x : In (n, x) fs -> part x (Record_ i t fs sp) | part_spread i t fs x : part x (Record_ i t fs (Some x))
| part_receiver i o n es : part o (MethodCall i o n es) | part_marg i o n es x : In x es -> part x (MethodCall i o n es)
| part_let i ss v j p a x : In (Let j p a x) ss -> part x (Block i ss v) | part_do i ss v j x : In (Do_ j x) ss -> part x (Block i ss v)
| part_value i ss v : part v (Block i ss v) | part_scrutinee i x l : part x (Case i x l)
| part_guard i x l j p g b : In (Arm j p (Some g) b) l -> part g (Case i x l) | part_arm i x l j p g b : In (Arm j p g b) l -> part b (Case i x l)
| part_lambda i ps b : part b (Lambda i ps b) | part_handled i b l : part b (Handle i b l) | part_handler i b l j k x : In (HArm j k x) l -> part x (Handle i b l)
| part_resume i x l : part x (Resume i x l) | part_tuple i es x : In x es -> part x (Tuple i es) | part_list i es x : In x es -> part x (List_ i es)
| part_lhs i op x y : part x (BinOp i op x y) | part_rhs i op x y : part y (BinOp i op x y).
Inductive within (e : expr) : expr -> Prop := within_self : within e e | within_part x y : within e x -> part x y -> within e y.
Definition node_of (e : expr) : nid :=
  match e with
  | Var i _ | Lit i _ | Call i _ _ | Cons i _ _ | Record_ i _ _ _ | MethodCall i _ _ _ | Block i _ _ | Case i _ _ | Lambda i _ _ | Handle i _ _ | Resume i _ _
  | Tuple i _ | List_ i _ | BinOp i _ _ _ => i
  end.
Inductive own_node (i : nid) : expr -> Prop :=
| own_self e : node_of e = i -> own_node i e
| own_let j ss v p a x : In (Let i p a x) ss -> own_node i (Block j ss v) | own_let_pat j ss v k p a x : In (Let k p a x) ss -> pat_node i p -> own_node i (Block j ss v)
| own_do j ss v x : In (Do_ i x) ss -> own_node i (Block j ss v)
| own_arm j x l p g b : In (Arm i p g b) l -> own_node i (Case j x l) | own_arm_pat j x l k p g b : In (Arm k p g b) l -> pat_node i p -> own_node i (Case j x l)
| own_handler j b l k x : In (HArm i k x) l -> own_node i (Handle j b l)
| own_handler_pat j b l n k x p : In (HArm n k x) l -> In p (kind_pats k) -> pat_node i p -> own_node i (Handle j b l).
Definition node_in (i : nid) (e : expr) : Prop := exists x, within x e /\ own_node i x.
Definition func_node (i : nid) (f : func) : Prop := i = f_id f \/ node_in i (f_body f).
Definition uses (e : expr) (i : nid) (r : tref) : Prop := within (Var i r) e.

(** ** Source functions *)
(** All functions of a declaration with their paths, in the order of the source. *)
Fixpoint all_functions (path : list string) (d : decl) : list (list string * func) :=
  match d with
  | DFunction f => [(path ++ [f_name f], f)]
  | DModule n (Some b) => flat_map (all_functions (path ++ [n])) b
  | _ => []
  end.
Definition source_functions (ds : list decl) : list (list string * func) := flat_map (all_functions []) ds.
Fixpoint all_externs (path : list string) (d : decl) : list (list string) :=
  match d with
  | DExtern n => [path ++ [n]]
  | DModule n (Some b) => flat_map (all_externs (path ++ [n])) b
  | _ => []
  end.
(** A later declaration replaces an earlier one of the same name. *)
Definition function_named (ds : list decl) (q : string) (f : func) : Prop :=
  exists before path after, source_functions ds = before ++ (path, f) :: after /\ path_text path = q /\ forall p g, In (p, g) after -> path_text p <> q.
Definition extern_named (ds : list decl) (q : string) : Prop := exists path, In path (flat_map (all_externs []) ds) /\ path_text path = q.

(** ** Instances *)
Definition fill_in (args : list ty) : ty -> ty := plug (fun i => nth i args TError).
(** A type is an instance of a scheme's body, whatever the effects and conventions of its functions. *)
Inductive fits (f : nat -> ty) : ty -> ty -> Prop :=
| fits_bound i : fits f (TBound i) (f i)
| fits_func ps r e c ps' r' e' c' : Forall2 (fits f) ps ps' -> fits f r r' -> fits f (TFunc ps r e c) (TFunc ps' r' e' c')
| fits_named d n n' ts ts' : Forall2 (fits f) ts ts' -> fits f (TNamed d n ts) (TNamed d n' ts')
| fits_tuple ts ts' : Forall2 (fits f) ts ts' -> fits f (TTuple ts) (TTuple ts')
| fits_prim p : fits f (TPrim p) (TPrim p) | fits_local s i : fits f (TLocal s i) (TLocal s i) | fits_uni v : fits f (TUni v) (TUni v) | fits_error : fits f TError TError
| fits_app c ts : fits f (TApp c ts) (TApp c ts) | fits_cont a r e : fits f (TCont a r e) (TCont a r e).
(** A variable occurs outside of effects, continuations and applications. *)
Inductive seen (i : nat) : ty -> Prop :=
| seen_bound : seen i (TBound i)
| seen_param ps r e c t : In t ps -> seen i t -> seen i (TFunc ps r e c) | seen_result ps r e c : seen i r -> seen i (TFunc ps r e c)
| seen_named d n ts t : In t ts -> seen i t -> seen i (TNamed d n ts) | seen_tuple ts t : In t ts -> seen i t -> seen i (TTuple ts).
(** Neither variables nor holes, and closed effect rows. *)
Inductive ground : ty -> Prop :=
| ground_prim p : ground (TPrim p) | ground_named d n ts : Forall ground ts -> ground (TNamed d n ts) | ground_tuple ts : Forall ground ts -> ground (TTuple ts)
| ground_func ps r es c : Forall ground ps -> ground r -> Forall (fun e : effect => Forall ground (snd e)) es -> ground (TFunc ps r (es, None) c)
| ground_cont a r es : ground a -> ground r -> Forall (fun e : effect => Forall ground (snd e)) es -> ground (TCont a r (es, None)).
(** The arguments with which a reference of type [c] uses a function. *)
Definition arguments (sc : scheme) (c : ty) (args : list ty) : Prop :=
  sc_params sc <> 0 /\ List.length args = sc_params sc /\ fits (fun i => nth i args TError) (sc_body sc) c /\ forall i, i < sc_params sc <-> seen i (sc_body sc).
Definition asks (types : list (string * scheme)) (r : tref) (i : inst) : Prop :=
  target r = RFunction (fst i) /\ exists sc, In (fst i, sc) types /\ arguments sc (rty r) (snd i) /\ Forall ground (snd i).
Definition at_args (args : list ty) (r : tref) : tref := {| target := target r; rty := fill_in args (rty r) |}.
(** The instances that are needed: those that a source body asks for, and those that the copy for a needed instance asks for. *)
Inductive needed (types : list (string * scheme)) (ds : list decl) : inst -> Prop :=
| needed_source path f n r i : In (path, f) (source_functions ds) -> uses (f_body f) n r -> asks types r i -> needed types ds i
| needed_copy q args f n r i : needed types ds (q, args) -> function_named ds q f -> uses (f_body f) n r -> asks types (at_args args r) i -> needed types ds i.

(** Where references go: to the copy for what they ask for, if anything. *)
Definition redirects (types : list (string * scheme)) (go : tref -> tref) : Prop :=
  (forall r i m, asks types r i -> mangle_name (fst i) (snd i) = Some m -> go r = {| target := RFunction m; rty := rty r |}) /\
  (forall r, (forall i, ~ asks types r i) -> go r = r).
(** The copy of a function for [args]. *)
Definition copy_for (variant : list ty -> N) (go : tref -> tref) (args : list ty) (name : string) (f : func) : func :=
  {| f_id := with_variant (variant args) (f_id f); f_pub := false; f_name := name; f_tparams := []; f_params := f_params f; f_ret := f_ret f; f_effects := f_effects f;
     f_body := map_expr (with_variant (variant args)) (fun r => go (at_args args r)) (at_args args) (f_body f) |}.
(** What the tables say about operations and lambdas, for [args]. *)
Definition op_at (args : list ty) (o : opmeta) : opmeta :=
  {| o_ability := o_ability o; o_args := List.map (fill_in args) (o_args o); o_kind := o_kind o; o_params := List.map (fill_in args) (o_params o);
     o_result := fill_in args (o_result o) |}.
Definition lambda_at (args : list ty) (l : ty * conv) : ty * conv := (fill_in args (fst l), snd l).

(** ** The input *)
Fixpoint first_order (t : ty) : Prop :=
  match t with
  | TApp _ _ | TCont _ _ _ => False
  | TNamed _ _ ts | TTuple ts => fold_right (fun t P => first_order t /\ P) True ts
  | TFunc ps r _ _ => fold_right (fun t P => first_order t /\ P) True ps /\ first_order r
  | _ => True
  end.
Fixpoint names_of (d : decl) : list string :=
  match d with DFunction f => [f_name f] | DExtern n => [n] | DModule n (Some b) => n :: flat_map names_of b | DModule n None => [n] | DOther _ => [] end.
Record source_ok (types : list (string * scheme)) (ds : list decl) (m : meta) : Prop := {
  (** Names are identifiers. *)
  so_names : forall n, In n (flat_map names_of ds) -> n <> "" /\ no_dollar n;
  so_types : forall q sc, In (q, sc) types -> no_dollar q;
  so_keys : NoDup (List.map fst types);
  so_first_order : forall q sc, In (q, sc) types -> first_order (sc_body sc);
  (** Bodies are source nodes, different functions have different nodes. *)
  so_source : forall path f i, In (path, f) (source_functions ds) -> func_node i f -> snd i = None;
  so_apart : forall l1 p f l2 q g l3 i, source_functions ds = l1 ++ (p, f) :: l2 ++ (q, g) :: l3 -> func_node i f -> ~ func_node i g;
  (** The tables are about source nodes, and the type of a callee is the type of the reference. *)
  so_tables : forall b v, lookup (node_types m) (b, Some v) = None /\ lookup (callees m) (b, Some v) = None /\ lookup (handlers m) (b, Some v) = None /\
    lookup (performs m) (b, Some v) = None /\ lookup (lambdas m) (b, Some v) = None /\ ~ In (b, Some v) (exhaustive m);
  so_callees : forall path f i r t, In (path, f) (source_functions ds) -> uses (f_body f) i r -> lookup (callees m) i = Some t -> t = rty r }.
(** The oracles: iteration orders are orders, and the hash separates the instances of a function. *)
Definition orders (shuffle : nat -> list inst -> list inst) : Prop := forall n l, Permutation l (shuffle n l).
Definition separates (variant : list ty -> N) (types : list (string * scheme)) (ds : list decl) : Prop :=
  forall q a b, needed types ds (q, a) -> needed types ds (q, b) -> variant a = variant b -> a = b.
(** Needed by a chain of at most [n] uses. *)
Inductive needed_in (types : list (string * scheme)) (ds : list decl) : nat -> inst -> Prop :=
| in_source n path f m r i : In (path, f) (source_functions ds) -> uses (f_body f) m r -> asks types r i -> needed_in types ds (S n) i
| in_copy n q args f m r i : needed_in types ds n (q, args) -> function_named ds q f -> uses (f_body f) m r -> asks types (at_args args r) i -> needed_in types ds (S n) i.
(** The types that belong to the function [q]: of its scheme, of its body, and of the nodes of its body. *)
Inductive scoped_under (ds : list decl) (m : meta) (q : string) (sc : scheme) : ty -> Prop :=
| under_scheme : scoped_under ds m q sc (sc_body sc)
| under_body f t : function_named ds q f -> In t (expr_types (f_body f)) -> scoped_under ds m q sc t
| under_node f i t : function_named ds q f -> func_node i f -> lookup (node_types m) i = Some t -> scoped_under ds m q sc t
| under_callee f i t : function_named ds q f -> func_node i f -> lookup (callees m) i = Some t -> scoped_under ds m q sc t
| under_handler f i o t : function_named ds q f -> func_node i f -> lookup (handlers m) i = Some o -> In t (o_args o ++ o_params o ++ [o_result o]) -> scoped_under ds m q sc t
| under_perform f i o t : function_named ds q f -> func_node i f -> lookup (performs m) i = Some o -> In t (o_args o ++ o_params o ++ [o_result o]) -> scoped_under ds m q sc t
| under_lambda f i u c : function_named ds q f -> func_node i f -> lookup (lambdas m) i = Some (u, c) -> scoped_under ds m q sc u.
