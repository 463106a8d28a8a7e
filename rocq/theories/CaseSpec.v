(** What case expressions mean, and what the generated operations do. *)
From Verif Require Export CaseModel.
Local Open Scope N_scope.

(** ** Values and types *)
Inductive value := VInt (z : Z) | VBool (b : bool) | VNil | VOther (n : N) | VStruct (l : list value) | VVariant (ctor : N) (l : list value) | VList (l : list value) | VCont.
Inductive ty := TNumber | TBool | TNil | TOther | TTuple (l : list ty) | TList (t : ty) | TEnum (name : N).
Section Typed.
  Variable variants : N -> list (N * list ty).       (* the variants of an enum with the types of their fields *)
  Inductive typed : value -> ty -> Prop :=
  | t_int z : typed (VInt z) TNumber
  | t_bool b : typed (VBool b) TBool
  | t_nil : typed VNil TNil
  | t_other n : typed (VOther n) TOther
  | t_struct l ts : Forall2 typed l ts -> typed (VStruct l) (TTuple ts)
  | t_list l t : Forall (fun v => typed v t) l -> typed (VList l) (TList t)
  | t_variant c l ts e : In (c, ts) (variants e) -> Forall2 typed l ts -> typed (VVariant c l) (TEnum e).
  (** A variant pattern may have fewer fields than the variant: the type checker does not count them. *)
  Inductive pattern_typed : pattern -> ty -> Prop :=
  | p_wildcard t : pattern_typed Wildcard t
  | p_bind x t : pattern_typed (Bind x) t
  | p_nat n : pattern_typed (Literal (Nat_ n)) TNumber
  | p_int z : pattern_typed (Literal (Int_ z)) TNumber
  | p_bool b : pattern_typed (Literal (Bool_ b)) TBool
  | p_unit : pattern_typed (Literal Unit_) TNil
  | p_float n : pattern_typed (Literal (Float_ n)) TOther
  | p_string s : pattern_typed (Literal (String_ s)) TOther
  | p_variant c fs more ts e : In (c, ts ++ more) (variants e) -> Forall2 pattern_typed fs ts -> pattern_typed (Variant c fs) (TEnum e)
  | p_tuple l ts : Forall2 pattern_typed l ts -> pattern_typed (Tuple l) (TTuple ts)
  | p_list l t : Forall (fun p => pattern_typed p t) l -> pattern_typed (List_ l) (TList t)
  | p_rest l x t : Forall (fun p => pattern_typed p t) l -> pattern_typed (ListRest l x) (TList t)
  | p_as p x t : pattern_typed p t -> pattern_typed (As p x) t
  | p_error t : pattern_typed Error_ t.
  (** Each enum has different variants. *)
  Definition distinct_variants : Prop := forall e, NoDup (map fst (variants e)).
End Typed.

(** ** Matching: the variables that are bound, and their values; [None] if the value does not match *)
Definition literal_value (l : literal) : option value :=
  match l with Nat_ n => Some (VInt (Z.of_N n)) | Int_ z => Some (VInt z) | Bool_ b => Some (VBool b) | Unit_ => Some VNil | _ => None end.
Definition same_scalar (a b : value) : bool :=
  match a, b with VInt x, VInt y => (x =? y)%Z | VBool x, VBool y => Bool.eqb x y | VNil, VNil => true | _, _ => false end.
Definition binding (x : option N) (v : value) : list (N * value) := match x with Some x => [(x, v)] | None => [] end.
Section Each.
  Variable matches : pattern -> value -> option (list (N * value)).
  (** Patterns and values one by one; also the values that remain. *)
  Fixpoint each (ps : list pattern) (vs : list value) : option (list (N * value) * list value) :=
    match ps, vs with
    | [], _ => Some ([], vs)
    | p :: ps, v :: vs =>
        match matches p v, each ps vs with
        | Some b, Some (b', more) => Some (b ++ b', more)
        | _, _ => None
        end
    | _ :: _, [] => None
    end.
End Each.
Fixpoint matches (p : pattern) (v : value) {struct p} : option (list (N * value)) :=
  match p, v with
  | Wildcard, _ | Error_, _ => Some []
  | Bind x, _ => Some (binding x v)
  | Literal l, _ => match literal_value l with Some u => if same_scalar u v then Some [] else None | None => None end
  | Variant c fs, VVariant c' vs => if c =? c' then option_map fst (each matches fs vs) else None
  | Tuple ps, VStruct vs => option_map fst (each matches ps vs)
  | List_ ps, VList vs => match each matches ps vs with Some (b, []) => Some b | _ => None end
  | ListRest ps x, VList vs => match each matches ps vs with Some (b, more) => Some (b ++ binding x (VList more)) | None => None end
  | As p x, _ => match matches p v with Some b => Some (binding x v ++ b) | None => None end
  | _, _ => None
  end.
Definition lookup {A} (l : list (N * A)) (x : N) : option A := option_map snd (find (fun e => fst e =? x) l).
(** The variables inside an arm: those of the pattern, and those outside. *)
Definition extended (outer : N -> option value) (b : list (N * value)) (x : N) : option value := match lookup (rev b) x with Some v => Some v | None => outer x end.

(** ** Evaluation *)
Inductive event := Eval (e : N) | Continue (v : value).
Inductive stop := Stuck | Trap | NoValue | NoArm.      (* nonsense; the program aborts; an expression gives no value; no arm is chosen *)
Section Semantics.
  Variable eval : N -> (N -> option value) -> option value.     (* the value of an expression, given those of the variables *)
  Variable kont : value -> option value.                        (* what the continuation makes of a value *)
  Definition got (x : option value) : value + stop := match x with Some v => inl v | None => inr NoValue end.

  (** The first arm whose pattern matches and whose guard, if any, holds. *)
  Fixpoint select (outer : N -> option value) (v : value) (arms : list arm) : list event * (value + stop) :=
    match arms with
    | [] => ([], inr NoArm)
    | a :: rest =>
        match matches (pat a) v with
        | None => select outer v rest
        | Some b =>
            let inner := extended outer b in
            match guard a with
            | None => ([Eval (body a)], got (eval (body a) inner))
            | Some g =>
                match eval g inner with
                | Some (VBool true) => ([Eval g; Eval (body a)], got (eval (body a) inner))
                | Some (VBool false) => let (t, r) := select outer v rest in (Eval g :: t, r)
                | Some _ => ([Eval g], inr Stuck)
                | None => ([Eval g], inr NoValue)
                end
            end
        end
    end.
  (** The value goes to the continuation. *)
  Definition continued (o : list event * (value + stop)) : list event * (value + stop) :=
    match o with
    | (t, inl v) => (t ++ [Continue v], got (kont v))
    | (t, inr s) => (t, inr s)
    end.

  (** *** Operations *)
  Definition env := N -> option value.
  Definition set (e : env) (r : N) (v : value) : env := fun x => if x =? r then Some v else e x.
  Definition only (l : list N) (e : env) : env := fun x => if existsb (N.eqb x) l then e x else None.
  Definition locals (e : env) (s : scope) (x : N) : option value := match lookup s x with Some v => e v | None => None end.
  Definition give (e : env) (r : N) (v : option value) : list event * (env + stop) := match v with Some v => ([], inl (set e r v)) | None => ([], inr Stuck) end.
  Section RunList.
    Variable run : env -> op -> list event * (env + stop).
    Fixpoint run_list (e : env) (l : list op) : list event * (env + stop) :=
      match l with
      | [] => ([], inl e)
      | o :: l => let (t, r) := run e o in match r with inl e => let (t', r) := run_list e l in (t ++ t', r) | inr s => (t, inr s) end
      end.
  End RunList.
  (** What running operations, and then reading the value [r], gives. *)
  Definition read (o : list event * (env + stop)) (r : N) : list event * (value + stop) :=
    match o with
    | (t, inl e) => (t, match e r with Some v => inl v | None => inr Stuck end)
    | (t, inr s) => (t, inr s)
    end.
  Definition bring (e : env) (r : N) (o : list event * (value + stop)) : list event * (env + stop) :=
    match o with (t, inl v) => (t, inl (set e r v)) | (t, inr s) => (t, inr s) end.
  Definition passed (e : env) (k : N) (v : value) : list event * (value + stop) :=
    match e k with Some VCont => ([Continue v], got (kont v)) | _ => ([], inr Stuck) end.
  Fixpoint run (e : env) (o : op) {struct o} : list event * (env + stop) :=
    match o with
    | ConstBool r b => give e r (Some (VBool b))
    | ConstInt r z => give e r (Some (VInt z))
    | ConstNil r => give e r (Some VNil)
    | CmpEq r a b => give e r (match e a, e b with Some (VInt x), Some (VInt y) => Some (VBool (x =? y)%Z) | Some (VBool x), Some (VBool y) => Some (VBool (Bool.eqb x y)) | _, _ => None end)
    | And r a b => give e r (match e a, e b with Some (VBool x), Some (VBool y) => Some (VBool (x && y)) | _, _ => None end)
    | Xor r a b => give e r (match e a, e b with Some (VBool x), Some (VBool y) => Some (VBool (xorb x y)) | _, _ => None end)
    | VariantIs r a tag => give e r (match e a with Some (VVariant c _) => Some (VBool (c =? tag)) | _ => None end)
    | VariantCast r a tag => give e r (match e a with Some (VVariant c l) => if c =? tag then Some (VVariant c l) else None | _ => None end)
    | VariantGet r a tag i => give e r (match e a with Some (VVariant c l) => if c =? tag then nth_error l (N.to_nat i) else None | _ => None end)
    | StructGet r a i => give e r (match e a with Some (VStruct l) => nth_error l (N.to_nat i) | _ => None end)
    | IsEmpty r a => give e r (match e a with Some (VList l) => Some (VBool (match l with [] => true | _ => false end)) | _ => None end)
    | Head r a => give e r (match e a with Some (VList (v :: _)) => Some v | _ => None end)
    | Tail r a => give e r (match e a with Some (VList (_ :: l)) => Some (VList l) | _ => None end)
    | If r c th ty el ey =>
        match e c with
        | Some (VBool true) => bring e r (read (run_list run e th) ty)
        | Some (VBool false) => bring e r (read (run_list run e el) ey)
        | _ => ([], inr Stuck)
        end
    | Unreachable => ([], inr Trap)
    | Expr r x s => match eval x (locals e s) with Some v => ([Eval x], inl (set e r v)) | None => ([Eval x], inr NoValue) end
    | Comp r x s k => match eval x (locals e s) with Some v => let (t, o) := passed e k v in bring e r (Eval x :: t, o) | None => ([Eval x], inr NoValue) end
    | Guarded r x s captures param ops ret =>
        match eval x (locals e s) with
        | Some v => let (t, o) := read (run_list run (set (only captures e) param v) ops) ret in bring e r (Eval x :: t, o)
        | None => ([Eval x], inr NoValue)
        end
    | Invoke r k a => match e a with Some v => bring e r (passed e k v) | None => ([], inr Stuck) end
    end.
  Definition code_result (e : env) (ops : list op) (r : N) : list event * (value + stop) := read (run_list run e ops) r.
End Semantics.

(** Without an arm the value is nil. *)
Definition or_nil (o : list event * (value + stop)) : list event * (value + stop) := (fst o, match snd o with inr NoArm => inl VNil | r => r end).
(** Some arm is selected, or a guard gives no truth value. *)
Definition chosen (eval : N -> (N -> option value) -> option value) (v : value) (outer : N -> option value) (arms : list arm) : Prop :=
  snd (select eval outer v arms) <> inr NoArm.

(** ** Which case expressions *)
(** The local variables of a pattern. *)
Fixpoint pattern_locals (p : pattern) : list N :=
  let one (x : option N) := match x with Some x => [x] | None => [] end in
  match p with
  | Bind x => one x
  | Variant _ fs | Tuple fs | List_ fs => flat_map pattern_locals fs
  | ListRest fs x => flat_map pattern_locals fs ++ one x
  | As p x => one x ++ pattern_locals p
  | _ => []
  end.
(** Patterns that the lowering has code for: no record patterns, no floats, strings or units, no numbers beyond 31 bits. *)
Definition literal_supported (l : literal) : Prop :=
  match l with
  | Nat_ n => n < 2 ^ 30
  | Int_ z => (- 2 ^ 30 <= z < 2 ^ 30)%Z
  | Bool_ _ => True
  | _ => False
  end.
Inductive supported : pattern -> Prop :=
| s_wildcard : supported Wildcard
| s_bind x : supported (Bind x)
| s_error : supported Error_
| s_literal l : literal_supported l -> supported (Literal l)
| s_variant c fs : Forall supported fs -> supported (Variant c fs)
| s_tuple l : Forall supported l -> supported (Tuple l)
| s_list l : Forall supported l -> supported (List_ l)
| s_rest l x : Forall supported l -> supported (ListRest l x)
| s_as p x : supported p -> supported (As p x).
(** Patterns that match every value of their type. *)
Fixpoint catch_all (p : pattern) : Prop := match p with Wildcard | Bind _ | Error_ => True | As p _ => catch_all p | _ => False end.
(** Patterns in which the fields of variants match everything. *)
Inductive flat : pattern -> Prop :=
| f_wildcard : flat Wildcard
| f_bind x : flat (Bind x)
| f_error : flat Error_
| f_literal l : flat (Literal l)
| f_variant c fs : Forall catch_all fs -> flat (Variant c fs)
| f_tuple l : Forall flat l -> flat (Tuple l)
| f_list l : Forall flat l -> flat (List_ l)
| f_rest l x : Forall flat l -> flat (ListRest l x)
| f_as p x : flat p -> flat (As p x).
(** The variables that an arm uses and does not bind. *)
Definition arm_exprs (a : arm) : list N := body a :: match guard a with Some g => [g] | None => [] end.
Definition needs (uses : N -> list N) (a : arm) (x : N) : Prop := ~ In x (pattern_locals (pat a)) /\ exists e, In e (arm_exprs a) /\ In x (uses e).
(** No arm uses variables of the pattern of another. *)
Fixpoint well_scoped (uses : N -> list N) (arms : list arm) : Prop :=
  match arms with
  | [] => True
  | a :: rest => (forall b x, In b rest -> needs uses b x -> ~ In x (pattern_locals (pat a))) /\ well_scoped uses rest
  end.
Definition depends_on (uses : N -> list N) (eval : N -> (N -> option value) -> option value) : Prop :=
  forall e f g, (forall x, In x (uses e) -> f x = g x) -> eval e f = eval e g.

(** ** The checker's view *)
(** What [check_exhaustiveness] sees of a type: its head, or a type variable that is not solved yet. *)
Definition seen (t : ty) (h : head) : Prop :=
  h = HUniVar \/ h = match t with TNumber => HNumber | TBool => HBool | TList _ => HList | TEnum e => HNamed e | TNil | TOther | TTuple _ => HOther end.
(** The names known of the variants of an enum are at least those it has. *)
Definition all_named (variants : N -> list (N * list ty)) (names : N -> option (list N)) : Prop :=
  forall e l, names e = Some l -> forall c ts, In (c, ts) (variants e) -> In c l.
(** Some arm that has no guard matches. *)
Definition covered (arms : list arm) (v : value) : Prop := exists a, In a arms /\ guard a = None /\ matches (pat a) v <> None.
(** Patterns as the check wants them: one test, and then everything. *)
Inductive total : pattern -> Prop := to_wildcard : total Wildcard | to_bind x : total (Bind x) | to_as p x : total p -> total (As p x).
Inductive plain : pattern -> Prop :=
| pl_bool b : plain (Literal (Bool_ b))
| pl_variant c fs : Forall total fs -> plain (Variant c fs)
| pl_list l : Forall total l -> plain (List_ l)
| pl_rest l x : Forall total l -> plain (ListRest l x).
Definition plain_arm (a : arm) : Prop := plain (pat a) \/ exists p x, pat a = As p x /\ plain p.
Definition inhabited (variants : N -> list (N * list ty)) (t : ty) : Prop := exists v, typed variants v t.

(** ** Fields with names *)
(** The value of the field [f] of a structure whose fields have the given names. *)
Definition field (names : list N) (vs : list value) (f : N) : option value := lookup (combine names vs) f.

(** ** Hypotheses *)
Definition well_typed (variants : N -> list (N * list ty)) (t : ty) (arms : list arm) : Prop := Forall (fun a => pattern_typed variants (pat a) t) arms.
Definition all_supported (arms : list arm) : Prop := Forall (fun a => supported (pat a)) arms.
Definition all_flat (arms : list arm) : Prop := Forall (fun a => flat (pat a)) arms.
(** The scrutinee is the value [s], and no value from [next] on is used yet. *)
Definition in_place (e : env) (next s : N) (v : value) (sc : scope) : Prop := e s = Some v /\ s < next /\ Forall (fun x => snd x < next) sc.
