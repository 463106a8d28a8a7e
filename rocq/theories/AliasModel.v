(** Choosing, ordering, printing and resolving type aliases of a module.
    Models crates/trunk-ir/src/printer.rs:34-49 (PrintState::new), 524-700 (generate_auto_aliases, choose_alias_name,
    topological_sort_aliases, collect_type_deps), 914-951 (the definitions of print_module_op) and
    crates/trunk-ir/src/parser/builder.rs:62-127 and 180-187 (build_type, build_attribute and the definitions of a region).
    A type is a tree; equality of type references is equality of trees, because types are interned (C13).  A hash map is a list of pairs with
    at most one pair for a key. *)
From Verif Require Export OpTextModel.

(** Equality of trees. *)
Fixpoint same (a b : ty) {struct a} : bool :=
  match a, b with
  | Alias x, Alias y => text_eqb x y
  | Ty d n ps ats, Ty d' n' ps' ats' =>
      text_eqb d d' && text_eqb n n'
      && (fix go (l l' : list ty) : bool := match l, l' with [], [] => true | x :: l, y :: l' => same x y && go l l' | _, _ => false end) ps ps'
      && (fix go (l l' : list (text * attr)) : bool := match l, l' with [], [] => true | (k, x) :: l, (k', y) :: l' => text_eqb k k' && same_attr x y && go l l' | _, _ => false end) ats ats'
  | _, _ => false
  end
with same_attr (a b : attr) {struct a} : bool :=
  match a, b with
  | Unit, Unit => true
  | Bool x, Bool y => Bool.eqb x y
  | Int x, Int y => (x =? y)%Z
  | Float x, Float y => (x =? y)%N
  | String x, String y => text_eqb x y
  | Bytes x, Bytes y => text_eqb x y
  | Symbol x, Symbol y => text_eqb x y
  | Type_ x, Type_ y => same x y
  | List l, List l' => (fix go (l l' : list attr) : bool := match l, l' with [], [] => true | x :: l, y :: l' => same_attr x y && go l l' | _, _ => false end) l l'
  | Location p s e, Location p' s' e' => text_eqb p p' && (s =? s')%N && (e =? e')%N
  | _, _ => false
  end.
(** [str::cmp]: UTF-8 orders as code points do. *)
Fixpoint text_cmp (a b : text) : comparison :=
  match a, b with
  | [], [] => Eq
  | [], _ => Lt
  | _, [] => Gt
  | x :: a, y :: b => match (x ?= y)%N with Eq => text_cmp a b | c => c end
  end.

(** [HashMap<TypeRef, String>]. *)
Definition amap := list (ty * text).
Definition look (m : amap) (t : ty) : option text := option_map snd (find (fun e => same (fst e) t) m).
Definition unset (m : amap) (t : ty) : amap := filter (fun e => negb (same (fst e) t)) m.
Definition set (m : amap) (t : ty) (name : text) : amap := (t, name) :: unset m t.
(** The map of [PrintState::new], printer.rs:35-40: the names of the registry, later ones overwriting earlier ones. *)
Definition initial (aliases : list (text * ty)) : amap := fold_left (fun m a => set m (snd a) (fst a)) aliases [].

(** [sort_by], which is stable: the order has to say whether its first argument may come first. *)
Section Sort.
  Context {A : Type} (le : A -> A -> bool).
  Fixpoint insert (x : A) (l : list A) : list A :=
    match l with
    | [] => [x]
    | y :: l' => if le x y then x :: l else y :: insert x l'
    end.
  Fixpoint sort (l : list A) : list A := match l with [] => [] | x :: l => insert x (sort l) end.
End Sort.

(** [collect_type_deps] and [collect_attr_type_deps], printer.rs:658-700. *)
Fixpoint deps (among : ty -> bool) (t : ty) : list ty :=
  match t with
  | Alias _ => []
  | Ty _ _ ps ats => flat_map (fun p => (if among p then [p] else []) ++ deps among p) ps ++ flat_map (fun kv => match kv with (_, v) => attr_deps among v end) ats
  end
with attr_deps (among : ty -> bool) (a : attr) : list ty :=
  match a with
  | Type_ t => (if among t then [t] else []) ++ deps among t
  | List l => flat_map (attr_deps among) l
  | _ => []
  end.
Definition member (t : ty) (l : list ty) : bool := existsb (same t) l.
(** [topological_sort_aliases], printer.rs:617-655: each round moves the first alias all of whose dependencies have been placed. *)
Definition ready (all placed : list ty) (t : ty) : bool := forallb (fun d => member d placed) (deps (fun x => member x all) t).
Fixpoint take_ready (all placed : list ty) (l : list (text * ty)) : option ((text * ty) * list (text * ty)) :=
  match l with
  | [] => None
  | a :: l => if ready all placed (snd a) then Some (a, l) else match take_ready all placed l with Some (x, r) => Some (x, a :: r) | None => None end
  end.
Fixpoint rounds (n : nat) (all placed : list ty) (rest sorted : list (text * ty)) : list (text * ty) :=
  match n with
  | O => sorted
  | S n => match take_ready all placed rest with
           | Some (a, rest) => rounds n all (snd a :: placed) rest (sorted ++ [a])
           | None => rounds n all placed rest sorted
           end
  end.
Definition topological_sort (aliases : list (text * ty)) : list (text * ty) :=
  let n := List.length aliases in
  let sorted := rounds n (map snd aliases) [] aliases [] in
  if Nat.eqb (List.length sorted) n then sorted else aliases.

(** The name suggested by the adt dialect, adt.rs:4-7; no other dialect suggests one. *)
Definition hint (t : ty) : option text :=
  match t with
  | Ty d _ _ ats => if text_eqb d (lit "adt") then match find_attr (lit "name") ats with Some (Symbol s) => Some s | _ => None end else None
  | Alias _ => None
  end.
Definition taken (used : list text) (s : text) : bool := existsb (text_eqb s) used.
(** [choose_alias_name], printer.rs:585-612.  Both loops run until a name is free; [None] if that takes more than the given number of rounds. *)
Fixpoint suffixed (fuel : nat) (used : list text) (base : text) (i : N) : option text :=
  match fuel with
  | O => None
  | S fuel => let candidate := base ++ ch "_" :: write_uint i in if taken used candidate then suffixed fuel used base (i + 1) else Some candidate
  end.
Fixpoint numbered (fuel : nat) (used : list text) (next : N) : option (text * N) :=
  match fuel with
  | O => None
  | S fuel => let name := ch "t" :: write_uint next in if taken used name then numbered fuel used (next + 1) else Some (name, (next + 1)%N)
  end.
Definition choose_alias_name (fuel : nat) (t : ty) (used : list text) (next : N) : option (text * N) :=
  match hint t with
  | Some base => if taken used base then option_map (fun s => (s, next)) (suffixed fuel used base 1) else Some (base, next)
  | None => numbered fuel used next
  end.
Fixpoint name_all (fuel : nat) (l : list ty) (used : list text) (next : N) : option (list (text * ty)) :=
  match l with
  | [] => Some []
  | t :: l =>
      match choose_alias_name fuel t used next with
      | Some (name, next) => option_map (cons (name, t)) (name_all fuel l (name :: used) next)
      | None => None
      end
  end.

Section Module.
  Variable complexity : ty -> N.                        (* [TypeInterner::complexity] *)
  Variables min_uses min_complexity : N.                (* MIN_ALIAS_USES, MIN_ALIAS_COMPLEXITY *)
  Variable show : N -> text.
  Variable finite : N -> bool.
  (** [print_type]: without aliases. *)
  Definition plain_text (t : ty) : text := write_type (fun _ => None) show finite t.
  Definition eligible (t : ty) (count : N) : bool :=
    match hint t with
    | Some _ => (min_uses <=? count)%N || (min_complexity <=? complexity t)%N
    | None => (min_uses <=? count)%N && (min_complexity <=? complexity t)%N
    end.
  (** The order of candidates: more uses first, then more complex types, then by their text. *)
  Definition not_after (a b : ty * N) : bool :=
    match (snd b ?= snd a)%N with
    | Lt => true
    | Gt => false
    | Eq => match (complexity (fst b) ?= complexity (fst a))%N with
            | Lt => true
            | Gt => false
            | Eq => match text_cmp (plain_text (fst a)) (plain_text (fst b)) with Gt => false | _ => true end
            end
    end.
  (** [generate_auto_aliases], printer.rs:533-580.  [counts] are the types used in the module with the numbers of their uses, in the order in
      which the hash map gives them. *)
  Definition auto_aliases (fuel : nat) (counts : list (ty * N)) (existing : amap) : option (list (text * ty)) :=
    let candidates := filter (fun c => match look existing (fst c) with Some _ => false | None => eligible (fst c) (snd c) end) counts in
    option_map topological_sort (name_all fuel (map fst (sort not_after candidates)) (map snd existing) 0).
  (** A definition: its name, the aliases in use where it is printed, its type. *)
  Definition def := (text * amap * ty)%type.
  Fixpoint manual_defs (l : list (text * ty)) (m : amap) : list def * amap :=
    match l with
    | [] => ([], m)
    | (name, t) :: l => let (ds, m') := manual_defs l (set (unset m t) t name) in ((name, unset m t, t) :: ds, m')
    end.
  Fixpoint auto_defs (l : list (text * ty)) (m : amap) : list def * amap :=
    match l with
    | [] => ([], m)
    | (name, t) :: l => let (ds, m') := auto_defs l (set m t name) in ((name, m, t) :: ds, m')
    end.
  (** The definitions printed by [print_module_op], and the aliases in use for the operations.  [outer]: those in use before. *)
  Definition name_not_after (a b : text * ty) : bool := match text_cmp (fst a) (fst b) with Gt => false | _ => true end.
  Definition module_aliases (fuel : nat) (aliases : list (text * ty)) (outer : amap) (counts : list (ty * N)) : option (list def * amap) :=
    let (ds, m) := manual_defs (topological_sort (sort name_not_after aliases)) outer in
    match auto_aliases fuel counts m with
    | Some l => let (ds', m') := auto_defs l m in Some (ds ++ ds', m')
    | None => None
    end.
End Module.

(** ** Resolving *)
(** [type_alias_map], a map from names to types. *)
Definition env := list (text * ty).
Definition env_get (e : env) (name : text) : option ty := option_map snd (find (fun x => text_eqb (fst x) name) e).
(** [BTreeMap::insert] and collecting into one. *)
Fixpoint put {A} (k : text) (v : A) (l : list (text * A)) : list (text * A) :=
  match l with
  | [] => [(k, v)]
  | (k', v') :: l' => match text_cmp k k' with Lt => (k, v) :: l | Eq => (k, v) :: l' | Gt => (k', v') :: put k v l' end
  end.
Definition collect {A} (l : list (text * A)) : list (text * A) := fold_left (fun m kv => put (fst kv) (snd kv) m) l [].
Fixpoint all_some {A} (l : list (option A)) : option (list A) :=
  match l with
  | [] => Some []
  | Some x :: l => option_map (cons x) (all_some l)
  | None :: _ => None
  end.
(** [build_type] and [build_attribute], builder.rs:62-127. *)
Fixpoint build_type (e : env) (t : ty) : option ty :=
  match t with
  | Alias name => env_get e name
  | Ty d n ps ats =>
      match all_some (map (build_type e) ps), all_some (map (fun kv => match kv with (k, v) => option_map (fun v => (k, v)) (build_attr e v) end) ats) with
      | Some ps, Some ats => Some (Ty d n ps (collect ats))
      | _, _ => None
      end
  end
with build_attr (e : env) (a : attr) : option attr :=
  match a with
  | Type_ t => option_map Type_ (build_type e t)
  | List l => option_map List (all_some (map (build_attr e) l))
  | a => Some a
  end.
(** The definitions of a region, builder.rs:183-187. *)
Fixpoint build_defs (e : env) (l : list (text * ty)) : option env :=
  match l with
  | [] => Some e
  | (name, t) :: l => match build_type e t with Some t => build_defs ((name, t) :: e) l | None => None end
  end.
