(** What going to a definition, finding references and renaming should do, said of the source as a tree of names. *)
From Coq Require Export Permutation.
From Verif Require Export RenameModel.

(** ** The text of a file. *)
Definition text_with (f : node -> text) (i : item) : text := match i with Raw t | Name t _ => t | Sub n => f n end.
Fixpoint text_of (n : node) : text := match n with Node _ items => flat_map (text_with text_of) items end.

(** ** Symbols. *)
(** The symbol that a part of the program declares. *)
Definition declares (r : role) : option target :=
  match r with
  | RFunc n => Some (TFunction n)
  | RParam n (Some i) | RBind n (Some i) | RAs n (Some i) | RListRest (Some n) (Some i) => Some (TLocal i n)
  | RParam n None | RBind n None | RAs n None | RListRest (Some n) None | RShorthand n => Some (TUnresolved n)
  | RStruct n | REnum n => Some (TType n)
  | RFieldDecl o n => Some (TField o n)
  | RVariantDecl o n => Some (TConstructor o n)
  | RAbility n => Some (TAbility n)
  | ROpDecl o n => Some (TOp o n)
  | _ => None
  end.
(** The symbol that it refers to. *)
Definition meaning (r : resolved) : target :=
  match r with
  | ResLocal i n => TLocal i n | ResFunction n => TFunction n | ResConstructor t v => TConstructor t v | ResType n => TType n
  | ResModule => TOther (list_ascii_of_string "module") | ResOp a o => TOp a o | ResAbility n => TAbility n
  end.
Definition mentions (r : role) : option target :=
  match r with
  | RVar x | RCons x | RRecord x | RPatVariant x | RPatRecord (Some x) | RHandler x => Some (meaning x)
  | _ => None
  end.
Definition stands_for (r : role) (T : target) : Prop := declares r = Some T \/ mentions r = Some T.
Definition symbol_name (T : target) : text :=
  match T with
  | TLocal _ n => n | TFunction n => n | TConstructor _ n => n | TType n => n | TAbility n => n | TOp _ n => n
  | TUnresolved n => n | TField _ n => n | TOther n => n
  end.

(** ** The nodes of a file and where they stand; the ones around a position. *)
Definition nodes_items (f : nat -> node -> list (span * role)) :=
  fix go (start : nat) (l : list item) : list (span * role) :=
    match l with
    | [] => []
    | i :: l => match i with Sub n => f start n | _ => [] end ++ go (start + List.length (text_with text_of i)) l
    end.
Fixpoint nodes (start : nat) (n : node) : list (span * role) :=
  match n with Node r items => ((start, start + List.length (text_of n)), r) :: nodes_items nodes start items end.

(** [declared T n spans]: the places of the nodes that declare [T] are [spans]; likewise [referred]. *)
Inductive picked (f : role -> option target) (T : target) : list (span * role) -> list span -> Prop :=
| picked_none : picked f T [] []
| picked_this s r l ss : f r = Some T -> picked f T l ss -> picked f T ((s, r) :: l) (s :: ss)
| picked_other s r l ss : f r <> Some T -> picked f T l ss -> picked f T ((s, r) :: l) ss.
Definition declared (T : target) (n : node) (ss : list span) : Prop := picked declares T (nodes 0 n) ss.
Definition referred (T : target) (n : node) (ss : list span) : Prop := picked mentions T (nodes 0 n) ss.

(** [holds start n o around s r t m]: the byte at [o] belongs to the name [t] with the meaning [m]; the name is a part of the node of role [r] at
    [s], and [around] are the roles of the nodes around that one. *)
Inductive holds : nat -> node -> nat -> list role -> span -> role -> text -> target -> Prop :=
| holds_name start r l1 t m l2 o :
    start + List.length (flat_map (text_with text_of) l1) <= o < start + List.length (flat_map (text_with text_of) l1) + List.length t ->
    holds start (Node r (l1 ++ Name t m :: l2)) o [] (start, start + List.length (text_of (Node r (l1 ++ Name t m :: l2)))) r t m
| holds_sub start r l1 n l2 o around s r' t m :
    holds (start + List.length (flat_map (text_with text_of) l1)) n o around s r' t m ->
    holds start (Node r (l1 ++ Sub n :: l2)) o (r :: around) s r' t m.

(** The cursor is on the name of a reference to [T], or on the name in its declaration, and that is not inside of a reference to something else. *)
Definition cursor_on (T : target) (n : node) (o : nat) (s : span) : Prop :=
  exists around r t, holds 0 n o around s r t T
    /\ (mentions r = Some T \/ declares r = Some T /\ forall r', In r' around -> mentions r' = None).

(** Declarations and references name what they declare or refer to. *)
Inductive named : node -> Prop :=
| named_node r items :
    (forall T, stands_for r T -> exists t m, In (Name t m) items /\ t <> []) ->
    (forall n, In (Sub n) items -> named n) ->
    named (Node r items).

(** Symbols that are identified by more than their name; the others must have a name of their own. *)
Definition identified (T : target) : Prop :=
  match T with TLocal _ _ | TConstructor _ _ | TOp _ _ | TField _ _ => True | _ => False end.
Definition own_name (T : target) (n : node) : Prop :=
  forall s r T', In (s, r) (nodes 0 n) -> stands_for r T' -> symbol_name T' = symbol_name T -> T' = T.

(** The names that mean [T] are the whole text of the declaration of and the references to [T], and there are no others. *)
Inductive bare (T : target) : node -> Prop :=
| bare_name r t : stands_for r T -> bare T (Node r [Name t T])
| bare_other r items :
    ~ stands_for r T -> (forall t m, In (Name t m) items -> m <> T) -> (forall n, In (Sub n) items -> bare T n) ->
    bare T (Node r items).

(** ** Renaming: every name that means [T] is replaced. *)
Inductive renamed (T : target) (new : text) : node -> node -> Prop :=
| renamed_node r items items' : renamed_items T new items items' -> renamed T new (Node r items) (Node r items')
with renamed_items (T : target) (new : text) : list item -> list item -> Prop :=
| renamed_nil : renamed_items T new [] []
| renamed_raw t l l' : renamed_items T new l l' -> renamed_items T new (Raw t :: l) (Raw t :: l')
| renamed_this t l l' : renamed_items T new l l' -> renamed_items T new (Name t T :: l) (Name new T :: l')
| renamed_other t m l l' : m <> T -> renamed_items T new l l' -> renamed_items T new (Name t m :: l) (Name t m :: l')
| renamed_sub n n' l l' : renamed T new n n' -> renamed_items T new l l' -> renamed_items T new (Sub n :: l) (Sub n' :: l').

(** Replacing the ranges, given in order, of a text that starts at [p]; they may not overlap. *)
Inductive replaced (new : text) : nat -> text -> list span -> text -> Prop :=
| replaced_none p t : replaced new p t [] t
| replaced_one p t a b l t' :
    p <= a -> a <= b -> b <= p + List.length t ->
    replaced new b (skipn (b - p) t) l t' ->
    replaced new p t ((a, b) :: l) (firstn (a - p) t ++ new ++ t').
Definition edits_give (n : node) (edits : list span) (new : text) (result : text) : Prop :=
  exists ordered, Permutation ordered edits /\ replaced new 0 (text_of n) ordered result.

(** ** Identifiers. *)
Definition upper := list_ascii_of_string "ABCDEFGHIJKLMNOPQRSTUVWXYZ".
Definition lower := list_ascii_of_string "abcdefghijklmnopqrstuvwxyz".
Definition digits := list_ascii_of_string "0123456789".
Definition reserved : list text := List.map list_ascii_of_string
  ["True"; "False"; "Nil"; "ability"; "as"; "case"; "const"; "enum"; "fn"; "handle"; "if"; "let"; "mod"; "pub"; "struct"; "use"]%string.
Definition capitalized (T : target) : bool :=
  match T with TConstructor _ _ | TType _ | TAbility _ => true | _ => false end.
Definition identifier (T : target) (new : text) : Prop :=
  exists c rest, new = c :: rest
    /\ (if capitalized T then In c upper else In c ("_"%char :: lower))
    /\ (forall x, In x rest -> In x ("_"%char :: upper ++ lower ++ digits))
    /\ ~ In new reserved.
