(** Go to definition, find references and rename.
    Models src/lsp/definition_index.rs:25-907 and [rename], [find_references], [goto_definition] of src/lsp/server.rs:239-418.
    Simplified: a source file is a tree of nodes, as the parser and name resolution leave it; each node has a role (which part of
    the syntax it is) and consists of text, names and further nodes, so that its span is where it stands in the text (astgen's
    [fresh_id_with_span]).  What the collector does not look at ([use] declarations, type annotations, names of fields and methods)
    is text and names of the node around it.  Names carry, for the specification only, the symbol that they stand for.  Positions are byte offsets
    (C39 and C40 are about their conversion); the file is the only one. *)
From Coq Require Export String Ascii List.
From Verif Require Export Base.

Definition text := list ascii.
Definition text_eqb (a b : text) : bool := if list_eq_dec ascii_dec a b then true else false.

(** [ResolvedTarget], 83-104. *)
Inductive target :=
| TLocal (id : nat) (n : text)
| TFunction (n : text)
| TConstructor (ty v : text)
| TType (n : text)
| TAbility (n : text)
| TOp (ability op : text)
| TUnresolved (n : text)
| TField (owner n : text)
| TOther (n : text).
(** [ResolvedTarget::name], 108-120. *)
Definition target_name (t : target) : text :=
  match t with
  | TLocal _ n | TFunction n | TConstructor _ n | TType n | TAbility n | TOp _ n | TUnresolved n | TField _ n | TOther n => n
  end.
(** [ResolvedTarget::local_id], 123-135. *)
Definition target_local (t : target) : option nat := match t with TLocal i _ => Some i | _ => None end.

(** [DefinitionKind], 27-54. *)
Inductive dkind :=
| DFunction | DStruct | DEnum | DVariant (owner : text) | DAbility | DOp (owner : text) | DLocal | DParam | DField (owner : text).

Definition span := (nat * nat)%type.
Record definition := mkDef { d_span : span; d_name : text; d_kind : dkind; d_local : option nat }.
Record reference := mkRef { r_span : span; r_target : target }.

(** What name resolution made of a name, ast [ResolvedRef]. *)
Inductive resolved :=
| ResLocal (id : nat) (n : text)
| ResFunction (n : text)
| ResConstructor (ty v : text)
| ResType (n : text)
| ResModule
| ResOp (ability op : text)
| ResAbility (n : text).
(** [resolve_resolved_ref], 801-829. *)
Definition target_of (r : resolved) : target :=
  match r with
  | ResLocal i n => TLocal i n
  | ResFunction n => TFunction n
  | ResConstructor t v => TConstructor t v
  | ResType n => TType n
  | ResModule => TOther (list_ascii_of_string "module")
  | ResOp a o => TOp a o
  | ResAbility n => TType n
  end.

(** Which part of the syntax a node is. *)
Inductive role :=
| RFunc (n : text) | RParam (n : text) (local : option nat)
| RStruct (n : text) | RFieldDecl (owner n : text)
| REnum (n : text) | RVariantDecl (owner n : text)
| RAbility (n : text) | ROpDecl (owner n : text)
| RVar (r : resolved) | RCons (r : resolved) | RRecord (r : resolved)
| RBind (n : text) (local : option nat)
| RPatVariant (r : resolved) | RPatRecord (r : option resolved) | RShorthand (n : text)
| RListRest (n : option text) (local : option nat) | RAs (n : text) (local : option nat)
| RHandler (r : resolved)
| ROther.                                      (* everything else: only the parts count *)
Inductive node := Node (r : role) (items : list item)
with item := Raw (t : text) | Name (t : text) (m : target) | Sub (n : node).

Definition width_with (f : node -> nat) (i : item) : nat :=
  match i with Raw t | Name t _ => List.length t | Sub n => f n end.
Fixpoint width (n : node) : nat := match n with Node _ items => list_sum (List.map (width_with width) items) end.

(** ** [DefinitionCollector], 446-798.  Definitions and references in the order in which they are found. *)
Definition entry := (definition + reference)%type.
Definition def_at (s : span) (n : text) (k : dkind) (l : option nat) : list entry := [inl (mkDef s n k l)].
Definition ref_at (s : span) (r : resolved) : list entry := [inr (mkRef s (target_of r))].
(** Found before the parts of the node. *)
Definition before (s : span) (r : role) : list entry :=
  match r with
  | RFunc n => def_at s n DFunction None                       (* collect_func 504-515, collect_extern_func 517-523 *)
  | RParam n l => def_at s n DParam l                      (* collect_param 525-532, lambda parameters 645-654 *)
  | RStruct n => def_at s n DStruct None                       (* collect_struct 534-548 *)
  | RFieldDecl o n => def_at s n (DField o) None
  | REnum n => def_at s n DEnum None                           (* collect_enum 550-562 *)
  | RVariantDecl o n => def_at s n (DVariant o) None
  | RAbility n => def_at s n DAbility None                     (* collect_ability 564-576 *)
  | ROpDecl o n => def_at s n (DOp o) None
  | RVar x | RCons x | RRecord x => ref_at s x                 (* collect_expr 578-608 *)
  | RBind n l => def_at s n DLocal l                           (* collect_pattern 700-703 *)
  | RPatVariant x => ref_at s x
  | RPatRecord (Some x) => ref_at s x
  | RShorthand n => def_at s n DLocal None
  | RHandler x => ref_at s x                                   (* collect_handler 768-788 *)
  | _ => []
  end.
(** Found after them. *)
Definition behind (s : span) (r : role) : list entry :=
  match r with
  | RListRest (Some n) l => def_at s n DLocal l
  | RAs n l => def_at s n DLocal l
  | _ => []
  end.
Definition collect_items (f : nat -> node -> list entry) :=
  fix go (start : nat) (l : list item) : list entry :=
    match l with
    | [] => []
    | i :: l => match i with Sub n => f start n | _ => [] end ++ go (start + width_with width i) l
    end.
Fixpoint collect (start : nat) (n : node) : list entry :=
  match n with
  | Node r items =>
      let s := (start, start + width n) in
      before s r ++ collect_items collect start items ++ behind s r
  end.

(** [sort_by_key], stable. *)
Definition span_le (a b : span) : bool := Nat.ltb (fst a) (fst b) || (Nat.eqb (fst a) (fst b) && Nat.leb (snd a) (snd b)).
Fixpoint insert {A} (key : A -> span) (x : A) (l : list A) : list A :=
  match l with
  | [] => [x]
  | y :: l' => if span_le (key x) (key y) then x :: l else y :: insert key x l'
  end.
Definition sort {A} (key : A -> span) (l : list A) : list A := fold_right (insert key) [] l.

(** [AstDefinitionIndex::build], 152-175. *)
Record index := mkIndex { i_defs : list definition; i_refs : list reference }.
Definition defs_of (l : list entry) : list definition := flat_map (fun x => match x with inl d => [d] | inr _ => [] end) l.
Definition refs_of (l : list entry) : list reference := flat_map (fun x => match x with inl _ => [] | inr r => [r] end) l.
Definition build (n : node) : index :=
  mkIndex (sort d_span (defs_of (collect 0 n))) (sort r_span (refs_of (collect 0 n))).

(** [Iterator::min_by_key]: the first of the smallest. *)
Definition covers (o : nat) (s : span) : bool := Nat.leb (fst s) o && Nat.ltb o (snd s).
Definition size (s : span) : nat := snd s - fst s.
Definition min_by {A} (key : A -> nat) (l : list A) : option A :=
  match l with
  | [] => None
  | x :: l => Some (fold_left (fun best y => if Nat.ltb (key y) (key best) then y else best) l x)
  end.
(** [definition_at_position] 178-187, [reference_at] 190-199. *)
Definition definition_at_position (ix : index) (o : nat) : option definition :=
  min_by (fun d => size (d_span d)) (filter (fun d => covers o (d_span d)) (i_defs ix)).
Definition reference_at (ix : index) (o : nat) : option reference :=
  min_by (fun r => size (r_span r)) (filter (fun r => covers o (r_span r)) (i_refs ix)).
(** [definition_of], 217-226. *)
Definition definition_of (ix : index) (n : text) : option definition := find (fun d => text_eqb (d_name d) n) (i_defs ix).
(** [definition_of_target], 232-279. *)
Definition definition_of_target (ix : index) (t : target) : option definition :=
  match t with
  | TLocal i n => find (fun d => text_eqb (d_name d) n && match d_local d with Some j => Nat.eqb j i | None => false end) (i_defs ix)
  | TConstructor ty v => find (fun d => text_eqb (d_name d) v && match d_kind d with DVariant o => text_eqb o ty | _ => false end) (i_defs ix)
  | TField o n => find (fun d => text_eqb (d_name d) n && match d_kind d with DField o' => text_eqb o' o | _ => false end) (i_defs ix)
  | TOp a n => find (fun d => text_eqb (d_name d) n && match d_kind d with DOp o => text_eqb o a | _ => false end) (i_defs ix)
  | _ => definition_of ix (target_name t)
  end.
(** [definition_at], 204-211. *)
Definition definition_at (ix : index) (o : nat) : option definition :=
  match reference_at ix o with Some r => definition_of_target ix (r_target r) | None => None end.
(** [references_of], 285-294, and [references_of_target], 300-357. *)
Definition references_of (ix : index) (n : text) : list reference := filter (fun r => text_eqb (target_name (r_target r)) n) (i_refs ix).
Definition references_of_target (ix : index) (t : target) : list reference :=
  match t with
  | TLocal i n => filter (fun r => text_eqb (target_name (r_target r)) n && match target_local (r_target r) with Some j => Nat.eqb j i | None => false end) (i_refs ix)
  | TConstructor ty v => filter (fun r => match r_target r with TConstructor t' v' => text_eqb t' ty && text_eqb v' v | _ => false end) (i_refs ix)
  | TField o n => filter (fun r => match r_target r with TField o' n' => text_eqb o' o && text_eqb n' n | _ => false end) (i_refs ix)
  | TOp a n => filter (fun r => match r_target r with TOp a' n' => text_eqb a' a && text_eqb n' n | _ => false end) (i_refs ix)
  | _ => references_of ix (target_name t)
  end.
(** [target_from_definition], 387-419. *)
Definition target_from_definition (d : definition) : target :=
  match d_kind d with
  | DLocal | DParam => match d_local d with Some i => TLocal i (d_name d) | None => TUnresolved (d_name d) end
  | DFunction => TFunction (d_name d)
  | DStruct | DEnum => TType (d_name d)
  | DVariant o => TConstructor o (d_name d)
  | DAbility => TAbility (d_name d)
  | DOp o => TOp o (d_name d)
  | DField o => TField o (d_name d)
  end.
(** [references_at], 362-381. *)
Definition references_at (ix : index) (o : nat) : option (target * list reference) :=
  match reference_at ix o with
  | Some r => Some (r_target r, references_of_target ix (r_target r))
  | None =>
      match definition_at_position ix o with
      | Some d => let t := target_from_definition d in Some (t, references_of_target ix t)
      | None => None
      end
  end.
(** [can_rename], 424-443. *)
Definition can_rename (ix : index) (o : nat) : option (definition * span) :=
  let fallback := match definition_at_position ix o with Some d => Some (d, d_span d) | None => None end in
  match reference_at ix o with
  | Some r => match definition_of_target ix (r_target r) with Some d => Some (d, r_span r) | None => fallback end
  | None => fallback
  end.

(** [KEYWORDS], completion_index.rs:56-59; [validate_identifier], 865-907. *)
Definition keywords : list text := List.map list_ascii_of_string
  ["fn"; "let"; "case"; "struct"; "enum"; "ability"; "const"; "pub"; "use"; "mod"; "if"; "handle"; "as"; "True"; "False"; "Nil"]%string.
Definition between (a b c : ascii) : bool := Nat.leb (nat_of_ascii a) (nat_of_ascii c) && Nat.leb (nat_of_ascii c) (nat_of_ascii b).
Definition is_upper (c : ascii) : bool := between "A" "Z" c.
Definition is_lower (c : ascii) : bool := between "a" "z" c.
Definition is_digit (c : ascii) : bool := between "0" "9" c.
Definition is_underscore (c : ascii) : bool := if ascii_dec c "_" then true else false.
Definition validate (n : text) (k : dkind) : bool :=
  match n with
  | [] => false
  | c :: _ =>
      match k with
      | DStruct | DEnum | DVariant _ | DAbility => is_upper c
      | _ => is_lower c || is_underscore c
      end
      && forallb (fun c => is_upper c || is_lower c || is_digit c || is_underscore c) n
      && negb (existsb (text_eqb n) keywords)
  end.

(** server.rs: [rename], 353-418; the ranges to replace with the new name, the definition first. *)
Definition rename (n : node) (o : nat) (new : text) : option (list span) :=
  let ix := build n in
  match can_rename ix o with
  | Some (d, _) =>
      if validate new (d_kind d) then Some (d_span d :: List.map r_span (references_of_target ix (target_from_definition d))) else None
  | None => None
  end.
(** [prepare_rename], 321-350. *)
Definition prepare_rename (n : node) (o : nat) : option (span * text) :=
  match can_rename (build n) o with Some (d, s) => Some (s, d_name d) | None => None end.
(** [goto_definition], 239-272. *)
Definition goto_definition (n : node) (o : nat) : option span := option_map d_span (definition_at (build n) o).
(** [find_references], 274-319. *)
Definition find_references (n : node) (o : nat) (include : bool) : option (list span) :=
  let ix := build n in
  match references_at ix o with
  | Some (t, refs) =>
      Some ((if include then match definition_of_target ix t with Some d => [d_span d] | None => [] end else []) ++ List.map r_span refs)
  | None => None
  end.
