(** The index of types behind hovering in the editor.
    Models src/lsp/type_index.rs:136-455 and the lookup of src/lsp/server.rs:207-213.

    Simplifications: expressions, patterns, statements, arms and handlers are nodes of
    one tree that keeps the order in which the collector visits them; names and values
    of literals are left out, and so is the map by node id, which the lookup does not
    use. *)
From Coq Require Export List Arith Lia Bool.
Export ListNotations.
Open Scope nat_scope.

(** Types, as far as the index makes them itself; others by a number and arguments. *)
Inductive ty := TNat | TInt | TFloat | TString | TBytes | TBool | TNil | TRune
  | TNamed (n : nat) (args : list ty) | TFn (params : list ty) (result : ty).

(** ast/expr.rs, ast/pattern.rs: the kinds of nodes and the types references carry.
    [KPart] stands for what never has an entry: statements, arms, bindings, wildcards,
    literal, tuple and list patterns, and the arm for the final value. *)
Inductive nkind :=
| KVar (t : ty) | KNatLit | KIntLit | KFloatLit | KStringLit | KBytesLit | KBoolLit | KNil | KRuneLit
| KCall | KCons (ctor : ty) | KRecord (type_name : ty) | KMethodCall | KBlock | KCase | KLambda | KHandle | KResume | KTuple | KList | KBinOp | KError
| KVariantPattern (ctor : ty) | KRecordPattern (type_name : option ty) | KOpHandler (ability : ty) | KPart.
Inductive node := Node (id : nat) (k : nkind) (children : list node).
Definition node_id (x : node) : nat := let '(Node i _ _) := x in i.
Definition node_kind (x : node) : nkind := let '(Node _ k _) := x in k.
Definition node_children (x : node) : list node := let '(Node _ _ c) := x in c.

(** 137-145 *)
Record entry := { e_id : nat; e_start : nat; e_end : nat; e_ty : ty }.

(** 254-377 and 391-455: the type with which a node is entered, if it is. *)
Definition entered (k : nkind) : option ty :=
  match k with
  | KVar t => Some t
  | KNatLit => Some TNat
  | KIntLit => Some TInt
  | KFloatLit => Some TFloat
  | KStringLit => Some TString
  | KBytesLit => Some TBytes
  | KBoolLit => Some TBool
  | KNil => Some TNil
  | KRuneLit => Some TRune
  | KCons c => Some c
  | KRecord t => Some t
  | KVariantPattern c => Some c
  | KRecordPattern t => t
  | KOpHandler a => Some a
  | KCall | KMethodCall | KBlock | KCase | KLambda | KHandle | KResume | KTuple | KList | KBinOp | KError | KPart => None
  end.

Section Index.
  (** The span map; span_map.rs:103-105, [get_or_default]. *)
  Variable spans : nat -> option (nat * nat).
  Definition span (i : nat) : nat * nat := match spans i with Some s => s | None => (0, 0) end.

  (** 222-225, [add_entry] *)
  Definition add_entry (i : nat) (t : ty) : entry := {| e_id := i; e_start := fst (span i); e_end := snd (span i); e_ty := t |}.
  (** 227-455, [collect_expr] and the others *)
  Fixpoint collect (x : node) : list entry :=
    let '(Node i k cs) := x in
    match entered k with Some t => [add_entry i t] | None => [] end ++ flat_map collect cs.

  (** 174-175: sorted by start and end; the sort is stable. *)
  Definition key_le (a b : entry) : bool := (e_start a <? e_start b) || ((e_start a =? e_start b) && (e_end a <=? e_end b)).
  Fixpoint insert (e : entry) (l : list entry) : list entry :=
    match l with [] => [e] | x :: l' => if key_le e x then e :: l else x :: insert e l' end.
  Fixpoint sort (l : list entry) : list entry := match l with [] => [] | e :: l' => insert e (sort l') end.
  (** 162-184, [build] *)
  Definition build (bodies : list node) : list entry := sort (flat_map collect bodies).
End Index.

(** [min_by_key]: the first of the smallest. *)
Fixpoint min_by_key (f : entry -> nat) (l : list entry) : option entry :=
  match l with
  | [] => None
  | e :: l' => match min_by_key f l' with Some m => if f m <? f e then Some m else Some e | None => Some e end
  end.
(** 189-206, [type_at] *)
Definition contains (e : entry) (offset : nat) : bool := (e_start e <=? offset) && (offset <? e_end e).
Definition type_at (index : list entry) (offset : nat) : option entry :=
  min_by_key (fun e => e_end e - e_start e) (filter (fun e => contains e offset) index).
