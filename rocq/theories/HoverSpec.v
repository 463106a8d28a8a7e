(** What someone who hovers relies on. *)
From Verif Require Export HoverModel.

Section Hover.
  Variable place : nat -> nat * nat.
  Definition covers (offset : nat) (x : node) : Prop := fst (place (node_id x)) <= offset < snd (place (node_id x)).

  (** [y] is [x] or below it, and every node on the way lies under the cursor. *)
  Inductive under (offset : nat) : node -> node -> Prop :=
  | UHere x : covers offset x -> under offset x x
  | UBelow x c y : covers offset x -> In c (node_children x) -> under offset c y -> under offset x y.
  (** No smaller part lies under the cursor. *)
  Definition innermost (offset : nat) (x y : node) : Prop := under offset x y /\ forall c, In c (node_children y) -> ~ covers offset c.

  (** Source text is nested: parts lie within the whole and apart from each other; a
      variable, literal, constructor or pattern is longer than its parts. *)
  Definition within (x c : node) : Prop :=
    fst (place (node_id x)) <= fst (place (node_id c)) /\ snd (place (node_id c)) <= snd (place (node_id x)) /\
    (entered (node_kind x) <> None -> snd (place (node_id c)) - fst (place (node_id c)) < snd (place (node_id x)) - fst (place (node_id x))).
  Definition apart (l : list node) : Prop := forall offset i j a b, nth_error l i = Some a -> nth_error l j = Some b -> covers offset a -> covers offset b -> i = j.
  Inductive well_nested : node -> Prop :=
  | WellNested x : (forall c, In c (node_children x) -> within x c /\ well_nested c) -> apart (node_children x) -> well_nested x.
  Definition well_placed (bodies : list node) : Prop := (forall x, In x bodies -> well_nested x) /\ apart bodies.

  (** The types the checker gave to the nodes.  A constructor with arguments is a
      function to the type of the expression. *)
  Variable truth : nat -> ty.
  Definition typed (x : node) : Prop :=
    match node_kind x with
    | KVar t | KRecord t => truth (node_id x) = t
    | KNatLit => truth (node_id x) = TNat
    | KIntLit => truth (node_id x) = TInt
    | KFloatLit => truth (node_id x) = TFloat
    | KStringLit => truth (node_id x) = TString
    | KBytesLit => truth (node_id x) = TBytes
    | KBoolLit => truth (node_id x) = TBool
    | KNil => truth (node_id x) = TNil
    | KRuneLit => truth (node_id x) = TRune
    | KCons c => match node_children x with [] => truth (node_id x) = c | cs => c = TFn (List.map (fun y => truth (node_id y)) cs) (truth (node_id x)) end
    | _ => True
    end.

  (** Expressions without parts, and records. *)
  Definition plain (x : node) : Prop :=
    match node_kind x with
    | KVar _ | KRecord _ | KNatLit | KIntLit | KFloatLit | KStringLit | KBytesLit | KBoolLit | KNil | KRuneLit => True
    | KCons _ => node_children x = []
    | _ => False
    end.
  Inductive all_typed : node -> Prop := AllTyped x : typed x -> (forall c, In c (node_children x) -> all_typed c) -> all_typed x.
  (** What is shown: the type and the range. *)
  Definition shown (index : list entry) (offset : nat) : option (ty * (nat * nat)) :=
    match type_at index offset with Some e => Some (e_ty e, (e_start e, e_end e)) | None => None end.
End Hover.
