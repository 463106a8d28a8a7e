(** What an operation that has been printed reads back as, and when. *)
From Verif Require Export OpTextModel TextSpec.

(** A text from its first character that is not blank. *)
Definition skip (i : text) : text := snd (span space i).
Definition next (i : text) : option N := match skip i with c :: _ => Some c | [] => None end.
(** Where operations may be followed by something: another operation, a block label, a closing brace, or the end. *)
Definition follows (rest : text) : Prop :=
  skip rest = [] \/ (exists c r, skip rest = c :: r /\ (c = ch "}" \/ c = ch "^" \/ c = ch "%")) \/ (exists d r, identifier d /\ skip rest = d ++ ch "." :: r).

Section Printable.
  Variable alias : ty -> option text.
  Variable finite : N -> bool.
  Variable custom : text -> text -> option (list text -> option text -> parser raw_op).

  Definition bb (b : N) : text := lit "bb" ++ write_uint b.
  Definition arg_read (a : N * ty) : text * ty := (write_uint (fst a), abbreviated alias (snd a)).
  Definition entries_read (l : list (text * attr)) : list (text * attr) := map (fun kv => (fst kv, abbreviated_attr alias (snd kv))) l.

  (** The signature of a function: its symbol, its parameters (those of the entry block, if there is a body), and the result of its type. *)
  Fixpoint attr_at (key : text) (l : list (text * attr)) : option attr := match l with [] => None | (k, v) :: l => if text_eqb k key then Some v else attr_at key l end.
  Definition signature (attrs : list (text * attr)) : option (ty * list ty) :=
    match attr_at (lit "type") attrs with
    | Some (Type_ (Ty d n (r :: ps) _)) => if text_eqb d (lit "core") && text_eqb n (lit "func") then Some (r, ps) else None
    | _ => None
    end.
  Definition sym_read (attrs : list (text * attr)) : option text := match attr_at (lit "sym_name") attrs with Some (Symbol s) => Some s | _ => None end.
  Definition other_attrs (attrs : list (text * attr)) : list (text * attr) :=
    filter (fun kv => negb (text_eqb (fst kv) (lit "sym_name")) && negb (text_eqb (fst kv) (lit "type"))) attrs.
  Definition params_read (attrs : list (text * attr)) (regions : list region) : list (text * ty) :=
    match regions with
    | r :: _ => match r with Region (Block _ args _ :: _) => map arg_read args | _ => [] end
    | [] => match signature attrs with
            | Some (_, ps) => map (fun ip => (lit "arg" ++ write_uint (fst ip), abbreviated alias (snd ip))) (combine (map N.of_nat (seq 0 (List.length ps))) ps)
            | None => []
            end
    end.
  Definition ret_read (attrs : list (text * attr)) : option ty := option_map (fun rp => abbreviated alias (fst rp)) (signature attrs).

  (** A single block without arguments loses its label and, without operations, itself. *)
  Fixpoint reread (o : op) : raw_op :=
    match o with
    | Op results d n operands succs attrs rtypes regions =>
        if is_op d n "func" "func" then
          RawOp [] d n (sym_read attrs) (params_read attrs regions) (ret_read attrs) [] (entries_read (other_attrs attrs)) []
            match regions with
            | [] => []
            | Region blocks :: _ =>
                [RawRegion []
                   match blocks with
                   | [] => []
                   | [Block _ _ []] => []
                   | [Block _ _ ops] => [RawBlock (lit "bb0") [] (map reread ops)]
                   | Block b _ ops :: l => RawBlock (bb b) [] (map reread ops) :: map (fun b => match b with Block b args ops => RawBlock (bb b) (map arg_read args) (map reread ops) end) l
                   end]
            end []
        else
          RawOp (map write_uint results) d n None [] None (map write_uint operands) (entries_read attrs) (map (abbreviated alias) rtypes) (map reread_region regions) (map bb succs)
    end
  with reread_region (r : region) : raw_region :=
    match r with
    | Region blocks =>
        RawRegion []
          match blocks with
          | [Block _ [] []] => []
          | [Block _ [] ops] => [RawBlock (lit "bb0") [] (map reread ops)]
          | l => map (fun b => match b with Block b args ops => RawBlock (bb b) (map arg_read args) (map reread ops) end) l
          end
    end.

  (** Nothing but a name is printed. *)
  Definition bare (o : op) : Prop :=
    match o with Op results d n operands succs attrs rtypes regions => is_op d n "func" "func" = false /\ operands = [] /\ succs = [] /\ attrs = [] /\ rtypes = [] /\ regions = [] end.
  Definition has_results (o : op) : Prop := match o with Op results d n _ _ _ _ _ => is_op d n "func" "func" = false /\ results <> [] end.
  (** An operation that prints as a mere name must not be followed by one that starts with its results: they would be taken for operands. *)
  Fixpoint calm (l : list op) : Prop :=
    match l with
    | o :: l => match l with o' :: _ => bare o -> ~ has_results o' | [] => True end /\ calm l
    | [] => True
    end.
  Definition nothing_in (r : region) : Prop := match r with Region [] => True | Region [Block _ [] []] => True | _ => False end.
  (** A type after which braces would be read as its attributes. *)
  Definition open_type (t : ty) : Prop := match t with Ty d n ps ats => alias t = None /\ ps <> [] /\ ats = [] | Alias _ => False end.
  Definition keeps_region (attrs : list (text * attr)) (rtypes : list ty) (regions : list region) : Prop :=
    forall r l, regions = r :: l -> nothing_in r -> (rtypes <> [] \/ attrs <> []) /\ forall ts t, rtypes = ts ++ [t] -> ~ open_type t.
  Definition entries_ok (l : list (text * attr)) : Prop := Forall (fun kv => dotted (fst kv) /\ attr_ok alias finite (snd kv)) l.

  (** A definition that the reader recognises: its name reads back and, where it is quoted, contains no quote. *)
  Definition def_ok (def : text * (ty -> option text) * ty) : Prop :=
    match def with (name, known, t) => alias_name name /\ (Forall name_char name \/ ~ In 34%N name) /\ type_ok known finite t end.
  Definition def_read (def : text * (ty -> option text) * ty) : text * ty := match def with (name, known, t) => (name, abbreviated known t) end.

  Inductive op_ok : op -> Prop :=
  | ok_generic results d n operands succs attrs rtypes regions :
      is_op d n "func" "func" = false -> is_op d n "core" "module" = false -> custom d n = None -> identifier d -> identifier n ->
      entries_ok attrs -> Forall (type_ok alias finite) rtypes -> Forall region_ok regions -> keeps_region attrs rtypes regions ->
      op_ok (Op results d n operands succs attrs rtypes regions)
  | ok_function results operands succs attrs rtypes regions :
      entries_ok (other_attrs attrs) ->
      (forall r ps, signature attrs = Some (r, ps) -> type_ok alias finite r /\ Forall (type_ok alias finite) ps) ->
      Forall region_ok regions ->
      (* an empty body after an open result type *)
      (forall b args l r ps, regions = Region [Block b args []] :: l -> signature attrs = Some (r, ps) -> other_attrs attrs = [] -> ~ open_type r) ->
      (forall l r ps, regions = Region [] :: l -> signature attrs = Some (r, ps) -> other_attrs attrs = [] -> ~ open_type r) ->
      op_ok (Op results (lit "func") (lit "func") operands succs attrs rtypes regions)
  with region_ok : region -> Prop :=
  | ok_region blocks : Forall block_ok blocks -> region_ok (Region blocks)
  with block_ok : block -> Prop :=
  | ok_block b args ops : Forall (fun a => type_ok alias finite (snd a)) args -> Forall op_ok ops -> calm ops -> block_ok (Block b args ops).
End Printable.
