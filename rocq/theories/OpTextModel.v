(** Printing and parsing of whole operations.
    Models crates/trunk-ir/src/printer.rs:240-300 and 706-910 (print_operation, print_generic_op, print_region, print_region_eliding_entry,
    print_module_op), crates/trunk-ir/src/dialect/func.rs:66-250 (print_func, parse_func) and crates/trunk-ir/src/parser/raw.rs:114-150 and
    440-712 (result_list, operand_list, type_annotation, func_params, successor_list, raw_operation, raw_block, raw_region).
    The printer's numbering of values and blocks is a separate pass (BuildModel.v): here values and blocks already are the numbers they are
    printed with.  Nested modules and the other custom formats are not modelled; the parser asks [custom] for them. *)
From Verif Require Export TextModel.

Inductive op := Op (results : list N) (dialect name : text) (operands : list N) (succs : list N) (attrs : list (text * attr)) (rtypes : list ty) (regions : list region)
with region := Region (blocks : list block)
with block := Block (label : N) (args : list (N * ty)) (ops : list op).

(** RawOperation, RawRegion, RawBlock (raw.rs:28-72). *)
Inductive raw_op := RawOp (results : list text) (dialect name : text) (sym : option text) (params : list (text * ty)) (ret : option ty) (operands : list text)
  (attrs : list (text * attr)) (rtypes : list ty) (regions : list raw_region) (succs : list text)
with raw_region := RawRegion (aliases : list (text * ty)) (blocks : list raw_block)
with raw_block := RawBlock (label : text) (args : list (text * ty)) (ops : list raw_op).

Definition text_eqb (a b : text) : bool := if list_eq_dec N.eq_dec a b then true else false.
Definition is_op (d n : text) (d' n' : string) : bool := text_eqb d (lit d') && text_eqb n (lit n').

(** ** The printer *)
Definition spaces (n : nat) : text := repeat 32%N n.
Definition nl : text := [10%N].
Definition value (v : N) : text := ch "%" :: write_uint v.
Definition label (b : N) : text := lit "^bb" ++ write_uint b.
Definition comma (l : list text) : text := join (lit ", ") l.
(** [attributes.get_symbol(key)] and [get_type(key)]: the attribute if it has that kind. *)
Definition find_attr (key : text) (l : list (text * attr)) : option attr := option_map snd (find (fun kv => text_eqb (fst kv) key) l).

Section Print.
  Variable alias : ty -> option text.
  Variable show : N -> text.
  Variable finite : N -> bool.
  Local Notation wtype := (write_type alias show finite).
  Local Notation wattr := (write_attr alias show finite).
  Definition write_entries (l : list (text * attr)) : text := comma (map (fun kv => fst kv ++ lit " = " ++ wattr (snd kv)) l).
  Definition write_arg (a : N * ty) : text := value (fst a) ++ lit ": " ++ wtype (snd a).
  Definition write_args (l : list (N * ty)) : text := ch "(" :: comma (map write_arg l) ++ lit ")".
  (** Everything of a generic operation but its regions, printer.rs:738-804. *)
  Definition write_head (o : op) : text :=
    match o with
    | Op results d n operands succs attrs rtypes _ =>
        match results with [] => [] | _ => comma (map value results) ++ lit " = " end
        ++ d ++ ch "." :: n
        ++ match operands with [] => [] | _ => ch " " :: comma (map value operands) end
        ++ match succs with [] => [] | _ => lit " [" ++ comma (map label succs) ++ lit "]" end
        ++ match attrs with [] => [] | _ => lit " {" ++ write_entries attrs ++ lit "}" end
        ++ match rtypes with [] => [] | _ => lit " : " ++ comma (map wtype rtypes) end
    end.
  (** The signature of [print_func], func.rs:66-160: the symbol, the parameters (of the entry block, or of the type), the result and the other attributes. *)
  Definition func_type (attrs : list (text * attr)) : option (ty * list ty) :=
    match find_attr (lit "type") attrs with
    | Some (Type_ (Ty d n (r :: ps) _)) => if is_op d n "core" "func" then Some (r, ps) else None
    | _ => None
    end.
  Definition func_name (attrs : list (text * attr)) : text :=
    match find_attr (lit "sym_name") attrs with Some (Symbol s) => ch " " :: write_symbol s | _ => [] end.
  Definition entry_args (r : region) : list (N * ty) := match r with Region (Block _ args _ :: _) => args | _ => [] end.
  Definition write_signature (attrs : list (text * attr)) (regions : list region) : text :=
    func_name attrs
    ++ match regions with
       | r :: _ => write_args (entry_args r)
       | [] =>
           match func_type attrs with
           | Some (_, ps) => ch "(" :: comma (map (fun ip => lit "%arg" ++ write_uint (fst ip) ++ lit ": " ++ wtype (snd ip)) (combine (map N.of_nat (seq 0 (List.length ps))) ps)) ++ lit ")"
           | None => lit "()"
           end
       end
    ++ match func_type attrs with Some (r, _) => lit " -> " ++ wtype r | None => [] end
    ++ match filter (fun kv => negb (text_eqb (fst kv) (lit "sym_name")) && negb (text_eqb (fst kv) (lit "type"))) attrs with
       | [] => []
       | l => lit " attributes {" ++ write_entries l ++ lit "}"
       end.
  Definition blank_after (last : bool) : text := if last then [] else nl.
  (** [print_operation], [print_region], [print_region_eliding_entry]. *)
  Fixpoint write_op (indent : nat) (o : op) : text :=
    match o with
    | Op results d n operands succs attrs rtypes regions =>
        if is_op d n "func" "func" then
          spaces indent ++ lit "func.func" ++ write_signature attrs regions
          ++ match regions with
             | Region blocks :: _ =>
                 lit " {" ++ nl
                 ++ match blocks with
                    | [Block _ _ ops] => concat (map (write_op (indent + 4)) ops)
                    | _ =>
                        (fix go (first : bool) (l : list block) : text :=
                           match l with
                           | [] => []
                           | Block b args ops :: l =>
                               spaces (indent + 2) ++ label b ++ (if first then [] else match args with [] => [] | _ => write_args args end) ++ lit ":" ++ nl
                               ++ concat (map (write_op (indent + 4)) ops) ++ go false l
                           end) true blocks
                    end
                 ++ spaces indent ++ lit "}" ++ nl
             | [] => nl
             end
        else
          spaces indent ++ write_head o ++ concat (map (write_region indent) regions) ++ nl
    end
  with write_region (indent : nat) (r : region) : text :=
    match r with
    | Region blocks =>
        lit " {" ++ nl
        ++ match blocks with
           | [Block _ [] ops] => concat (map (write_op (indent + 4)) ops)
           | _ =>
               (fix go (l : list block) : text :=
                  match l with
                  | [] => []
                  | Block b args ops :: l =>
                      spaces (indent + 2) ++ label b ++ match args with [] => [] | _ => write_args args end ++ lit ":" ++ nl
                      ++ concat (map (write_op (indent + 4)) ops) ++ blank_after (match l with [] => true | _ => false end) ++ go l
                  end) blocks
           end
        ++ spaces indent ++ lit "}"
    end.
  (** [print_module_op] with the definitions of the aliases already chosen, and the operations of its blocks one after the other. *)
  Definition write_module (name : option text) (header : text) (ops : list op) : text :=
    lit "core.module" ++ match name with Some s => ch " " :: write_symbol s | None => [] end ++ lit " {" ++ nl ++ header ++ concat (map (write_op 2) ops) ++ lit "}" ++ nl.
End Print.
(** The alias definitions of [print_module_op], printer.rs:914-951, each with the aliases in use when it is printed. *)
Definition write_def (show : N -> text) (finite : N -> bool) (def : text * (ty -> option text) * ty) : text :=
  match def with (name, known, t) => spaces 2 ++ write_alias_name name ++ lit " = " ++ write_type known show finite t ++ nl end.
Definition write_defs (show : N -> text) (finite : N -> bool) (defs : list (text * (ty -> option text) * ty)) : text :=
  match defs with [] => [] | _ => concat (map (write_def show finite) defs) ++ nl end.

(** ** The parsers *)
(** raw.rs:114-150. *)
Definition value_ref : parser text := _ <~ tok (ch "%") ;; take_while1 word.
Definition block_label : parser text := _ <~ tok (ch "^") ;; take_while1 word.
(** 444-500. *)
Definition result_list (fuel : nat) : parser (list text) := l <~ separated1 fuel (spaced value_ref) ;; _ <~ ws ;; _ <~ tok (ch "=") ;; ret l.
Definition operand_list (fuel : nat) : parser (list text) := separated1 fuel (spaced value_ref).
Definition successor_list (fuel : nat) : parser (list text) :=
  _ <~ tok (ch "[") ;; _ <~ ws ;; l <~ separated1 fuel (spaced block_label) ;; _ <~ ws ;; _ <~ tok (ch "]") ;; ret l.
Definition empty_parens : parser unit := _ <~ tok (ch "(") ;; _ <~ ws ;; tok (ch ")").
(** Repetition of [step] until [stop] holds after skipping blanks. *)
Fixpoint many {A} (fuel : nat) (stop : text -> bool) (step : parser A) : parser (list A) :=
  match fuel with
  | O => fun _ => Out
  | S fuel => _ <~ ws ;; fun i => if stop i then Ok [] i else (a <~ step ;; pmap (cons a) (many fuel stop step)) i
  end.
(** [is_type_alias_def], 636-659.  The blanks of [trim_start] other than those of [ws] are not modelled. *)
Fixpoint after_quote (i : text) : option text := match i with [] => None | c :: r => if (c =? 34)%N then Some r else after_quote r end.
Definition is_alias_def (i : text) : bool :=
  match i with
  | c :: r =>
      if (c =? ch "!")%N then
        match (if starts 34 r then after_quote (List.tl r) else let (a, b) := span word r in match a with [] => None | _ => Some b end) with
        | Some r => starts (ch "=") (snd (span space r))
        | None => false
        end
      else false
  | [] => false
  end.

Section Parse.
  Variable read : text -> option N.
  Variable custom : text -> text -> option (list text -> option text -> parser raw_op).   (* the other registered formats *)
  (** 458-490. *)
  Definition type_annotation (fuel : nat) : parser (list ty) := _ <~ ws ;; _ <~ tok (ch ":") ;; _ <~ ws ;; separated1 fuel (spaced (raw_type read fuel)).
  Definition func_params (fuel : nat) : parser (list (text * ty)) :=
    _ <~ tok (ch "(") ;; _ <~ ws ;;
    l <~ separated0 fuel (_ <~ ws ;; v <~ value_ref ;; _ <~ ws ;; _ <~ tok (ch ":") ;; _ <~ ws ;; t <~ raw_type read fuel ;; _ <~ ws ;; ret (v, t)) ;;
    _ <~ ws ;; _ <~ tok (ch ")") ;; ret l.
  Definition return_type (fuel : nat) : parser ty := _ <~ ws ;; _ <~ tok (ch "-") ;; _ <~ tok (ch ">") ;; _ <~ ws ;; raw_type read fuel.
  Definition attr_dict (fuel : nat) : parser (list (text * attr)) := dict fuel (raw_attr read fuel).
  Definition type_alias_def (fuel : nat) : parser (text * ty) :=
    _ <~ tok (ch "!") ;; n <~ type_alias_name ;; _ <~ ws ;; _ <~ tok (ch "=") ;; _ <~ ws ;; t <~ raw_type read fuel ;; ret (n, t).
  Fixpoint alias_defs (fuel : nat) : parser (list (text * ty)) :=
    match fuel with
    | O => fun _ => Out
    | S fuel => fun i => if is_alias_def i then (a <~ type_alias_def fuel ;; _ <~ ws ;; pmap (cons a) (alias_defs fuel)) i else Ok [] i
    end.
  Definition default {A} (o : option (list A)) : list A := match o with Some l => l | None => [] end.
  (** Regions follow while there is an opening brace. *)
  Fixpoint regions_loop (fuel : nat) (p : parser raw_region) : parser (list raw_region) :=
    match fuel with
    | O => fun _ => Out
    | S fuel => _ <~ ws ;; fun i => if starts (ch "{") i then (a <~ p ;; pmap (cons a) (regions_loop fuel p)) i else Ok [] i
    end.
  (** Between the name of an operation and its regions: 535-575.  A failing alternative leaves the input where it was. *)
  Definition params_or_operands (fuel : nat) : parser (list (text * ty) * list text) := fun i =>
    if starts (ch "(") i then
      match func_params fuel i with
      | Ok ps r => Ok (ps, []) r
      | Fail => match empty_parens i with Ok _ r => Ok ([], []) r | Fail => Ok ([], []) i | Out => Out end
      | Out => Out
      end
    else if starts (ch "%") i then pmap (fun o => ([], default o)) (opt (operand_list fuel)) i
    else Ok ([], []) i.
  Fixpoint operation (fuel : nat) : parser raw_op :=
    match fuel with
    | O => fun _ => Out
    | S fuel =>
        _ <~ ws ;;
        results <~ opt (result_list fuel) ;;
        _ <~ ws ;;
        dn <~ qualified_name ;;
        sym <~ opt (_ <~ ws ;; symbol_ref) ;;
        if is_op (fst dn) (snd dn) "func" "func" then
          (* [parse_func] *)
          _ <~ ws ;;
          params <~ (fun i => if starts (ch "(") i then func_params fuel i else Ok [] i) ;;
          ret_ty <~ opt (return_type fuel) ;;
          attrs <~ opt (_ <~ ws ;; _ <~ word_lit (lit "attributes") ;; _ <~ ws ;; attr_dict fuel) ;;
          _ <~ ws ;;
          regions <~ (fun i => if starts (ch "{") i then pmap (fun r => [r]) (region_ fuel) i else Ok [] i) ;;
          ret (RawOp (default results) (lit "func") (lit "func") sym params ret_ty [] (default attrs) [] regions [])
        else
          match custom (fst dn) (snd dn) with
          | Some p => p (default results) sym
          | None =>
              _ <~ ws ;;
              po <~ params_or_operands fuel ;;
              succs <~ opt (_ <~ ws ;; successor_list fuel) ;;
              ret_ty <~ opt (return_type fuel) ;;
              attrs <~ opt (_ <~ ws ;; attr_dict fuel) ;;
              rtypes <~ opt (type_annotation fuel) ;;
              regions <~ regions_loop fuel (region_ fuel) ;;
              ret (RawOp (default results) (fst dn) (snd dn) sym (fst po) ret_ty (snd po) (default attrs) (default rtypes) regions (default succs))
          end
    end
  with block_ (fuel : nat) : parser raw_block :=
    match fuel with
    | O => fun _ => Out
    | S fuel =>
        _ <~ ws ;;
        l <~ block_label ;;
        args <~ opt (func_params fuel) ;;
        _ <~ ws ;; _ <~ tok (ch ":") ;;
        ops <~ many fuel (fun i => starts (ch "^") i || starts (ch "}") i || match i with [] => true | _ => false end) (operation fuel) ;;
        ret (RawBlock l (default args) ops)
    end
  with region_ (fuel : nat) : parser raw_region :=
    match fuel with
    | O => fun _ => Out
    | S fuel =>
        _ <~ tok (ch "{") ;; _ <~ ws ;;
        aliases <~ alias_defs fuel ;;
        blocks <~ (fun i =>
          if starts (ch "^") i then many fuel (starts (ch "}")) (block_ fuel) i
          else if starts (ch "}") i then Ok [] i
          else pmap (fun ops => [RawBlock (lit "bb0") [] ops]) (many fuel (fun i => starts (ch "}") i || match i with [] => true | _ => false end) (operation fuel)) i) ;;
        _ <~ ws ;; _ <~ tok (ch "}") ;; ret (RawRegion aliases blocks)
    end.
  (** [parse_module], builder.rs:467-500, up to the building of the operation. *)
  Definition parse_text (fuel : nat) (i : text) : result raw_op :=
    match (_ <~ ws ;; o <~ operation fuel ;; _ <~ ws ;; ret o) i with
    | Ok o [] => Ok o []
    | Ok _ _ => Fail
    | Fail => Fail
    | Out => Out
    end.
End Parse.
