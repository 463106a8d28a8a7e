(** From operations to printed names, and from parsed text to operations.
    Models the numbering of crates/trunk-ir/src/printer.rs (PrintState:50-92, print_generic_op:732-804, print_region:814-860, print_module_op:953-966) and
    of crates/trunk-ir/src/dialect/func.rs:80-130, and crates/trunk-ir/src/parser/builder.rs:132-465 (ArenaIrBuilder).
    Values and blocks are numbers: references of the arena before printing and after building, printed numbers in between.  The builder allocates
    references in increasing order, as the arena does.  Locations are not modelled. *)
From Verif Require Export AliasModel.

Section Thread.
  Context {S A B : Type} (f : S -> A -> option (S * B)).
  Fixpoint thread (s : S) (l : list A) : option (S * list B) :=
    match l with
    | [] => Some (s, [])
    | x :: l => match f s x with Some (s, y) => match thread s l with Some (s, l) => Some (s, y :: l) | None => None end | None => None end
    end.
End Thread.

(** ** Numbering *)
Record names := { vals : list (N * N); blks : list (N * N); next_v : N; next_b : N }.
Definition reset : names := {| vals := []; blks := []; next_v := 0; next_b := 0 |}.
Definition num (l : list (N * N)) (x : N) : option N := option_map snd (find (fun e => (fst e =? x)%N) l).
Definition assign_value (st : names) (v : N) : names * N := ({| vals := (v, next_v st) :: vals st; blks := blks st; next_v := next_v st + 1; next_b := next_b st |}, next_v st).
Definition assign_label (st : names) (b : N) : names := {| vals := vals st; blks := (b, next_b st) :: blks st; next_v := next_v st; next_b := next_b st + 1 |}.
Fixpoint assign_values (st : names) (l : list N) : names * list N :=
  match l with
  | [] => (st, [])
  | v :: l => let (st, n) := assign_value st v in let (st, ns) := assign_values st l in (st, n :: ns)
  end.
Definition block_name (b : block) : N := match b with Block b _ _ => b end.
(** The operation with printed numbers in place of references.  [None]: a value or block has no name where it is used (the printer writes [%?] or
    [^bb?]), or an assertion fails. *)
Fixpoint name_op (st : names) (o : op) : option (names * op) :=
  match o with
  | Op results d n operands succs attrs rtypes regions =>
      if is_op d n "func" "func" then
        (* Numbers start again.  The arguments of the entry block are named before the labels; these are counted separately. *)
        match regions with
        | [] => Some (reset, Op [] d n [] [] attrs [] [])
        | [r] => match name_region reset r with Some (st, r) => Some (st, Op [] d n [] [] attrs [] [r]) | None => None end
        | _ => None
        end
      else
        let (st, results) := assign_values st results in
        match all_some (map (num (vals st)) operands), all_some (map (num (blks st)) succs) with
        | Some operands, Some succs =>
            match thread name_region st regions with Some (st, regions) => Some (st, Op results d n operands succs attrs rtypes regions) | None => None end
        | _, _ => None
        end
  end
with name_region (st : names) (r : region) : option (names * region) :=
  match r with
  | Region blocks => match thread name_block (fold_left assign_label (map block_name blocks) st) blocks with Some (st, bs) => Some (st, Region bs) | None => None end
  end
with name_block (st : names) (b : block) : option (names * block) :=
  match b with
  | Block b args ops =>
      let (st, ns) := assign_values st (map fst args) in
      match num (blks st) b, thread name_op st ops with
      | Some b, Some (st, ops) => Some (st, Block b (combine ns (map snd args)) ops)
      | _, _ => None
      end
  end.
(** The operations of a module: numbers start again for each. *)
Definition name_module (ops : list op) : option (list op) := all_some (map (fun o => option_map snd (name_op reset o)) ops).
(** [print_module] of a module that is not nested in another: aliases, numbers, text.  [None]: the fuel for made-up names is used up, or a value is printed
    before it has a number (the code prints [%?] or [^bb?] for it, which does not parse). *)
Definition as_known (d : text * amap * ty) : text * (ty -> option text) * ty := match d with (name, m, t) => (name, look m, t) end.
Definition print_module (complexity : ty -> N) (min_uses min_complexity : N) (show : N -> text) (finite : N -> bool) (fuel : nat)
    (aliases : list (text * ty)) (counts : list (ty * N)) (name : option text) (ops : list op) : option text :=
  match module_aliases complexity min_uses min_complexity show finite fuel aliases (initial aliases) counts, name_module ops with
  | Some (defs, m), Some ops => Some (write_module (look m) show finite name (write_defs show finite (map as_known defs)) ops)
  | _, _ => None
  end.

(** ** Building *)
Record scope := { values : list (text * N); labels : list (text * N); types : env }.
Record bstate := { sc : scope; fresh_v : N; fresh_b : N }.
Definition fetch {A} (l : list (text * A)) (k : text) : option A := option_map snd (find (fun e => text_eqb (fst e) k) l).
Definition has {A} (l : list (text * A)) (k : text) : bool := match fetch l k with Some _ => true | None => false end.
Definition with_scope (st : bstate) (s : scope) : bstate := {| sc := s; fresh_v := fresh_v st; fresh_b := fresh_b st |}.
(** Registering new values under names, 258-267 and 448-460: a name already known is an error. *)
Fixpoint register (st : bstate) (l : list text) : option (bstate * list N) :=
  match l with
  | [] => Some (st, [])
  | name :: l =>
      if has (values (sc st)) name then None
      else
        let v := fresh_v st in
        let st := {| sc := {| values := (name, v) :: values (sc st); labels := labels (sc st); types := types (sc st) |}; fresh_v := v + 1; fresh_b := fresh_b st |} in
        match register st l with Some (st, vs) => Some (st, v :: vs) | None => None end
  end.
(** [resolve_block_args], 290-342. *)
Definition block_args (e : env) (extra args : list (text * ty)) : option (list (text * ty)) :=
  match extra, args with
  | [], _ => Some args
  | _, [] => Some extra
  | _, _ =>
      if Nat.eqb (List.length args) (List.length extra) then
        match all_some (map (fun a => build_type e (snd a)) args), all_some (map (fun a => build_type e (snd a)) extra) with
        | Some l, Some l' => if forallb (fun tt => same (fst tt) (snd tt)) (combine l l') then Some args else None
        | _, _ => None
        end
      else None
  end.
(** The first pass of [build_region_inner], 190-270: labels and arguments. *)
Fixpoint create_blocks (extra : list (text * ty)) (st : bstate) (l : list (text * list (text * ty))) : option (bstate * list (N * list (N * ty))) :=
  match l with
  | [] => Some (st, [])
  | (lab, args) :: l =>
      if has (labels (sc st)) lab then None
      else
        match block_args (types (sc st)) extra args with
        | None => None
        | Some args =>
            match all_some (map (fun a => build_type (types (sc st)) (snd a)) args) with
            | None => None
            | Some ts =>
                let b := fresh_b st in
                let st := {| sc := {| values := values (sc st); labels := (lab, b) :: labels (sc st); types := types (sc st) |}; fresh_v := fresh_v st; fresh_b := b + 1 |} in
                match register st (map fst args) with
                | None => None
                | Some (st, vs) => match create_blocks [] st l with Some (st, bs) => Some (st, (b, combine vs ts) :: bs) | None => None end
                end
            end
        end
  end.
Definition build_entries (e : env) (l : list (text * attr)) : option (list (text * attr)) :=
  option_map collect (all_some (map (fun kv => option_map (fun v => (fst kv, v)) (build_attr e (snd kv))) l)).
Definition core_nil : ty := Ty (lit "core") (lit "nil") [] [].
Definition core_func (r : ty) (ps : list ty) : ty := Ty (lit "core") (lit "func") (r :: ps) [].
(** The type that a signature stands for, 383-403. *)
Definition build_signature (e : env) (params : list (text * ty)) (ret : option ty) : option (option ty) :=
  match params, ret with
  | [], None => Some None
  | _, _ =>
      match (match ret with Some t => build_type e t | None => Some core_nil end), all_some (map (fun a => build_type e (snd a)) params) with
      | Some r, Some ps => Some (Some (core_func r ps))
      | _, _ => None
      end
  end.
Definition add_opt (k : text) (v : option attr) (l : list (text * attr)) : list (text * attr) := match v with Some v => put k v l | None => l end.
(** The regions of an operation, 415-426: only the first gets the parameters of a signature. *)
Section Regions.
  Variable build : list (text * ty) -> bstate -> raw_region -> option (bstate * region).
  Fixpoint build_regions (extra : list (text * ty)) (st : bstate) (l : list raw_region) : option (bstate * list region) :=
    match l with
    | [] => Some (st, [])
    | r :: l => match build extra st r with Some (st, r) => match build_regions [] st l with Some (st, l) => Some (st, r :: l) | None => None end | None => None end
    end.
End Regions.
(** The second pass of [build_region_inner], 272-279: the operations of the blocks created in the first. *)
Section Fill.
  Variable build : bstate -> raw_op -> option (bstate * op).
  Fixpoint fill (st : bstate) (created : list (N * list (N * ty))) (l : list raw_block) {struct l} : option (bstate * list block) :=
    match l with
    | [] => Some (st, [])
    | RawBlock _ _ ops :: l =>
        match created with
        | [] => Some (st, [])
        | (b, args) :: created =>
            match thread build st ops with
            | Some (st, ops) => match fill st created l with Some (st, bs) => Some (st, Block b args ops :: bs) | None => None end
            | None => None
            end
        end
    end.
End Fill.
(** [build_operation], 347-465, and [build_region], 155-288. *)
Fixpoint build_op (st : bstate) (o : raw_op) {struct o} : option (bstate * op) :=
  match o with
  | RawOp results d n sym params ret operands attrs rtypes regions succs =>
      let s := sc st in
      match all_some (map (fetch (values s)) operands), all_some (map (build_type (types s)) rtypes), build_entries (types s) attrs, build_signature (types s) params ret,
            all_some (map (fetch (labels s)) succs) with
      | Some operands, Some rtypes, Some attrs, Some signature, Some succs =>
          let attrs := add_opt (lit "type") (option_map Type_ signature) (add_opt (lit "sym_name") (option_map Symbol sym) attrs) in
          match
            build_regions (build_region (is_op d n "core" "module")) params st regions
          with
          | Some (st, regions) =>
              if match results with [] => true | _ => Nat.eqb (List.length results) (List.length rtypes) end then
                match results with
                | [] => (* results without names are values all the same *)
                    let vs := map N.of_nat (seq (N.to_nat (fresh_v st)) (List.length rtypes)) in
                    Some ({| sc := sc st; fresh_v := fresh_v st + N.of_nat (List.length rtypes); fresh_b := fresh_b st |}, Op vs d n operands succs attrs rtypes regions)
                | _ => match register st results with Some (st, vs) => Some (st, Op vs d n operands succs attrs rtypes regions) | None => None end
                end
              else None
          | None => None
          end
      | _, _, _, _, _ => None
      end
  end
with build_region (is_module : bool) (extra : list (text * ty)) (st : bstate) (r : raw_region) {struct r} : option (bstate * region) :=
  match r with
  | RawRegion defs blocks =>
      let saved := sc st in
      if match defs with [] => false | _ => negb is_module end then None
      else
        match build_defs (types saved) defs with
        | None => None
        | Some e =>
            match create_blocks extra (with_scope st {| values := values saved; labels := []; types := e |}) (map (fun b => match b with RawBlock lab args _ => (lab, args) end) blocks) with
            | None => None
            | Some (st, created) =>
                match fill build_op st created blocks with
                | Some (st, bs) => Some (with_scope st saved, Region bs)
                | None => None
                end
            end
        end
  end.
(** [parse_module], 469-510: the text of a module to an operation, in an arena that has allocated so much. *)
Definition parse_module (read : text -> option N) (custom : text -> text -> option (list text -> option text -> parser raw_op)) (fuel : nat) (fresh_v fresh_b : N) (i : text) : option op :=
  match parse_text read custom fuel i with
  | Ok o _ => option_map snd (build_op {| sc := {| values := []; labels := []; types := [] |}; fresh_v := fresh_v; fresh_b := fresh_b |} o)
  | _ => None
  end.
(** The attribute that records the name of an argument, 228-240: none for the name [argN] in position N. *)
Definition parse_usize (s : text) : option N :=
  let digits := match s with c :: r => if (c =? 43)%N then r else s | [] => s end in
  match digits with
  | [] => None
  | _ => if forallb digit digits && (number digits <? 2 ^ 64)%N then Some (number digits) else None
  end.
Definition bind_name (j : N) (name : text) : option text :=
  match name with
  | 97 :: 114 :: 103 :: rest => match parse_usize rest with Some n => if (n =? j)%N then None else Some name | None => Some name end
  | _ => Some name
  end%N.
