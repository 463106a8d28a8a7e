(** The same operations under other references, and which operations can be printed so that they can be built again. *)
From Verif Require Export BuildModel AliasSpec OpTextSpec.

(** Values and blocks replaced. *)
Section Rename.
  Variables f g : N -> N.
  Fixpoint rename (o : op) : op :=
    match o with Op results d n operands succs attrs rtypes regions => Op (map f results) d n (map f operands) (map g succs) attrs rtypes (map rename_region regions) end
  with rename_region (r : region) : region := match r with Region blocks => Region (map rename_block blocks) end
  with rename_block (b : block) : block := match b with Block b args ops => Block (g b) (map (fun a => (f (fst a), snd a)) args) (map rename ops) end.
End Rename.

(** The values and blocks that an operation defines, with all that is nested in it. *)
Definition op_results (o : op) : list N := match o with Op results _ _ _ _ _ _ _ => results end.
Fixpoint op_values (o : op) : list N := match o with Op results _ _ _ _ _ _ regions => results ++ flat_map region_values regions end
with region_values (r : region) : list N := match r with Region blocks => flat_map block_values blocks end
with block_values (b : block) : list N := match b with Block _ args ops => map fst args ++ flat_map op_values ops end.
Fixpoint op_blocks (o : op) : list N := match o with Op _ _ _ _ _ _ _ regions => flat_map region_blocks regions end
with region_blocks (r : region) : list N := match r with Region blocks => flat_map block_blocks blocks end
with block_blocks (b : block) : list N := match b with Block b _ ops => b :: flat_map op_blocks ops end.

(** Lists of operations that differ only in the choice of references. *)
Definition one_to_one (f : N -> N) (l : list N) : Prop := forall x y, In x l -> In y l -> f x = f y -> x = y.
Definition isomorphic (a b : list op) : Prop :=
  exists f g, one_to_one f (flat_map op_values a) /\ one_to_one g (flat_map op_blocks a) /\ b = map (rename f g) a.

(** Scoping in the order of the text: operands are results and arguments that come earlier, in the block itself, in an earlier block of the region or
    around the region; successors are blocks of the region.  A lone block without arguments is printed without its label, so nothing may refer to it, and
    it must not be empty. *)
Definition named_labels (blocks : list block) : list N := match blocks with [Block _ [] _] => [] | _ => map block_name blocks end.
Definition not_lost (blocks : list block) : Prop := match blocks with [Block _ [] []] => False | _ => True end.
Inductive op_scoped : list N -> list N -> op -> Prop :=
| scoped_op env labs results d n operands succs attrs rtypes regions :
    incl operands env -> incl succs labs -> Forall (region_scoped env) regions -> op_scoped env labs (Op results d n operands succs attrs rtypes regions)
with region_scoped : list N -> region -> Prop :=
| scoped_region env blocks : not_lost blocks -> blocks_scoped env (named_labels blocks) blocks -> region_scoped env (Region blocks)
with blocks_scoped : list N -> list N -> list block -> Prop :=
| scoped_no_block env labs : blocks_scoped env labs []
| scoped_block env labs b args ops l :
    ops_scoped (map fst args ++ env) labs ops -> blocks_scoped (flat_map op_results ops ++ map fst args ++ env) labs l -> blocks_scoped env labs (Block b args ops :: l)
with ops_scoped : list N -> list N -> list op -> Prop :=
| scoped_no_op env labs : ops_scoped env labs []
| scoped_ops env labs o l : op_scoped env labs o -> ops_scoped (op_results o ++ env) labs l -> ops_scoped env labs (o :: l).

(** Generic operations all the way down, with as many result types as results, and attribute maps in order. *)
Inductive generic : op -> Prop :=
| generic_op results d n operands succs attrs rtypes regions :
    is_op d n "func" "func" = false -> is_op d n "core" "module" = false -> List.length results = List.length rtypes -> Forall plain rtypes ->
    Forall (fun kv => plain_attr (snd kv)) attrs -> StronglySorted below (map fst attrs) -> Forall generic_region regions ->
    generic (Op results d n operands succs attrs rtypes regions)
with generic_region : region -> Prop :=
| generic_blocks blocks : Forall generic_block blocks -> generic_region (Region blocks)
with generic_block : block -> Prop :=
| generic_ops b args ops : Forall (fun a => plain (snd a)) args -> Forall generic ops -> generic_block (Block b args ops).

(** What may stand in a module: an operation without results, or a function whose type is that of its signature. *)
Definition body_types (blocks : list block) : list ty := match blocks with Block _ args _ :: _ => map snd args | [] => [] end.
Definition entry_full (blocks : list block) : Prop := match blocks with [Block _ _ []] => False | _ => True end.
Inductive top_level : op -> Prop :=
| top_generic d n operands succs attrs rtypes regions : generic (Op [] d n operands succs attrs rtypes regions) -> op_scoped [] [] (Op [] d n operands succs attrs rtypes regions) ->
    top_level (Op [] d n operands succs attrs rtypes regions)
| top_declared attrs r ps :
    Forall (fun kv => plain_attr (snd kv)) attrs -> StronglySorted below (map fst attrs) ->
    (attr_at (lit "sym_name") attrs = None \/ exists s, attr_at (lit "sym_name") attrs = Some (Symbol s)) ->
    attr_at (lit "type") attrs = Some (Type_ (Ty (lit "core") (lit "func") (r :: ps) [])) ->
    top_level (Op [] (lit "func") (lit "func") [] [] attrs [] [])
| top_function attrs blocks :
    Forall (fun kv => plain_attr (snd kv)) attrs -> StronglySorted below (map fst attrs) ->
    (attr_at (lit "sym_name") attrs = None \/ exists s, attr_at (lit "sym_name") attrs = Some (Symbol s)) ->
    ((exists r, attr_at (lit "type") attrs = Some (Type_ (Ty (lit "core") (lit "func") (r :: body_types blocks) []))) \/ (attr_at (lit "type") attrs = None /\ body_types blocks = [])) ->
    entry_full blocks -> Forall generic_block blocks -> blocks_scoped [] (map block_name blocks) blocks ->
    top_level (Op [] (lit "func") (lit "func") [] [] attrs [] [Region blocks]).
