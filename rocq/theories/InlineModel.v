(** Function inlining.  crates/trunk-ir/src/transforms/inline.rs, with clone_op and clone_region of context.rs:703-815 and the traversal of
    rewrite/applicator.rs:195-340.

    A module is the list of its functions; operations form trees (C15-C17 relate the arena to trees).  Values are numbers, and new values get the next
    ones, as in the arena.  Symbols are numbers.  Of an operation that is no call, return or function reference, its dialect, name and attributes are
    given by a number.  Types, locations and successors are not modelled (a region with several blocks is only cloned or refused here). *)
From Verif Require Export CallGraphModel.
From Coq Require Export NArith.
Local Open Scope N_scope.

Inductive kind := Call (callee : N) | TailCall (callee : N) | Return | Constant (func_ref : N) | Other (k : N).
Inductive op := Op (results : list N) (k : kind) (operands : list N) (regions : list region)
with region := Region (blocks : list block)
with block := Block (args : list N) (ops : list op).
Record func := { name : N; abi : bool; regions_of : list region }.

(** [IrMapping]: lookup_value_or_default. *)
Definition mapping := list (N * N).
Definition look (m : mapping) (v : N) : N := match find (fun e => fst e =? v) m with Some e => snd e | None => v end.
Definition fresh (next : N) (n : nat) : list N := map (fun i => next + N.of_nat i) (seq 0 n).

(** ** Cloning *)
Section CloneList.
  Context {A : Type} (clone : N -> mapping -> A -> N * mapping * A).
  Fixpoint clone_list (next : N) (m : mapping) (l : list A) : N * mapping * list A :=
    match l with
    | [] => (next, m, [])
    | x :: l => let '(next, m, x) := clone next m x in let '(next, m, l) := clone_list next m l in (next, m, x :: l)
    end.
End CloneList.
(** First pass of [clone_region]: the arguments of all blocks. *)
Fixpoint clone_args (next : N) (m : mapping) (l : list block) : N * mapping * list (list N) :=
  match l with
  | [] => (next, m, [])
  | Block args _ :: l =>
      let new := fresh next (List.length args) in
      let '(next, m, rest) := clone_args (next + N.of_nat (List.length args)) (combine args new ++ m) l in (next, m, new :: rest)
  end.
Section CloneBlocks.
  Variable clone : N -> mapping -> op -> N * mapping * op.
  (** Second pass: the operations. *)
  Fixpoint clone_blocks (next : N) (m : mapping) (l : list block) (argss : list (list N)) : N * mapping * list block :=
    match l, argss with
    | Block _ ops :: l, args :: argss =>
        let '(next, m, ops) := clone_list clone next m ops in let '(next, m, l) := clone_blocks next m l argss in (next, m, Block args ops :: l)
    | _, _ => (next, m, [])
    end.
End CloneBlocks.
Fixpoint clone_op (next : N) (m : mapping) (o : op) : N * mapping * op :=
  match o with
  | Op results k operands regions =>
      let operands := map (look m) operands in
      let '(next, m, regions) := clone_list clone_region next m regions in
      let new := fresh next (List.length results) in
      (next + N.of_nat (List.length results), combine results new ++ m, Op new k operands regions)
  end
with clone_region (next : N) (m : mapping) (r : region) : N * mapping * region :=
  match r with
  | Region blocks =>
      let '(next, m, argss) := clone_args next m blocks in
      let '(next, m, blocks) := clone_blocks clone_op next m blocks argss in (next, m, Region blocks)
  end.

(** ** Splicing *)
Fixpoint split_last {A} (l : list A) : option (list A * A) :=
  match l with
  | [] => None
  | x :: l => match split_last l with Some (i, y) => Some (x :: i, y) | None => Some ([], x) end
  end.
(** [splice_callee_body_before], inline.rs:115-185: the clones to insert and the values returned.  [None]: one of the errors. *)
Definition splice (next : N) (callee : func) (operands : list N) : option (N * list op * list N) :=
  match regions_of callee with
  | Region [Block params ops] :: _ =>
      if Nat.eqb (List.length params) (List.length operands) then
        match split_last ops with
        | Some (body, Op _ Return rets _) =>
            let '(next, m, pre) := clone_list clone_op next (combine params operands) body in Some (next, pre, map (look m) rets)
        | _ => None
        end
      else None
  | _ => None
  end.
Definition lookup (p : list func) (f : N) : option func := find (fun x => name x =? f) p.

(** ** One iteration of the pattern, applicator.rs:262-340 and inline.rs:388-448 *)
(** Operations within a block are visited in the order they had before; clones are not visited in the same iteration.  The results of an inlined call
    are replaced everywhere; they can be used only in what follows, where the model replaces them as it goes: [sub]. *)
Section Visit.
  Variable pick : N -> bool.      (* [should_inline] *)
  Variable p : list func.
  Section List.
    Variable visit : mapping -> N -> op -> N * nat * list op * mapping.
    Fixpoint visit_ops (sub : mapping) (next : N) (l : list op) : N * nat * list op :=
      match l with
      | [] => (next, O, [])
      | o :: l => let '(next, c, o, sub) := visit sub next o in let '(next, c', l) := visit_ops sub next l in (next, (c + c')%nat, o ++ l)
      end.
    Fixpoint visit_blocks (sub : mapping) (next : N) (l : list block) : N * nat * list block :=
      match l with
      | [] => (next, O, [])
      | Block args ops :: l =>
          let '(next, c, ops) := visit_ops sub next ops in let '(next, c', l) := visit_blocks sub next l in (next, (c + c')%nat, Block args ops :: l)
      end.
  End List.
  Section Regions.
    Variable visit : mapping -> N -> region -> N * nat * region.
    Fixpoint visit_regions (sub : mapping) (next : N) (l : list region) : N * nat * list region :=
      match l with
      | [] => (next, O, [])
      | r :: l => let '(next, c, r) := visit sub next r in let '(next, c', l) := visit_regions sub next l in (next, (c + c')%nat, r :: l)
      end.
  End Regions.
  (** [match_and_rewrite] *)
  Definition site (next : N) (k : kind) (operands : list N) : option (N * list op * list N) :=
    match k with
    | Call g | TailCall g => if pick g then match lookup p g with Some callee => splice next callee operands | None => None end else None
    | _ => None
    end.
  Fixpoint visit_op (sub : mapping) (next : N) (o : op) : N * nat * list op * mapping :=
    match o with
    | Op results k operands regions =>
        let '(next, c, regions) := visit_regions visit_region sub next regions in
        let operands := map (look sub) operands in
        match site next k operands, k with
        | Some (next, pre, rets), TailCall _ => (next, S c, pre ++ [Op [] Return rets []], sub)
        | Some (next, pre, rets), _ => (next, S c, pre, combine results rets ++ sub)
        | None, _ => (next, c, [Op results k operands regions], sub)
        end
    end
  with visit_region (sub : mapping) (next : N) (r : region) : N * nat * region :=
    match r with Region blocks => let '(next, c, blocks) := visit_blocks visit_op sub next blocks in (next, c, Region blocks) end.
End Visit.
(** Functions are visited in order; calls see those before in their new form. *)
Fixpoint visit_funcs (pick : list func -> N -> bool) (next : N) (done todo : list func) : N * nat * list func :=
  match todo with
  | [] => (next, O, done)
  | f :: todo =>
      let p := done ++ f :: todo in
      let '(next, c, regions) := visit_regions (visit_region (pick p) p) [] next (regions_of f) in
      let '(next, c', p) := visit_funcs pick next (done ++ [{| name := name f; abi := abi f; regions_of := regions |}]) todo in (next, (c + c')%nat, p)
  end.

(** ** Policy, inline.rs:192-283 *)
Record config := { size_threshold : nat; always_inline_single_call_site : bool; inline_across_func_constant : bool }.
Fixpoint op_count (o : op) : nat := match o with Op _ _ _ regions => S (list_sum (map region_count regions)) end
with region_count (r : region) : nat := match r with Region blocks => list_sum (map block_count blocks) end
with block_count (b : block) : nat := match b with Block _ ops => list_sum (map op_count ops) end.
(** The kinds of the operations in a function, in the order of walk_region. *)
Fixpoint op_kinds (o : op) : list kind := match o with Op _ k _ regions => k :: flat_map region_kinds regions end
with region_kinds (r : region) : list kind := match r with Region blocks => flat_map block_kinds blocks end
with block_kinds (b : block) : list kind := match b with Block _ ops => flat_map op_kinds ops end.
Definition func_kinds (f : func) : list kind := flat_map region_kinds (regions_of f).
(** [CallGraph::build], call_graph.rs:123-219, of functions without nesting. *)
Definition kind_refs (k : kind) : list N := match k with Call f | TailCall f | Constant f => [f] | _ => [] end.
Definition kind_calls (k : kind) : list N := match k with Call f | TailCall f => [f] | _ => [] end.
Definition kind_consts (k : kind) : list N := match k with Constant f => [f] | _ => [] end.
Definition refs (f : func) : list N := flat_map kind_refs (func_kinds f).
Definition sites (f : func) : list N := flat_map kind_calls (func_kinds f).
Definition call_graph (p : list func) : graph N :=
  {| keys := map name p; edges := fun f => match lookup p f with Some x => refs x | None => [] end |}.
(** [recursive_functions], with enough fuel for Tarjan's algorithm. *)
Definition recursive_in (p : list func) : option (list N) :=
  option_map (recursive_functions N.eqb (call_graph p)) (tarjan_scc N.eqb (S (List.length p)) (call_graph p)).
Definition mem (x : N) (l : list N) : bool := existsb (N.eqb x) l.
Definition escapes (p : list func) (f : N) : bool := mem f (flat_map (fun x => flat_map kind_consts (func_kinds x)) p).
Definition site_count (p : list func) (f : N) : nat := List.length (filter (N.eqb f) (flat_map sites p)).
(** [should_inline]: [p0] is the module for which the graph was built, [p] the module as it is now. *)
Definition should_inline (cfg : config) (p0 : list func) (recursive : list N) (p : list func) (f : N) : bool :=
  match lookup p f with
  | None => false
  | Some callee =>
      match regions_of callee with
      | [] => false
      | _ =>
          if abi callee then false
          else if mem f recursive then false
          else if always_inline_single_call_site cfg && negb (escapes p0 f) && Nat.eqb (site_count p0 f) 1 then true
          else if negb (escapes p0 f) || inline_across_func_constant cfg then Nat.leb (list_sum (map region_count (regions_of callee))) (size_threshold cfg)
          else false
      end
  end.
(** [inline_functions_with_config], inline.rs:332-360: until an iteration changes nothing.  [None]: more iterations than [fuel]. *)
Fixpoint inline_functions (cfg : config) (fuel : nat) (next : N) (p : list func) : option (N * nat * list func) :=
  match fuel with
  | O => None
  | S fuel =>
      match recursive_in p with
      | None => None
      | Some recursive =>
          let '(next, c, p') := visit_funcs (should_inline cfg p recursive) next [] p in
          match c with
          | O => Some (next, O, p')
          | _ => match inline_functions cfg fuel next p' with Some (next, c', p'') => Some (next, (c + c')%nat, p'') | None => None end
          end
      end
  end.
