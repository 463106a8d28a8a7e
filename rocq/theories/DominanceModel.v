(** Dominance analysis.  crates/trunk-ir/src/dominance.rs.

    A region is its list of blocks plus, for every block, the successor list of
    the block's last operation (empty when the block has no operation,
    dominance.rs:36-41).  Blocks are numbers.  Hash sets and maps are lists
    without duplicates and functions; no iteration over a hash container decides
    a result (dominance.rs:73-80 only initialises).  Loops take fuel and return
    [None] when it runs out. *)
From Verif Require Import Base.

Definition block := nat.
Definition mem (x : block) (l : list block) : bool := existsb (Nat.eqb x) l.

(** dominance.rs:34-52: predecessor lists: one entry per edge whose target is in the region. *)
Definition preds (blocks : list block) (succ : block -> list block) (b : block) : list block :=
  if mem b blocks
  then flat_map (fun p => map (fun _ => p) (filter (Nat.eqb b) (succ p))) blocks
  else [].

(** dominance.rs:43-46: an edge leaving the region makes the graph invalid. *)
Definition edges_valid (blocks : list block) (succ : block -> list block) : bool :=
  forallb (fun b => forallb (fun s => mem s blocks) (succ b)) blocks.

(** dominance.rs:57-68: the worklist; the head of [pending] is the top of the stack. *)
Fixpoint reach_loop (fuel : nat) (blocks : list block) (succ : block -> list block)
    (pending seen : list block) : option (list block) :=
  match pending with
  | [] => Some seen
  | b :: rest =>
      match fuel with
      | O => None
      | S f =>
          if mem b seen then reach_loop f blocks succ rest seen
          else reach_loop f blocks succ (rev (filter (fun s => mem s blocks) (succ b)) ++ rest) (b :: seen)
      end
  end.

(** dominance.rs:54-71 *)
Definition reachable_set (fuel : nat) (blocks : list block) (succ : block -> list block) : option (list block) :=
  match blocks with
  | [] => Some []
  | entry :: _ => reach_loop fuel blocks succ [entry] []
  end.

Definition doms := block -> list block.
Definition set_doms (d : doms) (b : block) (l : list block) : doms :=
  fun c => if Nat.eqb c b then l else d c.

(** dominance.rs:75-82: initial sets. *)
Definition init_doms (entry : block) (reach : list block) : doms :=
  fun b => if Nat.eqb b entry then [entry] else reach.

(** dominance.rs:98-102: intersection over the predecessors, then insert the block itself. *)
Definition next_doms (d : doms) (b first : block) (rest : list block) : list block :=
  let inter := fold_left (fun nx p => filter (fun x => mem x (d p)) nx) rest (d first) in
  if mem b inter then inter else b :: inter.

(** Hash-set equality. *)
Definition set_eqb (a b : list block) : bool :=
  forallb (fun x => mem x b) a && forallb (fun x => mem x a) b.

Record sweep := { sw_doms : doms; sw_changed : bool; sw_valid : bool }.

(** dominance.rs:87-107: one block of the sweep. *)
Definition sweep_block (blocks : list block) (succ : block -> list block) (entry : block)
    (reach : list block) (s : sweep) (b : block) : sweep :=
  if Nat.eqb b entry || negb (mem b reach) then s
  else match filter (fun p => mem p reach) (preds blocks succ b) with
       | [] => {| sw_doms := sw_doms s; sw_changed := sw_changed s; sw_valid := false |}
       | first :: rest =>
           let nx := next_doms (sw_doms s) b first rest in
           if set_eqb nx (sw_doms s b) then s
           else {| sw_doms := set_doms (sw_doms s) b nx; sw_changed := true; sw_valid := sw_valid s |}
       end.

(** dominance.rs:84-108: repeat until nothing changes. *)
Fixpoint dom_loop (fuel : nat) (blocks : list block) (succ : block -> list block) (entry : block)
    (reach : list block) (d : doms) (valid : bool) : option (doms * bool) :=
  match fuel with
  | O => None
  | S f =>
      let s := fold_left (sweep_block blocks succ entry reach) blocks
                 {| sw_doms := d; sw_changed := false; sw_valid := valid |} in
      if sw_changed s then dom_loop f blocks succ entry reach (sw_doms s) (sw_valid s)
      else Some (sw_doms s, sw_valid s)
  end.

Record dom_tree := { t_entry : option block; t_reachable : list block; t_doms : doms; t_valid : bool }.

(** dominance.rs:22-121.  [fuel] bounds the iterations of each loop. *)
Definition compute (fuel : nat) (blocks : list block) (succ : block -> list block) : option dom_tree :=
  match reachable_set fuel blocks succ with
  | None => None
  | Some reach =>
      match blocks with
      | [] => Some {| t_entry := None; t_reachable := reach; t_doms := fun _ => []; t_valid := edges_valid blocks succ |}
      | entry :: _ =>
          match dom_loop fuel blocks succ entry reach (init_doms entry reach) (edges_valid blocks succ) with
          | None => None
          | Some (d, v) => Some {| t_entry := Some entry; t_reachable := reach; t_doms := d; t_valid := v |}
          end
      end
  end.

(** dominance.rs:131-133 *)
Definition is_valid (t : dom_tree) : bool := t_valid t.
(** dominance.rs:135-137 *)
Definition is_reachable (t : dom_tree) (b : block) : bool := mem b (t_reachable t).
(** dominance.rs:139-143: blocks without an entry in the map (unreachable ones) have no dominators. *)
Definition dominates (t : dom_tree) (d b : block) : bool :=
  if mem b (t_reachable t) then mem d (t_doms t b) else false.
