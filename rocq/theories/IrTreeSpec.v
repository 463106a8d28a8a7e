(** The textual structure of IR as a tree, and what walking and cloning mean. *)
From Verif Require Import Base IrModel.

(** An operation, its regions, their blocks, and the operations of each block, in
    textual order, all named by their handles. *)
Inductive tree := Node (o : nat) (rs : list (nat * list (nat * list tree))).
Definition root (t : tree) : nat := match t with Node o _ => o end.

Definition all {A} (P : A -> Prop) : list A -> Prop :=
  fix go l := match l with [] => True | x :: r => P x /\ go r end.
Definition all2 {A B} (P : A -> B -> Prop) : list A -> list B -> Prop :=
  fix go l l' := match l, l' with
                 | [], [] => True
                 | x :: r, y :: r' => P x y /\ go r r'
                 | _, _ => False
                 end.

(** [t] is the structure below operation [root t] in [c]. *)
Fixpoint tree_of (c : ctx) (t : tree) : Prop :=
  match t with
  | Node o rs =>
      (exists d, nth_error (ops c) o = Some d /\ o_regions d = map fst rs) /\
      all (fun rb =>
        (exists rd, nth_error (regions c) (fst rb) = Some rd /\ r_blocks rd = map fst (snd rb)) /\
        all (fun bt =>
          (exists bd, nth_error (blocks c) (fst bt) = Some bd /\ b_ops bd = map root (snd bt)) /\
          all (tree_of c) (snd bt)) (snd rb)) rs
  end.

(** The same for the blocks of a region. *)
Definition region_tree_of (c : ctx) (rb : nat * list (nat * list tree)) : Prop :=
  (exists rd, nth_error (regions c) (fst rb) = Some rd /\ r_blocks rd = map fst (snd rb)) /\
  all (fun bt =>
    (exists bd, nth_error (blocks c) (fst bt) = Some bd /\ b_ops bd = map root (snd bt)) /\
    all (tree_of c) (snd bt)) (snd rb).
Definition region_trees (rb : nat * list (nat * list tree)) : list tree := flat_map (fun bt => snd bt) (snd rb).

Definition inner {A} (f : tree -> list A) (rs : list (nat * list (nat * list tree))) : list A :=
  flat_map (fun rb => flat_map (fun bt => flat_map f (snd bt)) (snd rb)) rs.

(** Operations in textual order, each before what is nested in it. *)
Fixpoint preorder (t : tree) : list nat :=
  match t with Node o rs => o :: inner preorder rs end.
(** The same with the number of operations nested below each. *)
Fixpoint marks (t : tree) : list (nat * nat) :=
  match t with Node o rs => (o, length (inner preorder rs)) :: inner marks rs end.

(** What a callback sees of a textual sequence: [skip] entries are passed over
    silently; [Skip] passes over the descendants; [Break] ends the walk. *)
Fixpoint run {S B} (f : S -> nat -> S * action B) (s : S) (skip : nat) (l : list (nat * nat)) : wres S B :=
  match l with
  | [] => Continued s
  | (o, below) :: r =>
      match skip with
      | Datatypes.S k => run f s k r
      | O =>
          let '(s', a) := f s o in
          match a with
          | Advance => run f s' 0 r
          | Skip => run f s' below r
          | Break b => Broke s' b
          end
      end
  end.

(** [x] is directly nested in [o]: listed in a block of a region of [o]. *)
Definition nested_in (c : ctx) (x o : nat) : Prop :=
  exists d r rd b bd, nth_error (ops c) o = Some d /\ In r (o_regions d) /\
    nth_error (regions c) r = Some rd /\ In b (r_blocks rd) /\
    nth_error (blocks c) b = Some bd /\ In x (b_ops bd).
Inductive within (c : ctx) (o : nat) : nat -> Prop :=
| within_self : within c o o
| within_step : forall x y, within c o x -> nested_in c y x -> within c o y.

(** ** Cloning: what a cloned operation [o'] of [c'] must look like, given how
    values ([F]) and blocks ([G]) of the original [c] are renamed. *)
Definition op_copy (c c' : ctx) (F G : nat -> nat) (o o' : nat) : Prop :=
  exists d d', nth_error (ops c) o = Some d /\ nth_error (ops c') o' = Some d' /\
    o_kind d' = o_kind d /\ o_result_types d' = o_result_types d /\
    o_operands d' = map F (o_operands d) /\ o_succs d' = map G (o_succs d) /\
    op_results c' o' = map F (op_results c o).
Definition block_copy (c c' : ctx) (F G : nat -> nat) (b b' : nat) : Prop :=
  b' = G b /\
  exists d d', nth_error (blocks c) b = Some d /\ nth_error (blocks c') b' = Some d' /\
    b_arg_types d' = b_arg_types d /\ block_args c' b' = map F (block_args c b).
Definition op_regions_of (c : ctx) (o : nat) : list nat := match nth_error (ops c) o with Some d => o_regions d | None => [] end.
Definition region_blocks_of (c : ctx) (r : nat) : list nat := match nth_error (regions c) r with Some d => r_blocks d | None => [] end.
Definition block_ops_of (c : ctx) (b : nat) : list nat := match nth_error (blocks c) b with Some d => b_ops d | None => [] end.

Fixpoint is_copy (c c' : ctx) (F G : nat -> nat) (t : tree) (o' : nat) : Prop :=
  match t with
  | Node o rs =>
      op_copy c c' F G o o' /\
      all2 (fun rb r' =>
        r' < length (regions c') /\
        all2 (fun bt b' =>
          block_copy c c' F G (fst bt) b' /\ all2 (is_copy c c' F G) (snd bt) (block_ops_of c' b'))
          (snd rb) (region_blocks_of c' r')) rs (op_regions_of c' o')
  end.
Definition is_region_copy (c c' : ctx) (F G : nat -> nat) (rb : nat * list (nat * list tree)) (r' : nat) : Prop :=
  r' < length (regions c') /\
  all2 (fun bt b' => block_copy c c' F G (fst bt) b' /\ all2 (is_copy c c' F G) (snd bt) (block_ops_of c' b'))
       (snd rb) (region_blocks_of c' r').

(** Definitions and references in textual order (results come into being after
    the operation's own regions; a region's blocks and arguments at its start). *)
Inductive event := DefV (v : nat) | UseV (v : nat) | DefB (b : nat) | UseB (b : nat).
Definition op_uses (c : ctx) (o : nat) : list event := match nth_error (ops c) o with Some d => map UseV (o_operands d) | None => [] end.
Definition op_targets (c : ctx) (o : nat) : list event := match nth_error (ops c) o with Some d => map UseB (o_succs d) | None => [] end.
Definition heads (c : ctx) (bs : list nat) : list event := flat_map (fun b => DefB b :: map DefV (block_args c b)) bs.
Fixpoint events (c : ctx) (t : tree) : list event :=
  match t with
  | Node o rs =>
      op_uses c o ++
      flat_map (fun rb => heads c (map fst (snd rb)) ++ flat_map (fun bt => flat_map (events c) (snd bt)) (snd rb)) rs ++
      op_targets c o ++ map DefV (op_results c o)
  end.
Definition region_events (c : ctx) (rb : nat * list (nat * list tree)) : list event :=
  heads c (map fst (snd rb)) ++ flat_map (fun bt => flat_map (events c) (snd bt)) (snd rb).

(** Nothing is referred to, or defined, before its definition further down. *)
Definition in_order (l : list event) : Prop :=
  forall pre e post, l = pre ++ e :: post ->
    match e with
    | DefV v | UseV v => ~ In (DefV v) post
    | DefB b | UseB b => ~ In (DefB b) post
    end.

(** The original is still there, untouched. *)
Definition intact (a c : ctx) : Prop :=
  firstn (length (ops a)) (ops c) = ops a /\ firstn (length (blocks a)) (blocks c) = blocks a /\
  firstn (length (regions a)) (regions c) = regions a /\ firstn (length (vals a)) (vals c) = vals a /\
  (forall o, o < length (ops a) -> op_results c o = op_results a o) /\ (forall b, b < length (blocks a) -> block_args c b = block_args a b).
(** What [evs] defines is renamed to something that did not exist in [c]; every
    other name keeps the meaning it had in the given mapping. *)
Definition renames (c : ctx) (m m' : mapping) (evs : list event) : Prop :=
  (forall v, ~ In (DefV v) evs -> m_vals m' v = m_vals m v) /\
  (forall b, ~ In (DefB b) evs -> m_blocks m' b = m_blocks m b) /\
  (forall v, In (DefV v) evs -> exists w, m_vals m' v = Some w /\ length (vals c) <= w) /\
  (forall b, In (DefB b) evs -> exists w, m_blocks m' b = Some w /\ length (blocks c) <= w).
