(** Lists on the native target.
    Models crates/tribute-passes/src/native/list.rs (the whole pass) together
    with crates/trunk-ir/src/rewrite/helpers.rs:40-86 ([split_block]) and
    crates/trunk-ir/src/walk.rs:46-60 ([walk_op]).

    Simplified: of the other operations of the IR, operations on numbers, calls
    of functions and [scf.if] are there, and of the terminators branches,
    conditional branches without arguments, [func.return], [scf.yield] and
    [func.unreachable].  Values and blocks have numbers, unique in the whole
    module as references into the arena are; types of elements are numbers.  A
    new value or block takes the next number. *)
From Coq Require Export List ZArith Lia.
From Verif Require Export Base.
Export ListNotations.
Open Scope nat_scope.
Open Scope list_scope.

Inductive term :=
| TBr (b : nat) (args : list nat)
| TCondBr (c : nat) (yes no : nat)
| TReturn (v : nat)
| TYield (v : nat)
| TUnreachable.

Record blk (O : Type) := Block { b_id : nat; b_args : list nat; b_ops : list O; b_term : term }.
Arguments Block {O}. Arguments b_id {O}. Arguments b_args {O}. Arguments b_ops {O}. Arguments b_term {O}.

(** The operations; [r] is the result and [ty] the type of elements. *)
Inductive op :=
| OEmpty (r ty : nat)
| OPrepend (r e t ty : nat)
| OIsEmpty (r l ty : nat)
| OHead (r l ty : nat)
| OTail (r l ty : nat)
| ONull (r ty : nat)
| OStructNew (r : nat) (fields : list nat) (ty : nat)
| OIsNull (r l : nat)
| OStructGet (r l ty field : nat)
| ONum (r f : nat) (args : list nat)
| OCall (r f : nat) (args : list nat)
| OIf (r c : nat) (yes no : list (blk op)).

Definition result (o : op) : nat :=
  match o with
  | OEmpty r _ | OPrepend r _ _ _ | OIsEmpty r _ _ | OHead r _ _ | OTail r _ _ | ONull r _ | OStructNew r _ _
  | OIsNull r _ | OStructGet r _ _ _ | ONum r _ _ | OCall r _ _ | OIf r _ _ _ => r
  end.

(** A function is its blocks, the first with the parameters as arguments; a
    module is a list of functions. *)
Definition block := blk op.
Definition func := list block.
Definition module := list func.

(** walk.rs:46-60: the operations in order, outer ones first. *)
Fixpoint walk (o : op) : list op :=
  o :: match o with
       | OIf _ _ yes no => flat_map (fun b => flat_map walk (b_ops b)) yes ++ flat_map (fun b => flat_map walk (b_ops b)) no
       | _ => []
       end.
Definition walk_blocks (bs : list block) : list op := flat_map (fun b => flat_map walk (b_ops b)) bs.
Definition walk_module (m : module) : list op := flat_map walk_blocks m.

(** list.rs:56-64: the uses of [head] and [tail] with their operand, the type of
    elements and the field to project. *)
Record obs := { ob_op : nat; ob_list : nat; ob_ty : nat; ob_field : nat }.
Definition observation (o : op) : list obs :=
  match o with
  | OHead r l ty => [{| ob_op := r; ob_list := l; ob_ty := ty; ob_field := 0 |}]
  | OTail r l ty => [{| ob_op := r; ob_list := l; ob_ty := ty; ob_field := 1 |}]
  | _ => []
  end.
Definition observations (m : module) : list obs := flat_map observation (walk_module m).

Section Lower.
  (** The observation and the next free number. *)
  Variable ob : obs.
  Variable n : nat.

  (** list.rs:90-139: the numbers of the new values and blocks, in the order in
      which they are made: the continuation and its argument, the trap block, the
      block of the projection, the test, the projection. *)
  Definition cont := n.
  Definition arg := n + 1.
  Definition trap := n + 2.
  Definition proj := n + 3.
  Definition empty := n + 4.
  Definition projected := n + 5.

  (** list.rs:98, [replace_all_uses]. *)
  Definition rn (x : nat) : nat := if x =? ob_op ob then arg else x.

  Definition tr_term (t : term) : term :=
    match t with
    | TBr b args => TBr b (List.map rn args)
    | TCondBr c y no => TCondBr (rn c) y no
    | TReturn v => TReturn (rn v)
    | TYield v => TYield (rn v)
    | TUnreachable => TUnreachable
    end.

  (** helpers.rs:43-55: the operations before and after the observation. *)
  Fixpoint split_at (ops : list op) : option (list op * list op) :=
    match ops with
    | [] => None
    | o :: ops' =>
        if result o =? ob_op ob then Some ([], ops')
        else match split_at ops' with Some (b, a) => Some (o :: b, a) | None => None end
    end.

  (** list.rs:90-150: the block with the observation becomes four. *)
  Definition split_block (b : block) : list block :=
    match split_at (b_ops b) with
    | Some (before, after) =>
        [ Block (b_id b) (b_args b) (before ++ [OIsNull empty (ob_list ob)]) (TCondBr empty trap proj);
          Block trap [] [] TUnreachable;
          Block proj [] [OStructGet projected (ob_list ob) (ob_ty ob) (ob_field ob)] (TBr cont [projected]);
          Block cont [arg] after (b_term b) ]
    | None => [b]
    end.

  (** list.rs:73-151, [lower_observation]: all uses are replaced, and the block of
      the observation, wherever it is, is split. *)
  Fixpoint tr_op (o : op) : op :=
    match o with
    | OEmpty r ty => OEmpty r ty
    | OPrepend r e t ty => OPrepend r (rn e) (rn t) ty
    | OIsEmpty r l ty => OIsEmpty r (rn l) ty
    | OHead r l ty => OHead r (rn l) ty
    | OTail r l ty => OTail r (rn l) ty
    | ONull r ty => ONull r ty
    | OStructNew r fs ty => OStructNew r (List.map rn fs) ty
    | OIsNull r l => OIsNull r (rn l)
    | OStructGet r l ty f => OStructGet r (rn l) ty f
    | ONum r f args => ONum r f (List.map rn args)
    | OCall r f args => OCall r f (List.map rn args)
    | OIf r c yes no =>
        OIf r (rn c)
          (flat_map (fun b => split_block (Block (b_id b) (b_args b) (List.map tr_op (b_ops b)) (tr_term (b_term b)))) yes)
          (flat_map (fun b => split_block (Block (b_id b) (b_args b) (List.map tr_op (b_ops b)) (tr_term (b_term b)))) no)
    end.
  Definition tr_block (b : block) : list block :=
    split_block (Block (b_id b) (b_args b) (List.map tr_op (b_ops b)) (tr_term (b_term b))).
  Definition tr_blocks (bs : list block) : list block := flat_map tr_block bs.
  Definition lower_observation (m : module) : module := List.map tr_blocks m.
End Lower.

(** list.rs:66-70: from last to first. *)
Fixpoint lower_all (obs : list obs) (n : nat) (m : module) : module :=
  match obs with
  | [] => m
  | ob :: obs' => lower_all obs' (n + 6) (lower_observation ob n m)
  end.
Definition lower_observations (n : nat) (m : module) : module := lower_all (rev (observations m)) n m.

(** list.rs:153-216, the three patterns. *)
Fixpoint rewrite_op (o : op) : op :=
  match o with
  | OEmpty r ty => ONull r ty
  | OPrepend r e t ty => OStructNew r [e; t] ty
  | OIsEmpty r l ty => OIsNull r l
  | OIf r c yes no =>
      OIf r c (List.map (fun b => Block (b_id b) (b_args b) (List.map rewrite_op (b_ops b)) (b_term b)) yes)
              (List.map (fun b => Block (b_id b) (b_args b) (List.map rewrite_op (b_ops b)) (b_term b)) no)
  | _ => o
  end.
Definition rewrite_block (b : block) : block := Block (b_id b) (b_args b) (List.map rewrite_op (b_ops b)) (b_term b).
Definition rewrite_module (m : module) : module := List.map (List.map rewrite_block) m.

(** list.rs:26: no operation of the dialect may stay. *)
Definition is_list_op (o : op) : bool :=
  match o with OEmpty _ _ | OPrepend _ _ _ _ | OIsEmpty _ _ _ | OHead _ _ _ | OTail _ _ _ => true | _ => false end.

(** list.rs:20-29, [lower]; [None] is the conversion error. *)
Definition lower (n : nat) (m : module) : option module :=
  let m' := rewrite_module (lower_observations n m) in
  if existsb is_list_op (walk_module m') then None else Some m'.
