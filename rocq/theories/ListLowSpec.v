(** How programs with lists run.  The machine is shared; what an operation on
    lists means is given twice, for the source and for the native program. *)
From Verif Require Export ListLowModel.
Open Scope nat_scope.

(** Values: numbers, lists of the source, and the references of the native
    program, which are null or point at a node. *)
Inductive value :=
| Num (z : Z)
| Seq (ty : nat) (elements : list value)
| Null
| Cell (ty : nat) (element tail : value).

Definition env := nat -> option value.
Definition upd (e : env) (x : nat) (v : value) : env := fun y => if y =? x then Some v else e y.

Inductive res := Val (v : value) | Trap | Stuck.

Definition bool_val (b : bool) : value := Num (if b then 1 else 0)%Z.
Fixpoint nums (vs : list value) : option (list Z) :=
  match vs with
  | [] => Some []
  | Num z :: vs' => match nums vs' with Some zs => Some (z :: zs) | None => None end
  | _ => None
  end.
Fixpoint vals (e : env) (xs : list nat) : option (list value) :=
  match xs with
  | [] => Some []
  | x :: xs' => match e x, vals e xs' with Some v, Some vs => Some (v :: vs) | _, _ => None end
  end.

Section Machine.
  (** What operations on numbers compute. *)
  Variable prim : nat -> list Z -> Z.

  Definition num_op (e : env) (f : nat) (args : list nat) : res :=
    match vals e args with
    | Some vs => match nums vs with Some zs => Val (Num (prim f zs)) | None => Stuck end
    | None => Stuck
    end.

  (** The meaning of the operations on lists, for the source program. *)
  Definition list_eval (o : op) (e : env) : res :=
    match o with
    | OEmpty _ ty => Val (Seq ty [])
    | OPrepend _ x t ty =>
        match e x, e t with
        | Some v, Some (Seq ty' l) => if ty =? ty' then Val (Seq ty (v :: l)) else Stuck
        | _, _ => Stuck
        end
    | OIsEmpty _ l _ =>
        match e l with
        | Some (Seq _ l) => Val (bool_val (match l with [] => true | _ => false end))
        | _ => Stuck
        end
    | OHead _ l ty =>
        match e l with
        | Some (Seq ty' l) => if ty =? ty' then match l with v :: _ => Val v | [] => Trap end else Stuck
        | _ => Stuck
        end
    | OTail _ l ty =>
        match e l with
        | Some (Seq ty' l) => if ty =? ty' then match l with _ :: t => Val (Seq ty t) | [] => Trap end else Stuck
        | _ => Stuck
        end
    | ONum _ f args => num_op e f args
    | _ => Stuck
    end.

  (** The meaning of the operations on references, for the native program: a
      field is read at the type the node was made with, and reading through null
      has no meaning. *)
  Definition native_eval (o : op) (e : env) : res :=
    match o with
    | ONull _ _ => Val Null
    | OStructNew _ fs ty =>
        match vals e fs with
        | Some [x; t] => match t with Null | Cell _ _ _ => Val (Cell ty x t) | _ => Stuck end
        | _ => Stuck
        end
    | OIsNull _ l =>
        match e l with
        | Some Null => Val (bool_val true)
        | Some (Cell _ _ _) => Val (bool_val false)
        | _ => Stuck
        end
    | OStructGet _ l ty field =>
        match e l with
        | Some (Cell ty' x t) =>
            if ty =? ty' then match field with 0 => Val x | 1 => Val t | _ => Stuck end else Stuck
        | _ => Stuck
        end
    | ONum _ f args => num_op e f args
    | _ => Stuck
    end.

  (** ** The machine *)
  Variable eval : op -> env -> res.
  Variable m : module.

  Fixpoint find_block (bs : list block) (i : nat) : option block :=
    match bs with
    | [] => None
    | b :: bs' => if b_id b =? i then Some b else find_block bs' i
    end.

  Fixpoint bind (e : env) (xs : list nat) (vs : list value) : option env :=
    match xs, vs with
    | [], [] => Some e
    | x :: xs', v :: vs' => match bind e xs' vs' with Some e' => Some (upd e' x v) | None => None end
    | _, _ => None
    end.

  (** What to go on with after a call or a region. *)
  Inductive frame :=
  | FCall (r : nat) (bs : list block) (ops : list op) (t : term) (e : env)
  | FIf (r : nat) (bs : list block) (ops : list op) (t : term).
  Record state := St { s_blocks : list block; s_ops : list op; s_term : term; s_env : env; s_stack : list frame }.
  Inductive out := Next (s : state) | Done (v : value) | Stopped | Wrong.

  Definition enter (bs : list block) (b : option block) (vs : list value) (e : env) (k : list frame) : out :=
    match b with
    | Some b => match bind e (b_args b) vs with Some e' => Next (St bs (b_ops b) (b_term b) e' k) | None => Wrong end
    | None => Wrong
    end.

  Definition truth (v : option value) : option bool :=
    match v with Some (Num z) => Some (negb (z =? 0)%Z) | _ => None end.

  Definition step (s : state) : out :=
    let '(St bs ops t e k) := s in
    match ops with
    | OCall r f args :: ops' =>
        match nth_error m f, vals e args with
        | Some g, Some vs => enter g (hd_error g) vs (fun _ => None) (FCall r bs ops' t e :: k)
        | _, _ => Wrong
        end
    | OIf r c yes no :: ops' =>
        match truth (e c) with
        | Some true => enter yes (hd_error yes) [] e (FIf r bs ops' t :: k)
        | Some false => enter no (hd_error no) [] e (FIf r bs ops' t :: k)
        | None => Wrong
        end
    | o :: ops' =>
        match eval o e with
        | Val v => Next (St bs ops' t (upd e (result o) v) k)
        | Trap => Stopped
        | Stuck => Wrong
        end
    | [] =>
        match t with
        | TBr b args => match vals e args with Some vs => enter bs (find_block bs b) vs e k | None => Wrong end
        | TCondBr c y no =>
            match truth (e c) with
            | Some true => enter bs (find_block bs y) [] e k
            | Some false => enter bs (find_block bs no) [] e k
            | None => Wrong
            end
        | TReturn v =>
            match e v, k with
            | Some v, [] => Done v
            | Some v, FCall r bs' ops' t' e' :: k' => Next (St bs' ops' t' (upd e' r v) k')
            | _, _ => Wrong
            end
        | TYield v =>
            match e v, k with
            | Some v, FIf r bs' ops' t' :: k' => Next (St bs' ops' t' (upd e r v) k')
            | _, _ => Wrong
            end
        | TUnreachable => Stopped
        end
    end.

  (** The outcome after [n] steps. *)
  Fixpoint after (n : nat) (s : state) : out :=
    match n with
    | O => Next s
    | S n' => match step s with Next s' => after n' s' | o => o end
    end.

  (** Calling function [f] with [vs]. *)
  Definition start (f : nat) (vs : list value) : out :=
    match nth_error m f with
    | Some g => enter g (hd_error g) vs (fun _ => None) []
    | None => Wrong
    end.
  Definition run (f : nat) (vs : list value) (n : nat) : out :=
    match start f vs with Next s => after n s | o => o end.

  Definition returns (f : nat) (vs : list value) (v : value) : Prop := exists n, run f vs n = Done v.
  Definition stops (f : nat) (vs : list value) : Prop := exists n, run f vs n = Stopped.
  Definition goes_on (f : nat) (vs : list value) : Prop := forall n, exists s, run f vs n = Next s.
End Machine.

(** A source value and the native value that stands for it. *)
Inductive stands : value -> value -> Prop :=
| SNum z : stands (Num z) (Num z)
| SNil ty : stands (Seq ty []) Null
| SCons ty x l x' t' : stands x x' -> stands (Seq ty l) t' -> stands (Seq ty (x :: l)) (Cell ty x' t').

(** ** Modules the pass is given *)

(** Everything a block mentions: results, arguments, operands, blocks. *)
Definition term_names (t : term) : list nat :=
  match t with
  | TBr b args => b :: args
  | TCondBr c y n => [c; y; n]
  | TReturn v => [v]
  | TYield v => [v]
  | TUnreachable => []
  end.
Fixpoint op_names (o : op) : list nat :=
  match o with
  | OEmpty r _ => [r]
  | OPrepend r e t _ => [r; e; t]
  | OIsEmpty r l _ | OHead r l _ | OTail r l _ => [r; l]
  | ONull r _ => [r]
  | OStructNew r fs _ => r :: fs
  | OIsNull r l => [r; l]
  | OStructGet r l _ _ => [r; l]
  | ONum r _ args | OCall r _ args => r :: args
  | OIf r c yes no =>
      r :: c :: flat_map (fun b => b_id b :: b_args b ++ flat_map op_names (b_ops b) ++ term_names (b_term b)) yes
        ++ flat_map (fun b => b_id b :: b_args b ++ flat_map op_names (b_ops b) ++ term_names (b_term b)) no
  end.
Definition block_names (b : block) : list nat := b_id b :: b_args b ++ flat_map op_names (b_ops b) ++ term_names (b_term b).
Definition module_names (m : module) : list nat := flat_map (flat_map block_names) m.

(** The values defined: results and arguments of blocks. *)
Fixpoint op_defs (o : op) : list nat :=
  result o :: match o with
              | OIf _ _ yes no =>
                  flat_map (fun b => b_args b ++ flat_map op_defs (b_ops b)) yes ++
                  flat_map (fun b => b_args b ++ flat_map op_defs (b_ops b)) no
              | _ => []
              end.
Definition block_defs (b : block) : list nat := b_args b ++ flat_map op_defs (b_ops b).
Definition module_defs (m : module) : list nat := flat_map (flat_map block_defs) m.

(** Lists are made before they are looked into: no [head] or [tail] is taken of
    the result of one that comes later in the text. *)
Fixpoint in_order (obs : list (nat * nat)) : Prop :=
  match obs with
  | [] => True
  | (r, l) :: obs' => ~ In l (r :: List.map fst obs') /\ in_order obs'
  end.
Fixpoint op_obs (o : op) : list (nat * nat) :=
  match o with
  | OHead r l _ | OTail r l _ => [(r, l)]
  | OIf _ _ yes no => flat_map (fun b => flat_map op_obs (b_ops b)) yes ++ flat_map (fun b => flat_map op_obs (b_ops b)) no
  | _ => []
  end.
Definition module_obs (m : module) : list (nat * nat) := flat_map (flat_map (fun b => flat_map op_obs (b_ops b))) m.

(** Numbers from [n] on are free, every value is defined once, and lists are made
    before they are looked into. *)
Definition well_formed (n : nat) (m : module) : Prop :=
  (forall x, In x (module_names m) -> x < n) /\ NoDup (module_defs m) /\ in_order (module_obs m).

(** No operation on lists, at any depth. *)
Fixpoint list_free (o : op) : bool :=
  match o with
  | OEmpty _ _ | OPrepend _ _ _ _ | OIsEmpty _ _ _ | OHead _ _ _ | OTail _ _ _ => false
  | OIf _ _ yes no => forallb (fun b => forallb list_free (b_ops b)) yes && forallb (fun b => forallb list_free (b_ops b)) no
  | _ => true
  end.
