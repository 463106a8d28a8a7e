(** What modules compute, and which modules are valid. *)
From Coq Require Export Relations.
From Verif Require Export InlineModel.
Local Open Scope N_scope.

(** ** Behaviour *)
(** Every operation other than calls, returns and function references does what [act] says, given its operands and the results of its regions and of the
    functions it has called so far: it finishes with results, runs one of its regions, calls a function, or leaves the region it is in with values. *)
Inductive action (V M : Type) := Finish (results : list V) (m : M) | Run (region : nat) (args : list V) (m : M) | Invoke (f : N) (args : list V) (m : M) | Leave (values : list V) (m : M).
Arguments Finish {V M}. Arguments Run {V M}. Arguments Invoke {V M}. Arguments Leave {V M}.
Section Behaviour.
  Context {V M : Type}.                       (* values; memory, with all input and output *)
  Variable act : N -> list V -> list (list V) -> M -> action V M.
  Variable leaves : N -> bool.                (* the terminators, such as scf.yield *)
  Variable fval : N -> V.                     (* references to functions *)
  Definition env := list (N * V).
  Definition value (e : env) (x : N) : option V := option_map snd (find (fun b => fst b =? x) e).
  Fixpoint values (e : env) (xs : list N) : option (list V) :=
    match xs with
    | [] => Some []
    | x :: xs => match value e x, values e xs with Some v, Some vs => Some (v :: vs) | _, _ => None end
    end.
  Definition bind (xs : list N) (vs : list V) (e : env) : env := combine xs vs ++ e.
  (** How a list of operations ends: it is worked off, it leaves its region, or it returns from the function. *)
  Inductive outcome := Through (e : env) (m : M) | Left_ (vs : list V) (m : M) | Returned (vs : list V) (m : M).
  Inductive ending := Done (vs : list V) (m : M) | Leaves (vs : list V) (m : M) | Exits (vs : list V) (m : M).
  Section Calls.
    Variable called : N -> list V -> M -> list V -> M -> Prop.
    Inductive run : env -> M -> list op -> outcome -> Prop :=
    | run_nil e m : run e m [] (Through e m)
    | run_return e m rs xs rg l vs : values e xs = Some vs -> run e m (Op rs Return xs rg :: l) (Returned vs m)
    | run_tail e m rs f xs rg l vs ws m' : values e xs = Some vs -> called f vs m ws m' -> run e m (Op rs (TailCall f) xs rg :: l) (Returned ws m')
    | run_call e m rs f xs rg l vs ws m' o : values e xs = Some vs -> called f vs m ws m' -> List.length rs = List.length ws -> run (bind rs ws e) m' l o ->
        run e m (Op rs (Call f) xs rg :: l) o
    | run_constant e m r f xs rg l o : run (bind [r] [fval f] e) m l o -> run e m (Op [r] (Constant f) xs rg :: l) o
    | run_other e m rs k xs rg l vs ws m' o : values e xs = Some vs -> steps e rg k vs [] m (Done ws m') -> List.length rs = List.length ws -> run (bind rs ws e) m' l o ->
        run e m (Op rs (Other k) xs rg :: l) o
    | run_leave e m rs k xs rg l vs ws m' : values e xs = Some vs -> steps e rg k vs [] m (Leaves ws m') -> run e m (Op rs (Other k) xs rg :: l) (Left_ ws m')
    | run_exit e m rs k xs rg l vs ws m' : values e xs = Some vs -> steps e rg k vs [] m (Exits ws m') -> run e m (Op rs (Other k) xs rg :: l) (Returned ws m')
    with steps : env -> list region -> N -> list V -> list (list V) -> M -> ending -> Prop :=
    | step_finish e rg k vs h m ws m' : act k vs h m = Finish ws m' -> steps e rg k vs h m (Done ws m')
    | step_leave e rg k vs h m ws m' : act k vs h m = Leave ws m' -> leaves k = true -> steps e rg k vs h m (Leaves ws m')
    | step_run e rg k vs h m i args m1 params ops ws m2 o : act k vs h m = Run i args m1 -> nth_error rg i = Some (Region [Block params ops]) -> List.length params = List.length args ->
        run (bind params args e) m1 ops (Left_ ws m2) -> steps e rg k vs (h ++ [ws]) m2 o -> steps e rg k vs h m o
    | step_exit e rg k vs h m i args m1 params ops ws m2 : act k vs h m = Run i args m1 -> nth_error rg i = Some (Region [Block params ops]) -> List.length params = List.length args ->
        run (bind params args e) m1 ops (Returned ws m2) -> steps e rg k vs h m (Exits ws m2)
    | step_invoke e rg k vs h m f args m1 ws m2 o : act k vs h m = Invoke f args m1 -> called f args m1 ws m2 -> steps e rg k vs (h ++ [ws]) m2 o -> steps e rg k vs h m o.
  End Calls.
  (** Calls nested at most so deep.  Functions without a body are given. *)
  Variable external : N -> list V -> M -> list V -> M -> Prop.
  Definition body_of (p : list func) (f : N) : option region := match lookup p f with Some x => match regions_of x with r :: _ => Some r | [] => None end | None => None end.
  Fixpoint call_at (p : list func) (depth : nat) (f : N) (vs : list V) (m : M) (ws : list V) (m' : M) : Prop :=
    match depth with
    | O => False
    | S depth =>
        match body_of p f with
        | None => external f vs m ws m'
        | Some (Region [Block params ops]) => List.length params = List.length vs /\ run (call_at p depth) (bind params vs []) m ops (Returned ws m')
        | Some _ => False
        end
    end.
  (** A call of a function of the module with these arguments in this memory returns these values and leaves this memory. *)
  Definition returns (p : list func) (f : N) (vs : list V) (m : M) (ws : list V) (m' : M) : Prop := exists depth, call_at p depth f vs m ws m'.
End Behaviour.
Arguments outcome : clear implicits. Arguments ending : clear implicits. Arguments env : clear implicits.

(** ** Validity *)
Definition op_results (o : op) : list N := match o with Op results _ _ _ => results end.
(** Values are defined before they are used, in the block or around the region; every region has one block. *)
Inductive scoped : list N -> list op -> Prop :=
| scoped_nil vis : scoped vis []
| scoped_cons vis rs k xs rg l : incl xs vis -> Forall (region_scoped vis) rg -> scoped (rs ++ vis) l -> scoped vis (Op rs k xs rg :: l)
with region_scoped : list N -> region -> Prop :=
| scoped_region vis args ops : scoped (args ++ vis) ops -> region_scoped vis (Region [Block args ops]).
(** All values defined by operations, at any depth. *)
Fixpoint op_defs (o : op) : list N := match o with Op results _ _ regions => results ++ flat_map region_defs regions end
with region_defs (r : region) : list N := match r with Region blocks => flat_map block_defs blocks end
with block_defs (b : block) : list N := match b with Block args ops => args ++ flat_map op_defs ops end.
(** Calls have as many results as the callee returns. *)
Section Arity.
  Variables (rets : N -> nat) (f : N).
  Fixpoint arity (o : op) : Prop :=
    match o with
    | Op results k operands regions =>
        match k with
        | Call g => List.length results = rets g
        | TailCall g => results = [] /\ rets g = rets f
        | Return => List.length operands = rets f
        | Constant _ => List.length results = 1%nat
        | Other _ => True
        end /\ fold_right and True (map region_arity regions)
    end
  with region_arity (r : region) : Prop := match r with Region blocks => fold_right and True (map block_arity blocks) end
  with block_arity (b : block) : Prop := match b with Block _ ops => fold_right and True (map arity ops) end.
End Arity.
(** Only the last operation of a function returns or is a tail call.  If it is, nothing else returns, at any depth, and no other operation leaves. *)
Section Straight.
  Variable leaves : N -> bool.
  Definition returning (k : kind) : bool := match k with Return | TailCall _ => true | _ => false end.
  Definition straight (o : op) : Prop :=
    match o with
    | Op _ k _ regions => returning k = false /\ match k with Other k => leaves k = false | _ => True end /\ existsb returning (flat_map region_kinds regions) = false
    end.
  Definition ends_well (ops : list op) : Prop :=
    match split_last ops with
    | Some (body, Op _ k _ _) => Forall (fun o => match o with Op _ k _ _ => returning k = false end) body /\ (returning k = true -> Forall straight body)
    | None => True
    end.
End Straight.
Record valid_func (leaves : N -> bool) (rets : N -> nat) (next : N) (f : func) : Prop := {
  one_block : regions_of f = [] \/ exists params ops, regions_of f = [Region [Block params ops]];
  in_scope : Forall (region_scoped []) (regions_of f);
  distinct : NoDup (flat_map region_defs (regions_of f));
  allocated : forall x, In x (flat_map region_defs (regions_of f)) -> x < next;
  same_arity : Forall (region_arity rets (name f)) (regions_of f);
  ending_ok : forall params ops, regions_of f = [Region [Block params ops]] -> ends_well leaves ops
}.
(** All operations of a function, at any depth. *)
Fixpoint op_within (o : op) : list op := match o with Op _ _ _ regions => o :: flat_map region_within regions end
with region_within (r : region) : list op := match r with Region blocks => flat_map block_within blocks end
with block_within (b : block) : list op := match b with Block _ ops => flat_map op_within ops end.
Definition func_ops (f : func) : list op := flat_map region_within (regions_of f).
(** The calls and references of functions in a module. *)
Definition kind_of (o : op) : kind := match o with Op _ k _ _ => k end.
Definition referenced (p : list func) (g : N) : Prop := exists f o, In f p /\ In o (func_ops f) /\ kind_of o = Constant g.
Definition calls_to (g : N) (o : op) : bool := match kind_of o with Call h | TailCall h => h =? g | _ => false end.
Definition call_count (p : list func) (g : N) : nat := List.length (filter (calls_to g) (flat_map func_ops p)).
Definition refers_to (p : list func) (f g : N) : Prop :=
  exists x o, In x p /\ name x = f /\ In o (func_ops x) /\ (kind_of o = Call g \/ kind_of o = TailCall g \/ kind_of o = Constant g) /\ In g (map name p).
(** Which callees may be inlined. *)
Definition may_inline (cfg : config) (p : list func) (g : N) : Prop :=
  exists x, In x p /\ name x = g /\ regions_of x <> [] /\ abi x = false /\ ~ clos_trans N (refers_to p) g g /\
    ((always_inline_single_call_site cfg = true /\ ~ referenced p g /\ call_count p g = 1%nat) \/
     ((~ referenced p g \/ inline_across_func_constant cfg = true) /\ (List.length (func_ops x) <= size_threshold cfg)%nat)).
(** Of a module: the functions have different names, and [next] is the next value to be allocated. *)
Definition valid (leaves : N -> bool) (rets : N -> nat) (next : N) (p : list func) : Prop := NoDup (map name p) /\ Forall (valid_func leaves rets next) p.
