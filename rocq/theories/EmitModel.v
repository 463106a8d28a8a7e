(** Structured control flow on its way to WebAssembly.
    Models crates/trunk-ir-wasm-backend/src/passes/scf_to_wasm.rs:25-265 and, in
    crates/trunk-ir-wasm-backend/src/emit.rs, [emit_function] (711-767), [assign_locals_in_region] (769-833),
    [emit_region_ops_nested] (852-897), [region_result_value] (899-915), the general part of [emit_op_nested] (917-1114),
    [set_result_local] (1116-1132) and [compress_locals] (1187-1205), with emit/handlers/control_flow_handlers.rs:63-294
    and the order of operands of emit/handlers/call_handlers.rs:46-230.
    Simplified: regions are lists of operations (regions with several blocks are an error there); values are numbers; value
    types are numbers, with one for nil and one for conditions; an operation other than control flow is a number that stands
    for its name and attributes, and its instruction is that number; instructions between a header and its [end] are the
    header's body; u32 casts are dropped.  [None] is a compilation error or a panic. *)
From Verif Require Export Base.

Definition vt := nat.
Definition nil_t : vt := 0.
Definition bool_t : vt := 1.
Definition is_nil (t : vt) : bool := Nat.eqb t nil_t.

(** ** The scf dialect, dialect/scf.rs:3-39.  [scf.if] and [scf.loop] have one result. *)
Inductive sop :=
| OPlain (k : nat) (args : list nat) (res : option (nat * vt))
| OIf (c r : nat) (t : vt) (th el : list sop)
| OLoop (init : list nat) (ps : list (nat * vt)) (r r' : nat) (t : vt) (body : list sop)
    (* [r'] is the number of the value that the lowering will make for the inner operation *)
| OYield (vs : list nat)
| OContinue (vs : list nat)
| OBreak (v : nat).

(** ** The wasm dialect *)
Inductive wop :=
| WPlain (k : nat) (args : list nat) (res : option (nat * vt))
| WIf (c r : nat) (t : vt) (th el : list wop)
| WBlock (r : nat) (t : vt) (body : list wop)
| WLoop (init : list nat) (ps : list (nat * vt)) (r : nat) (t : vt) (body : list wop)
| WYield (v : nat)
| WBr (d : nat)
| WOther.                                   (* an operation left as it was *)

(** scf_to_wasm.rs: [ScfIfPattern] 36-73, [ScfLoopPattern] 81-134, [ScfYieldPattern] 145-179, [ScfContinuePattern] 186-226,
    [ScfBreakPattern] 239-264. *)
Fixpoint lower (o : sop) : list wop :=
  match o with
  | OPlain k args res => [WPlain k args res]
  | OIf c r t th el => [WIf c r t (flat_map lower th) (flat_map lower el)]
  | OLoop init ps r r' t body => [WBlock r t [WLoop init ps r' t (flat_map lower body)]]
  | OYield [] => []
  | OYield [v] => [WYield v]
  | OYield _ => [WOther]
  | OContinue [] => [WBr 1]
  | OContinue [v] => [WYield v; WBr 1]
  | OContinue _ => [WOther]
  | OBreak v => [WYield v; WBr 2]
  end.

(** ** Locals: [assign_locals_in_region].  The values of an operation's regions come before its own result. *)
Fixpoint locals_of (o : wop) : list (nat * vt) :=
  match o with
  | WPlain _ _ (Some x) => [x]
  | WIf _ r t th el => flat_map locals_of th ++ flat_map locals_of el ++ [(r, t)]
  | WBlock r t b => flat_map locals_of b ++ [(r, t)]
  | WLoop _ ps r t b => ps ++ flat_map locals_of b ++ [(r, t)]
  | _ => []
  end.
Fixpoint position_of (v : nat) (l : list (nat * vt)) : option nat :=
  match l with
  | [] => None
  | x :: l => if Nat.eqb (fst x) v then Some 0 else option_map S (position_of v l)
  end.

(** [compress_locals]: equal neighbours counted. *)
Fixpoint compress_from (current : vt) (count : nat) (l : list vt) : list (nat * vt) :=
  match l with
  | [] => [(count, current)]
  | t :: l => if Nat.eqb t current then compress_from current (S count) l else (count, current) :: compress_from t 1 l
  end.
Definition compress_locals (l : list vt) : list (nat * vt) :=
  match l with [] => [] | t :: l => compress_from t 1 l end.

(** ** Instructions *)
Inductive instr :=
| IGet (i : nat)
| ISet (i : nat)
| IOp (k : nat)
| IIf (t : option vt) (th el : list instr)
| IBlock (t : option vt) (b : list instr)
| ILoop (t : option vt) (b : list instr)
| IBr (d : nat).

Definition obind {A B} (x : option A) (f : A -> option B) : option B := match x with Some a => f a | None => None end.
Notation "x <- a ;; b" := (obind a (fun x => b)) (at level 100, a at next level, right associativity).

(** [NestingKind], emit.rs:836-840; innermost first here. *)
Inductive nesting := NBlock | NLoop (args : list nat) | NIf.

Section Emit.
  Variable slot : nat -> option nat.        (* [value_locals] *)
  Variable indirect : nat -> bool.          (* call_indirect and return_call_indirect *)

  Fixpoint slots (vs : list nat) : option (list nat) :=
    match vs with
    | [] => Some []
    | v :: vs => i <- slot v ;; is <- slots vs ;; Some (i :: is)
    end.

  (** The callee is the first operand of an indirect call and comes last on the stack. *)
  Definition ordered (k : nat) (args : list nat) : list nat :=
    if indirect k then match args with a :: args => args ++ [a] | [] => [] end else args.

  Definition set_result (r : nat) (t : vt) : option (list instr) :=
    if is_nil t then Some [] else i <- slot r ;; Some [ISet i].

  Definition result_of (o : wop) : option nat :=
    match o with
    | WPlain _ _ (Some (r, _)) | WIf _ r _ _ _ | WBlock r _ _ | WLoop _ _ r _ _ => Some r
    | _ => None
    end.
  Definition region_result (l : list wop) : option nat :=
    match rev l with
    | WYield v :: _ => Some v
    | o :: _ => result_of o
    | [] => None
    end.
  (** The value that a region ends with, put on the stack if it is wanted. *)
  Definition get_result (wanted : bool) (l : list wop) : option (list instr) :=
    if wanted then match region_result l with Some v => i <- slot v ;; Some [IGet i] | None => Some [] end else Some [].

  (** [emit_region_ops_nested]. *)
  Definition emit_list (f : wop -> option (list instr)) (nest : list nesting) :=
    fix go (l : list wop) : option (list instr) :=
      match l with
      | [] => Some []
      | o :: l' =>
          match o with
          | WYield v =>
              match l' with
              | WBr d :: _ =>
                  i <- slot v ;;
                  rest <- go l' ;;
                  match nth_error nest d with
                  | Some (NLoop args) => Some (flat_map (fun a => [IGet i; ISet a]) args ++ rest)
                  | _ => Some (IGet i :: rest)
                  end
              | _ => go l'
              end
          | _ => a <- f o ;; b <- go l' ;; Some (a ++ b)
          end
      end.

  Definition block_type (wanted : bool) (t : vt) : option vt := if wanted then Some t else None.

  Fixpoint emit (nest : list nesting) (o : wop) {struct o} : option (list instr) :=
    match o with
    | WPlain k args res =>
        is <- slots (ordered k args) ;;
        st <- match res with Some (r, t) => set_result r t | None => Some [] end ;;
        Some (List.map IGet is ++ IOp k :: st)
    | WIf c r t th el =>
        let wanted := match region_result th with Some _ => negb (is_nil t) | None => false end in
        i <- slot c ;;
        a <- emit_list (emit (NIf :: nest)) (NIf :: nest) th ;;
        av <- get_result wanted th ;;
        b <- emit_list (emit (NIf :: nest)) (NIf :: nest) el ;;
        bv <- get_result wanted el ;;
        st <- (if wanted then set_result r t else Some []) ;;
        Some (IGet i :: IIf (block_type wanted t) (a ++ av) (b ++ bv) :: st)
    | WBlock r t body =>
        let wanted := negb (is_nil t) in
        a <- emit_list (emit (NBlock :: nest)) (NBlock :: nest) body ;;
        av <- get_result wanted body ;;
        st <- (if wanted then set_result r t else Some []) ;;
        Some (IBlock (block_type wanted t) (a ++ av) :: st)
    | WLoop init ps r t body =>
        let wanted := negb (is_nil t) in
        ls <- slots (List.map fst ps) ;;
        is <- slots init ;;
        if Nat.eqb (List.length init) (List.length ps) then
          a <- emit_list (emit (NLoop ls :: nest)) (NLoop ls :: nest) body ;;
          av <- get_result wanted body ;;
          st <- (if wanted then set_result r t else Some []) ;;
          Some (flat_map (fun x : nat * nat => [IGet (fst x); ISet (snd x)]) (combine is ls)
                ++ ILoop (block_type wanted t) (a ++ av) :: st)
        else None
    | WYield _ => Some []
    | WBr d => Some [IBr d]
    | WOther => None
    end.
  Definition emits (nest : list nesting) (l : list wop) : option (list instr) := emit_list (emit nest) nest l.
End Emit.

(** A function: its parameters and its body. *)
Record func := mkFunc { f_params : list (nat * vt); f_body : list sop }.
(** All values that have a local, in the order of their locals: the parameters first. *)
Definition values (f : func) : list (nat * vt) := f_params f ++ flat_map locals_of (flat_map lower (f_body f)).
Record code := mkCode { c_locals : list (nat * vt); c_instrs : list instr }.
(** [emit_function], after [scf_to_wasm]. *)
Definition compile (indirect : nat -> bool) (f : func) : option code :=
  is <- emits (fun v => position_of v (values f)) indirect [] (flat_map lower (f_body f)) ;;
  Some (mkCode (compress_locals (List.map snd (skipn (List.length (f_params f)) (values f)))) is).
