(** Running IR with structured control flow, branches, or both; and what it means that two programs behave alike. *)
From Verif Require Export Base IrModel IrSpec ScfModel.

Section Machine.
  Context {V E A : Type}.
  (** What an operation that is neither structured control flow nor a branch does, given its operand values: it gives results,
      goes to one of its successors, returns from the function, traps, asks the outside world, or runs one of its regions and
      goes on with the values that this region ends with. *)
  CoInductive act :=
  | Finish (results : list V)
  | Goto (successor : nat) (args : list V)
  | Return (vs : list V)
  | Trap
  | Perform (e : E) (k : A -> act)
  | Enter (region : nat) (args : list V) (k : list V -> act).

  Variable shape_of : nat -> shape.
  Variable case_value : nat -> nat.
  Variable effect : nat -> list V -> act.
  Variable truth : V -> bool.            (* a condition holds *)
  Variable equal : V -> nat -> bool.     (* a discriminant equals a case value *)
  Definition trace := list (E * A).
  Variable answer : trace -> E -> A.     (* the outside world *)
  Definition env := nat -> V.

  Fixpoint bind (e : env) (names : list nat) (xs : list V) : env :=
    match names, xs with
    | v :: vs, x :: r => bind (fupd e v x) vs r
    | _, _ => e
    end.

  (** An operation [f_op] of region [f_region] that is running one of its regions; [f_rest] follows it in its block. *)
  Inductive way := Once | Looping (body : nat) | Resume (k : list V -> act).
  Record frame := { f_op : nat; f_way : way; f_region : nat; f_rest : list nat }.
  Inductive ending := Returned (vs : list V) | Yielded (vs : list V) | Trapped | Wrong.
  Inductive state :=
  | At (q : nat) (l : list nat) (e : env) (k : list frame) (tr : trace)                     (* in region q, about to run l *)
  | Doing (o : nat) (a : act) (q : nat) (l : list nat) (e : env) (k : list frame) (tr : trace)  (* in the middle of o *)
  | Done (x : ending) (tr : trace).

  (** Leave the innermost operation that satisfies [p], and all those inside it. *)
  Fixpoint unwind (p : frame -> bool) (k : list frame) : option (frame * list frame) :=
    match k with
    | [] => None
    | f :: k => if p f then Some (f, k) else unwind p k
    end.
  Definition is_loop (f : frame) : bool := match f_way f with Looping _ => true | _ => false end.
  Definition is_call (f : frame) : bool := match f_way f with Resume _ => true | _ => false end.

  Section Step.
    Variable c : ctx.
    (** Go to block [b], of the current region [q] or of one around it. *)
    Definition jump (q b : nat) (vs : list V) (e : env) (k : list frame) (tr : trace) : state :=
      match nth_error (blocks c) b with
      | Some bd =>
          match b_parent bd with
          | Some q' =>
              let e' := bind e (block_args c b) vs in
              if Nat.eqb q' q then At q' (b_ops bd) e' k tr
              else match unwind (fun f => Nat.eqb (f_region f) q') k with
                   | Some (_, k') => At q' (b_ops bd) e' k' tr
                   | None => Done Wrong tr
                   end
          | None => Done Wrong tr
          end
      | None => Done Wrong tr
      end.
    (** Run region [q] from its first block. *)
    Definition enter (q : nat) (vs : list V) (e : env) (k : list frame) (tr : trace) : state :=
      match nth_error (regions c) q with
      | Some rd =>
          match r_blocks rd with
          | b :: _ => match nth_error (blocks c) b with Some bd => At q (b_ops bd) (bind e (block_args c b) vs) k tr | None => Done Wrong tr end
          | [] => Done Wrong tr
          end
      | None => Done Wrong tr
      end.
    (** The body that a switch runs on [v]: that of the first case with this value, else of the last default. *)
    Definition matching_case (v : V) (o : nat) : bool :=
      match nth_error (ops c) o with
      | Some d => match shape_of (o_kind d) with SCase => equal v (case_value (o_kind d)) | _ => false end
      | None => false
      end.
    Definition default_case (o : nat) : bool :=
      match nth_error (ops c) o with
      | Some d => match shape_of (o_kind d) with SDefault => true | _ => false end
      | None => false
      end.
    Definition selected (v : V) (l : list nat) : option nat :=
      match find (matching_case v) l with
      | Some o => Some o
      | None => find default_case (rev l)
      end.
    Definition switch_ops (d : op) : list nat :=
      match o_regions d with
      | body :: _ => match nth_error (regions c) body with
                     | Some rd => match r_blocks rd with b :: _ => match nth_error (blocks c) b with Some bd => b_ops bd | None => [] end | [] => [] end
                     | None => []
                     end
      | [] => []
      end.

    (** What follows an operation that ends its region; it must be the last one of its block. *)
    Definition last (l : list nat) (tr : trace) (s : state) : state := match l with [] => s | _ => Done Wrong tr end.

    Definition step (s : state) : state :=
      match s with
      | Done x tr => Done x tr
      | At q [] e k tr => Done Wrong tr
      | At q (o :: l) e k tr =>
          match nth_error (ops c) o with
          | None => Done Wrong tr
          | Some d =>
              let xs := map e (o_operands d) in
              match shape_of (o_kind d) with
              | SIf =>
                  match xs, o_regions d with
                  | x :: _, t :: f :: _ => enter (if truth x then t else f) [] e ({| f_op := o; f_way := Once; f_region := q; f_rest := l |} :: k) tr
                  | _, _ => Done Wrong tr
                  end
              | SLoop =>
                  match o_regions d with
                  | body :: _ => enter body xs e ({| f_op := o; f_way := Looping body; f_region := q; f_rest := l |} :: k) tr
                  | [] => Done Wrong tr
                  end
              | SSwitch =>
                  match xs with
                  | x :: _ =>
                      match selected x (switch_ops d) with
                      | Some o' =>
                          match nth_error (ops c) o' with
                          | Some d' =>
                              match o_regions d' with
                              | body :: _ => enter body [] e ({| f_op := o; f_way := Once; f_region := q; f_rest := l |} :: k) tr
                              | [] => Done Wrong tr
                              end
                          | None => Done Wrong tr
                          end
                      | None => At q l e k tr
                      end
                  | [] => Done Wrong tr
                  end
              | SYield =>
                  last l tr
                    (match k with
                     | [] => Done (Yielded xs) tr
                     | f :: k => match f_way f with
                                 | Once => At (f_region f) (f_rest f) (bind e (op_results c (f_op f)) xs) k tr
                                 | Resume g => Doing (f_op f) (g xs) (f_region f) (f_rest f) e k tr
                                 | Looping _ => Done Wrong tr
                                 end
                     end)
              | SContinue =>
                  last l tr
                    (match unwind is_loop k with
                     | Some (f, k') => match f_way f with Looping body => enter body xs e (f :: k') tr | _ => Done Wrong tr end
                     | None => Done Wrong tr
                     end)
              | SBreak =>
                  last l tr
                    (match unwind is_loop k, xs with
                     | Some (f, k'), x :: _ => At (f_region f) (f_rest f) (bind e (op_results c (f_op f)) [x]) k' tr
                     | _, _ => Done Wrong tr
                     end)
              | SBr => match o_succs d with b :: _ => jump q b xs e k tr | [] => Done Wrong tr end
              | SCondBr =>
                  match xs, o_succs d with
                  | x :: _, t :: f :: _ => jump q (if truth x then t else f) [] e k tr
                  | _, _ => Done Wrong tr
                  end
              | SCase | SDefault => Done Wrong tr
              | SPlain => Doing o (effect (o_kind d) xs) q l e k tr
              end
          end
      | Doing o a q l e k tr =>
          match a with
          | Finish rs => At q l (bind e (op_results c o) rs) k tr
          | Goto i vs =>
              match nth_error (ops c) o with
              | Some d => match nth_error (o_succs d) i with Some b => jump q b vs e k tr | None => Done Wrong tr end
              | None => Done Wrong tr
              end
          | Return vs =>
              match unwind is_call k with
              | Some (f, k') => match f_way f with Resume g => Doing (f_op f) (g vs) (f_region f) (f_rest f) e k' tr | _ => Done Wrong tr end
              | None => Done (Returned vs) tr
              end
          | Trap => Done Trapped tr
          | Perform ev g => let x := answer tr ev in Doing o (g x) q l e k (tr ++ [(ev, x)])
          | Enter i vs g =>
              match nth_error (ops c) o with
              | Some d =>
                  match nth_error (o_regions d) i with
                  | Some r => enter r vs e ({| f_op := o; f_way := Resume g; f_region := q; f_rest := l |} :: k) tr
                  | None => Done Wrong tr
                  end
              | None => Done Wrong tr
              end
          end
      end.

    Definition steps (n : nat) (s : state) : state := Nat.iter n step s.
    Definition trace_of (s : state) : trace := match s with At _ _ _ _ tr | Doing _ _ _ _ _ _ tr | Done _ tr => tr end.
    Definition ending_of (s : state) : option ending := match s with Done x _ => Some x | _ => None end.
    (** What can be seen after [n] steps of running region [r]: whether it has ended and how, and the dialogue with the world. *)
    Definition seen (r : nat) (args : list V) (e : env) (n : nat) : option ending * trace :=
      let s := steps n (enter r args e [] []) in (ending_of s, trace_of s).
  End Step.

  Definition goes_right (x : nat -> option ending * trace) : Prop := forall n, fst (x n) <> Some Wrong.
  (** Each shows, at some time, what the other shows at some time.  In particular one ends exactly if the other does, then in
      the same way, and their dialogues with the world, finite or not, are the same. *)
  Definition alike (x y : nat -> option ending * trace) : Prop := (forall n, exists m, y m = x n) /\ (forall m, exists n, x n = y m).
End Machine.

(** ** The IR that the lowering expects *)
(** Operation [x] stands directly in region [q]. *)
Definition stands (c : ctx) (x q : nat) : Prop := exists b, op_in c x b /\ block_in c b q.
(** [x] is somewhere inside region [q]; inside operation [o]. *)
Inductive deep (c : ctx) (q : nat) : nat -> Prop :=
| deep_here x : stands c x q -> deep c q x
| deep_in x q' o : stands c x q' -> region_parent c q' o -> deep c q o -> deep c q x.
Definition inside_op (c : ctx) (o x : nat) : Prop := exists q, region_parent c q o /\ deep c q x.
(** Region [q] does not belong to a disposed operation. *)
Definition live (c : ctx) (dead : list nat) (q : nat) : Prop := forall o, region_parent c q o -> ~ In o dead.
Record tidy (c : ctx) (dead : list nat) : Prop := {
  (* no operation is inside itself *)
  ti_rank : exists rank : nat -> nat, forall x q o, stands c x q -> region_parent c q o -> rank x < rank o;
  (* operands exist, and none is a result of the operation itself *)
  ti_exist : forall x d v, nth_error (ops c) x = Some d -> ~ In x dead -> In v (o_operands d) -> v < length (vals c) /\ ~ In v (op_results c x);
  (* disposed operations are only left in regions of disposed operations *)
  ti_live : forall x q, stands c x q -> live c dead q -> ~ In x dead;
}.
Section Regions.
  Variable shape_of : nat -> shape.
  (** [r] is not a body of a structured operation; when the last is false, not even of a case. *)
  Definition owned_by_other (c : ctx) (bad : shape -> bool) (r : nat) : Prop := forall o x, region_parent c r o -> shape_at shape_of c o = Some x -> bad x = false.
  Definition structured (x : shape) : bool := match x with SIf | SLoop | SSwitch | SCase | SDefault => true | _ => false end.
  (** Structured control flow; what ends a body. *)
  Definition is_flow (x : shape) : bool := match x with SIf | SLoop | SSwitch => true | _ => false end.
  Definition is_end (x : shape) : bool := match x with SYield | SContinue | SBreak => true | _ => false end.
  (** The lowering is asked to work on region [P] of this IR. *)
  Record expected (c : ctx) (dead : list nat) (P : nat) : Prop := {
    ex_tidy : tidy c dead;
    (* the operations that end a body have no regions themselves *)
    ex_ends : forall x d, nth_error (ops c) x = Some d -> is_end (shape_of (o_kind d)) = true -> o_regions d = [];
    ex_live : live c dead P;
    (* [P] is not the body of a switch, in which only cases may be *)
    ex_owner : forall o d, region_parent c P o -> nth_error (ops c) o = Some d -> shape_of (o_kind d) <> SSwitch;
    (* an if or a loop has at most one result, a switch none *)
    ex_results : forall x d, deep c P x -> nth_error (ops c) x = Some d ->
      match shape_of (o_kind d) with SIf | SLoop => length (op_results c x) <= 1 | SSwitch => op_results c x = [] | _ => True end;
  }.
  (** [r] is [P] or belongs to an operation, such as a function, that is not in structured control flow; and it is not a body of
      structured control flow. *)
  Definition program_region (c : ctx) (dead : list nat) (P r : nat) : Prop :=
    owned_by_other c structured r /\
    (r = P \/ (live c dead r /\ forall o s d, region_parent c r o -> nth_error (ops c) s = Some d -> is_flow (shape_of (o_kind d)) = true -> ~ inside_op c s o)).
  (** The kinds of operations that the lowering makes are what they should be. *)
  Record makes {V E A : Type} (effect : nat -> list V -> act (V := V) (E := E) (A := A)) (truth : V -> bool) (equal : V -> nat -> bool)
      (br_kind cond_br_kind cmp_kind : nat) (const_kind : nat -> nat) (lit : nat -> V) : Prop := {
    mk_br : shape_of br_kind = SBr;
    mk_cond_br : shape_of cond_br_kind = SCondBr;
    mk_const : forall a, shape_of (const_kind a) = SPlain /\ effect (const_kind a) [] = Finish [lit a];
    mk_cmp : shape_of cmp_kind = SPlain /\ forall v a, exists w, effect cmp_kind [v; lit a] = Finish [w] /\ truth w = equal v a;
  }.
End Regions.
