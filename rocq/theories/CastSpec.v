(** What resolving casts does to the IR: a list of replacements, in order. *)
From Verif Require Export IrModel IrSpec IrTreeSpec DceSpec.
From Verif Require Export CastModel.

(** One removed cast: the value it gave ([r_old]), the value its readers get instead ([r_new]), what it was applied to at
    that moment ([r_input]), between which types, and the operations put in its place. *)
Record replacement := { r_cast : nat; r_old : nat; r_input : nat; r_from : nat; r_to : nat; r_new : nat; r_plan : list item; r_base : nat; r_ops : list nat }.

(** What a reader of [w] reads after the replacements, made one after the other. *)
Definition follow (log : list replacement) (w : nat) : nat :=
  fold_left (fun w e => if Nat.eqb w (r_old e) then r_new e else w) log w.
(** What stands in the place of operation [x]. *)
Definition in_place_of (log : list replacement) (x : nat) : list nat :=
  match find (fun e => Nat.eqb (r_cast e) x) log with Some e => r_ops e | None => [x] end.
Definition removed (log : list replacement) (x : nat) : Prop := exists e, In e log /\ r_cast e = x.

Section Spec.
  Variable is_cast : nat -> bool.
  Variable convert : nat -> option nat.
  Variable materialize : nat -> nat -> option (list item * ref).

  Definition target (t : nat) : nat := match convert t with Some u => u | None => t end.
  Definition cast_in (c : ctx) (x input original : nat) : Prop :=
    exists d more more', nth_error (ops c) x = Some d /\ is_cast (o_kind d) = true /\ o_operands d = input :: more /\ o_result_types d = original :: more'.
  (** A cast that lacks an operand or a result. *)
  Definition malformed (c : ctx) (x : nat) : Prop :=
    exists d, nth_error (ops c) x = Some d /\ is_cast (o_kind d) = true /\ (o_operands d = [] \/ o_result_types d = []).

  (** The replacement [e], made after those in [before], was right: the cast applied to a value of type [r_from]; that value
      itself when no conversion is needed, else what the materializer planned. *)
  Record justified (c c' : ctx) (r : nat) (before : list replacement) (e : replacement) : Prop := {
    j_inside : inside c r (r_cast e);
    j_cast : exists input original, cast_in c (r_cast e) input original /\ r_input e = follow before input /\ r_to e = target original;
    j_result : nth_error (op_results c (r_cast e)) 0 = Some (r_old e);
    j_from : value_ty c' (r_input e) = Some (r_from e);
    j_new : (r_from e = r_to e /\ r_new e = r_input e /\ r_plan e = []) \/
            (r_from e <> r_to e /\ exists v, materialize (r_from e) (r_to e) = Some (r_plan e, v) /\ r_new e = value_of (r_base e) (r_input e) v);
    j_fresh : length (vals c) <= r_base e;
  }.
  (** The planned operations were made: new operations reading what was planned (or what that has been replaced by since). *)
  Definition made (c c' : ctx) (e : replacement) (after : list replacement) : Prop :=
    length (r_ops e) = length (r_plan e) /\
    forall k p o, nth_error (r_plan e) k = Some p -> nth_error (r_ops e) k = Some o ->
      length (ops c) <= o /\
      exists d, nth_error (ops c') o = Some d /\ o_kind d = i_kind p /\ o_result_types d = i_types p /\ o_regions d = [] /\ o_succs d = [] /\
        o_operands d = map (fun x => follow (e :: after) (value_of (r_base e) (r_input e) x)) (i_operands p) /\
        op_results c' o = seq (r_base e + list_sum (map (fun q => length (i_types q)) (firstn k (r_plan e)))) (length (i_types p)).

  Record resolved (c : ctx) (dead : list nat) (r : nat) (c' : ctx) (log : list replacement) : Prop := {
    (* each replacement is justified, and no cast is removed twice *)
    rs_why : forall before e after, log = before ++ e :: after -> justified c c' r before e /\ made c c' e after;
    rs_once : NoDup (map r_cast log);
    (* operations stay where they are, with replacements in the place of casts *)
    rs_regions : regions c' = regions c;
    rs_blocks : forall b, nth_error (blocks c') b = option_map (fun bd => set_bops bd (flat_map (in_place_of log) (b_ops bd))) (nth_error (blocks c) b);
    (* an operation keeps everything but its operands, which follow the replacements *)
    rs_ops : forall x d, nth_error (ops c) x = Some d -> exists d', nth_error (ops c') x = Some d' /\ o_kind d' = o_kind d /\
      o_result_types d' = o_result_types d /\ o_regions d' = o_regions d /\ o_succs d' = o_succs d /\
      (~ removed log x -> o_parent d' = o_parent d) /\
      (~ In x dead -> ~ removed log x -> o_operands d' = map (follow log) (o_operands d));
    rs_results : forall x, x < length (ops c) -> op_results c' x = op_results c x;
    rs_args : block_args c' = block_args c;
    (* nothing alive reads the result of a removed cast *)
    rs_gone : forall e, In e log -> uses c' (r_old e) = [];
  }.
  (** A cast reported as unresolved: it is still there, its input has type [from] after some first part of the replacements, and
      the materializer has no plan. *)
  Definition reported (c : ctx) (r : nat) (c' : ctx) (log : list replacement) (q : nat * (nat * nat)) : Prop :=
    let '(x, (from, to)) := q in
    inside c r x /\ ~ removed log x /\
    exists input original before after, cast_in c x input original /\ to = target original /\ log = before ++ after /\
      value_ty c' (follow before input) = Some from /\ from <> to /\ materialize from to = None.

  (** The whole result. *)
  Record resolution (c : ctx) (dead : list nat) (r : nat) (c' : ctx) (count : nat) (unresolved : list (nat * (nat * nat))) (log : list replacement) : Prop := {
    out_resolved : resolved c dead r c' log;
    out_count : count = length log;
    out_reported : forall q, In q unresolved -> reported c r c' log q;
    out_once : NoDup (map fst unresolved);
    (* every well-formed cast is removed or reported *)
    out_all : forall x input original, inside c r x -> cast_in c x input original -> removed log x \/ In x (map fst unresolved);
    (* a cast that is left was reported, lacks an operand or a result, or comes from the materializer *)
    out_left : forall x d, inside c' r x -> nth_error (ops c') x = Some d -> is_cast (o_kind d) = true ->
      In x (map fst unresolved) \/ malformed c x \/ exists e, In e log /\ In x (r_ops e);
  }.
  (** A materializer whose value has the type asked for. *)
  Definition honest : Prop := forall from to plan v, materialize from to = Some (plan, v) ->
    match v with Input => from = to | Made k => nth_error (concat (map i_types plan)) k = Some to end.
  Definition casts_are_leaves (c : ctx) (r : nat) : Prop :=
    forall x d, inside c r x -> nth_error (ops c) x = Some d -> is_cast (o_kind d) = true -> o_regions d = [].
End Spec.
