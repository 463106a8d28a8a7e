(** Resolution of conversion casts.
    Models crates/trunk-ir/src/conversion/resolve_unrealized_casts.rs:74-190 over the IR arena of IrModel.  Type conversion
    (rewrite/type_converter.rs:61-70) and materialization (…:78-87) are functions given as parameters; a materializer sees
    the two types and answers with a plan of operations to create, whose operands are the input or values of the plan (the
    materializers in native/type_converter.rs:164-281 and wasm/type_converter.rs:502-860 are of this shape).  Locations are
    dropped; an unresolved cast is reported with its operation.  [None] is a panic or lack of fuel. *)
From Verif Require Export IrModel.

Inductive ref := Input | Made (k : nat).   (* the k-th value that the plan creates *)
Record item := { i_kind : nat; i_operands : list ref; i_types : list nat }.

Definition value_of (base input : nat) (x : ref) : nat := match x with Input => input | Made k => base + k end.
Fixpoint create_all (c : ctx) (base input : nat) (plan : list item) : option (ctx * list nat) :=
  match plan with
  | [] => Some (c, [])
  | p :: plan =>
      match create_op c (i_kind p) (map (value_of base input) (i_operands p)) (i_types p) [] [] with
      | None => None
      | Some (c1, o) => match create_all c1 base input plan with Some (c2, os) => Some (c2, o :: os) | None => None end
      end
  end.
Fixpoint insert_all (c : ctx) (b before : nat) (os : list nat) : option ctx :=
  match os with
  | [] => Some c
  | o :: os => match insert_op_before c b before o with Some c1 => insert_all c1 b before os | None => None end
  end.
(** rewrite/helpers.rs erase_op *)
Definition erase_op (depth : nat) (c : ctx) (o : nat) : option ctx :=
  match detach_op c o with
  | None => None
  | Some c1 => match remove_op depth c1 o with Some (c2, _) => Some c2 | None => None end
  end.

Section Resolve.
  Variable is_cast : nat -> bool.
  Variable convert : nat -> option nat.
  Variable materialize : nat -> nat -> option (list item * ref).

  (** Context, number of resolved casts, unresolved casts. *)
  Definition state := (ctx * (nat * list (nat * (nat * nat))))%type.

  (** [try_resolve_cast], lines 113-189. *)
  Definition try_resolve (depth : nat) (s : state) (b o : nat) : option state :=
    let '(c, (count, unresolved)) := s in
    match nth_error (ops c) o with
    | None => None
    | Some d =>
        match o_operands d, o_result_types d with
        | [], _ => Some s
        | _, [] => Some s
        | input :: _, original :: _ =>
            let to := match convert original with Some t => t | None => original end in
            match value_ty c input, nth_error (op_results c o) 0 with
            | Some from, Some result =>
                if Nat.eqb from to then
                  match erase_op depth (replace_all_uses c result input) o with
                  | Some c1 => Some (c1, (S count, unresolved))
                  | None => None
                  end
                else
                  match materialize from to with
                  | Some (plan, value) =>
                      let base := length (vals c) in
                      match create_all c base input plan with
                      | None => None
                      | Some (c1, os) =>
                          match insert_all c1 b o os with
                          | None => None
                          | Some c2 =>
                              match erase_op depth (replace_all_uses c2 result (value_of base input value)) o with
                              | Some c3 => Some (c3, (S count, unresolved))
                              | None => None
                              end
                          end
                      end
                  | None => Some (c, (count, unresolved ++ [(o, (from, to))]))
                  end
            | _, _ => None
            end
        end
    end.

  Fixpoint loop {A} (f : state -> A -> option state) (s : state) (l : list A) : option state :=
    match l with
    | [] => Some s
    | a :: l => match f s a with Some s1 => loop f s1 l | None => None end
    end.
  (** [resolve_block], lines 90-111, for one operation of the snapshot. *)
  Definition resolve_op (region : state -> nat -> option state) (depth b : nat) (s : state) (o : nat) : option state :=
    match nth_error (ops (fst s)) o with
    | None => None
    | Some d =>
        if match o_parent d with Some p => Nat.eqb p b | None => false end then
          if is_cast (o_kind d) then try_resolve depth s b o
          else loop region s (o_regions d)
        else Some s
    end.
  (** [resolve_region], lines 83-88. *)
  Fixpoint resolve_region (fuel depth : nat) (s : state) (r : nat) : option state :=
    match fuel with
    | O => None
    | S n =>
        match nth_error (regions (fst s)) r with
        | None => None
        | Some rd =>
            loop (fun s b => match nth_error (blocks (fst s)) b with
                             | None => None
                             | Some bd => loop (resolve_op (resolve_region n depth) depth b) s (b_ops bd)
                             end) s (r_blocks rd)
        end
    end.
  (** [resolve_unrealized_casts], lines 42-72. *)
  Definition resolve_casts (fuel depth : nat) (c : ctx) (body : nat) : option state := resolve_region fuel depth (c, (0, [])) body.
End Resolve.
