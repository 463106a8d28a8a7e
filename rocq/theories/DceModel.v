(** Dead code elimination.  Models crates/trunk-ir/src/transforms/dce.rs:43-165
    over the arena of IrModel.  [pure] is the registry lookup of
    crates/trunk-ir/src/op_interface.rs:30-80 (which operation kinds are
    registered).  Rust recursion over nested regions is fuel; running out, and
    every panic of the arena accessors, is [None]. *)
From Verif Require Export Base IrModel.

Section Dce.
  Variable pure : nat -> bool.

  (** context.rs has_uses, negated *)
  Definition unused (c : ctx) (v : nat) : bool := match uses c v with [] => true | _ => false end.

  (** dce.rs:143-165 is_dead *)
  Definition is_dead (c : ctx) (o : nat) : option bool :=
    match nth_error (ops c) o with
    | None => None
    | Some d => Some (if pure (o_kind d) then forallb (unused c) (op_results c o) else false)
    end.

  (** [for x in xs { removed += f(ctx, x) }] *)
  Fixpoint sum_over {A} (f : ctx -> A -> option (ctx * nat)) (c : ctx) (l : list A) : option (ctx * nat) :=
    match l with
    | [] => Some (c, 0)
    | a :: r =>
        match f c a with
        | None => None
        | Some (c1, n1) => match sum_over f c1 r with Some (c2, n2) => Some (c2, n1 + n2) | None => None end
        end
    end.

  (** dce.rs:131-137: one operation of the reverse sweep. *)
  Definition reap (depth b : nat) (c : ctx) (o : nat) : option (ctx * nat) :=
    match is_dead c o with
    | None => None
    | Some false => Some (c, 0)
    | Some true =>
        match remove_op_from_block c b o with
        | None => None
        | Some c1 => match remove_op depth c1 o with Some (c2, _) => Some (c2, 1) | None => None end
        end
    end.

  (** dce.rs:104-141 sweep_region and sweep_block; [depth] is the fuel of the
      subtree walk inside remove_op. *)
  Fixpoint sweep_region (fuel depth : nat) (recursive : bool) (c : ctx) (r : nat) : option (ctx * nat) :=
    match fuel with
    | O => None
    | S n =>
        match nth_error (regions c) r with
        | None => None
        | Some rd =>
            sum_over (fun c b =>
              match nth_error (blocks c) b with
              | None => None
              | Some bd =>
                  match (if recursive
                         then sum_over (fun c o =>
                                match nth_error (ops c) o with
                                | None => None
                                | Some d => sum_over (sweep_region n depth recursive) c (o_regions d)
                                end) c (b_ops bd)
                         else Some (c, 0)) with
                  | None => None
                  | Some (c1, n1) =>
                      match nth_error (blocks c1) b with
                      | None => None
                      | Some bd1 =>
                          match sum_over (reap depth b) c1 (rev (b_ops bd1)) with
                          | Some (c2, n2) => Some (c2, n1 + n2)
                          | None => None
                          end
                      end
                  end
              end) c (r_blocks rd)
        end
    end.

  Record result := { removed_count : nat; iterations : nat; reached_fixpoint : bool }.

  (** dce.rs:55-77: the fixpoint loop, [left] iterations remaining. *)
  Fixpoint iterate (fuel depth : nat) (recursive : bool) (scope : list nat) (left done total : nat) (c : ctx) : option (ctx * result) :=
    match left with
    | O => Some (c, {| removed_count := total; iterations := done; reached_fixpoint := false |})
    | S l =>
        match sum_over (sweep_region fuel depth recursive) c scope with
        | None => None
        | Some (c', O) => Some (c', {| removed_count := total; iterations := S done; reached_fixpoint := true |})
        | Some (c', S n) => iterate fuel depth recursive scope l (S done) (total + S n) c'
        end
    end.

  (** dce.rs:43-77 eliminate_dead_code.  A scope is the region list of
      rewrite/applicator.rs:25-66 (at most one region in every implementation). *)
  Definition eliminate_dead_code (fuel depth max_iterations : nat) (recursive : bool) (c : ctx) (scope : list nat) : option (ctx * result) :=
    iterate fuel depth recursive scope (if Nat.eqb max_iterations 0 then 100 else max_iterations) 0 0 c.
End Dce.
