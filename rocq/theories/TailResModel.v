(** Detection of handler bodies that resume last.
    Models crates/tribute-passes/src/tail_resumptive.rs:42-103, over the IR arena of IrModel. *)
From Verif Require Export IrModel.

Section Detect.
  (** Which operation kinds are [ability.resume] and [scf.yield]. *)
  Variables is_resume is_yield : nat -> bool.

  (** [is_tail_resumptive].  The outer [None] is a panic (index out of range); the result is the resume operation and
      the value it passes on. *)
  Definition tail_resumptive (c : ctx) (body : nat) : option (option (nat * nat)) :=
    match nth_error (regions c) body with
    | None => None
    | Some rd =>
        match r_blocks rd with
        | [] => Some None
        | b :: _ =>
            match block_args c b with
            | [] => Some None
            | k :: _ =>
                match uses c k with
                | [(u, _)] =>
                    match nth_error (ops c) u with
                    | None => None
                    | Some d =>
                        if is_resume (o_kind d) then
                          match nth_error (o_operands d) 0 with
                          | None => None
                          | Some k0 =>
                              if k0 =? k then
                                match nth_error (o_operands d) 1, nth_error (op_results c u) 0 with
                                | Some v, Some x =>
                                    match uses c x with
                                    | [(y, _)] =>
                                        match nth_error (ops c) y with
                                        | None => None
                                        | Some dy =>
                                            if is_yield (o_kind dy) then
                                              match nth_error (blocks c) b with
                                              | None => None
                                              | Some bd =>
                                                  match rev (b_ops bd) with
                                                  | [] => Some None
                                                  | last :: before =>
                                                      if last =? y then
                                                        match before with
                                                        | [] => Some None
                                                        | second :: _ => if second =? u then Some (Some (u, v)) else Some None
                                                        end
                                                      else Some None
                                                  end
                                              end
                                            else Some None
                                        end
                                    | _ => Some None
                                    end
                                | _, _ => None
                                end
                              else Some None
                          end
                        else Some None
                    end
                | _ => Some None
                end
            end
        end
    end.
End Detect.
