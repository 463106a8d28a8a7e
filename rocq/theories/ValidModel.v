(** Validation of value scopes and use lists.
    Models crates/trunk-ir/src/validation.rs:90-300 and 690-703, over the IR arena of IrModel.  Errors are given by what
    identifies them: function, operation, operand index; or value, operation, operand index.  Hash sets are lists. *)
From Verif Require Export IrModel.

Definition vmem (x : nat) (l : list nat) : bool := existsb (Nat.eqb x) l.
(** A loop that stops at the first panic (or lack of fuel). *)
Fixpoint ocat {A B} (f : A -> option (list B)) (l : list A) : option (list B) :=
  match l with
  | [] => Some []
  | x :: l => match f x, ocat f l with Some a, Some b => Some (a ++ b) | _, _ => None end
  end.
(** Loop over the operations in the blocks of a region. *)
Definition each_op {B} (c : ctx) (f : nat -> op -> option (list B)) (r : nat) : option (list B) :=
  match nth_error (regions c) r with
  | None => None
  | Some rd =>
      ocat (fun b => match nth_error (blocks c) b with
                     | None => None
                     | Some bd => ocat (fun o => match nth_error (ops c) o with None => None | Some d => f o d end) (b_ops bd)
                     end) (r_blocks rd)
  end.

(** [collect_region_top_level], validation.rs:96-109. *)
Definition top_level (c : ctx) (r : nat) : list nat :=
  match nth_error (regions c) r with
  | None => []
  | Some rd => flat_map (fun b => block_args c b ++
                 match nth_error (blocks c) b with Some bd => flat_map (op_results c) (b_ops bd) | None => [] end) (r_blocks rd)
  end.

Fixpoint bad_operands (visible : list nat) (o i : nat) (vs : list nat) : list (nat * nat) :=
  match vs with
  | [] => []
  | v :: vs => (if vmem v visible then [] else [(o, i)]) ++ bad_operands visible o (S i) vs
  end.
(** [check_operands_in_region], validation.rs:137-169. *)
Fixpoint check_region (fuel : nat) (c : ctx) (r : nat) (outer : list nat) : option (list (nat * nat)) :=
  match fuel with
  | O => None
  | S n =>
      let visible := outer ++ top_level c r in
      each_op c (fun o d => match ocat (fun r2 => check_region n c r2 visible) (o_regions d) with
                            | None => None
                            | Some es => Some (bad_operands visible o 0 (o_operands d) ++ es)
                            end) r
  end.

Section Functions.
  (** Operations named [func.func] or [wasm.func]. *)
  Variable is_function : nat -> bool.
  (** [validate_functions_in_region], validation.rs:191-229. *)
  Fixpoint validate_functions (fuel : nat) (c : ctx) (r : nat) : option (list (nat * (nat * nat))) :=
    match fuel with
    | O => None
    | S n =>
        each_op c (fun o d =>
          match (if is_function (o_kind d) then ocat (fun r2 => check_region n c r2 []) (o_regions d) else Some []),
                ocat (validate_functions n c) (o_regions d) with
          | Some es, Some es' => Some (map (pair o) es ++ es')
          | _, _ => None
          end) r
    end.
End Functions.

(** ** Use lists *)
Fixpoint number {A} (i : nat) (l : list A) : list (nat * A) := match l with [] => [] | x :: l => (i, x) :: number (S i) l end.
Definition operands_at (c : ctx) (o : nat) : list (nat * (nat * nat)) :=
  match nth_error (ops c) o with Some d => map (fun p => (snd p, (o, fst p))) (number 0 (o_operands d)) | None => [] end.
Definition use_mem (v : nat) (u : nat * nat) (l : list (nat * (nat * nat))) : bool :=
  existsb (fun p => (fst p =? v) && (fst (snd p) =? fst u) && (snd (snd p) =? snd u)) l.
(** [collect_block_values], validation.rs:690-703, for the blocks of a region. *)
Fixpoint region_args (fuel : nat) (c : ctx) (r : nat) : option (list nat) :=
  match fuel with
  | O => None
  | S n =>
      match nth_error (regions c) r with
      | None => None
      | Some rd => ocat (fun b => match nth_error (blocks c) b with
                                  | None => None
                                  | Some bd =>
                                      match ocat (fun o => match nth_error (ops c) o with None => None | Some d => ocat (region_args n c) (o_regions d) end) (b_ops bd) with
                                      | Some vs => Some (block_args c b ++ vs)
                                      | None => None
                                      end
                                  end) (r_blocks rd)
      end
  end.
(** [validate_use_chains], validation.rs:241-313: operands without an entry, then entries without an operand. *)
Definition validate_uses (fuel : nat) (c : ctx) (body : nat) : option (list (nat * (nat * nat)) * list (nat * (nat * nat))) :=
  match walk_region (B := Empty_set) fuel c (fun l x => (l ++ [x], Advance)) [] body, region_args fuel c body with
  | Continued all_ops, Some args =>
      let actual := flat_map (operands_at c) all_ops in
      let missing := filter (fun p => negb (existsb (fun u => (fst u =? fst (snd p)) && (snd u =? snd (snd p))) (uses c (fst p)))) actual in
      let checked := nodup Nat.eq_dec (map fst actual ++ flat_map (op_results c) all_ops ++ args) in
      let stale := flat_map (fun v => map (pair v) (filter (fun u => negb (use_mem v u actual)) (uses c v))) checked in
      Some (missing, stale)
  | _, _ => None
  end.
