(** Fixed-width integer arithmetic on bit patterns.  Independent of the folds. *)
From Verif Require Import Base ArithModel.
Open Scope Z_scope.

(** A value of width [w] is a bit pattern, a number in [0, 2^w). *)
Definition pattern (w v : Z) : Z := v mod 2 ^ w.
(** The two's-complement reading of a pattern. *)
Definition signed (w p : Z) : Z := if p <? 2 ^ (w - 1) then p else p - 2 ^ w.

(** Division truncates toward zero; dividing by zero, and dividing the smallest
    value by -1, traps ([None]). *)
Definition sdiv_traps (w p q : Z) : bool :=
  (q =? 0) || ((signed w p =? - 2 ^ (w - 1)) && (signed w q =? -1)).

Definition exec (o : binop) (w p q : Z) : option Z :=
  match o with
  | Addi => Some (pattern w (p + q))
  | Subi => Some (pattern w (p - q))
  | Muli => Some (pattern w (p * q))
  | Divsi => if sdiv_traps w p q then None else Some (pattern w (Z.quot (signed w p) (signed w q)))
  | Remsi => if sdiv_traps w p q then None else Some (pattern w (Z.rem (signed w p) (signed w q)))
  | Divui => if q =? 0 then None else Some (p / q)
  | Remui => if q =? 0 then None else Some (p mod q)
  | And => Some (Z.land p q)
  | Or => Some (Z.lor p q)
  | Xor => Some (Z.lxor p q)
  end.

(** What an operand evaluates to at run time: a constant's payload is reduced to
    the width; anything else is read from the environment. *)
Definition run (w : Z) (env : nat -> Z) (o : operand) : Z :=
  match o_const o with Some c => pattern w c | None => pattern w (env (o_value o)) end.
Definition run_result (w : Z) (env : nat -> Z) (r : fold_result) : Z :=
  match r with Forward o => run w env o | ArithConst c => pattern w c end.

(** Payloads are i128; a payload is canonical at width [w] when it is the
    sign-extension of its pattern. *)
Definition i128_const (o : operand) : Prop :=
  match o_const o with Some c => - 2 ^ 127 <= c < 2 ^ 127 | None => True end.
Definition canonical_const (w : Z) (o : operand) : Prop :=
  match o_const o with Some c => - 2 ^ (w - 1) <= c < 2 ^ (w - 1) | None => True end.
Definition signed_division (o : binop) : Prop := o = Divsi \/ o = Remsi.

Definition core_i (n : string) : rtype := {| rt_dialect := "core"; rt_name := n; rt_plain := true |}.
Definition cst (c : Z) : operand := {| o_value := 0%nat; o_const := Some c |}.
Definition var (x : nat) : operand := {| o_value := x; o_const := None |}.
