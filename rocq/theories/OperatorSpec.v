(** What the operators on numbers mean.  Independent of the passes. *)
From Coq Require Export String ZArith List Bool.
From Verif Require Export OperatorMachine OperatorModel.
From Verif Require ArithSpec.
Open Scope string_scope.
Open Scope list_scope.
Open Scope Z_scope.
Import ListNotations.

Inductive number := Int_ | Nat_ | Float_.
Inductive operator := Plus | Minus | Times | Over | Modulo | Equal | Unequal | Less | AtMost | Greater | AtLeast.
Definition number_name (n : number) : string := match n with Int_ => "Int" | Nat_ => "Nat" | Float_ => "Float" end.
Definition operator_name (o : operator) : string :=
  match o with
  | Plus => "+" | Minus => "-" | Times => "*" | Over => "/" | Modulo => "%" | Equal => "==" | Unequal => "!=" | Less => "<" | AtMost => "<=" | Greater => ">" | AtLeast => ">="
  end.
Definition qualified (n : number) (o : operator) : string := (number_name n ++ "::" ++ operator_name o)%string.
(** The standard library declares all of them, except a remainder of floats. *)
Definition declared (n : number) (o : operator) : Prop := ~ (n = Float_ /\ o = Modulo).
Definition compares (o : operator) : bool := match o with Equal | Unequal | Less | AtMost | Greater | AtLeast => true | _ => false end.
Definition result_name (n : number) (o : operator) : string := if compares o then "Bool" else number_name n.

(** Integers of 32 bits: what does not fit wraps around. *)
Definition int_range (z : Z) : Prop := - 2 ^ 31 <= z < 2 ^ 31.
Definition nat_range (z : Z) : Prop := 0 <= z < 2 ^ 32.
Definition int_wrap (z : Z) : Z := (z + 2 ^ 31) mod 2 ^ 32 - 2 ^ 31.
Definition nat_wrap (z : Z) : Z := z mod 2 ^ 32.

Section Spec.
  Variable f : floats.
  Inductive value := VInt (z : Z) | VNat (z : Z) | VFloat (x : carrier f) | VBool (b : bool).
  Definition of_number (n : number) (v : value) : Prop :=
    match n, v with Int_, VInt z => int_range z | Nat_, VNat z => nat_range z | Float_, VFloat _ => True | _, _ => False end.
  Inductive outcome := Result (v : value) | Stops | Meaningless.

  (** Division rounds toward zero; it stops the program for a divisor of zero, and if the quotient is no Int. *)
  Definition int_meaning (o : operator) (a b : Z) : outcome :=
    match o with
    | Plus => Result (VInt (int_wrap (a + b))) | Minus => Result (VInt (int_wrap (a - b))) | Times => Result (VInt (int_wrap (a * b)))
    | Over => if b =? 0 then Stops else if Z.quot a b =? 2 ^ 31 then Stops else Result (VInt (Z.quot a b))
    | Modulo => if b =? 0 then Stops else Result (VInt (Z.rem a b))
    | Equal => Result (VBool (a =? b)) | Unequal => Result (VBool (negb (a =? b)))
    | Less => Result (VBool (a <? b)) | AtMost => Result (VBool (a <=? b)) | Greater => Result (VBool (b <? a)) | AtLeast => Result (VBool (b <=? a))
    end.
  Definition nat_meaning (o : operator) (a b : Z) : outcome :=
    match o with
    | Plus => Result (VNat (nat_wrap (a + b))) | Minus => Result (VNat (nat_wrap (a - b))) | Times => Result (VNat (nat_wrap (a * b)))
    | Over => if b =? 0 then Stops else Result (VNat (a / b))
    | Modulo => if b =? 0 then Stops else Result (VNat (a mod b))
    | Equal => Result (VBool (a =? b)) | Unequal => Result (VBool (negb (a =? b)))
    | Less => Result (VBool (a <? b)) | AtMost => Result (VBool (a <=? b)) | Greater => Result (VBool (b <? a)) | AtLeast => Result (VBool (b <=? a))
    end.
  (** Floats that cannot be compared are unequal, and in no order. *)
  Definition float_meaning (o : operator) (x y : carrier f) : outcome :=
    let is c := match fcompare f x y with Some d => match c, d with Lt, Lt | Eq, Eq | Gt, Gt => true | _, _ => false end | None => false end in
    match o with
    | Plus => Result (VFloat (fadd f x y)) | Minus => Result (VFloat (fsub f x y)) | Times => Result (VFloat (fmul f x y)) | Over => Result (VFloat (fdiv f x y))
    | Modulo => Meaningless
    | Equal => Result (VBool (is Eq)) | Unequal => Result (VBool (negb (is Eq)))
    | Less => Result (VBool (is Lt)) | AtMost => Result (VBool (is Lt || is Eq)) | Greater => Result (VBool (is Gt)) | AtLeast => Result (VBool (is Gt || is Eq))
    end.
  Definition meaning (o : operator) (a b : value) : outcome :=
    match a, b with
    | VInt a, VInt b => int_meaning o a b
    | VNat a, VNat b => nat_meaning o a b
    | VFloat x, VFloat y => float_meaning o x y
    | _, _ => Meaningless
    end.

  (** Values in the registers of the machine. *)
  Variable f32 : floats.
  Definition held (v : value) : raw f32 f :=
    match v with VInt z => RI 32 (z mod 2 ^ 32) | VNat z => RI 32 z | VFloat x => RF64 x | VBool b => RI 32 (if b then 1 else 0) end.
  Definition held_outcome (o : outcome) : answer (raw f32 f) := match o with Result v => Value (held v) | Stops => Trapped | Meaningless => Rejected end.
End Spec.
Arguments VInt {f} z. Arguments VNat {f} z. Arguments VFloat {f} x. Arguments VBool {f} b.

(** ** Operations of the arith dialect, whose meaning C11 gives *)
Definition arith_name (o : ArithModel.binop) : string :=
  match o with
  | ArithModel.Addi => "addi" | ArithModel.Subi => "subi" | ArithModel.Muli => "muli" | ArithModel.Divsi => "divsi" | ArithModel.Divui => "divui"
  | ArithModel.Remsi => "remsi" | ArithModel.Remui => "remui" | ArithModel.And => "and" | ArithModel.Or => "or" | ArithModel.Xor => "xor"
  end.
Definition binary_arith (o : ArithModel.binop) (ty : string) : arith := {| a_name := arith_name o; a_predicate := ""; a_operands := [ty; ty]; a_result := ty |}.
Definition conversion_arith (name src dst : string) : arith := {| a_name := name; a_predicate := ""; a_operands := [src]; a_result := dst |}.

(** Shifts multiply by a power of two, or divide by one rounding down; negation is the difference from zero. *)
Inductive shift := ShiftLeft | ShiftRight | ShiftRightUnsigned.
Definition shift_name (s : shift) : string := match s with ShiftLeft => "shl" | ShiftRight => "shr" | ShiftRightUnsigned => "shru" end.
Definition shifted (s : shift) (w p k : Z) : Z :=
  match s with ShiftLeft => p * 2 ^ k mod 2 ^ w | ShiftRight => (if p <? 2 ^ (w - 1) then p else p - 2 ^ w) / 2 ^ k mod 2 ^ w | ShiftRightUnsigned => p / 2 ^ k end.
Definition named_arith (name ty : string) : arith := {| a_name := name; a_predicate := ""; a_operands := [ty; ty]; a_result := ty |}.
Definition unary_arith (name ty : string) : arith := {| a_name := name; a_predicate := ""; a_operands := [ty]; a_result := ty |}.
(** A comparison of two operands of a type; its result is a Bool. *)
Definition comparison_arith (name predicate ty : string) : arith := {| a_name := name; a_predicate := predicate; a_operands := [ty; ty]; a_result := "i1" |}.
(** The predicates of comparisons. *)
Definition cc_name (c : int_cc) : string := match c with IEq => "eq" | INe => "ne" | SLt => "slt" | SLe => "sle" | SGt => "sgt" | SGe => "sge" | ULt => "ult" | ULe => "ule" | UGt => "ugt" | UGe => "uge" end.
