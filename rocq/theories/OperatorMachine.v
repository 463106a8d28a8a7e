(** The instructions that the two back ends use for numbers, as the WebAssembly and Cranelift manuals describe them.  Trusted.

    An integer is a bit pattern with its width.  Floats are abstract: the theorems hold for any type with these operations; [fcompare] gives no answer
    when one operand is not a number.  Instructions with operands of a wrong type do not pass the verifier ([Rejected]). *)
From Coq Require Export String ZArith List Bool.
From Verif Require Export Base.
Open Scope Z_scope.
Import ListNotations.

Record floats := { carrier : Type; fadd : carrier -> carrier -> carrier; fsub : carrier -> carrier -> carrier; fmul : carrier -> carrier -> carrier;
  fdiv : carrier -> carrier -> carrier; fopposite : carrier -> carrier; fcompare : carrier -> carrier -> option comparison }.

Inductive mtype := MI (w : Z) | MF32 | MF64.
Inductive int_op := IAdd | ISub | IMul | SDiv | UDiv | SRem | URem | IAnd | IOr | IXor | IShl | SShr | UShr.
Inductive int_cc := IEq | INe | SLt | SLe | SGt | SGe | ULt | ULe | UGt | UGe.
Inductive float_op := FAdd | FSub | FMul | FDiv.
Inductive float_cc := FEq | FNe | FLt | FLe | FGt | FGe.
Inductive instr :=
| IBin (o : int_op) | ICmp (c : int_cc) | FBin (o : float_op) | FCmp (c : float_cc) | INeg | FNeg
| UExtend (w : Z) | SExtend (w : Z) | IReduce (w : Z).

Inductive answer (A : Type) := Value (a : A) | Trapped | Rejected.
Arguments Value {A} a. Arguments Trapped {A}. Arguments Rejected {A}.

(** The number that a pattern of width [w] stands for, read as signed. *)
Definition as_signed (w p : Z) : Z := if p <? 2 ^ (w - 1) then p else p - 2 ^ w.
Definition low_bits (w z : Z) : Z := z mod 2 ^ w.

(** Division rounds toward zero; it traps when the divisor is zero or the quotient is out of range.  Remainders trap only for zero.  Shift distances
    are taken modulo the width. *)
Definition int_op_run (o : int_op) (w p q : Z) : answer Z :=
  match o with
  | IAdd => Value (low_bits w (p + q))
  | ISub => Value (low_bits w (p - q))
  | IMul => Value (low_bits w (p * q))
  | SDiv => if q =? 0 then Trapped else
            if Z.quot (as_signed w p) (as_signed w q) =? 2 ^ (w - 1) then Trapped else Value (low_bits w (Z.quot (as_signed w p) (as_signed w q)))
  | UDiv => if q =? 0 then Trapped else Value (p / q)
  | SRem => if q =? 0 then Trapped else Value (low_bits w (Z.rem (as_signed w p) (as_signed w q)))
  | URem => if q =? 0 then Trapped else Value (p mod q)
  | IAnd => Value (Z.land p q) | IOr => Value (Z.lor p q) | IXor => Value (Z.lxor p q)
  | IShl => Value (low_bits w (Z.shiftl p (q mod w)))
  | SShr => Value (low_bits w (Z.shiftr (as_signed w p) (q mod w)))
  | UShr => Value (Z.shiftr p (q mod w))
  end.
Definition int_cc_holds (c : int_cc) (w p q : Z) : bool :=
  match c with
  | IEq => p =? q | INe => negb (p =? q)
  | SLt => as_signed w p <? as_signed w q | SLe => as_signed w p <=? as_signed w q
  | SGt => as_signed w q <? as_signed w p | SGe => as_signed w q <=? as_signed w p
  | ULt => p <? q | ULe => p <=? q | UGt => q <? p | UGe => q <=? p
  end.
Definition float_op_run {f : floats} (o : float_op) : carrier f -> carrier f -> carrier f :=
  match o with FAdd => fadd f | FSub => fsub f | FMul => fmul f | FDiv => fdiv f end.
(** Equality and the orders do not hold of operands that cannot be compared, inequality does. *)
Definition float_cc_holds {f : floats} (c : float_cc) (x y : carrier f) : bool :=
  match c, fcompare f x y with
  | FEq, Some Eq => true | FEq, _ => false
  | FNe, Some Eq => false | FNe, _ => true
  | FLt, Some Lt => true | FLt, _ => false
  | FLe, Some Lt | FLe, Some Eq => true | FLe, _ => false
  | FGt, Some Gt => true | FGt, _ => false
  | FGe, Some Gt | FGe, Some Eq => true | FGe, _ => false
  end.
Definition bit (b : bool) : Z := if b then 1 else 0.

Section Machine.
  Variables f32 f64 : floats.
  Inductive raw := RI (w p : Z) | RF32 (x : carrier f32) | RF64 (x : carrier f64).
  Definition raw_type (r : raw) : mtype := match r with RI w _ => MI w | RF32 _ => MF32 | RF64 _ => MF64 end.

  (** One instruction; comparisons give an integer of width [cw]. *)
  Definition step (cw : Z) (i : instr) (args : list raw) : answer raw :=
    match i, args with
    | IBin o, [RI w p; RI w' q] => if w =? w' then match int_op_run o w p q with Value r => Value (RI w r) | Trapped => Trapped | Rejected => Rejected end else Rejected
    | ICmp c, [RI w p; RI w' q] => if w =? w' then Value (RI cw (bit (int_cc_holds c w p q))) else Rejected
    | FBin o, [RF32 x; RF32 y] => Value (RF32 (float_op_run o x y))
    | FBin o, [RF64 x; RF64 y] => Value (RF64 (float_op_run o x y))
    | FCmp c, [RF32 x; RF32 y] => Value (RI cw (bit (float_cc_holds c x y)))
    | FCmp c, [RF64 x; RF64 y] => Value (RI cw (bit (float_cc_holds c x y)))
    | INeg, [RI w p] => Value (RI w (low_bits w (- p)))
    | FNeg, [RF32 x] => Value (RF32 (fopposite f32 x))
    | FNeg, [RF64 x] => Value (RF64 (fopposite f64 x))
    | UExtend w', [RI w p] => if w <? w' then Value (RI w' p) else Rejected
    | SExtend w', [RI w p] => if w <? w' then Value (RI w' (low_bits w' (as_signed w p))) else Rejected
    | IReduce w', [RI w p] => if w' <? w then Value (RI w' (low_bits w' p)) else Rejected
    | _, _ => Rejected
    end.

  (** Cranelift: the operands determine the type; comparisons give 8 bits. *)
  Definition clif_step (i : instr) (args : list raw) : answer raw := step 8 i args.
  (** WebAssembly: the instruction says the type of its operands; comparisons give 32 bits. *)
  Definition mtype_same (a b : mtype) : bool := match a, b with MI w, MI w' => w =? w' | MF32, MF32 | MF64, MF64 => true | _, _ => false end.
  Definition wasm_step (t : mtype) (i : instr) (args : list raw) : answer raw :=
    if forallb (fun r => mtype_same (raw_type r) t) args then step 32 i args else Rejected.
End Machine.
Arguments RI {f32 f64} w p. Arguments RF32 {f32 f64} x. Arguments RF64 {f32 f64} x.
