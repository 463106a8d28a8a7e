(** C64: an operator on numbers computes what it says, on both targets. *)
From Coq Require Import String ZArith List Bool Lia.
From Verif Require Import OperatorMachine OperatorModel OperatorSpec OperatorProofs.
From Verif Require ArithModel ArithSpec.
Open Scope string_scope.
Open Scope list_scope.
Open Scope Z_scope.
Import ListNotations.

(** Compiled to native code, each operator on Int, Nat and Float gives the value of its meaning, and stops the program exactly when the meaning says so. *)
Theorem native_operators f32 f n o a b : declared n o -> of_number f n a -> of_number f n b ->
  call_native f32 f (qualified n o) (front_type (number_name n)) (front_type (number_name n)) (front_type (result_name n o)) [held f f32 a; held f f32 b]
  = Ran (held_outcome f f32 (meaning f o a b)).
Proof. exact (native_right f32 f n o a b). Qed.
Print Assumptions native_operators.

(** Compiled to Wasm, the same, except for three orders of Nat (see below). *)
Theorem wasm_operators_partial f32 f n o a b : declared n o -> ~ (n = Nat_ /\ (o = AtMost \/ o = Greater \/ o = AtLeast)) -> of_number f n a -> of_number f n b ->
  call_wasm f32 f (qualified n o) (front_type (number_name n)) (front_type (number_name n)) (front_type (result_name n o)) [held f f32 a; held f f32 b]
  = Ran (held_outcome f f32 (meaning f o a b)).
Proof. exact (wasm_right f32 f n o a b). Qed.
Print Assumptions wasm_operators_partial.

(** For a trivial type of floats, to run examples. *)
Definition no_floats : floats := {| carrier := unit; fadd := fun _ _ => tt; fsub := fun _ _ => tt; fmul := fun _ _ => tt; fdiv := fun _ _ => tt; fopposite := fun _ => tt;
  fcompare := fun _ _ => None |}.
(** Floats that are integers, with one that is not a number. *)
Definition integer_floats : floats :=
  let two g := fun x y => match x, y with Some x, Some y => Some (g x y) | _, _ => None end in
  {| carrier := option Z; fadd := two Z.add; fsub := two Z.sub; fmul := two Z.mul; fdiv := two Z.quot; fopposite := option_map Z.opp;
     fcompare := fun x y => match x, y with Some x, Some y => Some (Z.compare x y) | _, _ => None end |}.

(** [Nat::<=], [Nat::>] and [Nat::>=] are not compiled to Wasm at all: an operator, and two operands, for which there is a meaning but no code. *)
Theorem wasm_nat_order_refuted : exists o a b, declared Nat_ o /\ of_number no_floats Nat_ a /\ of_number no_floats Nat_ b /\ meaning no_floats o a b = Result no_floats (VBool true) /\
  call_wasm no_floats no_floats (qualified Nat_ o) "i32" "i32" "i1" [held no_floats no_floats a; held no_floats no_floats b] = NotCompiled.
Proof.
  exists AtMost, (VNat 1), (VNat 2). repeat split; try (cbn; unfold nat_range; lia); try (intros [? ?]; discriminate).
Qed.
Print Assumptions wasm_nat_order_refuted.

Example native_operators_run :
  let f := integer_floats in
  let run n o a b := call_native no_floats f (qualified n o) (front_type (number_name n)) (front_type (number_name n)) (front_type (result_name n o)) [held f no_floats a; held f no_floats b] in
  of_number f Int_ (VInt (-7)) /\ of_number f Int_ (VInt 2) /\
  run Int_ Over (VInt (-7)) (VInt 2) = Ran (Value (RI 32 (2 ^ 32 - 3))) /\
  run Int_ Modulo (VInt (-7)) (VInt 2) = Ran (Value (RI 32 (2 ^ 32 - 1))) /\
  run Int_ Less (VInt (-7)) (VInt 2) = Ran (Value (RI 32 1)) /\
  run Nat_ Less (VNat (2 ^ 32 - 7)) (VNat 2) = Ran (Value (RI 32 0)) /\
  run Int_ Over (VInt (- 2 ^ 31)) (VInt (-1)) = Ran Trapped /\
  run Int_ Modulo (VInt (- 2 ^ 31)) (VInt (-1)) = Ran (Value (RI 32 0)) /\
  run Float_ Unequal (VFloat (None : carrier f)) (VFloat (None : carrier f)) = Ran (Value (RI 32 1)) /\
  run Float_ AtMost (VFloat (Some 2 : carrier f)) (VFloat (None : carrier f)) = Ran (Value (RI 32 0)).
Proof. cbv zeta. repeat split; try (unfold int_range; lia); vm_compute; reflexivity. Qed.

(** So the two targets agree on every operator that both compile, whatever the operands are. *)
Theorem targets_agree_partial f32 f n o a b : declared n o -> ~ (n = Nat_ /\ (o = AtMost \/ o = Greater \/ o = AtLeast)) -> of_number f n a -> of_number f n b ->
  call_native f32 f (qualified n o) (front_type (number_name n)) (front_type (number_name n)) (front_type (result_name n o)) [held f f32 a; held f f32 b] =
  call_wasm f32 f (qualified n o) (front_type (number_name n)) (front_type (number_name n)) (front_type (result_name n o)) [held f f32 a; held f f32 b].
Proof. exact (fun D W A B => eq_trans (native_right f32 f n o a b D A B) (eq_sym (wasm_right f32 f n o a b D W A B))). Qed.
Print Assumptions targets_agree_partial.

(** The names that are replaced by instructions are the operators that the library declares, and no others. *)
Theorem operators_known callee l r res : lower_call callee l r res <> None <-> exists n o, declared n o /\ callee = qualified n o.
Proof. exact (names_known callee l r res). Qed.
Print Assumptions operators_known.
Example other_names_are_calls : lower_call "Int::to_string" "i32" "i32" "i32" = None /\ lower_call "Float::%" "f64" "f64" "f64" = None /\ lower_call "Int::%" "i32" "i32" "i32" <> None.
Proof. repeat split. discriminate. Qed.

(** Sums, differences and products of Int are the number in the range of Int that differs from the exact one by a multiple of 2^32. *)
Theorem int_wraps z : int_range (int_wrap z) /\ exists k, z = int_wrap z + k * 2 ^ 32.
Proof. exact (conj (int_wrap_range z) (int_wrap_same z)). Qed.
Print Assumptions int_wraps.
Example int_wraps_at_the_end : int_wrap (2 ^ 31 - 1 + 1) = - 2 ^ 31 /\ int_wrap (-5) = -5.
Proof. split; reflexivity. Qed.

(** ** The operations of the arith dialect *)
(** Native code for an integer operation computes what the operation means (the meaning that constant folding must preserve, C11), at every width. *)
Theorem native_arithmetic f32 f o ty w p q r : In (ty, w) [("i8", 8); ("i16", 16); ("i32", 32); ("i64", 64)] -> 0 <= p < 2 ^ w -> 0 <= q < 2 ^ w ->
  ArithSpec.exec o w p q = Some r -> run_native f32 f (binary_arith o ty) [RI w p; RI w q] = Ran (Value (RI w r)).
Proof. exact (native_arith f32 f o ty w p q r). Qed.
Print Assumptions native_arithmetic.
(** Wasm code for it, at the two widths that Wasm has. *)
Theorem wasm_arithmetic_partial f32 f o ty w p q r : In (ty, w) [("i32", 32); ("i64", 64)] -> 0 <= p < 2 ^ w -> 0 <= q < 2 ^ w ->
  ArithSpec.exec o w p q = Some r -> run_wasm f32 f (binary_arith o ty) [RI w p; RI w q] = Ran (Value (RI w r)).
Proof. exact (wasm_arith f32 f o ty w p q r). Qed.
Print Assumptions wasm_arithmetic_partial.
(** A narrower operation is done with 32 bits on Wasm, and is not cut back: 255 + 1 of width 8 is 0, but the code gives 256. *)
Theorem wasm_narrow_arithmetic_refuted : exists o p q r, 0 <= p < 2 ^ 8 /\ 0 <= q < 2 ^ 8 /\ ArithSpec.exec o 8 p q = Some r /\
  run_wasm no_floats no_floats (binary_arith o "i8") [RI 32 p; RI 32 q] <> Ran (Value (RI 32 r)).
Proof. exists ArithModel.Addi, 255, 1, 0. repeat split; try lia. vm_compute. discriminate. Qed.
Print Assumptions wasm_narrow_arithmetic_refuted.
Example arithmetic_runs :
  ArithSpec.exec ArithModel.Divsi 8 250 3 = Some 254 /\ run_native no_floats no_floats (binary_arith ArithModel.Divsi "i8") [RI 8 250; RI 8 3] = Ran (Value (RI 8 254)).
Proof. split; vm_compute; reflexivity. Qed.

(** Shifts by less than the width, negation, and comparisons. *)
Theorem native_shifts f32 f s ty w p k : In (ty, w) [("i8", 8); ("i16", 16); ("i32", 32); ("i64", 64)] -> 0 <= k < w ->
  run_native f32 f (named_arith (shift_name s) ty) [RI w p; RI w k] = Ran (Value (RI w (shifted s w p k))).
Proof. exact (native_shift f32 f s ty w p k). Qed.
Print Assumptions native_shifts.
Theorem wasm_shifts_partial f32 f s ty w p k : In (ty, w) [("i32", 32); ("i64", 64)] -> 0 <= k < w ->
  run_wasm f32 f (named_arith (shift_name s) ty) [RI w p; RI w k] = Ran (Value (RI w (shifted s w p k))).
Proof. exact (wasm_shift f32 f s ty w p k). Qed.
Print Assumptions wasm_shifts_partial.
Theorem negations f32 f ty w p : In (ty, w) [("i32", 32); ("i64", 64)] ->
  run_native f32 f (unary_arith "negi" ty) [RI w p] = Ran (Value (RI w ((- p) mod 2 ^ w))) /\
  run_wasm f32 f (unary_arith "negi" ty) [RI w p] = Ran (Value (RI w ((- p) mod 2 ^ w))).
Proof. exact (negation f32 f ty w p). Qed.
Print Assumptions negations.
Theorem float_negations f32 f x :
  run_native f32 f (unary_arith "negf" "f64") [RF64 x] = Ran (Value (RF64 (fopposite f x))) /\ run_wasm f32 f (unary_arith "negf" "f64") [RF64 x] = Ran (Value (RF64 (fopposite f x))).
Proof. exact (float_negation f32 f x). Qed.
Print Assumptions float_negations.
Theorem native_comparisons f32 f c ty w p q : In (ty, w) [("i8", 8); ("i16", 16); ("i32", 32); ("i64", 64)] ->
  run_native f32 f (comparison_arith "cmpi" (cc_name c) ty) [RI w p; RI w q] = Ran (Value (RI 32 (if int_cc_holds c w p q then 1 else 0))).
Proof. exact (native_compare f32 f c ty w p q). Qed.
Print Assumptions native_comparisons.
(** Wasm lacks some of the unsigned ones. *)
Theorem wasm_comparisons_partial f32 f c ty w p q : In (ty, w) [("i32", 32); ("i64", 64)] -> ~ In c [ULe; UGt; UGe] -> ~ (c = ULt /\ w = 64) ->
  run_wasm f32 f (comparison_arith "cmpi" (cc_name c) ty) [RI w p; RI w q] = Ran (Value (RI 32 (if int_cc_holds c w p q then 1 else 0))).
Proof. exact (wasm_compare f32 f c ty w p q). Qed.
Print Assumptions wasm_comparisons_partial.
Example shifts_run : shifted ShiftRight 32 (2 ^ 32 - 7) 1 = 2 ^ 32 - 4 /\ shifted ShiftLeft 8 200 1 = 144 /\ int_cc_holds SLt 64 (2 ^ 64 - 1) 3 = true.
Proof. repeat split. Qed.

(** Where Wasm compiles a conversion between 32 and 64 bits, native code gives the same value. *)
Theorem conversions_agree f32 f name src dst w p r : In name ["cast"; "trunc"; "extend"] -> In (src, w) [("i32", 32); ("i64", 64)] -> In dst ["i32"; "i64"] ->
  run_wasm f32 f (conversion_arith name src dst) [RI w p] = Ran (Value r) -> run_native f32 f (conversion_arith name src dst) [RI w p] = Ran (Value r).
Proof. exact (conversions_same f32 f name src dst w p r). Qed.
Print Assumptions conversions_agree.
Example a_conversion : run_wasm no_floats no_floats (conversion_arith "extend" "i32" "i64") [RI 32 (2 ^ 32 - 5)] = Ran (Value (RI 64 (2 ^ 64 - 5))).
Proof. vm_compute. reflexivity. Qed.
