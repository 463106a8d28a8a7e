(** How operators on numbers become machine instructions.

    tribute-passes/src/intrinsic_to_arith.rs, trunk-ir-cranelift-backend/src/passes/arith_to_clif.rs and function.rs,
    trunk-ir-wasm-backend/src/passes/arith_to_wasm.rs and emit.rs.

    An operation is modelled by its name, its attributes, the types of its operands and the type of its result; types are their names, as the passes
    look at nothing else.  Operands are positions; the code that replaces an operation is a tree of named operations over them.  Not modelled:
    conversions between integers and floats, which no pass creates, and constants. *)
From Coq Require Export String ZArith List Bool.
From Verif Require Export OperatorMachine.
Open Scope string_scope.
Open Scope list_scope.
Open Scope Z_scope.
Import ListNotations.

(** ** Calls of operators become arith operations *)
(** intrinsic_to_arith.rs:54-64 *)
Inductive mapping := BinaryOp (name : string) | CmpI (predicate : string) | CmpF (predicate : string).
(** intrinsic_to_arith.rs:72-166; a callee is looked up by its qualified name. *)
Definition arith_intrinsics : list (string * mapping) :=
  [("Int::+", BinaryOp "addi"); ("Int::-", BinaryOp "subi"); ("Int::*", BinaryOp "muli"); ("Int::/", BinaryOp "divsi"); ("Int::%", BinaryOp "remsi");
   ("Int::==", CmpI "eq"); ("Int::!=", CmpI "ne"); ("Int::<", CmpI "slt"); ("Int::<=", CmpI "sle"); ("Int::>", CmpI "sgt"); ("Int::>=", CmpI "sge");
   ("Nat::+", BinaryOp "addi"); ("Nat::-", BinaryOp "subi"); ("Nat::*", BinaryOp "muli"); ("Nat::/", BinaryOp "divui"); ("Nat::%", BinaryOp "remui");
   ("Nat::==", CmpI "eq"); ("Nat::!=", CmpI "ne"); ("Nat::<", CmpI "ult"); ("Nat::<=", CmpI "ule"); ("Nat::>", CmpI "ugt"); ("Nat::>=", CmpI "uge");
   ("Float::+", BinaryOp "addf"); ("Float::-", BinaryOp "subf"); ("Float::*", BinaryOp "mulf"); ("Float::/", BinaryOp "divf");
   ("Float::==", CmpF "oeq"); ("Float::!=", CmpF "une"); ("Float::<", CmpF "olt"); ("Float::<=", CmpF "ole"); ("Float::>", CmpF "ogt"); ("Float::>=", CmpF "oge")].
Definition find_name {A} (l : list (string * A)) (n : string) : option A := option_map snd (find (fun e => String.eqb (fst e) n) l).

(** An operation of the arith dialect; the predicate of comparisons. *)
Record arith := { a_name : string; a_predicate : string; a_operands : list string; a_result : string }.
(** intrinsic_to_arith.rs:168-212 and, for the body of the function itself, 259-300.  Calls have two operands. *)
Definition lower_call (callee : string) (l r res : string) : option arith :=
  match find_name arith_intrinsics callee with
  | Some (BinaryOp n) => Some {| a_name := n; a_predicate := ""; a_operands := [l; r]; a_result := res |}
  | Some (CmpI p) => Some {| a_name := "cmpi"; a_predicate := p; a_operands := [l; r]; a_result := res |}
  | Some (CmpF p) => Some {| a_name := "cmpf"; a_predicate := p; a_operands := [l; r]; a_result := res |}
  | None => None
  end.

(** Code over the operands of the operation that it replaces. *)
Inductive code := Operand (n : nat) | IntConst (ty : string) (v : Z) | Op1 (name attr ty : string) (c : code) | Op2 (name attr ty : string) (c d : code).

(** ** Native: arith_to_clif.rs *)
(** 49-75 *)
Definition type_category (ty : string) : string :=
  if existsb (String.eqb ty) ["i1"; "i8"; "i16"; "i32"; "i64"; "int"; "nat"; "bool"] then "int"
  else if String.eqb ty "f32" then "f32" else if String.eqb ty "f64" then "f64" else if String.eqb ty "nil" then "nil" else "int".
(** 77-85 *)
Definition is_unsigned_int (ty : string) : bool := String.eqb ty "nat" || String.eqb ty "bool".
(** 87-114 *)
Definition int_width (ty : string) : Z :=
  if String.eqb ty "i64" then 64 else if existsb (String.eqb ty) ["i32"; "int"; "nat"] then 32 else if String.eqb ty "i16" then 16
  else if existsb (String.eqb ty) ["i8"; "bool"; "i1"] then 8 else 32.
Definition is_wider_int (dst src : string) : bool := int_width src <? int_width dst.
(** tribute-passes/src/native/type_converter.rs:122-128, on the types of numbers *)
Definition convert_type (ty : string) : string := if existsb (String.eqb ty) ["i1"; "int"; "nat"; "bool"] then "i32" else ty.

(** 179-238 *)
Definition clif_binops : list (string * string) :=
  [("addi", "iadd"); ("addf", "fadd"); ("subi", "isub"); ("subf", "fsub"); ("muli", "imul"); ("mulf", "fmul"); ("divsi", "sdiv"); ("divui", "udiv");
   ("divf", "fdiv"); ("remsi", "srem"); ("remui", "urem")].
(** 371-389 *)
Definition clif_bitwise : list (string * string) := [("and", "band"); ("or", "bor"); ("xor", "bxor"); ("shl", "ishl"); ("shr", "sshr"); ("shru", "ushr")].
(** 240-262 *)
Definition finalize_cmp (c : code) (result_ty : string) : code := if String.eqb result_ty "i8" then c else Op1 "uextend" "" result_ty c.
(** 303-311 *)
Definition clif_float_cond (p : string) : string :=
  match find_name [("oeq", "eq"); ("une", "ne"); ("olt", "lt"); ("ole", "le"); ("ogt", "gt"); ("oge", "ge")] p with Some c => c | None => p end.
(** The patterns, 183-484.  [None]: no pattern applies, which ends compilation. *)
Definition arith_to_clif (a : arith) : option code :=
  let ty := convert_type (a_result a) in
  match a_operands a with
  | [l; r] =>
      match find_name clif_binops (a_name a) with
      | Some n => Some (Op2 n "" ty (Operand 0) (Operand 1))
      | None =>
        if String.eqb (a_name a) "cmpi" then Some (finalize_cmp (Op2 "icmp" (a_predicate a) "i8" (Operand 0) (Operand 1)) ty)
        else if String.eqb (a_name a) "cmpf" then Some (finalize_cmp (Op2 "fcmp" (clif_float_cond (a_predicate a)) "i8" (Operand 0) (Operand 1)) ty)
        else match find_name clif_bitwise (a_name a) with Some n => Some (Op2 n "" ty (Operand 0) (Operand 1)) | None => None end
      end
  | [x] =>
      let src := convert_type x in
      if String.eqb (a_name a) "negi" then Some (Op1 "ineg" "" ty (Operand 0))
      else if String.eqb (a_name a) "negf" then Some (Op1 "fneg" "" ty (Operand 0))
      else if String.eqb (type_category src) "int" && String.eqb (type_category ty) "int" then
        if String.eqb (a_name a) "cast" then Some (Op1 (if is_wider_int ty src then "sextend" else "ireduce") "" ty (Operand 0))
        else if String.eqb (a_name a) "trunc" then Some (Op1 "ireduce" "" ty (Operand 0))
        else if String.eqb (a_name a) "extend" then Some (Op1 (if is_unsigned_int src then "uextend" else "sextend") "" ty (Operand 0))
        else None
      else None
  | _ => None
  end.

(** function.rs:58-75 and 98-111 *)
Definition parse_int_cc : string -> option int_cc := find_name
  [("eq", IEq); ("ne", INe); ("slt", SLt); ("sle", SLe); ("sgt", SGt); ("sge", SGe); ("ult", ULt); ("ule", ULe); ("ugt", UGt); ("uge", UGe)].
Definition parse_float_cc : string -> option float_cc := find_name [("eq", FEq); ("ne", FNe); ("lt", FLt); ("le", FLe); ("gt", FGt); ("ge", FGe)].
(** function.rs:127-139, the numbers; pointers are not modelled. *)
Definition translate_type (ty : string) : option mtype := find_name
  [("i1", MI 8); ("i8", MI 8); ("i16", MI 16); ("i32", MI 32); ("i64", MI 64); ("f32", MF32); ("f64", MF64)] ty.
Definition translate_width (ty : string) : option Z := match translate_type ty with Some (MI w) => Some w | _ => None end.
(** function.rs:311-365, 419-441, 593-691; unsupported operations end compilation. *)
Definition clif_instr (name attr ty : string) : option instr :=
  match find_name [("iadd", IBin IAdd); ("isub", IBin ISub); ("imul", IBin IMul); ("sdiv", IBin SDiv); ("udiv", IBin UDiv); ("srem", IBin SRem);
    ("urem", IBin URem); ("ineg", INeg); ("fadd", FBin FAdd); ("fsub", FBin FSub); ("fmul", FBin FMul); ("fdiv", FBin FDiv); ("fneg", FNeg);
    ("band", IBin IAnd); ("bor", IBin IOr); ("bxor", IBin IXor); ("ishl", IBin IShl); ("sshr", IBin SShr); ("ushr", IBin UShr)] name with
  | Some i => Some i
  | None =>
      if String.eqb name "icmp" then option_map ICmp (parse_int_cc attr)
      else if String.eqb name "fcmp" then option_map FCmp (parse_float_cc attr)
      else if String.eqb name "ireduce" then option_map IReduce (translate_width ty)
      else if String.eqb name "uextend" then option_map UExtend (translate_width ty)
      else if String.eqb name "sextend" then option_map SExtend (translate_width ty)
      else None
  end.

(** ** Wasm: arith_to_wasm.rs *)
(** 524-570 *)
Definition type_suffix (ty : string) : string :=
  if existsb (String.eqb ty) ["i32"; "i64"; "f32"; "f64"] then ty
  else if existsb (String.eqb ty) ["i1"; "int"; "nat"; "bool"] then "i32" else if String.eqb ty "nil" then "nil" else "i32".
(** 114-206; the suffix is that of the result. *)
Definition wasm_binops : list (string * list (string * string)) :=
  [("addi", [("i32", "i32_add"); ("i64", "i64_add")]); ("addf", [("f32", "f32_add"); ("f64", "f64_add")]);
   ("subi", [("i32", "i32_sub"); ("i64", "i64_sub")]); ("subf", [("f32", "f32_sub"); ("f64", "f64_sub")]);
   ("muli", [("i32", "i32_mul"); ("i64", "i64_mul")]); ("mulf", [("f32", "f32_mul"); ("f64", "f64_mul")]);
   ("divsi", [("i32", "i32_div_s"); ("i64", "i64_div_s")]); ("divui", [("i32", "i32_div_u"); ("i64", "i64_div_u")]);
   ("divf", [("f32", "f32_div"); ("f64", "f64_div")]); ("remsi", [("i32", "i32_rem_s"); ("i64", "i64_rem_s")]);
   ("remui", [("i32", "i32_rem_u"); ("i64", "i64_rem_u")])].
(** 228-249; the suffix is that of the left operand. *)
Definition wasm_cmpi : list (string * list (string * string)) :=
  [("eq", [("i32", "i32_eq"); ("i64", "i64_eq")]); ("ne", [("i32", "i32_ne"); ("i64", "i64_ne")]); ("slt", [("i32", "i32_lt_s"); ("i64", "i64_lt_s")]);
   ("sle", [("i32", "i32_le_s"); ("i64", "i64_le_s")]); ("sgt", [("i32", "i32_gt_s"); ("i64", "i64_gt_s")]); ("sge", [("i32", "i32_ge_s"); ("i64", "i64_ge_s")]);
   ("ult", [("i32", "i32_lt_u")])].
(** 251-274 *)
Definition wasm_cmpf : list (string * list (string * string)) :=
  [("oeq", [("f32", "f32_eq"); ("f64", "f64_eq")]); ("une", [("f32", "f32_ne"); ("f64", "f64_ne")]); ("olt", [("f32", "f32_lt"); ("f64", "f64_lt")]);
   ("ole", [("f32", "f32_le"); ("f64", "f64_le")]); ("ogt", [("f32", "f32_gt"); ("f64", "f64_gt")]); ("oge", [("f32", "f32_ge"); ("f64", "f64_ge")])].
(** 383-421; any other suffix is taken for i32. *)
Definition wasm_bitwise : list (string * (string * string)) :=
  [("and", ("i64_and", "i32_and")); ("or", ("i64_or", "i32_or")); ("xor", ("i64_xor", "i32_xor")); ("shl", ("i64_shl", "i32_shl"));
   ("shr", ("i64_shr_s", "i32_shr_s")); ("shru", ("i64_shr_u", "i32_shr_u"))].
Definition pick (t : list (string * list (string * string))) (key suffix : string) : option string :=
  match find_name t key with Some row => find_name row suffix | None => None end.
(** The patterns.  [None]: no pattern applies and the operation stays as it is; the emitter does not know it, which ends compilation. *)
Definition arith_to_wasm (a : arith) : option code :=
  let ty := a_result a in
  let binary n := Op2 n "" ty (Operand 0) (Operand 1) in
  match a_operands a with
  | [l; r] =>
      if String.eqb (a_name a) "cmpi" then option_map binary (pick wasm_cmpi (a_predicate a) (type_suffix l))
      else if String.eqb (a_name a) "cmpf" then option_map binary (pick wasm_cmpf (a_predicate a) (type_suffix l))
      else match find_name wasm_bitwise (a_name a) with
           | Some (n64, n32) => Some (binary (if String.eqb (type_suffix ty) "i64" then n64 else n32))
           | None => option_map binary (pick wasm_binops (a_name a) (type_suffix ty))
           end
  | [x] =>
      let s := type_suffix x in let d := type_suffix ty in
      if String.eqb (a_name a) "negf" then option_map (fun n => Op1 n "" ty (Operand 0)) (find_name [("f32", "f32_neg"); ("f64", "f64_neg")] d)
      else if String.eqb (a_name a) "negi" then
        option_map (fun n => Op2 n "" d (IntConst d 0) (Operand 0)) (find_name [("i32", "i32_sub"); ("i64", "i64_sub")] d)
      else if existsb (String.eqb (a_name a)) ["cast"; "trunc"; "extend"] then
        if String.eqb s "i64" && String.eqb d "i32" && negb (String.eqb (a_name a) "extend") then Some (Op1 "i32_wrap_i64" "" ty (Operand 0))
        else if String.eqb s "i32" && String.eqb d "i64" && negb (String.eqb (a_name a) "trunc") then Some (Op1 "i64_extend_i32_s" "" ty (Operand 0))
        else None
      else None
  | _ => None
  end.

(** emit.rs:85-198, the operations on numbers that the pass above creates. *)
Definition simple_ops : list (string * (mtype * instr)) :=
  let i32 n o := ("i32_" ++ n, (MI 32, o))%string in let i64 n o := ("i64_" ++ n, (MI 64, o))%string in
  [i32 "add" (IBin IAdd); i32 "sub" (IBin ISub); i32 "mul" (IBin IMul); i32 "div_s" (IBin SDiv); i32 "div_u" (IBin UDiv); i32 "rem_s" (IBin SRem); i32 "rem_u" (IBin URem);
   i32 "eq" (ICmp IEq); i32 "ne" (ICmp INe); i32 "lt_s" (ICmp SLt); i32 "lt_u" (ICmp ULt); i32 "le_s" (ICmp SLe); i32 "le_u" (ICmp ULe);
   i32 "gt_s" (ICmp SGt); i32 "gt_u" (ICmp UGt); i32 "ge_s" (ICmp SGe); i32 "ge_u" (ICmp UGe);
   i32 "and" (IBin IAnd); i32 "or" (IBin IOr); i32 "xor" (IBin IXor); i32 "shl" (IBin IShl); i32 "shr_s" (IBin SShr); i32 "shr_u" (IBin UShr);
   i64 "add" (IBin IAdd); i64 "sub" (IBin ISub); i64 "mul" (IBin IMul); i64 "div_s" (IBin SDiv); i64 "div_u" (IBin UDiv); i64 "rem_s" (IBin SRem); i64 "rem_u" (IBin URem);
   i64 "eq" (ICmp IEq); i64 "ne" (ICmp INe); i64 "lt_s" (ICmp SLt); i64 "lt_u" (ICmp ULt); i64 "le_s" (ICmp SLe); i64 "le_u" (ICmp ULe);
   i64 "gt_s" (ICmp SGt); i64 "gt_u" (ICmp UGt); i64 "ge_s" (ICmp SGe); i64 "ge_u" (ICmp UGe);
   i64 "and" (IBin IAnd); i64 "or" (IBin IOr); i64 "xor" (IBin IXor); i64 "shl" (IBin IShl); i64 "shr_s" (IBin SShr); i64 "shr_u" (IBin UShr);
   ("f32_add", (MF32, FBin FAdd)); ("f32_sub", (MF32, FBin FSub)); ("f32_mul", (MF32, FBin FMul)); ("f32_div", (MF32, FBin FDiv)); ("f32_neg", (MF32, FNeg));
   ("f32_eq", (MF32, FCmp FEq)); ("f32_ne", (MF32, FCmp FNe)); ("f32_lt", (MF32, FCmp FLt)); ("f32_le", (MF32, FCmp FLe)); ("f32_gt", (MF32, FCmp FGt)); ("f32_ge", (MF32, FCmp FGe));
   ("f64_add", (MF64, FBin FAdd)); ("f64_sub", (MF64, FBin FSub)); ("f64_mul", (MF64, FBin FMul)); ("f64_div", (MF64, FBin FDiv)); ("f64_neg", (MF64, FNeg));
   ("f64_eq", (MF64, FCmp FEq)); ("f64_ne", (MF64, FCmp FNe)); ("f64_lt", (MF64, FCmp FLt)); ("f64_le", (MF64, FCmp FLe)); ("f64_gt", (MF64, FCmp FGt)); ("f64_ge", (MF64, FCmp FGe));
   ("i32_wrap_i64", (MI 64, IReduce 32)); ("i64_extend_i32_s", (MI 32, SExtend 64)); ("i64_extend_i32_u", (MI 32, UExtend 64))].

(** ** Running the code *)
Inductive compiled (A : Type) := Ran (a : answer A) | NotCompiled.
Arguments Ran {A} a. Arguments NotCompiled {A}.
Section Run.
  Variables f32 f64 : floats.
  Notation raw := (raw f32 f64).
  Definition then_ (a : compiled raw) (k : raw -> compiled raw) : compiled raw := match a with Ran (Value r) => k r | a => a end.
  Section Target.
    Variable width : string -> option Z.                                       (* of constants *)
    Variable run1 : string -> string -> string -> list raw -> compiled raw.    (* one operation *)
    Fixpoint run_code (args : list raw) (c : code) : compiled raw :=
      match c with
      | Operand n => match nth_error args n with Some r => Ran (Value r) | None => Ran Rejected end
      | IntConst ty v => match width ty with Some w => Ran (Value (RI w (low_bits w v))) | None => NotCompiled end
      | Op1 n a ty c => then_ (run_code args c) (fun r => run1 n a ty [r])
      | Op2 n a ty c d => then_ (run_code args c) (fun r => then_ (run_code args d) (fun s => run1 n a ty [r; s]))
      end.
  End Target.
  Definition clif_run1 (n a ty : string) (args : list raw) : compiled raw :=
    match clif_instr n a ty with Some i => Ran (clif_step f32 f64 i args) | None => NotCompiled end.
  Definition wasm_run1 (n a ty : string) (args : list raw) : compiled raw :=
    match find_name simple_ops n with Some (t, i) => Ran (wasm_step f32 f64 t i args) | None => NotCompiled end.
  Definition run_native (a : arith) (args : list raw) : compiled raw :=
    match arith_to_clif a with Some c => run_code translate_width clif_run1 args c | None => NotCompiled end.
  Definition run_wasm (a : arith) (args : list raw) : compiled raw :=
    match arith_to_wasm a with Some c => run_code translate_width wasm_run1 args c | None => NotCompiled end.

  (** A call of an operator with operands of the given types. *)
  Definition call_native (callee l r res : string) (args : list raw) : compiled raw :=
    match lower_call callee l r res with Some a => run_native a args | None => NotCompiled end.
  Definition call_wasm (callee l r res : string) (args : list raw) : compiled raw :=
    match lower_call callee l r res with Some a => run_wasm a args | None => NotCompiled end.
End Run.

(** tribute-front/src/ast_to_ir/context.rs:622-628: the types of numbers in the intermediate form. *)
Definition front_type (name : string) : string :=
  if existsb (String.eqb name) ["Int"; "Nat"; "Rune"] then "i32" else if String.eqb name "Float" then "f64" else if String.eqb name "Bool" then "i1" else "anyref".
