(** Integer folds of the arith dialect.  crates/trunk-ir/src/dialect/arith.rs:115-429
    and the driver's materialisation, transforms/canonicalize.rs:152-170.

    An operand is the value it reads together with the payload of the
    [arith.const] producing it, if there is one (const_int_value,
    arith.rs:355-365).  Payloads are i128, here [Z]; every i128 operation wraps
    explicitly.  A result type is reduced to what core_int_width reads: dialect,
    name, and whether it has parameters or attributes. *)
From Coq Require Export String.
From Verif Require Export Base.
From Coq Require Import Ascii.
Open Scope Z_scope.

(** Two's-complement reduction to i128 / u128. *)
Definition to_i128 (z : Z) : Z := (z + 2 ^ 127) mod 2 ^ 128 - 2 ^ 127.
Definition to_u128 (z : Z) : Z := z mod 2 ^ 128.

Record operand := { o_value : nat; o_const : option Z }.
Record rtype := { rt_dialect : string; rt_name : string; rt_plain : bool }.

Inductive binop := Addi | Subi | Muli | Divsi | Divui | Remsi | Remui | And | Or | Xor.
Inductive fold_result := Forward (o : operand) | ArithConst (v : Z).

Definition is_const (o : operand) (v : Z) : bool :=
  match o_const o with Some c => Z.eqb c v | None => false end.

(** [u32::from_str]: an optional leading plus sign, then one or more decimal
    digits, with an overflow check. *)
Definition digit (c : ascii) : option Z :=
  let n := Z.of_nat (nat_of_ascii c) in
  if (48 <=? n) && (n <=? 57) then Some (n - 48) else None.
Fixpoint parse_digits (acc : Z) (s : string) : option Z :=
  match s with
  | EmptyString => Some acc
  | String c r =>
      match digit c with
      | None => None
      | Some d => let v := 10 * acc + d in if v <? 2 ^ 32 then parse_digits v r else None
      end
  end.
Definition parse_u32 (s : string) : option Z :=
  match s with
  | EmptyString => None
  | String c r =>
      if Ascii.eqb c "+"%char then match r with EmptyString => None | _ => parse_digits 0 r end
      else parse_digits 0 s
  end.

(** arith.rs:373-385 core_int_width *)
Definition core_int_width (t : rtype) : option Z :=
  if negb (String.eqb (rt_dialect t) "core") || negb (rt_plain t) then None
  else match rt_name t with
       | String c r =>
           if Ascii.eqb c "i"%char then
             match parse_u32 r with
             | Some w => if (1 <=? w) && (w <=? 128) then Some w else None
             | None => None
             end
           else None
       | EmptyString => None
       end.

(** arith.rs:393-400 wrap_signed_to_width: shift left (dropping bits), arithmetic shift right. *)
Definition wrap_signed_to_width (v w : Z) : Z :=
  if w =? 128 then v
  else let shift := 128 - w in Z.shiftr (to_i128 (Z.shiftl v shift)) shift.

(** arith.rs:404-411 width_mask_u128 *)
Definition width_mask (w : Z) : Z := if w =? 128 then 2 ^ 128 - 1 else 2 ^ w - 1.

(** arith.rs:419-429 is_signed_overflow_at_width *)
Definition is_signed_overflow (a b w : Z) : bool :=
  if negb (b =? -1) then false
  else a =? (if w =? 128 then - 2 ^ 127 else - 2 ^ (w - 1)).

(** [?] on an option. *)
Definition bind {A B} (o : option A) (f : A -> option B) : option B :=
  match o with Some a => f a | None => None end.

Definition both (l r : operand) : option (Z * Z) :=
  bind (o_const l) (fun a => bind (o_const r) (fun b => Some (a, b))).

(** [single_result_type] then [core_int_width]. *)
Definition res_width (results : list rtype) : option Z :=
  match results with [t] => core_int_width t | _ => None end.

Definition signed_const (f : Z -> Z -> Z) (l r : operand) (results : list rtype) : option fold_result :=
  bind (both l r) (fun ab => bind (res_width results) (fun w =>
    Some (ArithConst (wrap_signed_to_width (to_i128 (f (fst ab) (snd ab))) w)))).

(** arith.rs:115-128 *)
Definition fold_addi (l r : operand) (results : list rtype) : option fold_result :=
  if is_const r 0 then Some (Forward l)
  else if is_const l 0 then Some (Forward r)
  else signed_const Z.add l r results.
(** arith.rs:135-145 *)
Definition fold_subi (l r : operand) (results : list rtype) : option fold_result :=
  if is_const r 0 then Some (Forward l)
  else signed_const Z.sub l r results.
(** arith.rs:152-168 *)
Definition fold_muli (l r : operand) (results : list rtype) : option fold_result :=
  if is_const r 0 || is_const l 0 then Some (ArithConst 0)
  else if is_const r 1 then Some (Forward l)
  else if is_const l 1 then Some (Forward r)
  else signed_const Z.mul l r results.
(** arith.rs:181-194 (divsi) and 220-233 (remsi); Rust division truncates. *)
Definition fold_signed_div (f : Z -> Z -> Z) (l r : operand) (results : list rtype) : option fold_result :=
  bind (both l r) (fun ab =>
    if snd ab =? 0 then None
    else bind (res_width results) (fun w =>
      if is_signed_overflow (fst ab) (snd ab) w then None
      else Some (ArithConst (wrap_signed_to_width (to_i128 (f (fst ab) (snd ab))) w)))).
(** arith.rs:200-213 (divui) and 239-252 (remui) *)
Definition fold_unsigned_div (f : Z -> Z -> Z) (l r : operand) (results : list rtype) : option fold_result :=
  bind (both l r) (fun ab => bind (res_width results) (fun w =>
    let au := Z.land (to_u128 (fst ab)) (width_mask w) in
    let bu := Z.land (to_u128 (snd ab)) (width_mask w) in
    if bu =? 0 then None
    else Some (ArithConst (wrap_signed_to_width (to_i128 (f au bu)) w)))).
(** arith.rs:262-278 *)
Definition fold_and (l r : operand) (results : list rtype) : option fold_result :=
  if is_const r 0 || is_const l 0 then Some (ArithConst 0)
  else if is_const r (-1) then Some (Forward l)
  else if is_const l (-1) then Some (Forward r)
  else signed_const Z.land l r results.
(** arith.rs:286-302 *)
Definition fold_or (l r : operand) (results : list rtype) : option fold_result :=
  if is_const r 0 then Some (Forward l)
  else if is_const l 0 then Some (Forward r)
  else if is_const r (-1) || is_const l (-1) then Some (ArithConst (-1))
  else signed_const Z.lor l r results.
(** arith.rs:312-325 *)
Definition fold_xor (l r : operand) (results : list rtype) : option fold_result :=
  if is_const r 0 then Some (Forward l)
  else if is_const l 0 then Some (Forward r)
  else signed_const Z.lxor l r results.

(** The registered folds (the [canonicalize_fold] attributes) behind [two_operands], arith.rs:333-338. *)
Definition fold (o : binop) (operands : list operand) (results : list rtype) : option fold_result :=
  match operands with
  | [l; r] =>
      match o with
      | Addi => fold_addi l r results
      | Subi => fold_subi l r results
      | Muli => fold_muli l r results
      | Divsi => fold_signed_div Z.quot l r results
      | Divui => fold_unsigned_div Z.div l r results
      | Remsi => fold_signed_div Z.rem l r results
      | Remui => fold_unsigned_div Z.modulo l r results
      | And => fold_and l r results
      | Or => fold_or l r results
      | Xor => fold_xor l r results
      end
  | _ => None
  end.

(** dialect/scf.rs:65-84 fold_if: which branch is chosen for a constant
    condition of type [t]; the splice itself is not modelled. *)
Definition fold_if_branch (cond : operand) (t : rtype) : option bool :=
  match core_int_width t with
  | Some 1 => bind (o_const cond) (fun v => if v =? 0 then Some false else if v =? 1 then Some true else None)
  | _ => None
  end.
