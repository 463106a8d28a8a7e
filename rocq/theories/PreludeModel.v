(** The standard library's text functions: lib/std/prelude.trb lines 137-303
    (Int), 338-516 (String) and 549-605 (Bytes).  The functions are Tribute
    source; each is written here as a Gallina function of the same shape.

    Representation.  Int and Nat are core.i32 at run time
    (crates/tribute-front/src/ast_to_ir/context.rs 624-626), so Int is a [Z]
    kept within 32 signed bits and Nat a [Z] kept within 32 unsigned bits.
    Bytes is the list of its bytes; that the runtime's objects behave as such
    lists is property C05.  Recursion in the source is general recursion, so
    recursive functions take a step allowance and report [Spent] when it runs
    out. *)
From Coq Require Export ZArith List Bool.
From Verif Require Export Base.
Export ListNotations.
Local Open Scope Z_scope.

(** What a call does: return, stop with a trap, read memory that does not
    belong to the value it was given, or run longer than the allowance. *)
Inductive run (A : Type) := Done (a : A) | Trap | Wild | Spent.
Arguments Done {A} a. Arguments Trap {A}. Arguments Wild {A}. Arguments Spent {A}.

Definition bind {A B} (r : run A) (f : A -> run B) : run B :=
  match r with Done a => f a | Trap => Trap | Wild => Wild | Spent => Spent end.

(** Out-of-range integer results: the machine wraps them.  [Trapping] is not a
    mode of the compiler; it serves to state that no operation leaves the range. *)
Inductive policy := Wrapping | Trapping.
Inductive target := Native | Wasm.

Definition INT_MIN : Z := -2147483648.
Definition INT_MAX : Z := 2147483647.
Definition TWO32 : Z := 4294967296.

Definition int_norm (p : policy) (z : Z) : run Z :=
  if (INT_MIN <=? z) && (z <=? INT_MAX) then Done z
  else match p with
       | Wrapping => Done ((z - INT_MIN) mod TWO32 + INT_MIN)
       | Trapping => Trap
       end.

(** prelude.trb 144-148: the Int operators; arith.addi, subi, muli, divsi and
    remsi (crates/tribute-passes/src/intrinsic_to_arith.rs 91-111). *)
Definition int_add (p : policy) (a b : Z) : run Z := int_norm p (a + b).
Definition int_sub (p : policy) (a b : Z) : run Z := int_norm p (a - b).
Definition int_mul (p : policy) (a b : Z) : run Z := int_norm p (a * b).
Definition int_div (a b : Z) : run Z :=
  if (b =? 0) || ((a =? INT_MIN) && (b =? -1)) then Trap else Done (Z.quot a b).
Definition int_rem (a b : Z) : run Z :=
  if b =? 0 then Trap else Done (Z.rem a b).

(** prelude.trb 306-308: the Nat operators used below. *)
Definition nat_add (a b : Z) : Z := (a + b) mod TWO32.
Definition nat_sub (a b : Z) : Z := (a - b) mod TWO32.

(** prelude.trb 554-556, tribute-runtime/src/lib.rs 505-508: the length is
    truncated to 32 bits. *)
Definition bytes_len (bs : list Z) : Z := Z.of_nat (length bs) mod TWO32.

(** Sign extension from [w] values of which the upper half is negative. *)
Definition sign_extend (half w : Z) (z : Z) : Z := if z <? half then z else z - w.

(** prelude.trb 560-562.  Native code (crates/tribute-passes/src/native/
    intrinsic_to_native.rs 81-137) adds the index, widened by arith.extend, to
    the data pointer and loads an i8, which a second arith.extend widens to i32.
    arith.extend of an i32 or i8 becomes clif.sextend
    (crates/trunk-ir-cranelift-backend/src/passes/arith_to_clif.rs 463-470).
    Nothing compares the index with the length.
    Wasm code (crates/tribute-passes/src/wasm/intrinsic_to_wasm.rs 158-226) is
    array.get_u, which traps outside the array; Bytes built by Wasm programs
    start at offset 0 and cover their array (no slicing is lowered). *)
Definition get_or_panic (t : target) (bs : list Z) (index : Z) : run Z :=
  match t with
  | Native =>
      let j := sign_extend 2147483648 TWO32 index in
      if (0 <=? j) && (j <? Z.of_nat (length bs)) then
        match nth_error bs (Z.to_nat j) with
        | Some b => Done (sign_extend 128 256 b mod TWO32)
        | None => Wild
        end
      else Wild
  | Wasm =>
      if index <? Z.of_nat (length bs) then
        match nth_error bs (Z.to_nat index) with
        | Some b => Done b
        | None => Trap
        end
      else Trap
  end.

(** crates/tribute-runtime/src/lib.rs 521-550 (native) and
    crates/tribute-passes/src/wasm/intrinsic_to_wasm.rs 236-376 (Wasm, where
    the loop reads both arrays until a difference). *)
Fixpoint list_same (a b : list Z) : bool :=
  match a, b with
  | [], [] => true
  | x :: a', y :: b' => (x =? y) && list_same a' b'
  | _, _ => false
  end.
Definition take (bs : list Z) (start n : Z) : list Z :=
  firstn (Z.to_nat n) (skipn (Z.to_nat start) bs).
Fixpoint compare_loop (n : nat) (a : list Z) (i : Z) (b : list Z) (j : Z) : run bool :=
  match n with
  | O => Done true
  | S n' =>
      match nth_error a (Z.to_nat i), nth_error b (Z.to_nat j) with
      | Some x, Some y =>
          if x =? y then compare_loop n' a (nat_add i 1) b (nat_add j 1) else Done false
      | _, _ => Trap
      end
  end.
Definition range_equal (t : target) (a : list Z) (i : Z) (b : list Z) (j n : Z) : run bool :=
  match t with
  | Native =>
      if (i + n <=? Z.of_nat (length a)) && (j + n <=? Z.of_nat (length b))
      then Done (list_same (take a i n) (take b j n))
      else Done false
  | Wasm => compare_loop (Z.to_nat n) a i b j
  end.

(** crates/tribute-runtime/src/lib.rs 625-662: aborts when the bounds are wrong.
    (Wasm has no lowering for this function.) *)
Definition slice_or_panic (bs : list Z) (s e : Z) : run (list Z) :=
  if (e <? s) || (Z.of_nat (length bs) <? e) then Trap else Done (take bs s (e - s)).

(** prelude.trb 582-587: Bytes::get. *)
Definition bytes_get (t : target) (bs : list Z) (index : Z) : run (option Z) :=
  if index <? bytes_len bs
  then bind (get_or_panic t bs index) (fun b => Done (Some b))
  else Done None.

(** prelude.trb 591-605: Bytes::slice. *)
Definition bytes_slice (bs : list Z) (start fin : Z) : run (list Z) :=
  let len := bytes_len bs in
  let s := if len <? start then len else start in
  let e := if fin <? s then s else if len <? fin then len else fin in
  slice_or_panic bs s e.

(** prelude.trb 338-341: enum String. *)
Inductive rope :=
| Leaf (bytes : list Z)
| Branch (left right : rope) (cached_len : Z).

(** prelude.trb 360-365: String::len. *)
Definition rope_len (s : rope) : Z :=
  match s with
  | Leaf bytes => bytes_len bytes
  | Branch _ _ cached_len => cached_len
  end.

(** prelude.trb 354-357, 368-375: empty, from_bytes, concat and (<>). *)
Definition rope_empty : rope := Leaf [].
Definition from_bytes (bytes : list Z) : rope := Leaf bytes.
Definition concat (left right : rope) : rope :=
  Branch left right (nat_add (rope_len left) (rope_len right)).

(** prelude.trb 378-383: String::to_bytes.  (__tribute_bytes_concat aborts when
    the sum cannot be allocated; that is not modelled.) *)
Fixpoint to_bytes (s : rope) : list Z :=
  match s with
  | Leaf bytes => bytes
  | Branch l r _ => to_bytes l ++ to_bytes r
  end.

(** prelude.trb 139-142: Int::ParseError, and the Result of parsing. *)
Inductive parse_error := InvalidSyntax | OutOfRange.
Inductive parsed := POk (value : Z) | PError (e : parse_error).

(** prelude.trb 156-170. *)
Definition decimal_digit_or_invalid (byte : Z) : Z :=
  if byte =? 48 then 0 else if byte =? 49 then 1 else if byte =? 50 then 2
  else if byte =? 51 then 3 else if byte =? 52 then 4 else if byte =? 53 then 5
  else if byte =? 54 then 6 else if byte =? 55 then 7 else if byte =? 56 then 8
  else if byte =? 57 then 9 else -1.

(** prelude.trb 172-189. *)
Definition decimal_step_overflows (value digit : Z) (negative : bool) : bool :=
  if negative then
    if value <? -214748364 then true
    else if value =? -214748364 then 8 <? digit
    else false
  else
    if 214748364 <? value then true
    else if value =? 214748364 then 7 <? digit
    else false.

(** prelude.trb 191-223. *)
Fixpoint parse_digits (fuel : nat) (t : target) (p : policy) (bytes : list Z)
    (index value : Z) (negative overflowed : bool) : run parsed :=
  match fuel with
  | O => Spent
  | S n =>
      if index =? bytes_len bytes then
        Done (if overflowed then PError OutOfRange else POk value)
      else
        bind (get_or_panic t bytes index) (fun byte =>
        let digit := decimal_digit_or_invalid byte in
        if digit <? 0 then Done (PError InvalidSyntax)
        else if overflowed then
          parse_digits n t p bytes (nat_add index 1) value negative true
        else if decimal_step_overflows value digit negative then
          parse_digits n t p bytes (nat_add index 1) value negative true
        else
          bind (int_mul p value 10) (fun scaled =>
          bind (if negative then int_sub p scaled digit else int_add p scaled digit) (fun next =>
          parse_digits n t p bytes (nat_add index 1) next negative false)))
  end.

(** prelude.trb 225-230. *)
Definition parse_after_sign (fuel : nat) (t : target) (p : policy) (bytes : list Z)
    (index : Z) (negative : bool) : run parsed :=
  if index =? bytes_len bytes then Done (PError InvalidSyntax)
  else parse_digits fuel t p bytes index 0 negative false.

(** prelude.trb 233-243: Int::parse. *)
Definition int_parse (fuel : nat) (t : target) (p : policy) (input : rope) : run parsed :=
  let bytes := to_bytes input in
  if bytes_len bytes =? 0 then Done (PError InvalidSyntax)
  else bind (get_or_panic t bytes 0) (fun first =>
       if first =? 43 then parse_after_sign fuel t p bytes 1 false
       else if first =? 45 then parse_after_sign fuel t p bytes 1 true
       else parse_digits fuel t p bytes 0 0 false false).

(** prelude.trb 245-258 and 260-273: a digit and a negated digit as text. *)
Definition positive_digit_string (digit : Z) : rope :=
  Leaf [if digit =? 0 then 48 else if digit =? 1 then 49 else if digit =? 2 then 50
        else if digit =? 3 then 51 else if digit =? 4 then 52 else if digit =? 5 then 53
        else if digit =? 6 then 54 else if digit =? 7 then 55 else if digit =? 8 then 56
        else 57].
Definition negative_digit_string (digit : Z) : rope :=
  Leaf [if digit =? 0 then 48 else if digit =? -1 then 49 else if digit =? -2 then 50
        else if digit =? -3 then 51 else if digit =? -4 then 52 else if digit =? -5 then 53
        else if digit =? -6 then 54 else if digit =? -7 then 55 else if digit =? -8 then 56
        else 57].

(** prelude.trb 275-282. *)
Fixpoint format_positive (fuel : nat) (value : Z) : run rope :=
  match fuel with
  | O => Spent
  | S n =>
      bind (int_div value 10) (fun quotient =>
      bind (int_rem value 10) (fun r =>
      let digit := positive_digit_string r in
      if quotient =? 0 then Done digit
      else bind (format_positive n quotient) (fun front => Done (concat front digit))))
  end.

(** prelude.trb 284-291. *)
Fixpoint format_negative (fuel : nat) (value : Z) : run rope :=
  match fuel with
  | O => Spent
  | S n =>
      bind (int_div value 10) (fun quotient =>
      bind (int_rem value 10) (fun r =>
      let digit := negative_digit_string r in
      if quotient =? 0 then Done digit
      else bind (format_negative n quotient) (fun front => Done (concat front digit))))
  end.

(** prelude.trb 294-302: Int::to_string. *)
Definition int_to_string (fuel : nat) (value : Z) : run rope :=
  if value =? 0 then Done (Leaf [48])
  else if value <? 0 then
    bind (format_negative fuel value) (fun text => Done (concat (Leaf [45]) text))
  else format_positive fuel value.

(** prelude.trb 347-351: enum Cursor. *)
Inductive cursor :=
| CursorDone
| CursorPending (string : rope) (rest : cursor)
| CursorChunk (bytes : list Z) (offset remaining : Z) (rest : cursor).

(** prelude.trb 385-405. *)
Fixpoint next_cursor (fuel : nat) (c : cursor) : run cursor :=
  match fuel with
  | O => Spent
  | S n =>
      match c with
      | CursorDone => Done CursorDone
      | CursorPending string rest =>
          match string with
          | Leaf bytes =>
              let len := bytes_len bytes in
              if len =? 0 then next_cursor n rest
              else Done (CursorChunk bytes 0 len rest)
          | Branch l r _ =>
              next_cursor n (CursorPending l (CursorPending r rest))
          end
      | CursorChunk _ _ _ _ => Done c
      end
  end.

(** prelude.trb 407-475.  Every call hands the whole allowance to the calls of
    next_cursor it makes. *)
Fixpoint cursors_equal (fuel steps : nat) (t : target) (left right : cursor) : run bool :=
  match steps with
  | O => Spent
  | S n =>
      match left with
      | CursorDone =>
          match right with
          | CursorDone => Done true
          | CursorPending _ _ =>
              bind (next_cursor fuel right) (fun r => cursors_equal fuel n t left r)
          | CursorChunk _ _ _ _ => Done false
          end
      | CursorPending _ _ =>
          bind (next_cursor fuel left) (fun l => cursors_equal fuel n t l right)
      | CursorChunk left_bytes left_offset left_remaining left_rest =>
          match right with
          | CursorDone => Done false
          | CursorPending _ _ =>
              bind (next_cursor fuel right) (fun r => cursors_equal fuel n t left r)
          | CursorChunk right_bytes right_offset right_remaining right_rest =>
              let span := if left_remaining <? right_remaining
                          then left_remaining else right_remaining in
              bind (range_equal t left_bytes left_offset right_bytes right_offset span)
                (fun same =>
                 if same then
                   bind (if left_remaining =? span then next_cursor fuel left_rest
                         else Done (CursorChunk left_bytes (nat_add left_offset span)
                                      (nat_sub left_remaining span) left_rest)) (fun next_left =>
                   bind (if right_remaining =? span then next_cursor fuel right_rest
                         else Done (CursorChunk right_bytes (nat_add right_offset span)
                                      (nat_sub right_remaining span) right_rest)) (fun next_right =>
                   cursors_equal fuel n t next_left next_right))
                 else Done false)
          end
      end
  end.

(** prelude.trb 477-486. *)
Definition rope_equal (fuel : nat) (t : target) (left right : rope) : run bool :=
  bind (next_cursor fuel (CursorPending left CursorDone)) (fun l =>
  bind (next_cursor fuel (CursorPending right CursorDone)) (fun r =>
  cursors_equal fuel fuel t l r)).

(** prelude.trb 489-507: String::(==). *)
Definition string_eq (fuel : nat) (t : target) (left right : rope) : run bool :=
  let len := rope_len left in
  if len =? rope_len right then
    match left, right with
    | Leaf left_bytes, Leaf right_bytes => range_equal t left_bytes 0 right_bytes 0 len
    | _, _ => rope_equal fuel t left right
    end
  else Done false.

(** prelude.trb 510-515: String::(!=). *)
Definition string_ne (fuel : nat) (t : target) (left right : rope) : run bool :=
  bind (string_eq fuel t left right) (fun same => Done (negb same)).
