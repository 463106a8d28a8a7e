(** What the text functions of the standard library promise: the text of a
    string, decimal numerals ([+-]?[0-9]+, new-plans/numeric-types.md 137-158)
    and the strings a program can make. *)
From Verif Require Export PreludeModel.
Local Open Scope Z_scope.

(** A byte, and a value made of bytes that fits the 32-bit length. *)
Definition is_byte (b : Z) : Prop := 0 <= b <= 255.
Definition sized (bs : list Z) : Prop := Forall is_byte bs /\ Z.of_nat (length bs) < 2 ^ 32.

(** The bytes of a string, from left to right. *)
Fixpoint text (s : rope) : list Z :=
  match s with
  | Leaf bs => bs
  | Branch l r _ => text l ++ text r
  end.

(** The strings a program can make: from bytes and by joining. *)
Inductive built : rope -> Prop :=
| built_bytes bs : sized bs -> built (from_bytes bs)
| built_join l r : built l -> built r -> built (concat l r).

(** How many nodes a string has. *)
Fixpoint nodes (s : rope) : nat :=
  match s with
  | Leaf _ => 1
  | Branch l r _ => 1 + nodes l + nodes r
  end.

(** Decimal numerals: an optional sign and at least one digit. *)
Definition is_digit (b : Z) : Prop := 48 <= b <= 57.
Definition digits (ds : list Z) : Prop := ds <> [] /\ Forall is_digit ds.
Inductive sign := Unsigned | Plus | Minus.
Definition sign_text (s : sign) : list Z :=
  match s with Unsigned => [] | Plus => [43] | Minus => [45] end.

(** Positional value, most significant digit first. *)
Fixpoint magnitude (ds : list Z) : Z :=
  match ds with
  | [] => 0
  | d :: rest => (d - 48) * 10 ^ Z.of_nat (length rest) + magnitude rest
  end.
Definition number (s : sign) (ds : list Z) : Z :=
  match s with Minus => - magnitude ds | _ => magnitude ds end.

Definition numeral (bs : list Z) (v : Z) : Prop :=
  exists s ds, digits ds /\ bs = sign_text s ++ ds /\ v = number s ds.

(** Signed 32-bit numbers. *)
Definition fits (v : Z) : Prop := - 2 ^ 31 <= v < 2 ^ 31.

(** What parsing a text must answer. *)
Definition answer (bs : list Z) (r : parsed) : Prop :=
  match r with
  | POk v => numeral bs v /\ fits v
  | PError OutOfRange => exists v, numeral bs v /\ ~ fits v
  | PError InvalidSyntax => ~ exists v, numeral bs v
  end.

(** The canonical text of a number: no plus sign, a minus sign only before
    negative numbers, and no leading zero. *)
Definition canonical (v : Z) (bs : list Z) : Prop :=
  exists s ds, digits ds /\ bs = sign_text s ++ ds /\ v = number s ds /\
    (s = Unsigned \/ (s = Minus /\ v < 0)) /\
    (hd_error ds = Some 48 -> ds = [48]).

(** The part of a byte sequence from [s] to before [e], clamped to its end. *)
Definition clamped (bs : list Z) (s e : Z) : list Z :=
  skipn (Z.to_nat s) (firstn (Z.to_nat e) bs).
