(** Which bits a number has, and what belongs to a block.  Independent of the code. *)
From Verif Require Export Base OperatorSpec BoxModel.
Open Scope string_scope.
Open Scope list_scope.
Open Scope Z_scope.
Import ListNotations.

(** The scalars that hold the values of a type. *)
Inductive scalar_of : string -> scalar -> Prop :=
| of_int z : int_range z -> scalar_of "Int" (S32 (z mod 2 ^ 32))
| of_nat z : nat_range z -> scalar_of "Nat" (S32 z)
| of_bool (b : bool) : scalar_of "Bool" (S32 (if b then 1 else 0))
| of_float p : 0 <= p < 2 ^ 64 -> scalar_of "Float" (S64 p).

(** A number is small if a signed number of 31 bits, or for a Nat of 30 bits, holds it. *)
Definition small_int (z : Z) : Prop := - 2 ^ 30 <= z < 2 ^ 30.

(** The four bytes at an address, the least significant first. *)
Definition word_at (m : memory) (a : Z) : Z := m a + 256 * m (a + 1) + 65536 * m (a + 2) + 16777216 * m (a + 3).

(** The bytes of a number in a block, and the number of its type in the header. *)
Definition payload_size (v : scalar) : Z := match v with S32 _ => 4 | S64 _ => 8 end.
Definition index_of (name : string) : Z := if String.eqb name "Bool" then 1 else if String.eqb name "Float" then 4 else 3.
