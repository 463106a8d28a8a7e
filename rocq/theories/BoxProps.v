(** C65: a number that passes through a value of unknown type arrives unchanged. *)
From Coq Require Import String ZArith List Bool Lia.
From Verif Require Import BoxModel BoxSpec BoxProofs.
Open Scope string_scope.
Open Scope list_scope.
Open Scope Z_scope.
Import ListNotations.

(** Native code: whatever memory looks like and wherever the allocator puts the block, the number that is taken out is the number that was put in; the header
    says that there is one reference, and of which type the number is (3 for Int and Nat, 1 for Bool, 4 for Float); nothing outside of the block is changed. *)
Theorem native_boxes_preserve name v : scalar_of name v ->
  exists c d size run, materialize (core_type name) "tribute_rt.anyref" = Some c /\ materialize "tribute_rt.anyref" (core_type name) = Some d /\
    native_box c v = Some (size, run) /\ size = 8 + payload_size v /\
    forall m raw m' ptr, run m raw = (m', ptr) ->
      ptr = raw + 8 /\ native_unbox d m' ptr = Some v /\ word_at m' raw = 1 /\ word_at m' (raw + 4) = index_of name /\
      (forall x, x < raw \/ raw + size <= x -> m' x = m x).
Proof. exact (native_box_right name v). Qed.
Print Assumptions native_boxes_preserve.
Example an_int_in_a_box : scalar_of "Int" (S32 ((- 70000) mod 2 ^ 32)).
Proof. constructor. unfold int_range. lia. Qed.

(** Wasm: a box holds 31 bits.  An Int arrives unchanged exactly if it is within 31 bits. *)
Theorem wasm_boxed_int_partial z : int_range z -> (through_wasm "Int" (S32 (z mod 2 ^ 32)) = Some (S32 (z mod 2 ^ 32)) <-> small_int z).
Proof. exact (wasm_int_iff z). Qed.
Print Assumptions wasm_boxed_int_partial.
(** What arrives otherwise is the number of 31 bits that differs by a multiple of 2^31. *)
Theorem wasm_boxed_int z : int_range z -> through_wasm "Int" (S32 (z mod 2 ^ 32)) = Some (S32 (((z + 2 ^ 30) mod 2 ^ 31 - 2 ^ 30) mod 2 ^ 32)).
Proof. exact (wasm_int z). Qed.
Print Assumptions wasm_boxed_int.
(** A Nat, which is boxed like an Int, arrives unchanged only if it is below 2^30 or one of the last 2^30. *)
Theorem wasm_boxed_nat_partial z : nat_range z -> (through_wasm "Nat" (S32 z) = Some (S32 z) <-> z < 2 ^ 30 \/ 2 ^ 32 - 2 ^ 30 <= z).
Proof. exact (wasm_nat_iff z). Qed.
Print Assumptions wasm_boxed_nat_partial.
Theorem wasm_boxed_bool (b : bool) : through_wasm "Bool" (S32 (if b then 1 else 0)) = Some (S32 (if b then 1 else 0)).
Proof. exact (wasm_bool b). Qed.
Print Assumptions wasm_boxed_bool.
Theorem wasm_boxed_float p : through_wasm "Float" (S64 p) = Some (S64 p).
Proof. exact (wasm_float p). Qed.
Print Assumptions wasm_boxed_float.

(** So the property does not hold on Wasm: 2^30 arrives as - 2^30. *)
Theorem wasm_boxed_int_refuted : exists z, int_range z /\ through_wasm "Int" (S32 (z mod 2 ^ 32)) = Some (S32 ((- z) mod 2 ^ 32)) /\ (- z) mod 2 ^ 32 <> z mod 2 ^ 32.
Proof. exists (2 ^ 30). repeat split; try (unfold int_range; lia); discriminate. Qed.
Print Assumptions wasm_boxed_int_refuted.
Theorem wasm_boxed_nat_refuted : exists z, nat_range z /\ through_wasm "Nat" (S32 z) <> Some (S32 z).
Proof. exists (2 ^ 31). repeat split; try (unfold nat_range; lia). vm_compute. discriminate. Qed.
Print Assumptions wasm_boxed_nat_refuted.
Example wasm_boxes_small : small_int (-5) /\ through_wasm "Int" (S32 ((-5) mod 2 ^ 32)) = Some (S32 (2 ^ 32 - 5)).
Proof. split; [unfold small_int; lia|reflexivity]. Qed.
