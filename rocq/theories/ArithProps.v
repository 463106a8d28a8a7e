(** Properties C11 and C12. *)
From Coq Require Import Decimal DecimalString.
From Verif Require Import Base ArithModel ArithSpec ArithProofs.
Open Scope Z_scope.

(** C11: when a fold fires, the operation cannot trap and the replacement value
    equals the result at the type's width, for every value of the non-constant
    operand.  Signed division additionally needs canonical payloads. *)
Theorem fold_sound : forall o l r t w env res,
  core_int_width t = Some w ->
  (signed_division o -> canonical_const w l /\ canonical_const w r) ->
  fold o [l; r] [t] = Some res ->
  exec o w (run w env l) (run w env r) = Some (run_result w env res).
Proof. exact fold_sound_lemma. Qed.
Print Assumptions fold_sound.

(** C11: constants that do not trap are always folded. *)
Theorem fold_complete : forall o l r t w env a b v,
  core_int_width t = Some w -> o_const l = Some a -> o_const r = Some b ->
  (signed_division o -> canonical_const w l /\ canonical_const w r) ->
  exec o w (run w env l) (run w env r) = Some v -> exists res, fold o [l; r] [t] = Some res.
Proof. exact fold_complete_lemma. Qed.
Print Assumptions fold_complete.

(** C11: a folded payload is canonical again, so folds can be chained. *)
Theorem fold_canonical : forall o l r t w v, core_int_width t = Some w ->
  fold o [l; r] [t] = Some (ArithConst v) -> - 2 ^ (w - 1) <= v < 2 ^ (w - 1).
Proof. exact fold_canonical_lemma. Qed.
Print Assumptions fold_canonical.

(** C12: an operation that traps is left alone. *)
Theorem fold_keeps_traps : forall o l r t w env,
  core_int_width t = Some w ->
  (signed_division o -> canonical_const w l /\ canonical_const w r) ->
  exec o w (run w env l) (run w env r) = None -> fold o [l; r] [t] = None.
Proof. exact fold_trap_lemma. Qed.
Print Assumptions fold_keeps_traps.

(** C11: the width of core.iN is N, for N from 1 to 128 and nothing else. *)
Theorem width_of_name : forall n,
  core_int_width (core_i (String.append "i" (NilZero.string_of_uint (Nat.to_uint n)))) =
  if (1 <=? n)%nat && (n <=? 128)%nat then Some (Z.of_nat n) else None.
Proof. exact width_name_lemma. Qed.
Print Assumptions width_of_name.

Example fold_wraps : fold Addi [cst 127; cst 1] [core_i "i8"] = Some (ArithConst (-128)).
Proof. reflexivity. Qed.
Example fold_identity : fold Muli [var 3; cst 1] [core_i "i32"] = Some (Forward (var 3)).
Proof. reflexivity. Qed.
Example fold_unsigned : fold Divui [cst (-1); cst 2] [core_i "i8"] = Some (ArithConst 127).
Proof. reflexivity. Qed.
Example trap_zero : exec Divsi 8 (run 8 (fun _ => 0) (cst 5)) (run 8 (fun _ => 0) (cst 0)) = None.
Proof. reflexivity. Qed.
Example trap_min : exec Divsi 8 (run 8 (fun _ => 0) (cst (-128))) (run 8 (fun _ => 0) (cst (-1))) = None /\
  fold Divsi [cst (-128); cst (-1)] [core_i "i8"] = None.
Proof. split; reflexivity. Qed.
Example canonical_example : canonical_const 8 (cst (-128)) /\ canonical_const 8 (cst 127).
Proof. unfold canonical_const; cbn; lia. Qed.

(** Without the canonical-payload condition both claims are false: at i8 the
    payload 255 is -1, and 256 is 0. *)
Theorem noncanonical_division_refuted : exists l r t w env res,
  core_int_width t = Some w /\ i128_const l /\ i128_const r /\
  fold Divsi [l; r] [t] = Some res /\
  exec Divsi w (run w env l) (run w env r) <> Some (run_result w env res).
Proof. exact noncanonical_division_lemma. Qed.
Print Assumptions noncanonical_division_refuted.
Theorem noncanonical_trap_refuted : exists l r t w env res,
  core_int_width t = Some w /\ i128_const l /\ i128_const r /\
  exec Divsi w (run w env l) (run w env r) = None /\ fold Divsi [l; r] [t] = Some res.
Proof. exact noncanonical_trap_lemma. Qed.
Print Assumptions noncanonical_trap_refuted.

(** Folding booleans written 0/1 can produce the payload -1, which the branch
    fold does not accept as a boolean. *)
Theorem bool_payload_refuted : exists l r v,
  (o_const l = Some 0 \/ o_const l = Some 1) /\ (o_const r = Some 0 \/ o_const r = Some 1) /\
  fold Or [l; r] [core_i "i1"] = Some (ArithConst v) /\ v <> 0 /\ v <> 1 /\
  fold_if_branch (cst v) (core_i "i1") = None.
Proof. exact bool_payload_lemma. Qed.
Print Assumptions bool_payload_refuted.

(** The type name [i+32] counts as a 32-bit integer, contrary to arith.rs:379. *)
Theorem plus_width_refuted : exists s, s <> ""%string /\
  core_int_width (core_i (String.append "i+" s)) = Some 32.
Proof. exact plus_width_lemma. Qed.
Print Assumptions plus_width_refuted.
