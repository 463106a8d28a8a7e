(** Property C01. *)
From Verif Require Import Base EvidenceModel EvidenceSpec EvidenceProofs.
Open Scope Z_scope.

(** C01: whatever sequence of FFI calls built the values (branching allowed),
    looking an ability up through any pointer gives the marker most recently
    installed for it along that pointer's history, and nothing otherwise. *)
Theorem evidence_lookup_finds_newest : forall cs heap,
  ffi_run [] cs = Some heap ->
  exists sheap, spec_run [] cs = Some sheap /\ length sheap = length heap /\
    forall p hs, nth_error sheap p = Some hs ->
    forall id, ffi_lookup heap p id = spec_lookup hs id.
Proof. exact evidence_refines_spec_lemma. Qed.
Print Assumptions evidence_lookup_finds_newest.

(** C01: every evidence value is sorted with no duplicate ability. *)
Theorem evidence_always_sorted : forall cs heap p ev,
  ffi_run [] cs = Some heap -> nth_error heap p = Some ev -> strictly_sorted ev.
Proof. exact evidence_always_sorted_lemma. Qed.
Print Assumptions evidence_always_sorted.

(** C01: later calls never change an earlier evidence value. *)
Theorem evidence_persistent : forall cs cs' heap heap' p ev,
  ffi_run [] cs = Some heap -> ffi_run heap cs' = Some heap' ->
  nth_error heap p = Some ev -> nth_error heap' p = Some ev.
Proof. exact evidence_persistent_lemma. Qed.
Print Assumptions evidence_persistent.

(** Non-vacuity: a branching history with a nested handler for ability 7. *)
Example evidence_history_exists :
  exists heap, ffi_run [] [FfiEmpty; FfiExtend 0 (Marker 7 1 0 0); FfiExtend 1 (Marker (-3) 2 0 0);
                           FfiExtend 2 (Marker 7 5 0 0); FfiExtend 1 (Marker 9 6 0 0)] = Some heap
    /\ ffi_lookup heap 3 7 = Some (Marker 7 5 0 0) /\ ffi_lookup heap 4 7 = Some (Marker 7 1 0 0)
    /\ ffi_lookup heap 4 (-3) = None.
Proof. eexists. vm_compute. repeat split. Qed.
