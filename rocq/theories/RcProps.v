(** Properties C07 and C43. *)
From Verif Require Import Base RcModel RcSpec RcProofs.
Open Scope Z_scope.

(** C07: in any interleaving in which only owners act and there are never 2^32
    owners, the stored count is the number of owners, and an operation takes
    the free path exactly when it is the release dropping the last owner. *)
Theorem rc_counts_owners : forall ops, owned 1 ops ->
  fst (rc_run 1 ops) = owners 1 ops /\
  forall i o, nth_error ops i = Some o ->
    (nth_error (snd (rc_run 1 ops)) i = Some true <-> o = RcRelease /\ owners 1 (firstn (S i) ops) = 0).
Proof. exact rc_exact_lemma. Qed.
Print Assumptions rc_counts_owners.

(** C07: the free path is taken at most once, by the last operation. *)
Theorem rc_free_is_last : forall ops i o, owned 1 ops -> nth_error ops i = Some o ->
  nth_error (snd (rc_run 1 ops)) i = Some true -> length ops = S i.
Proof. exact rc_free_last_lemma. Qed.
Print Assumptions rc_free_is_last.

Example rc_owned_example : owned 1 [RcRetain; RcRelease; RcRetain; RcRelease; RcRelease] /\
  snd (rc_run 1 [RcRetain; RcRelease; RcRetain; RcRelease; RcRelease]) = [false; false; false; false; true].
Proof. cbn. repeat split; lia. Qed.

(** C07, beyond the bound: a release frees the box while 2^32 owners remain. *)
Theorem rc_wraparound_refuted : exists ops i,
  owners 1 ops = 2 ^ 32 /\ nth_error ops i = Some RcRelease /\
  nth_error (snd (rc_run 1 ops)) i = Some true.
Proof. exact rc_wrap_lemma. Qed.
Print Assumptions rc_wraparound_refuted.

(** C43: for every legal program history over heap objects (the object graph is
    acyclic because objects are immutable), retain/release/deep release never
    touch freed memory, never free twice or with a wrong size and never run out
    of depth; an object's count is zero exactly when it is unreachable, freed
    memory is unreachable, and unreachable structs and enums have been freed. *)
Theorem deep_release_exact : forall ops g, legal_run graph_init ops g -> sizes_ok [] ops ->
  retains ops < 2 ^ 32 - 1 ->
  exists h, hrun [] ops = Ok h /\ map fields h = shape g /\
    forall a o, nth_error h a = Some o ->
      (rc o = 0 <-> ~ reachable g a) /\
      (freed o = true -> ~ reachable g a) /\
      (typed o = true -> ~ reachable g a -> freed o = true).
Proof. exact deep_release_exact_lemma. Qed.
Print Assumptions deep_release_exact.

(** A shared leaf below two structs; dropping both structs drops the leaf too. *)
Definition sample_history : list hop :=
  [HNew true 16 []; HRetain (Some 0); HNew true 24 [Some 0; None]%nat; HNew true 24 [None; Some 0]%nat;
   HRelease (Some 1) 24; HAccess 0; HRetain None; HRelease (Some 2) 0]%nat.

Example deep_release_hypotheses : exists g, legal_run graph_init sample_history g /\
  sizes_ok [] sample_history /\ retains sample_history < 2 ^ 32 - 1.
Proof.
  eexists. split; [|split].
  - eapply lr_cons; [apply legal_new; [lia | reflexivity | intros a; unfold count_in; cbn; lia]|].
    eapply lr_cons; [apply legal_retain; apply reach_root; cbn; lia|].
    eapply lr_cons; [apply legal_new; [lia | discriminate |]|].
    { intros [|a]; unfold count_in, add_root; cbn; [lia|]. destruct a; cbn; lia. }
    eapply lr_cons; [apply legal_new; [lia | discriminate |]|].
    { intros [|[|a]]; unfold count_in, add_root; cbn; lia. }
    eapply lr_cons; [apply legal_release; cbn; lia|].
    eapply lr_cons; [apply legal_access|].
    { eapply (reach_field _ 0 2 [None; Some 0])%nat; [apply reach_root; cbn; lia | reflexivity | cbn; tauto]. }
    eapply lr_cons; [apply legal_retain_null|].
    eapply lr_cons; [apply legal_release; cbn; lia|]. apply lr_nil.
  - vm_compute. tauto.
  - vm_compute. reflexivity.
Qed.

Example deep_release_sample : exists h, hrun [] sample_history = Ok h /\ map freed h = [true; true; true].
Proof. eexists. split; vm_compute; reflexivity. Qed.

(** C43, refuted for objects without a generated release function (Bytes, boxed
    numbers): generated release functions release fields with size 0, so when
    the last reference to such an object is a field, its memory is never
    returned. *)
Theorem leaf_in_field_leaks_refuted : exists ops g h o,
  legal_run graph_init ops g /\ sizes_ok [] ops /\ hrun [] ops = Ok h /\
  nth_error h 0 = Some o /\ ~ reachable g 0 /\ rc o = 0 /\ freed o = false.
Proof.
  exists [HNew false 24 []; HNew true 16 [Some 0%nat]; HRelease (Some 1%nat) 16].
  eexists. eexists. eexists. split; [|split; [|split; [|split; [|split; [|split]]]]].
  - eapply lr_cons; [apply legal_new; [lia | reflexivity | intros a; unfold count_in; cbn; lia]|].
    eapply lr_cons; [apply legal_new; [lia | discriminate |]|].
    { intros [|a]; unfold count_in; cbn; lia. }
    eapply lr_cons; [apply legal_release; cbn; lia|]. apply lr_nil.
  - vm_compute. tauto.
  - vm_compute. reflexivity.
  - reflexivity.
  - intros Hr.
    assert (Hno : forall a, reachable
      {| shape := ([] ++ [[]]) ++ [[Some 0%nat]];
         roots := add_root (fun a => if Nat.eqb a 1 then 1 else (if Nat.eqb a 0 then 1 else 0 - count_in a []) - count_in a [Some 0%nat]) 1 (-1) |} a -> False).
    { intros a Ha. induction Ha as [a Ha | a b fs Hb IH Hs Hin]; [|exact IH].
      revert Ha. unfold add_root, count_in. cbn [roots]. destruct a as [|[|a]]; cbn; lia. }
    exact (Hno 0%nat Hr).
  - reflexivity.
  - reflexivity.
Qed.
Print Assumptions leaf_in_field_leaks_refuted.
