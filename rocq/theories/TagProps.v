(** Property C06. *)
From Verif Require Import Base TagModel TagSpec TagProofs.
Open Scope Z_scope.

(** C06: in any interleaving of calls by any number of threads, two different
    calls on one thread return different tags if fewer than 2^32 calls of that
    thread lie between them. *)
Theorem tags_distinct : forall calls i j t a b,
  (i < j)%nat -> nth_error calls i = Some t -> nth_error calls j = Some t ->
  calls_by t (between i j calls) < 2 ^ 32 ->
  nth_error (tag_run threads_init calls) i = Some a ->
  nth_error (tag_run threads_init calls) j = Some b -> a <> b.
Proof. exact tags_distinct_lemma. Qed.
Print Assumptions tags_distinct.

(** C06: exactly, tags repeat with period 2^32 per thread. *)
Theorem tag_equal_iff : forall calls i j t a b,
  (i <= j)%nat -> nth_error calls i = Some t -> nth_error calls j = Some t ->
  nth_error (tag_run threads_init calls) i = Some a ->
  nth_error (tag_run threads_init calls) j = Some b ->
  a = b <-> (calls_by t (between i j calls)) mod 2 ^ 32 = 0.
Proof. exact tag_equal_iff_lemma. Qed.
Print Assumptions tag_equal_iff.

Example tags_example :
  nth_error [0; 1; 0; 1; 0]%nat 0 = Some 0%nat /\ nth_error [0; 1; 0; 1; 0]%nat 4 = Some 0%nat /\
  calls_by 0 (between 0 4 [0; 1; 0; 1; 0]%nat) = 2 /\
  tag_run threads_init [0; 1; 0; 1; 0]%nat = [0; 0; 1; 1; 2].
Proof. repeat split. Qed.
