(** Property C05. *)
From Verif Require Import Base BytesModel BytesSpec BytesProofs.
Open Scope N_scope.

(** C05: after any history of allocations, concatenations and slices (of slices,
    of concatenations, ...), every value denotes exactly the byte string the
    list specification computes; the runtime aborts exactly when the
    specification does (slice out of range, result too large) and touches
    invalid memory only when handed a dangling argument. *)
Theorem bytes_refine_lists : forall ops,
  match brun heap_empty ops, srun [] ops with
  | Ret h, Ret cs => length (objs h) = length cs /\
                     forall i, content_of h i = nth_error cs i
  | Abort, Abort => True
  | UB, UB => True
  | _, _ => False
  end.
Proof. exact bytes_refine_lists_lemma. Qed.
Print Assumptions bytes_refine_lists.

(** C05: the reported length is the content length (modulo the u32 cast). *)
Theorem bytes_len_is_content_length : forall ops h i c,
  brun heap_empty ops = Ret h -> content_of h i = Some c ->
  bytes_len h i = Ret (size c mod 2 ^ 32).
Proof. exact bytes_len_lemma. Qed.
Print Assumptions bytes_len_is_content_length.

(** C05: range equality. *)
Theorem bytes_range_equal_spec : forall ops h i j ci cj si sj n,
  brun heap_empty ops = Ret h -> content_of h i = Some ci -> content_of h j = Some cj ->
  si < 2 ^ 32 -> sj < 2 ^ 32 -> n < 2 ^ 32 ->
  exists r, bytes_range_equal h i si j sj n = Ret r /\ (r = 0 \/ r = 1) /\
    (r = 1 <-> si + n <= size ci /\ sj + n <= size cj /\ sub ci si n = sub cj sj n).
Proof. exact range_equal_lemma. Qed.
Print Assumptions bytes_range_equal_spec.

(** C05/C07: a value's stored reference count is one for its creator plus one
    per slice taken from it, so the shared buffer outlives its slices. *)
Theorem slices_keep_original_alive : forall ops h i o,
  brun heap_empty ops = Ret h -> nth_error (objs h) i = Some o ->
  refcount o = (1 + slices_of i ops) mod 2 ^ 32.
Proof. exact slice_refcounts_lemma. Qed.
Print Assumptions slices_keep_original_alive.

(** A history with a slice of a slice of a concatenation. *)
Example bytes_history_exists : exists h,
  brun heap_empty [OpAlloc [1; 2; 3]%Z; OpAlloc [4; 5]%Z; OpConcat 0 1; OpSlice 2 1 5; OpSlice 3 1 3;
                   OpConcat 4 4; OpSlice 0 3 3] = Ret h /\
  content_of h 4 = Some [3; 4]%Z /\ content_of h 5 = Some [3; 4; 3; 4]%Z /\
  content_of h 6 = Some [] /\ bytes_range_equal h 5 0 5 2 2 = Ret 1 /\
  bytes_range_equal h 5 0 5 1 2 = Ret 0 /\ bytes_range_equal h 5 3 5 1 2 = Ret 0.
Proof. eexists. vm_compute. repeat split. Qed.
