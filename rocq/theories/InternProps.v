(** Properties C13, C14 and C44. *)
From Verif Require Import Base InternModel InternSpec InternProofs.

(** C13: over any history of intern calls, each handle reads back the key interned;
    two calls return the same handle iff their keys are equal; lookup finds exactly
    the interned keys; and later calls never change what a handle denotes. *)
Theorem interning_is_hash_consing : forall K (eqb : K -> K -> bool), decides_eq eqb -> forall ks s hs,
  intern_all eqb (new_interner K) ks = (s, hs) ->
  Forall2 (fun k h => get s h = Some k) ks hs /\
  (forall i j ki kj hi hj, nth_error ks i = Some ki -> nth_error ks j = Some kj ->
     nth_error hs i = Some hi -> nth_error hs j = Some hj -> (hi = hj <-> ki = kj)) /\
  (forall k h, lookup eqb s k = Some h <-> exists i, nth_error ks i = Some k /\ nth_error hs i = Some h) /\
  (forall more s' hs', intern_all eqb s more = (s', hs') -> forall r k, get s r = Some k -> get s' r = Some k).
Proof. exact @intern_history_lemma. Qed.
Print Assumptions interning_is_hash_consing.
Example interning_example : snd (intern_all Nat.eqb (new_interner nat) [7; 9; 7; 8; 9]) = [0; 1; 0; 2; 1].
Proof. reflexivity. Qed.

(** C44: whatever the schedule of the threads sharing the symbol table, the
    symbols handed out so far to any threads are equal exactly when their texts
    are, and each resolves to its text. *)
Theorem symbols_agree_across_threads : forall K (eqb : K -> K -> bool), decides_eq eqb ->
  forall programs sched k1 h1 k2 h2, let w := run_schedule eqb (start programs) sched in
  handed_out w k1 h1 -> handed_out w k2 h2 -> (h1 = h2 <-> k1 = k2) /\ get (table w) h1 = Some k1.
Proof. exact @symbol_threads_lemma. Qed.
Print Assumptions symbols_agree_across_threads.

(** C44: no deadlock: while some thread has work left, some thread can move. *)
Theorem symbols_no_deadlock : forall K (eqb : K -> K -> bool), decides_eq eqb -> forall programs sched,
  let w := run_schedule eqb (start programs) sched in
  (exists t, In t (threads w) /\ todo t <> []) -> exists i, step eqb w i <> w.
Proof. exact @symbol_progress_lemma. Qed.
Print Assumptions symbols_no_deadlock.
Example threads_example :
  map results (threads (run_schedule Nat.eqb (start [[5; 6]; [6; 5]]) (concat (repeat [0; 1; 1; 1] 10)))) =
  [[(6, 1); (5, 0)]; [(5, 0); (6, 1)]].
Proof. reflexivity. Qed.

(** C14: the forward direction gives the last registration. *)
Theorem alias_by_name_is_last : forall regs n,
  type_alias_by_name (register_all regs) n = last_registration regs n.
Proof. exact alias_by_name_lemma. Qed.
Print Assumptions alias_by_name_is_last.
(** C14: the reverse direction never reports a stale or wrong name. *)
Theorem alias_reverse_sound : forall regs n t, type_alias_by_type (register_all regs) t = Some n ->
  type_alias_by_name (register_all regs) n = Some t.
Proof. exact alias_sound_lemma. Qed.
Print Assumptions alias_reverse_sound.
(** C14: the ordered list has the names in order of first registration, each with its current type. *)
Theorem alias_list_exact : forall regs,
  map fst (ordered (register_all regs)) = first_occurrences [] (map fst regs) /\
  forall n t, In (n, t) (ordered (register_all regs)) <-> type_alias_by_name (register_all regs) n = Some t.
Proof. exact alias_ordered_lemma. Qed.
Print Assumptions alias_list_exact.
(** C14, partial: the reverse direction is complete as long as no two names are
    ever registered for the same type. *)
Theorem alias_reverse_complete_partial : forall regs n t, one_name_per_type regs ->
  type_alias_by_name (register_all regs) n = Some t -> type_alias_by_type (register_all regs) t = Some n.
Proof. exact alias_complete_lemma. Qed.
Print Assumptions alias_reverse_complete_partial.
Example alias_example : one_name_per_type [(1, 10); (2, 20); (1, 30)] /\
  type_alias_by_type (register_all [(1, 10); (2, 20); (1, 30)]) 30 = Some 1.
Proof.
  split; [|reflexivity]. intros n m t H1 H2. cbn [In] in H1, H2.
  intuition congruence.
Qed.
(** Completeness fails in general: re-registering one of two names of a type
    forgets the other's reverse entry. *)
Theorem alias_reverse_complete_refuted : exists regs n t,
  type_alias_by_name (register_all regs) n = Some t /\ type_alias_by_type (register_all regs) t = None.
Proof. exact alias_incomplete_lemma. Qed.
Print Assumptions alias_reverse_complete_refuted.
