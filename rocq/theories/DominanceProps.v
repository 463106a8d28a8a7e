(** Property C10. *)
From Verif Require Import Base DominanceModel DominanceSpec DominanceProofs.

(** C10: whatever the computation returns, reachability is existence of a walk
    from the first block, [dominates] is "every walk from the first block visits",
    and the graph is reported valid exactly when no edge leaves the region. *)
Theorem dominance_exact : forall fuel blocks succ t, compute fuel blocks succ = Some t ->
  match blocks with
  | [] => forall b d, is_reachable t b = false /\ dominates t d b = false
  | entry :: _ =>
     (forall b, is_reachable t b = true <-> exists l, path blocks succ entry l b) /\
     (forall d b, dominates t d b = true <-> dominates_spec blocks succ entry d b)
  end /\
  (is_valid t = true <-> forall b s, In b blocks -> In s (succ b) -> In s blocks).
Proof. exact compute_spec_lemma. Qed.
Print Assumptions dominance_exact.

(** C10: the computation terminates on every region. *)
Theorem dominance_terminates : forall blocks succ, exists n, forall fuel, n <= fuel ->
  exists t, compute fuel blocks succ = Some t.
Proof. exact compute_term_lemma. Qed.
Print Assumptions dominance_terminates.

(** C10: the predecessor list has one entry per edge. *)
Theorem predecessors_exact : forall blocks succ b p, NoDup blocks -> In b blocks -> In p blocks ->
  count_occ Nat.eq_dec (preds blocks succ b) p = count_occ Nat.eq_dec (succ p) b.
Proof. exact preds_count_lemma. Qed.
Print Assumptions predecessors_exact.

(** A diamond with a back edge from the join, an unreachable block 5 with an edge into the join. *)
Definition diamond (b : nat) : list nat :=
  match b with 0 => [1; 2] | 1 => [3] | 2 => [3] | 3 => [1; 4] | 5 => [3] | _ => [] end.
Example dominance_example :
  option_map (fun t => (map (fun d => dominates t d 3) [0; 1; 2; 3; 5], dominates t 3 4, dominates t 0 5, is_valid t))
    (compute 40 [0; 1; 2; 3; 4; 5] diamond) = Some ([true; false; false; true; false], true, false, true).
Proof. reflexivity. Qed.
Example predecessors_example : preds [0; 1; 2; 3; 4; 5] diamond 3 = [1; 2; 5].
Proof. reflexivity. Qed.
