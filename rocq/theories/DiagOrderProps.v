(** C85: diagnostics are shown in a fixed order. *)
From Verif Require Import DiagOrderSpec DiagOrderProofs.

Definition unknown_name : diagnostic := {| in_phase := NameResolution; start := 4; stop := 7; message := [117; 110]; level := Error; labels := []; note := None |}.
Definition bad_type : diagnostic := {| in_phase := TypeChecking; start := 0; stop := 9; message := [98]; level := Error; labels := []; note := None |}.
Definition bad_type_noted : diagnostic := {| in_phase := TypeChecking; start := 0; stop := 9; message := [98]; level := Error; labels := []; note := Some [110] |}.
Definition other_name : diagnostic := {| in_phase := NameResolution; start := 4; stop := 7; message := [117]; level := Warning; labels := []; note := None |}.

(** Every diagnostic is shown, as often as it was found, and none is shown after one
    that comes later by phase, place and text. *)
Theorem diagnostics_are_shown_in_order : forall l,
  Permutation (sort l) l /\ StronglySorted (fun a b => ~ before b a) (sort l).
Proof. intros l. exact (conj (sort_perm l) (sort_sorted l)). Qed.
Print Assumptions diagnostics_are_shown_in_order.
Example in_order_example : sort [bad_type; unknown_name; other_name] = [other_name; unknown_name; bad_type].
Proof. reflexivity. Qed.

(** The order in which diagnostics are found makes no difference.  Missing: diagnostics that
    differ only in severity, labels or note. *)
Theorem diagnostics_order_is_fixed_partial : forall l l',
  Permutation l l' -> (forall a b, In a l -> In b l -> same_key a b -> a = b) -> sort l = sort l'.
Proof. exact sort_same. Qed.
Print Assumptions diagnostics_order_is_fixed_partial.
Example order_fixed_example :
  Permutation [bad_type; unknown_name; other_name] [other_name; bad_type; unknown_name] /\
  (forall a b, In a [bad_type; unknown_name; other_name] -> In b [bad_type; unknown_name; other_name] -> same_key a b -> a = b).
Proof.
  split; [apply Permutation_sym, (Permutation_cons_append [bad_type; unknown_name] other_name)|].
  intros a b A B (P & _ & _ & M). cbn in A, B.
  destruct A as [<-|[<-|[<-|[]]]], B as [<-|[<-|[<-|[]]]]; try reflexivity; discriminate.
Qed.

(** Diagnostics of the same phase, place and text stay in the order they were found. *)
Theorem equal_diagnostics_keep_their_order : forall (f : diagnostic -> bool) l,
  (forall a b, f a = true -> f b = true -> same_key a b) -> filter f (sort l) = filter f l.
Proof. exact sort_stable. Qed.
Print Assumptions equal_diagnostics_keep_their_order.
Definition is_bad_type (d : diagnostic) : bool :=
  match in_phase d, start d, stop d, message d with TypeChecking, 0, 9, [98] => true | _, _, _, _ => false end.
Example keep_order_example :
  filter is_bad_type [bad_type_noted; unknown_name; bad_type] = [bad_type_noted; bad_type] /\
  sort [bad_type_noted; unknown_name; bad_type] = [unknown_name; bad_type_noted; bad_type].
Proof. split; reflexivity. Qed.

(** For every order of finding, the same phases, places and texts are shown in the same order. *)
Theorem shown_places_and_texts_are_fixed : forall l l', Permutation l l' -> Forall2 same_key (sort l) (sort l').
Proof. exact sort_same_keys. Qed.
Print Assumptions shown_places_and_texts_are_fixed.
Example fixed_with_ties_example :
  Permutation [bad_type; unknown_name; bad_type_noted] [bad_type_noted; bad_type; unknown_name] /\
  sort [bad_type; unknown_name; bad_type_noted] = [unknown_name; bad_type; bad_type_noted] /\
  sort [bad_type_noted; bad_type; unknown_name] = [unknown_name; bad_type_noted; bad_type].
Proof. split; [apply Permutation_sym, (Permutation_cons_append [bad_type; unknown_name] bad_type_noted)|split; reflexivity]. Qed.

(** Two diagnostics that differ only in their notes are shown as found. *)
Theorem diagnostics_order_is_fixed_refuted : ~ (forall l l', Permutation l l' -> sort l = sort l').
Proof. intros H. specialize (H [bad_type; bad_type_noted] [bad_type_noted; bad_type] (perm_swap _ _ _)). discriminate. Qed.
Print Assumptions diagnostics_order_is_fixed_refuted.
