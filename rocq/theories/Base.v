(** Shared imports, tactics and list lemmas.  Nothing here models code. *)
From Coq Require Export List Arith ZArith NArith Lia Bool.
From Coq Require Export ZifyBool ZifyNat ZifyN.
Export ListNotations.
Ltac Zify.zify_post_hook ::= Z.div_mod_to_equations.

(** [break_if] splits on one boolean test in the goal, remembering it. *)
Ltac break_if :=
  match goal with
  | |- context [if ?b then _ else _] => let H := fresh "Hif" in destruct b eqn:H
  end.
Ltac break_match :=
  match goal with
  | |- context [match ?b with _ => _ end] => let H := fresh "Hm" in destruct b eqn:H
  end.
Ltac break_match_in H :=
  match type of H with
  | context [match ?b with _ => _ end] => let E := fresh "Hm" in destruct b eqn:E
  end.
Ltac inv H := inversion H; subst; clear H.

Lemma firstn_length_app {A} (l1 l2 : list A) : firstn (length l1) (l1 ++ l2) = l1.
Proof. rewrite firstn_app, Nat.sub_diag, firstn_all. simpl. apply app_nil_r. Qed.

Lemma skipn_length_app {A} (l1 l2 : list A) : skipn (length l1) (l1 ++ l2) = l2.
Proof. rewrite skipn_app, Nat.sub_diag, skipn_all. reflexivity. Qed.

Lemma nth_error_skipn {A} (l : list A) : forall n i, nth_error (skipn n l) i = nth_error l (n + i).
Proof.
  induction l as [|a l IH]; intros [|n] i; simpl; try reflexivity.
  - destruct i; reflexivity.
  - apply IH.
Qed.

Lemma nth_error_firstn {A} (l : list A) : forall n i, i < n -> nth_error (firstn n l) i = nth_error l i.
Proof.
  induction l as [|a l IH]; intros [|n] i Hi; simpl; try lia; try (destruct i; reflexivity).
  destruct i as [|i]; simpl; [reflexivity|]. apply IH. lia.
Qed.

Lemma list_eq_nth_error {A} (l1 : list A) : forall l2,
  (forall i, nth_error l1 i = nth_error l2 i) -> l1 = l2.
Proof.
  induction l1 as [|a l1 IH]; intros [|b l2] H; try reflexivity.
  - specialize (H 0). discriminate.
  - specialize (H 0). discriminate.
  - pose proof (H 0) as H0. simpl in H0. inv H0. f_equal.
    apply IH. intros i. exact (H (S i)).
Qed.

Lemma Forall2_len {A B} (R : A -> B -> Prop) l1 l2 : Forall2 R l1 l2 -> length l1 = length l2.
Proof. intros H; induction H as [|a b l1 l2 _ _ IH]; simpl; [reflexivity | f_equal; exact IH]. Qed.
