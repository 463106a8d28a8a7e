(** More fuel never changes what the solver answers. *)
From Verif Require Import UnifyModel UnifyMono UnifySpec UnifyComplete.

Definition ule {A} (m m' : U A) : Prop := forall st, fst (m st) <> Out -> m' st = m st.

Lemma ule_refl {A} (m : U A) : ule m m.
Proof. intros st _. reflexivity. Qed.
Lemma ule_bind {A B} (m m' : U A) (f f' : A -> U B) : ule m m' -> (forall a, ule (f a) (f' a)) -> ule (ubind m f) (ubind m' f').
Proof.
  intros H F st N. unfold ubind in *. specialize (H st). destruct (m st) as [[a|e|] st1]; cbn in *.
  - rewrite H by discriminate. apply F, N.
  - rewrite H by discriminate. reflexivity.
  - congruence.
Qed.
Lemma ule_ask {A} (f f' : ust -> option A) : (forall st, ole (f st) (f' st)) -> ule (ask f) (ask f').
Proof.
  intros H st N. unfold ask in *. destruct (f st) eqn:E; [|cbn in N; congruence]. rewrite (H st _ E). reflexivity.
Qed.
Lemma ule_each2 {A B} (f f' : A -> B -> U unit) : (forall a b, ule (f a b) (f' a b)) -> forall l l', ule (each2 f l l') (each2 f' l l').
Proof.
  intros H. induction l as [|a l IH]; intros [|b l']; cbn [each2]; try apply ule_refl.
  apply ule_bind; [apply H | intros _; apply IH].
Qed.
Lemma ule_attempt {A} (f f' : A -> U unit) : forall l, Forall (fun a => ule (f a) (f' a)) l -> ule (attempt f l) (attempt f' l).
Proof.
  induction 1 as [|a l H F IH]; [apply ule_refl|]. intros st N. cbn [attempt] in *. specialize (H st).
  destruct (f a st) as [[[]|e|] st1]; cbn in *.
  - rewrite H by discriminate. apply IH, N.
  - rewrite H by discriminate. specialize (IH st1). destruct (attempt f l st1) as [[[]|e'|] st2]; cbn in *;
      try (rewrite IH by discriminate; reflexivity). congruence.
  - congruence.
Qed.

Lemma ole_any {A} (f g : A -> option bool) l : (forall a, ole (f a) (g a)) -> ole (oany f l) (oany g l).
Proof.
  intros H. induction l as [|a l IH]; [apply ole_refl|]. intros b E. cbn [oany] in *. specialize (H a).
  destruct (f a) as [[|]|]; try discriminate; rewrite (H _ eq_refl); auto.
Qed.
Lemma ole_all2 {A B} (f g : A -> B -> option bool) : (forall a b, ole (f a b) (g a b)) -> forall l l', ole (oall2 f l l') (oall2 g l l').
Proof.
  intros H. induction l as [|a l IH]; intros [|b l'] c E; cbn [oall2] in *; auto. specialize (H a b).
  destruct (f a b) as [[|]|]; try discriminate; rewrite (H _ eq_refl); auto. apply IH, E.
Qed.
Lemma ole_or a a' b b' : ole a a' -> ole b b' -> ole (oor a b) (oor a' b').
Proof. intros H K c E. unfold oor in *. destruct a as [[|]|]; try discriminate; rewrite (H _ eq_refl); auto. Qed.
Lemma ole_and a a' b b' : ole a a' -> ole b b' -> ole (oand a b) (oand a' b').
Proof. intros H K c E. unfold oand in *. destruct a as [[|]|]; try discriminate; rewrite (H _ eq_refl); auto. Qed.

Lemma occurs_step rs v n : forall t, ole (occurs n rs v t) (occurs (S n) rs v t).
Proof.
  induction n as [|n IH]; intros t; [intros a H; discriminate|].
  cbn [occurs]. cbv zeta. change (match n with 0 => _ | S _ => _ end) with (occurs n rs v) in *.
  destruct t; try apply ole_refl; repeat apply ole_or; try apply ole_any; try apply IH; try (intros; apply IH).
  all: intros; apply ole_any; intros; apply IH.
Qed.
Lemma row_occurs_step (f f' : ty -> option bool) rs v e : (forall t, ole (f t) (f' t)) -> ole (row_occurs f rs v e) (row_occurs f' rs v e).
Proof.
  intros H. unfold row_occurs. cbv zeta. destruct (opt_eqb _ _); [apply ole_refl|]. apply ole_any. intros. apply ole_any, H.
Qed.
Lemma row_occurs_ty_step ts rs v n : forall t, ole (row_occurs_ty n ts rs v t) (row_occurs_ty (S n) ts rs v t).
Proof.
  induction n as [|n IH]; intros t; [intros a H; discriminate|].
  cbn [row_occurs_ty]. cbv zeta. change (match n with 0 => _ | S _ => _ end) with (row_occurs_ty n ts rs v) in *.
  destruct t; try apply ole_refl; repeat apply ole_or; try apply ole_any; try apply row_occurs_step; try apply IH; try (intros; apply IH).
  match goal with |- context [tget ts ?w] => destruct (tget ts w) end; [apply IH | apply ole_refl].
Qed.
Lemma unifiable_step ts n : forall t1 t2, ole (unifiable n ts t1 t2) (unifiable (S n) ts t1 t2).
Proof.
  induction n as [|n IH]; intros t1 t2; [intros a H; discriminate|].
  cbn [unifiable]. cbv zeta. change (match n with 0 => _ | S _ => _ end) with (unifiable n ts) in *.
  apply ole_bind; [apply tapply_step|]. intros u1. apply ole_bind; [apply tapply_step|]. intros u2.
  destruct (ty_eqb u1 u2); [apply ole_refl|].
  destruct u1 as [[]| | | | | | | | |]; try apply ole_refl; destruct u2 as [[]| | | | | | | | |]; try apply ole_refl;
    repeat match goal with |- ole (if ?b then _ else _) _ => destruct b end; try apply ole_refl;
    repeat apply ole_and; try apply IH; try (apply ole_all2; intros; apply IH);
    repeat match goal with |- ole (if ?b then _ else _) _ => destruct b end; try apply ole_refl; apply ole_all2; intros; apply IH.
Qed.

Section Rows.
  Variables (rec rec' : ty -> ty -> U unit) (n n' : nat).
  Hypothesis Hrec : forall a b, ule (rec a b) (rec' a b).
  Hypothesis Hun : forall ts a b, ole (unifiable n ts a b) (unifiable n' ts a b).
  Hypothesis Hta : forall ts rs t, ole (tapply n ts rs t) (tapply n' ts rs t).
  Hypothesis Hro : forall ts rs v t, ole (row_occurs_ty n ts rs v t) (row_occurs_ty n' ts rs v t).

  Lemma ule_match_args e1 e2 : ule (match_args rec n e1 e2) (match_args rec' n' e1 e2).
  Proof.
    unfold match_args. apply ule_bind; [apply ule_ask; intros; apply ole_all2; intros; apply Hun|].
    intros []; [|apply ule_refl]. apply ule_bind; [apply ule_each2, Hrec | intros; apply ule_refl].
  Qed.
  Lemma ule_first_match (f f' : effect -> U bool) l : (forall e, ule (f e) (f' e)) -> ule (first_match f l) (first_match f' l).
  Proof.
    intros H. induction l as [|e l IH]; [apply ule_refl|]. cbn [first_match]. apply ule_bind; [apply H|].
    intros []; [apply ule_refl | apply IH].
  Qed.
  Lemma ule_each (f f' : effect -> U unit) l : (forall e, ule (f e) (f' e)) -> ule (each f l) (each f' l).
  Proof. intros H. induction l as [|e l IH]; [apply ule_refl|]. cbn [each]. apply ule_bind; [apply H | intros; apply IH]. Qed.
  Lemma ule_sets es1 es2 r1 r2 : ule (unify_sets rec n es1 es2 r1 r2) (unify_sets rec' n' es1 es2 r1 r2).
  Proof.
    unfold unify_sets. destruct (Nat.eqb _ _); [|apply ule_refl]. apply ule_bind; [apply ule_refl|]. intros _.
    apply ule_each. intros e. unfold sets_step. cbv zeta. destruct (filter _ es2); [apply ule_refl|].
    apply ule_bind; [apply ule_refl|]. intros _. apply ule_bind; [apply ule_first_match; intros; apply ule_match_args|].
    intros []; apply ule_refl.
  Qed.
  Lemma ule_difference l1 l2 : ule (difference rec n l1 l2) (difference rec' n' l1 l2).
  Proof.
    unfold difference. apply ule_bind; [apply ule_refl|]. intros _. induction l2 as [|e l2 IH]; [apply ule_refl|].
    cbn [difference_loop]. cbv zeta. apply ule_bind; [apply ule_refl|]. intros _.
    apply ule_bind; [apply ule_first_match; intros; apply ule_match_args|]. intros b.
    apply ule_bind; [apply IH | intros; apply ule_refl].
  Qed.
  Lemma ule_split_match e l : ule (split_match rec n e l) (split_match rec' n' e l).
  Proof.
    induction l as [|[e2 m] l IH]; [apply ule_refl|]. cbn [split_match]. destruct (_ || _).
    - apply ule_bind; [apply IH | intros; apply ule_refl].
    - apply ule_bind; [apply ule_match_args|]. intros []; [apply ule_refl|]. apply ule_bind; [apply IH | intros; apply ule_refl].
  Qed.
  Lemma ule_split l1 : forall l2, ule (split_loop rec n l1 l2) (split_loop rec' n' l1 l2).
  Proof.
    induction l1 as [|e l1 IH]; intros l2; [apply ule_refl|]. cbn [split_loop]. apply ule_bind; [apply ule_refl|]. intros _.
    apply ule_bind; [apply ule_split_match|]. intros m. apply ule_bind; [apply IH | intros; apply ule_refl].
  Qed.
  Lemma ule_occurs_in_row v r : ule (occurs_in_row n v r) (occurs_in_row n' v r).
  Proof. unfold occurs_in_row. apply ule_ask. intros st. apply row_occurs_step. intros. apply Hro. Qed.
  Lemma ule_rows r1 r2 : ule (unify_rows rec n r1 r2) (unify_rows rec' n' r1 r2).
  Proof.
    unfold unify_rows. apply ule_bind; [apply ule_ask; intros; apply ole_row; intros; apply Hta|]. intros q1.
    apply ule_bind; [apply ule_ask; intros; apply ole_row; intros; apply Hta|]. intros q2.
    destruct (row_eqb q1 q2); [apply ule_refl|]. destruct (is_pure q1 && is_pure q2); [apply ule_refl|].
    destruct (snd q1), (snd q2).
    - destruct (Nat.eqb _ _); [apply ule_sets|]. apply ule_bind; [apply ule_occurs_in_row|]. intros []; [apply ule_refl|].
      apply ule_bind; [apply ule_occurs_in_row|]. intros []; [apply ule_refl|].
      apply ule_bind; [|intros; apply ule_refl]. unfold split_effects. apply ule_bind; [apply ule_split | intros; apply ule_refl].
    - apply ule_bind; [apply ule_occurs_in_row|]. intros []; [apply ule_refl|]. apply ule_bind; [apply ule_difference|].
      intros; apply ule_refl.
    - destruct (is_pure q1 && _); [apply ule_refl|]. apply ule_bind; [apply ule_occurs_in_row|]. intros []; [apply ule_refl|].
      apply ule_bind; [apply ule_difference|]. intros; apply ule_refl.
    - apply ule_sets.
  Qed.
End Rows.

Lemma bind_type_step n v t : ule (bind_type n v t) (bind_type (S n) v t).
Proof. unfold bind_type. apply ule_bind; [apply ule_ask; intros; apply occurs_step|]. intros []; apply ule_refl. Qed.

Lemma unify_step n : forall t1 t2, ule (unify n t1 t2) (unify (S n) t1 t2).
Proof.
  induction n as [|n IH]; intros t1 t2; [intros st H; cbn in H; congruence|].
  cbn [unify]. cbv zeta. change (match n with 0 => _ | S _ => _ end) with (unify n) in *.
  assert (R : forall r1 r2, ule (unify_rows (unify n) n r1 r2) (unify_rows (unify (S n)) (S n) r1 r2)).
  { intros. apply ule_rows; [exact IH | | |]; intros; [apply unifiable_step | apply tapply_step | apply row_occurs_ty_step]. }
  assert (E : forall l l', ule (each2 (unify n) l l') (each2 (unify (S n)) l l')) by (apply ule_each2, IH).
  apply ule_bind; [apply ule_ask; intros; apply tapply_step|]. intros u1.
  apply ule_bind; [apply ule_ask; intros; apply tapply_step|]. intros u2.
  destruct (ty_eqb u1 u2); [apply ule_refl|].
  destruct u1 as [[]| | | | | | | | |]; try apply ule_refl; try apply bind_type_step; destruct u2 as [[]| | | | | | | | |]; try apply ule_refl;
    try apply bind_type_step;
    repeat match goal with |- ule (if ?b then _ else _) _ => destruct b end; try apply ule_refl; try apply E;
    repeat (apply ule_bind; [first [apply E | apply IH] | intros _]); try apply R;
    repeat match goal with |- ule (if ?b then _ else _) _ => destruct b end; try apply ule_refl; apply E.
Qed.

Section ConstrInd.
  Variable P : constr -> Prop.
  Hypothesis HT : forall a b, P (CType a b).
  Hypothesis HR : forall a b, P (CRow a b).
  Hypothesis HA : forall cs, Forall P cs -> P (CAnd cs).
  Fixpoint constr_ind' (c : constr) : P c :=
    match c with
    | CType a b => HT a b
    | CRow a b => HR a b
    | CAnd cs => HA cs ((fix go (l : list constr) : Forall P l :=
        match l with [] => Forall_nil _ | c :: l => Forall_cons c (constr_ind' c) (go l) end) cs)
    end.
End ConstrInd.

Lemma solve_constr_step n c : ule (solve_constr n c) (solve_constr (S n) c).
Proof.
  induction c as [a b|a b|cs IH] using constr_ind'.
  - apply unify_step.
  - apply ule_rows; intros; [apply unify_step | apply unifiable_step | apply tapply_step | apply row_occurs_ty_step].
  - apply ule_attempt. exact IH.
Qed.

Lemma solve_step n cs : ule (solve n cs) (solve (S n) cs).
Proof.
  intros st N. unfold solve in *. apply ule_attempt; [|exact N]. apply Forall_forall. intros. apply solve_constr_step.
Qed.
Lemma solve_more n m cs : n <= m -> ule (solve n cs) (solve m cs).
Proof.
  induction 1 as [|m L IH]; [apply ule_refl|]. intros st N. rewrite <- (IH st N). apply solve_step. rewrite (IH st N). exact N.
Qed.
