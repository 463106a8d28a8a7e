(** Induction over types and correctness of their equality tests. *)
From Verif Require Export TyModel.

Section TyInd.
  Variable P : ty -> Prop.
  Let PL (l : list ty) := Forall P l.
  Let PR (r : list (ability * list ty) * option nat) := Forall (fun e => Forall P (snd e)) (fst r).
  Hypothesis HPrim : forall p, P (TPrim p).
  Hypothesis HBound : forall i, P (TBound i).
  Hypothesis HLocal : forall s i, P (TLocal s i).
  Hypothesis HUni : forall i, P (TUni i).
  Hypothesis HNamed : forall d n args, PL args -> P (TNamed d n args).
  Hypothesis HFunc : forall ps r e c, PL ps -> P r -> PR e -> P (TFunc ps r e c).
  Hypothesis HTuple : forall xs, PL xs -> P (TTuple xs).
  Hypothesis HApp : forall c xs, P c -> PL xs -> P (TApp c xs).
  Hypothesis HCont : forall a r e, P a -> P r -> PR e -> P (TCont a r e).
  Hypothesis HErr : P TError.

  Fixpoint ty_induct (t : ty) : P t :=
    let goL := (fix goL (l : list ty) : PL l :=
      match l with
      | [] => Forall_nil _
      | x :: l => Forall_cons x (ty_induct x) (goL l)
      end) in
    let goE := (fix goE (l : list (ability * list ty)) : Forall (fun e => Forall P (snd e)) l :=
      match l with
      | [] => Forall_nil _
      | (a, xs) :: l => Forall_cons (a, xs) (goL xs) (goE l)
      end) in
    match t return P t with
    | TPrim p => HPrim p
    | TBound i => HBound i
    | TLocal s i => HLocal s i
    | TUni i => HUni i
    | TNamed d n args => HNamed d n args (goL args)
    | TFunc ps r (es, tl) c => HFunc ps r (es, tl) c (goL ps) (ty_induct r) (goE es)
    | TTuple xs => HTuple xs (goL xs)
    | TApp c xs => HApp c xs (ty_induct c) (goL xs)
    | TCont a r (es, tl) => HCont a r (es, tl) (ty_induct a) (ty_induct r) (goE es)
    | TError => HErr
    end.
End TyInd.

Lemma prim_eqb_eq a b : prim_eqb a b = true <-> a = b.
Proof. destruct a, b; simpl; split; intros; congruence. Qed.

Lemma conv_eqb_eq a b : conv_eqb a b = true <-> a = b.
Proof. destruct a, b; simpl; split; intros; congruence. Qed.

Lemma origin_eqb_eq a b : origin_eqb a b = true <-> a = b.
Proof.
  destruct a, b; simpl; split; intros H; try congruence.
  - apply Nat.eqb_eq in H. congruence.
  - apply Nat.eqb_eq. congruence.
Qed.

Lemma tydef_eqb_eq a b : tydef_eqb a b = true <-> a = b.
Proof.
  destruct a as [o q], b as [o' q']. unfold tydef_eqb. simpl.
  rewrite andb_true_iff, origin_eqb_eq, String.eqb_eq. split.
  - intros [-> ->]. reflexivity.
  - intros H. inversion H. auto.
Qed.

Lemma ability_eqb_eq a b : ability_eqb a b = true <-> a = b.
Proof.
  destruct a as [o q], b as [o' q']. unfold ability_eqb. simpl.
  rewrite andb_true_iff, Bool.eqb_true_iff, String.eqb_eq. split.
  - intros [-> ->]. reflexivity.
  - intros H. inversion H. auto.
Qed.

Lemma opt_eqb_eq a b : opt_eqb a b = true <-> a = b.
Proof.
  destruct a, b; simpl; split; intros H; try congruence.
  - apply Nat.eqb_eq in H. congruence.
  - apply Nat.eqb_eq. congruence.
Qed.

Lemma all2_eq {A} (f : A -> A -> bool) xs : Forall (fun x => forall y, f x y = true <-> x = y) xs ->
  forall ys, all2 f xs ys = true <-> xs = ys.
Proof.
  induction 1 as [|x xs Hx _ IH]; intros [|y ys]; simpl; split; intros H; try congruence.
  - apply andb_true_iff in H as [H1 H2]. apply Hx in H1. apply IH in H2. congruence.
  - inversion H; subst. apply andb_true_iff. split; [apply Hx | apply IH]; reflexivity.
Qed.

Lemma effs_eq es : Forall (fun e : effect => Forall (fun x => forall y, ty_eqb x y = true <-> x = y) (snd e)) es ->
  forall es', all2 effect_eqb es es' = true <-> es = es'.
Proof.
  intros H. apply all2_eq. apply Forall_impl with (2 := H).
  intros [a xs] Hx [b ys]. simpl in Hx |- *.
  rewrite andb_true_iff, ability_eqb_eq, (all2_eq _ _ Hx). split.
  - intros [-> ->]. reflexivity.
  - intros E. inversion E. auto.
Qed.

Lemma ty_eqb_eq : forall a b, ty_eqb a b = true <-> a = b.
Proof.
  induction a as [p|i|s i|i|d n args IH|ps r e c IHp IHr IHe|xs IH|c xs IHc IH|a r e IHa IHr IHe|]
    using ty_induct; intros b; destruct b; simpl; try (split; intros; congruence).
  - rewrite prim_eqb_eq. split; intros; congruence.
  - rewrite Nat.eqb_eq. split; intros; congruence.
  - rewrite andb_true_iff, !Nat.eqb_eq. split; [intros [-> ->]; reflexivity | intros E; inversion E; auto].
  - rewrite Nat.eqb_eq. split; intros; congruence.
  - rewrite !andb_true_iff, tydef_eqb_eq, String.eqb_eq, (all2_eq _ _ IH).
    split; [intros [[-> ->] ->]; reflexivity | intros E; inversion E; auto].
  - destruct e as [es t], eff as [es' t'].
    match goal with |- context [all2 ?f es es'] => change (all2 f es es') with (all2 effect_eqb es es') end.
    rewrite !andb_true_iff, conv_eqb_eq, opt_eqb_eq, (effs_eq es IHe), IHr, (all2_eq _ _ IHp).
    split; [intros [[[-> ->] [-> ->]] ->]; reflexivity | intros E; inversion E; auto 10].
  - rewrite (all2_eq _ _ IH). split; intros; congruence.
  - rewrite andb_true_iff, (all2_eq _ _ IH), IHc.
    split; [intros [-> ->]; reflexivity | intros E; inversion E; auto].
  - destruct e as [es t], eff as [es' t'].
    match goal with |- context [all2 ?f es es'] => change (all2 f es es') with (all2 effect_eqb es es') end.
    rewrite !andb_true_iff, opt_eqb_eq, (effs_eq es IHe), IHr, IHa.
    split; [intros [[-> ->] [-> ->]]; reflexivity | intros E; inversion E; auto 10].
Qed.

Lemma effect_eqb_eq a b : effect_eqb a b = true <-> a = b.
Proof.
  destruct a as [x xs], b as [y ys]. simpl.
  rewrite andb_true_iff, ability_eqb_eq, all2_eq.
  - split; [intros [-> ->]; reflexivity | intros E; inversion E; auto].
  - apply Forall_forall. intros. apply ty_eqb_eq.
Qed.

Lemma row_eqb_eq a b : row_eqb a b = true <-> a = b.
Proof.
  destruct a as [x xs], b as [y ys]. simpl.
  rewrite andb_true_iff, opt_eqb_eq, all2_eq.
  - split; [intros [-> ->]; reflexivity | intros E; inversion E; auto].
  - apply Forall_forall. intros. apply effect_eqb_eq.
Qed.

Lemma ty_eqb_refl t : ty_eqb t t = true.
Proof. apply ty_eqb_eq. reflexivity. Qed.
Lemma ty_eqb_neq a b : ty_eqb a b = false <-> a <> b.
Proof. rewrite <- ty_eqb_eq. destruct (ty_eqb a b); split; congruence. Qed.

Lemma ty_eq_dec (a b : ty) : {a = b} + {a <> b}.
Proof. destruct (ty_eqb a b) eqn:E; [left; apply ty_eqb_eq | right; apply ty_eqb_neq]; exact E. Qed.
Lemma ability_eq_dec (a b : ability) : {a = b} + {a <> b}.
Proof.
  destruct (ability_eqb a b) eqn:E; [left; apply ability_eqb_eq; exact E|right].
  intros H. apply ability_eqb_eq in H. congruence.
Qed.
Lemma effect_eq_dec (a b : effect) : {a = b} + {a <> b}.
Proof.
  destruct (effect_eqb a b) eqn:E; [left; apply effect_eqb_eq; exact E|right].
  intros H. apply effect_eqb_eq in H. congruence.
Qed.
