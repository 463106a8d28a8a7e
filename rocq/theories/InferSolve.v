(** What an answer of the solver means for the equations it was given. *)
From Verif Require Import TyProofs UnifyMono UnifySpec UnifyComplete UnifyFuel SubstProofs InferRun.

Lemma map_all {A B} (f g : A -> B) l : Forall (fun x => f x = g x) l -> List.map f l = List.map g l.
Proof. induction 1; cbn; congruence. Qed.

Lemma mean_fill th be f t : mean th be (fill f t) = mean (fun v => mean th be (f v)) be t.
Proof.
  induction t as [p|i|s i|v|d n args IH|ps r e c IHps IHr IHe|xs IH|c xs IHc IH|a r e IHa IHr IHe|] using ty_induct;
    cbn [fill mean]; try reflexivity; rewrite ?map_map; f_equal; auto; apply map_all; assumption.
Qed.
Lemma mean_plug th be f t : mean th be (plug f t) = mean th (fun i => mean th be (f i)) t.
Proof.
  induction t as [p|i|s i|v|d n args IH|ps r e c IHps IHr IHe|xs IH|c xs IHc IH|a r e IHa IHr IHe|] using ty_induct;
    cbn [plug mean]; try reflexivity; rewrite ?map_map; f_equal; auto; apply map_all; assumption.
Qed.
Lemma mean_strip th be t : mean th be (strip t) = mean th be t.
Proof.
  induction t as [p|i|s i|v|d n args IH|ps r e c IHps IHr IHe|xs IH|c xs IHc IH|a r e IHa IHr IHe|] using ty_induct;
    cbn [strip mean]; try reflexivity; rewrite ?map_map; f_equal; auto; apply map_all; assumption.
Qed.

Lemma fo_bounds t : first_order t -> bounds t = [].
Proof.
  assert (A : forall l, Forall (fun t => first_order t -> bounds t = []) l -> Forall first_order l -> flat_map bounds l = []).
  { induction 1 as [|x l H F IH]; intros G; [reflexivity|]. inversion G; subst. cbn. rewrite H, IH; auto. }
  induction t as [p|i|s i|v|d n args IH|ps r e c IHps IHr IHe|xs IH|c xs IHc IH|a r e IHa IHr IHe|] using ty_induct;
    intros F; try reflexivity; try (destruct F; fail); cbn in F.
  - apply (A _ IH). apply first_order_all, F.
  - destruct F as [F1 [F2 ->]]. change (flat_map bounds ps ++ bounds r ++ [] = []). rewrite (A _ IHps), IHr; auto. apply first_order_all, F1.
  - apply (A _ IH). apply first_order_all, F.
  - destruct F as [F1 F2]. change (bounds c ++ flat_map bounds xs = []). rewrite (A _ IH), IHc; auto. apply first_order_all, F2.
  - destruct F as [F1 [F2 ->]]. change (bounds a ++ bounds r ++ [] = []). rewrite IHa, IHr; auto.
Qed.

Lemma mean_bound_free th be be' t : first_order t -> mean th be t = mean th be' t.
Proof. intros F. apply mean_ext; [reflexivity|]. rewrite (fo_bounds t F). intros i []. Qed.

(** Semantic types as types. *)
Fixpoint emb (t : styp) : ty :=
  match t with
  | SPrim p => TPrim p
  | SData d xs => TNamed d EmptyString (List.map emb xs)
  | SFun ps r => TFunc (List.map emb ps) (emb r) pure_row Direct
  | STuple xs => TTuple (List.map emb xs)
  | SApp c xs => TApp (emb c) (List.map emb xs)
  | SCont a r => TCont (emb a) (emb r) pure_row
  | SRigid n => TBound n
  end.

Section StypInd.
  Variable P : styp -> Prop.
  Hypothesis HP : forall p, P (SPrim p).
  Hypothesis HD : forall d xs, Forall P xs -> P (SData d xs).
  Hypothesis HF : forall ps r, Forall P ps -> P r -> P (SFun ps r).
  Hypothesis HT : forall xs, Forall P xs -> P (STuple xs).
  Hypothesis HA : forall c xs, P c -> Forall P xs -> P (SApp c xs).
  Hypothesis HC : forall a r, P a -> P r -> P (SCont a r).
  Hypothesis HR : forall n, P (SRigid n).
  Fixpoint styp_ind' (t : styp) : P t :=
    let all := fix all (l : list styp) : Forall P l :=
      match l with [] => Forall_nil _ | x :: l => Forall_cons x (styp_ind' x) (all l) end in
    match t with
    | SPrim p => HP p
    | SData d xs => HD d xs (all xs)
    | SFun ps r => HF ps r (all ps) (styp_ind' r)
    | STuple xs => HT xs (all xs)
    | SApp c xs => HA c xs (styp_ind' c) (all xs)
    | SCont a r => HC a r (styp_ind' a) (styp_ind' r)
    | SRigid n => HR n
    end.
End StypInd.

Lemma map_inj_all {A B} (f : A -> B) l : Forall (fun x => forall y, f x = f y -> x = y) l -> forall l', List.map f l = List.map f l' -> l = l'.
Proof.
  induction 1 as [|x l H F IH]; intros [|y l'] E; cbn in E; try discriminate; [reflexivity|].
  injection E as E1 E2. f_equal; auto.
Qed.
Lemma emb_inj s : forall t, emb s = emb t -> s = t.
Proof.
  induction s as [p|d xs IH|ps r IHp IHr|xs IH|c xs IHc IH|a r IHa IHr|n] using styp_ind'; intros [] E; cbn in E; try discriminate.
  - congruence.
  - injection E as -> E. f_equal. apply (map_inj_all emb _ IH _ E).
  - injection E as E1 E2. f_equal; [apply (map_inj_all emb _ IHp _ E1) | apply IHr, E2].
  - injection E as E. f_equal. apply (map_inj_all emb _ IH _ E).
  - injection E as E1 E. f_equal; [apply IHc, E1 | apply (map_inj_all emb _ IH _ E)].
  - injection E as E1 E2. f_equal; [apply IHa, E1 | apply IHr, E2].
  - congruence.
Qed.
Lemma strip_emb s : strip (emb s) = emb s.
Proof.
  induction s as [p|d xs IH|ps r IHp IHr|xs IH|c xs IHc IH|a r IHa IHr|n] using styp_ind'; cbn; try reflexivity;
    rewrite ?map_map; f_equal; auto; apply map_all; assumption.
Qed.
Lemma strip_fill_emb th t : first_order t -> strip (fill (fun v => emb (th v)) t) = emb (mean th none t).
Proof.
  assert (A : forall l, Forall (fun t => first_order t -> strip (fill (fun v => emb (th v)) t) = emb (mean th none t)) l -> Forall first_order l ->
    List.map strip (List.map (fill (fun v => emb (th v))) l) = List.map emb (List.map (mean th none) l)).
  { induction 1 as [|x l H F IH]; intros G; [reflexivity|]. inversion G; subst. cbn. rewrite H, IH; auto. }
  induction t as [p|i|s i|v|d n args IH|ps r e c IHps IHr IHe|xs IH|c xs IHc IH|a r e IHa IHr IHe|] using ty_induct;
    intros F; try (destruct F; fail).
  - reflexivity.
  - cbn. apply strip_emb.
  - cbn [fill strip mean emb]. f_equal. apply (A _ IH), first_order_all, F.
  - destruct F as [F1 [F2 ->]]. cbn [fill strip mean emb]. f_equal; [apply (A _ IHps), first_order_all, F1 | apply IHr, F2].
  - cbn [fill strip mean emb]. f_equal. apply (A _ IH), first_order_all, F.
  - destruct F as [F1 F2]. cbn [fill strip mean emb]. f_equal; [apply IHc, F1 | apply (A _ IH), first_order_all, F2].
  - destruct F as [F1 [F2 ->]]. cbn [fill strip mean emb]. f_equal; [apply IHa, F1 | apply IHr, F2].
Qed.

Lemma tapply_first_order ts : (forall v t, tget ts v = Some t -> first_order t) ->
  forall n t r, first_order t -> tapply n ts [] t = Some r -> first_order r.
Proof.
  intros B. induction n as [|n IH]; intros t r F E; [discriminate|].
  assert (A : forall l l', Forall first_order l -> otraverse (tapply n ts []) l = Some l' -> Forall first_order l').
  { intros l l' G K. apply otraverse_some in K. induction K; [constructor|]. inversion G; subst. constructor; eauto. }
  destruct t as [p|i|s i|v|d m args|ps q e c|xs|c xs|a q e|]; cbn [tapply] in E; try (destruct F; fail).
  - injection E as <-. exact F.
  - destruct (tget ts v) eqn:G; [|injection E as <-; exact I]. eapply IH; [|exact E]. eapply B, G.
  - apply obind_some in E as [l [E1 E2]]. injection E2 as <-. cbn in F |- *. apply first_order_all. apply first_order_all in F. eauto.
  - cbn in F. destruct F as [F1 [F2 ->]]. apply obind_some in E as [l [E1 E]]. apply obind_some in E as [q' [E2 E]].
    apply obind_some in E as [e' [E3 E]]. injection E as <-. cbn in E3. injection E3 as <-. cbn. rewrite first_order_all. apply first_order_all in F1.
    repeat split; eauto.
  - apply obind_some in E as [l [E1 E2]]. injection E2 as <-. cbn in F |- *. apply first_order_all. apply first_order_all in F. eauto.
  - cbn in F. destruct F as [F1 F2]. apply first_order_all in F2.
    apply obind_some in E as [c' [E1 E]]. apply obind_some in E as [l [E2 E]]. injection E as <-. cbn. rewrite first_order_all. split; eauto.
  - cbn in F. destruct F as [F1 [F2 ->]]. apply obind_some in E as [a' [E1 E]]. apply obind_some in E as [q' [E2 E]].
    apply obind_some in E as [e' [E3 E]]. injection E as <-. cbn in E3. injection E3 as <-. cbn. repeat split; eauto.
Qed.

(** * Equations *)
Definition sat (th : nat -> styp) (cs : list (ty * ty)) : Prop :=
  forall a b, In (a, b) cs -> mean th none a = mean th none b.
Definition fo_pairs (cs : list (ty * ty)) : Prop := forall a b, In (a, b) cs -> first_order a /\ first_order b.

(** What the proofs need of an answer. *)
Record answers (f : nat -> ty) (cs : list (ty * ty)) : Prop := {
  an_solves : forall th, sat (fun v => mean th none (f v)) cs;
  an_general : forall th, sat th cs -> forall v, th v = mean th none (f v);
  an_first : forall v, first_order (f v) }.

Lemma fold_and_map {A} (P : constr -> Prop) (g : A -> constr) l :
  fold_right (fun c Q => P c /\ Q) True (List.map g l) <-> forall a, In a l -> P (g a).
Proof.
  induction l as [|x l IH]; cbn; [tauto|]. rewrite IH. split; [intros [H K] a [<-|Ha]; auto | intros H; split; auto].
Qed.

Lemma tget_in ts v t : tget ts v = Some t -> In (v, t) ts.
Proof.
  unfold tget. induction ts as [|[w u] ts IH]; cbn; [discriminate|]. match goal with |- context [Nat.eqb ?a ?b] => destruct (Nat.eqb_spec a b) as [Q|] end.
  - intros [= ->]. left. congruence.
  - intros H. right. apply IH, H.
Qed.

Lemma solver_answers fuel cs f : fo_pairs cs -> solve_with fuel cs = Some f -> answers f cs.
Proof.
  intros F E. unfold solve_with in E. set (cs' := List.map (fun c => CType (fst c) (snd c)) cs) in *.
  assert (F' : first_order_constr (CAnd cs')).
  { apply fold_and_map. intros [a b] H. cbn. apply F, H. }
  assert (A : acyclic (u_ts new_solver)) by (apply acyclic_vars; exists TUni, 1; reflexivity).
  destruct (solve_first_order_ok new_solver cs' A ltac:(discriminate) F') as [o [st' [N (R & B & C & D & RS & K)]]].
  destruct (solve (S fuel) cs' new_solver) as [[[]|e|] st] eqn:Es; try discriminate.
  pose proof (solve_more (S fuel) (Nat.max N (S fuel)) cs' (Nat.le_max_r _ _) new_solver) as Mo.
  rewrite Es in Mo. specialize (Mo ltac:(discriminate)). rewrite R in Mo by apply Nat.le_max_l. injection Mo as -> ->. clear Es.
  destruct (forallb _ _) eqn:Ef; [|discriminate]. rewrite forallb_forall in Ef. injection E as <-. rewrite RS in *.
  change (u_rs new_solver) with (@nil (nat * row)) in *.
  assert (T : forall v, exists r, tapply (S fuel) (u_ts st) [] (TUni v) = Some r).
  { intros v. destruct (tget (u_ts st) v) as [t|] eqn:G.
    - specialize (Ef (v, t) (tget_in _ _ _ G)). cbv beta in Ef. cbn [fst] in Ef.
      destruct (tapply (S fuel) (u_ts st) [] (TUni v)); [eauto | discriminate].
    - exists (TUni v). cbn [tapply]. rewrite G. reflexivity. }
  set (f := fun v => match tapply (S fuel) (u_ts st) [] (TUni v) with Some t => t | None => TError end).
  assert (Tf : forall v, tapply (S fuel) (u_ts st) [] (TUni v) = Some (f v)).
  { intros v. unfold f. destruct (T v) as [r ->]. reflexivity. }
  assert (FO : forall v, first_order (f v)).
  { intros v. apply (tapply_first_order _ D (S fuel) (TUni v)); [exact I | apply Tf]. }
  destruct (resolved_solves _ C) as [f0 [M [E0 Sf]]].
  assert (Ff : forall v, f v = f0 v).
  { intros v. pose proof (tapply_mono (u_ts st) [] (S fuel) (Nat.max M (S fuel)) (TUni v) (Nat.le_max_r _ _) _ (Tf v)) as X.
    rewrite E0 in X by apply Nat.le_max_l. congruence. }
  constructor.
  - intros th a b H. change (mean (fun v => mean th none (f v)) none a = mean (fun v => mean th none (f v)) none b).
    rewrite <- (mean_fill th none f a), <- (mean_fill th none f b).
    assert (Z : forall g, solves_bindings g (u_ts new_solver)) by (intros g v t X; discriminate).
    destruct (proj1 (K f0) (conj eq_refl Sf)) as [_ S0].
    assert (S1 := proj1 (fold_and_map (satisfies f0) (fun c : ty * ty => CType (fst c) (snd c)) cs) S0 (a, b) H). cbn in S1.
    unfold unifies, same_type in S1.
    rewrite <- (mean_strip th none (fill f a)), <- (mean_strip th none (fill f b)).
    assert (X : forall t, fill f t = fill f0 t).
    { intros t. clear -Ff. induction t as [p|i|s i|v|d n args IH|ps r e c IHps IHr IHe|xs IH|c xs IHc IH|a r e IHa IHr IHe|] using ty_induct;
        cbn [fill]; try reflexivity; auto; f_equal; auto; try (apply map_all; assumption); f_equal; apply map_all;
        revert IHe; apply Forall_impl; intros [? ?] Q; f_equal; apply map_all; exact Q. }
    rewrite !X. congruence.
  - intros th Hs v. pose (g := fun v => emb (th v)).
    assert (Sg : satisfies g (CAnd cs')).
    { apply fold_and_map. intros [a b] H. cbn. unfold unifies, same_type, g. destruct (F _ _ H). rewrite !strip_fill_emb by assumption.
      f_equal. apply Hs, H. }
    assert (Z : solves_bindings g (u_ts new_solver)) by (intros w t X; discriminate).
    destruct (proj2 (K g) (conj Z Sg)) as [_ Sb].
    pose proof (tapply_same (fun _ => True) (u_ts st) (fun v t H => fo_first_order _ t (D v t H) (fun _ _ => I)) g Sb (S fuel) (TUni v) (f v) (Tf v) I) as Q.
    unfold unifies, same_type in Q. cbn [fill] in Q. unfold g in Q. rewrite strip_emb in Q. rewrite strip_fill_emb in Q by apply FO.
    apply emb_inj in Q. exact Q.
  - exact FO.
Qed.
