(** Metadata of copies. *)
From Verif Require Export MonoRefs.
From Verif Require Import SubstProofs.
From Coq Require Import Lia.

Lemma nid_eqb_eq a b : nid_eqb a b = true <-> a = b.
Proof.
  destruct a as [a [v|]], b as [b [w|]]; unfold nid_eqb; cbn [fst snd]; rewrite andb_true_iff, !N.eqb_eq; split; intros H; try (destruct H; congruence); try (injection H; auto; fail); try discriminate.
Qed.
Lemma nid_eqb_refl a : nid_eqb a a = true. Proof. apply nid_eqb_eq; auto. Qed.
Lemma nid_eqb_neq a b : a <> b -> nid_eqb a b = false.
Proof. intros N. destruct (nid_eqb a b) eqn:E; auto. apply nid_eqb_eq in E. congruence. Qed.
Lemma lookup_put {A} (t : table A) i a j : lookup (put t i a) j = if nid_eqb i j then Some a else lookup t j.
Proof.
  induction t as [|[k b] t IH]; cbn; [destruct (nid_eqb i j); auto|]. destruct (nid_eqb k i) eqn:E; cbn.
  - apply nid_eqb_eq in E as ->. destruct (nid_eqb i j); auto.
  - destruct (nid_eqb k j) eqn:F; auto. apply nid_eqb_eq in F as ->. destruct (nid_eqb i j) eqn:G; auto. apply nid_eqb_eq in G as ->. rewrite nid_eqb_refl in E. discriminate.
Qed.
Lemma clone_lookup {A} (f : A -> A) v origins (t : table A) j :
  lookup (clone_table f v origins t) j =
  match find (fun i => nid_eqb (with_variant v i) j && match lookup t i with Some _ => true | None => false end) (rev origins) with
  | Some i => option_map f (lookup t i)
  | None => lookup t j
  end.
Proof.
  unfold clone_table.
  enough (Q : forall acc, lookup (fold_left (fun t' i => match lookup t i with Some a => put t' (with_variant v i) (f a) | None => t' end) origins acc) j =
    match find (fun i => nid_eqb (with_variant v i) j && match lookup t i with Some _ => true | None => false end) (rev origins) with
    | Some i => option_map f (lookup t i) | None => lookup acc j end) by apply Q.
  induction origins as [|i origins IH] using rev_ind; intros acc; [auto|]. rewrite fold_left_app, rev_app_distr. cbn [fold_left rev List.app find].
  destruct (lookup t i) as [a|] eqn:L; cbn [andb].
  - rewrite lookup_put. destruct (nid_eqb (with_variant v i) j) eqn:E; cbn [andb]; [rewrite L; auto|]. apply IH.
  - rewrite andb_false_r. apply IH.
Qed.
Section Tables.
  Variable variant : list ty -> N.
  Definition finished := list (list ty * list nid).
  Definition plain_ids (o : list nid) : Prop := forall i, In i o -> snd i = None.
  Definition apart_from (fin : finished) (args : list ty) (o : list nid) : Prop :=
    forall a p, In (a, p) fin -> variant a = variant args -> forall i, In i p -> ~ In i o.
  Record tinv {A} (sub : list ty -> A -> A) (t0 t : table A) (fin : finished) : Prop := {
    ti_source : forall b, lookup t (b, None) = lookup t0 (b, None);
    ti_copy : forall a o b, In (a, o) fin -> In (b, None) o -> lookup t (b, Some (variant a)) = option_map (sub a) (lookup t0 (b, None));
    ti_else : forall b v, (forall a o, In (a, o) fin -> variant a = v -> ~ In (b, None) o) -> lookup t (b, Some v) = None }.
  Lemma tinv_nil {A} (sub : list ty -> A -> A) (t : table A) : (forall b v, lookup t (b, Some v) = None) -> tinv sub t t [].
  Proof. intros H. split; auto. intros a o b []. Qed.
  Lemma tinv_step {A} (sub : list ty -> A -> A) (t0 t : table A) fin args o : tinv sub t0 t fin -> plain_ids o -> apart_from fin args o ->
    tinv sub t0 (clone_table (sub args) (variant args) o t) (fin ++ [(args, o)]).
  Proof.
    intros [S C E] P D. split.
    - intros b. rewrite clone_lookup. destruct (find _ (rev o)) as [i|] eqn:F; auto. apply find_some in F as [_ F]. apply andb_true_iff in F as [F _].
      apply nid_eqb_eq in F. discriminate.
    - intros a p b I J. rewrite clone_lookup. destruct (find _ (rev o)) as [i|] eqn:F.
      + apply find_some in F as [K F]. apply in_rev in K. apply andb_true_iff in F as [F _]. apply nid_eqb_eq in F. unfold with_variant in F. injection F as Fb Fv.
        assert (i = (b, None)) by (destruct i as [x y]; cbn in Fb; subst; f_equal; apply (P _ K)). subst i. rewrite S.
        apply in_app_iff in I as [I|[[= <- <-]|[]]]; auto. destruct (D a p I (eq_sym Fv) _ J K).
      + apply in_app_iff in I as [I|[I|[]]]; [eapply C; eauto|]. assert (a = args) by congruence. assert (p = o) by congruence. subst a p.
        assert (R : In (b, None) (rev o)) by (apply in_rev in J; auto). apply (find_none _ _ F) in R. unfold with_variant in R. cbn [fst] in R.
        rewrite nid_eqb_refl in R. cbn [andb] in R. rewrite E.
        * rewrite <- S. destruct (lookup t (b, None)); [discriminate|auto].
        * intros a q K V L. exact (D a q K V _ L J).
    - intros b v H. rewrite clone_lookup. destruct (find _ (rev o)) as [i|] eqn:F.
      + apply find_some in F as [K F]. apply in_rev in K. apply andb_true_iff in F as [F _]. apply nid_eqb_eq in F. unfold with_variant in F. injection F as Fb Fv.
        destruct (H args o); auto; [apply in_or_app; right; cbn; auto|]. destruct i as [x y]. cbn in Fb. subst x. pose proof (P _ K) as Y. cbn in Y. subst y. auto.
      + apply E. intros a p I. apply H, in_or_app. auto.
  Qed.
End Tables.

(** All tables. *)
Section Meta.
  Variable variant : list ty -> N.
  Lemma subst_in_range args t : in_range args t = true -> subst_type args t = fill_in args t.
  Proof. unfold in_range, subst_type. destruct (subst_bound_exact args t) as [[_ ->]|[i [_ [_ [-> | ->]]]]]; intros H; try discriminate. reflexivity. Qed.
  Definition all_in_range (m : meta) (args : list ty) (o : list nid) : Prop :=
    forallb (in_range args) (values o (node_types m) ++ values o (callees m)
      ++ flat_map (fun o => o_args o ++ o_params o ++ [o_result o]) (values o (handlers m) ++ values o (performs m)) ++ List.map fst (values o (lambdas m))) = true.
  Record minv (m0 m : meta) (fin : finished) : Prop := {
    mi_nodes : tinv variant subst_type (node_types m0) (node_types m) fin;
    mi_callees : tinv variant subst_type (callees m0) (callees m) fin;
    mi_handlers : tinv variant subst_op (handlers m0) (handlers m) fin;
    mi_performs : tinv variant subst_op (performs m0) (performs m) fin;
    mi_lambdas : tinv variant subst_lambda (lambdas m0) (lambdas m) fin;
    mi_cases : forall b v, In (b, v) (exhaustive m) <-> (v = None /\ In (b, None) (exhaustive m0)) \/
      exists a o, In (a, o) fin /\ v = Some (variant a) /\ In (b, None) o /\ In (b, None) (exhaustive m0);
    mi_range : forall a o, In (a, o) fin -> all_in_range m0 a o }.
  Lemma minv_nil m : (forall b v, lookup (node_types m) (b, Some v) = None /\ lookup (callees m) (b, Some v) = None /\ lookup (handlers m) (b, Some v) = None /\
    lookup (performs m) (b, Some v) = None /\ lookup (lambdas m) (b, Some v) = None /\ ~ In (b, Some v) (exhaustive m)) -> minv m m [].
  Proof.
    intros H. split; try (apply tinv_nil; intros; apply H).
    - intros b v. split.
      + intros I. left. destruct v; auto. destruct (H b n) as [_ [_ [_ [_ [_ N]]]]]. destruct (N I).
      + intros [[-> I]|[a [o [[] _]]]]; auto.
    - intros a o [].
  Qed.
  Lemma values_same {A} (o : list nid) (t t' : table A) : plain_ids o -> (forall b, lookup t (b, None) = lookup t' (b, None)) -> values o t = values o t'.
  Proof.
    intros P S. unfold values. apply flat_eq, Forall_forall. intros [b v] I. pose proof (P _ I) as E. cbn in E. subst v. rewrite S. auto.
  Qed.
  Lemma minv_step m0 m m' fin args o : minv m0 m fin -> plain_ids o -> apart_from variant fin args o ->
    specialize_metadata variant m args o = Some m' -> minv m0 m' (fin ++ [(args, o)]).
  Proof.
    intros [N C H P L E R] PL AP S. unfold specialize_metadata in S. destruct (forallb _ _) eqn:F in S; [|discriminate]. injection S as <-.
    split; cbn [node_types callees handlers performs lambdas exhaustive]; try (apply tinv_step; auto).
    - intros b v. rewrite in_app_iff, E, in_map_iff. split.
      + intros [[X|[a [p [I X]]]]|[[x y] [Q I]]]; auto.
        * right. exists a, p. split; auto. apply in_or_app; auto.
        * right. apply filter_In in I as [I K]. apply existsb_exists in K as [k [K Q']]. apply nid_eqb_eq in Q' as <-. pose proof (PL _ I) as Y. cbn in Y. subst y.
          unfold with_variant in Q. cbn [fst] in Q. injection Q as <- <-. apply E in K as [[_ K]|[a [p [_ [K _]]]]]; [|discriminate].
          exists args, o. split; [apply in_or_app; right; cbn; auto|auto].
      + intros [X|[a [p [I [-> [J K]]]]]]; auto. apply in_app_iff in I as [I|[I|[]]]; [left; right; exists a, p; auto|]. right. exists (b, None).
        assert (a = args /\ p = o) as [-> ->] by (split; congruence). split; auto. apply filter_In. split; auto. apply existsb_exists. exists (b, None). split; [|apply nid_eqb_refl].
        apply E. auto.
    - intros a p I. apply in_app_iff in I as [I|[I|[]]]; auto. assert (a = args /\ p = o) as [-> ->] by (split; congruence). unfold all_in_range. rewrite <- F.
      destruct N as [N1 _ _], C as [C1 _ _], H as [H1 _ _], P as [P1 _ _], L as [L1 _ _].
      rewrite !(values_same o _ _ PL N1), !(values_same o _ _ PL C1), !(values_same o _ _ PL H1), !(values_same o _ _ PL P1), !(values_same o _ _ PL L1). auto.
  Qed.
  (** The copy of an entry. *)
  Lemma in_values {A} (t : table A) o i a : In i o -> lookup t i = Some a -> In a (values o t).
  Proof. intros I L. unfold values. apply in_flat_map. exists i. rewrite L. cbn; auto. Qed.
  Lemma copied_entries m0 m fin a o b : minv m0 m fin -> In (a, o) fin -> In (b, None) o ->
    lookup (node_types m) (b, Some (variant a)) = option_map (fill_in a) (lookup (node_types m0) (b, None)) /\
    lookup (callees m) (b, Some (variant a)) = option_map (fill_in a) (lookup (callees m0) (b, None)) /\
    lookup (handlers m) (b, Some (variant a)) = option_map (op_at a) (lookup (handlers m0) (b, None)) /\
    lookup (performs m) (b, Some (variant a)) = option_map (op_at a) (lookup (performs m0) (b, None)) /\
    lookup (lambdas m) (b, Some (variant a)) = option_map (lambda_at a) (lookup (lambdas m0) (b, None)) /\
    (In (b, Some (variant a)) (exhaustive m) <-> In (b, None) (exhaustive m0)).
  Proof.
    intros M I J. pose proof (mi_range _ _ _ M _ _ I) as R. unfold all_in_range in R. rewrite !forallb_app, !andb_true_iff in R. destruct R as [R1 [R2 [R3 R5]]].
    rewrite flat_map_app, forallb_app, andb_true_iff in R3. destruct R3 as [R3 R4].
    assert (OP : forall (t : table opmeta), forallb (in_range a) (flat_map (fun o => o_args o ++ o_params o ++ [o_result o]) (values o t)) = true ->
      option_map (subst_op a) (lookup t (b, None)) = option_map (op_at a) (lookup t (b, None))).
    { intros t F. destruct (lookup t (b, None)) as [x|] eqn:L; auto. cbn. f_equal. apply (in_values t o _ _ J) in L.
      assert (G : forall u, In u (o_args x ++ o_params x ++ [o_result x]) -> subst_type a u = fill_in a u).
      { intros u U. apply subst_in_range. rewrite forallb_forall in F. apply F, in_flat_map. eauto. }
      unfold subst_op, op_at. f_equal; [apply map_ext_in|apply map_ext_in|]; intros; apply G; rewrite !in_app_iff; cbn; auto. }
    assert (TY : forall (t : table ty), forallb (in_range a) (values o t) = true -> option_map (subst_type a) (lookup t (b, None)) = option_map (fill_in a) (lookup t (b, None))).
    { intros t F. destruct (lookup t (b, None)) as [x|] eqn:L; auto. cbn. f_equal. apply subst_in_range. rewrite forallb_forall in F. apply F. eapply in_values; eauto. }
    repeat match goal with |- _ /\ _ => split end.
    - rewrite (ti_copy _ _ _ _ _ (mi_nodes _ _ _ M) a o b I J). auto.
    - rewrite (ti_copy _ _ _ _ _ (mi_callees _ _ _ M) a o b I J). auto.
    - rewrite (ti_copy _ _ _ _ _ (mi_handlers _ _ _ M) a o b I J). auto.
    - rewrite (ti_copy _ _ _ _ _ (mi_performs _ _ _ M) a o b I J). auto.
    - rewrite (ti_copy _ _ _ _ _ (mi_lambdas _ _ _ M) a o b I J). destruct (lookup (lambdas m0) (b, None)) as [[x k]|] eqn:L; auto. cbn. f_equal.
      unfold subst_lambda, lambda_at. f_equal. cbn [fst]. apply subst_in_range. rewrite forallb_forall in R5. apply R5, in_map_iff. exists (x, k). split; auto. eapply in_values; eauto.
    - rewrite (mi_cases _ _ _ M). split.
      + intros [[X _]|[a' [o' [_ [_ [_ X]]]]]]; [discriminate|auto].
      + intros X. right. exists a, o. auto.
  Qed.
End Meta.
