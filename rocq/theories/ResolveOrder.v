(** Proofs for C57: the result does not depend on the order in which hash maps are traversed. *)
From Verif Require Export ResolveEnvMain ResolveReport.
From Coq Require Import Lia.
Open Scope list_scope.

(** ** Environments that answer alike *)
Record alike_env (e e' : env) : Prop := {
  al_defs : forall n, at_key (definitions e) n = at_key (definitions e') n;
  al_imports : forall n, at_key (imports e) n = at_key (imports e') n;
  al_uses : forall n, at_key (use_paths e) n = at_key (use_paths e') n;
  al_names : forall ns n, lookup_qualified e ns n = lookup_qualified e' ns n }.
Definition present (e : env) (ns : string) : Prop := at_key (namespaces e) ns <> None.
Definition twin (e e' : env) : Prop := alike_env e e' /\ forall ns, present e ns <-> present e' ns.
Lemma twin_refl e : twin e e.
Proof. split; [constructor; reflexivity|reflexivity]. Qed.
Lemma pres_set e ns m ns' : present {| definitions := definitions e; imports := imports e; namespaces := insert (namespaces e) ns m; use_paths := use_paths e |} ns' <-> ns = ns' \/ present e ns'.
Proof.
  unfold present. cbn. rewrite at_insert. destruct (String.eqb_spec ns ns'); [|tauto]. split; [auto|discriminate].
Qed.
Lemma twin_define e e' n b : twin e e' -> twin (define e n b) (define e' n b).
Proof. intros [[A B C D] P]. split; [|exact P]. constructor; [|exact B|exact C|exact D]. intros k. rewrite !def_define, A. reflexivity. Qed.
Lemma twin_add e e' ns n b : twin e e' -> twin (add_to_namespace e ns n b) (add_to_namespace e' ns n b).
Proof.
  intros [[A B C D] P]. split; [constructor; [exact A|exact B|exact C|]|].
  - intros k j. rewrite !lq_add, !D. reflexivity.
  - intros k. unfold add_to_namespace. rewrite !pres_set, P. reflexivity.
Qed.
Lemma twin_absent e e' ns n b : twin e e' -> twin (add_to_namespace_if_absent e ns n b) (add_to_namespace_if_absent e' ns n b).
Proof.
  intros [[A B C D] P]. split; [constructor; [exact A|exact B|exact C|]|].
  - intros k j. rewrite !lq_absent, !D. reflexivity.
  - intros k. unfold add_to_namespace_if_absent. rewrite !pres_set, P. reflexivity.
Qed.
Lemma twin_import e e' n b : twin e e' -> twin (add_import e n b) (add_import e' n b).
Proof. intros [[A B C D] P]. split; [|exact P]. constructor; [exact A| |exact C|exact D]. intros k. cbn. rewrite !at_insert, B. reflexivity. Qed.
Lemma twin_import_absent e e' n b : twin e e' -> twin (add_import_if_absent e n b) (add_import_if_absent e' n b).
Proof.
  intros T. pose proof T as [[A B C D] P]. unfold add_import_if_absent. rewrite <- A, <- B. destruct (at_key (definitions e) n); [exact T|]. destruct (at_key (imports e) n); [exact T|]. apply twin_import. exact T.
Qed.
Lemma twin_fold {A} (f f' : env -> A -> env) l : (forall e e' x, In x l -> twin e e' -> twin (f e x) (f' e' x)) -> forall e e', twin e e' -> twin (fold_left f l e) (fold_left f' l e').
Proof. induction l as [|x l IH]; intros H e e' T; [exact T|]. cbn. apply IH; [|apply H; [left; reflexivity|exact T]]. intros. apply H; [right; assumption|assumption]. Qed.

Section Two.
  Variables s1 s2 : forall A, map_of A -> map_of A.
  Hypotheses (O1 : any_order s1) (O2 : any_order s2).
  Lemma at_some_in {A} (m : map_of A) : m <> [] <-> exists n, at_key m n <> None.
  Proof.
    split.
    - destruct m as [|[k v] m]; [congruence|]. intros _. exists k. cbn. rewrite String.eqb_refl. discriminate.
    - intros [n H] ->. apply H. reflexivity.
  Qed.
  Lemma shuffle_nonempty {A} sh (m : map_of A) : any_order sh -> sh A m <> [] <-> m <> [].
  Proof. intros O. split; intros H E; apply H; [subst m; apply Permutation_nil; exact (O _ [])|]. apply Permutation_nil. apply Permutation_sym. rewrite <- E. exact (O _ m). Qed.
  Lemma members_pres sh ns e m ns' : any_order sh -> present (add_members sh ns e m) ns' <-> (ns = ns' /\ m <> []) \/ present e ns'.
  Proof.
    intros O. unfold add_members. rewrite <- (shuffle_nonempty sh m O). generalize (sh _ m) as l. intros l. revert e. induction l as [|d l IH]; intros e; cbn.
    - split; [auto|]. intros [[_ H]|H]; [congruence|exact H].
    - rewrite IH. unfold add_to_namespace. rewrite pres_set. split; [|intuition discriminate]. intros [[-> H]|[->|H]]; auto; left; split; auto; discriminate.
  Qed.
  Lemma members_rest sh ns e m : imports (add_members sh ns e m) = imports e /\ use_paths (add_members sh ns e m) = use_paths e.
  Proof. unfold add_members. generalize (sh _ m) as l. intros l. revert e. induction l as [|d l IH]; intros e; [auto|]. cbn. destruct (IH (add_to_namespace e ns (fst d) (snd d))) as [A B]. rewrite A, B. auto. Qed.
  Lemma nested_rest sh name e L : imports (nested sh name e L) = imports e /\ use_paths (nested sh name e L) = use_paths e.
  Proof.
    unfold nested. revert e. induction L as [|[k m] L IH]; intros e; [auto|]. cbn [fold_left]. destruct (IH (add_nested sh name e (k, m))) as [A B]. rewrite A, B.
    unfold add_nested. cbn. apply members_rest.
  Qed.
  Lemma nested_pres sh name L ns : any_order sh -> forall e,
    present (nested sh name e L) ns <-> (ns = name /\ L <> []) \/ (exists k m, In (k, m) L /\ m <> [] /\ ns = (name ++ "::" ++ k)%string) \/ present e ns.
  Proof.
    intros O. unfold nested. induction L as [|[k m] L IH]; intros e; cbn [fold_left].
    - split; [auto|]. intros [[_ H]|[(k & m & [] & _)|H]]; [congruence|exact H].
    - rewrite IH. unfold add_nested. cbn [fst snd]. unfold add_to_namespace_if_absent. rewrite pres_set, (members_pres _ _ _ _ _ O). split.
      + intros [[-> H]|[(j & x & I & H & ->)|[<-|[[<- H]|H]]]].
        * left. split; [reflexivity|discriminate].
        * right. left. exists j, x. split; [right; exact I|]. auto.
        * left. split; [reflexivity|discriminate].
        * right. left. exists k, m. split; [left; reflexivity|]. auto.
        * auto.
      + intros [[E1 E2]|[(j & x & [[= <- <-]|I] & E1 & E2)|E1]]; try subst ns.
        * auto.
        * right. right. right. left. auto.
        * right. left. exists j, x. auto.
        * auto.
  Qed.
  Lemma at_filled (e : env) ns : env_ok e -> (exists m, In (ns, m) (namespaces e) /\ m <> []) <-> exists n, lookup_qualified e ns n <> None.
  Proof.
    intros OK. unfold lookup_qualified. split.
    - intros (m & I & H). apply (at_in _ _ _ (nss_ok _ OK)) in I. rewrite I. apply at_some_in. exact H.
    - intros (n & H). destruct (at_key (namespaces e) ns) as [m|] eqn:E; [|congruence]. exists m. apply (at_in _ _ _ (nss_ok _ OK)) in E. split; [exact E|]. apply at_some_in. eauto.
  Qed.
  Lemma any_present (e : env) : namespaces e <> [] <-> exists ns, present e ns.
  Proof. apply at_some_in. Qed.

  Context {R : Type}.
  Definition collects_alike (d : decl R) : Prop := forall prefix e e', twin e e' -> twin (collect_definition s1 prefix e d) (collect_definition s2 prefix e' d).
  Lemma module_alike name body : Forall collects_alike body -> collects_alike (DModule name (Some body)).
  Proof.
    intros H prefix e e' T. cbn [collect_definition]. apply twin_import.
    set (i := fold_left (collect_definition s1 (fst (push_prefix prefix name))) body empty_env). set (i' := fold_left (collect_definition s2 (fst (push_prefix prefix name))) body empty_env).
    assert (TI : twin i i').
    { apply twin_fold; [|apply twin_refl]. intros x x' d I X. rewrite Forall_forall in H. apply H; assumption. }
    assert (K : env_ok i) by (apply fold_keeps; [intros; apply collect_ok; assumption|exact empty_ok]).
    assert (K' : env_ok i') by (apply fold_keeps; [intros; apply collect_ok; assumption|exact empty_ok]).
    clearbody i i'. change (fold_left (add_nested ?s name) ?l ?e) with (nested s name e l).
    set (a := add_members s1 name e (definitions i)). set (a' := add_members s2 name e' (definitions i')).
    destruct TI as [[TD _ _ TN] TP]. destruct T as [[D I U N] P].
    assert (TA : forall ns n, lookup_qualified a ns n = lookup_qualified a' ns n).
    { intros ns n. unfold a, a'. rewrite (members_lq s1 O1 _ _ _ _ _ (defs_ok _ K)), (members_lq s2 O2 _ _ _ _ _ (defs_ok _ K')), TD, N. reflexivity. }
    assert (DE : definitions i <> [] <-> definitions i' <> []). { rewrite !at_some_in. split; intros [n X]; exists n; [rewrite <- TD|rewrite TD]; exact X. }
    set (L := s1 _ (namespaces i)). set (L' := s2 _ (namespaces i')).
    assert (KL : forall k m, In (k, m) L -> keys_distinct m).
    { intros k m X. eapply (ns_ok _ K). eapply Permutation_in; [apply Permutation_sym; exact (O1 _ (namespaces i))|exact X]. }
    assert (KL' : forall k m, In (k, m) L' -> keys_distinct m).
    { intros k m X. eapply (ns_ok _ K'). eapply Permutation_in; [apply Permutation_sym; exact (O2 _ (namespaces i'))|exact X]. }
    assert (LD : keys_distinct L) by (apply shuffled; [exact O1|apply K]). assert (LD' : keys_distinct L') by (apply shuffled; [exact O2|apply K']).
    assert (LA : forall k, at_key L k = at_key (namespaces i) k) by (intros k; apply at_shuffled; [exact O1|apply K]).
    assert (LA' : forall k, at_key L' k = at_key (namespaces i') k) by (intros k; apply at_shuffled; [exact O2|apply K']).
    assert (LP : forall k, at_key L k <> None <-> at_key L' k <> None). { intros k. rewrite LA, LA'. apply TP. }
    assert (LV : forall k m m' n, at_key L k = Some m -> at_key L' k = Some m' -> at_key m n = at_key m' n).
    { intros k m m' n A A'. specialize (TN k n). unfold lookup_qualified in TN. rewrite <- LA, <- LA', A, A' in TN. exact TN. }
    split; [constructor|].
    - intros n. rewrite !nested_defs. unfold a, a'. rewrite !members_defs. apply D.
    - intros n. destruct (nested_rest s1 name a L) as [-> _], (nested_rest s2 name a' L') as [-> _]. unfold a, a'.
      destruct (members_rest s1 name e (definitions i)) as [-> _], (members_rest s2 name e' (definitions i')) as [-> _]. apply I.
    - intros n. destruct (nested_rest s1 name a L) as [_ ->], (nested_rest s2 name a' L') as [_ ->]. unfold a, a'.
      destruct (members_rest s1 name e (definitions i)) as [_ ->], (members_rest s2 name e' (definitions i')) as [_ ->]. apply U.
    - intros ns n. destruct (string_dec ns name) as [->|N1].
      { rewrite (nested_own s1 O1 name L a n KL), (nested_own s2 O2 name L' a' n KL'), TA. destruct (lookup_qualified a' name n); [reflexivity|].
        specialize (LP n). destruct (at_key L n), (at_key L' n); try reflexivity; exfalso; [apply (proj1 LP); congruence|apply (proj2 LP); congruence]. }
      destruct (Exists_dec (fun k => ns = (name ++ "::" ++ k)%string) (map fst L) (fun k => string_dec _ _)) as [X|X].
      + apply Exists_exists in X. destruct X as (k & J & ->). destruct (at_key L k) as [m|] eqn:A; [|apply at_none in A; contradiction].
        destruct (at_key L' k) as [m'|] eqn:A'; [|exfalso; apply (proj1 (LP k)); congruence].
        rewrite (nested_in s1 O1 name L a k m n KL LD A), (nested_in s2 O2 name L' a' k m' n KL' LD' A'), (LV k m m' n A A'), TA. reflexivity.
      + assert (X1 : forall k, In k (map fst L) -> ns <> (name ++ "::" ++ k)%string). { intros k J E. apply X. apply Exists_exists. eauto. }
        assert (X2 : forall k, In k (map fst L') -> ns <> (name ++ "::" ++ k)%string).
        { intros k J. apply X1. destruct (in_dec string_dec k (map fst L)) as [Y|Y]; [exact Y|]. apply at_none in Y. exfalso. apply (proj2 (LP k)); [|exact Y]. intros Z. apply at_none in Z. contradiction. }
        rewrite (nested_other s1 O1 name L a ns n KL N1 X1), (nested_other s2 O2 name L' a' ns n KL' N1 X2). apply TA.
    - intros ns. rewrite (nested_pres s1 name L ns O1), (nested_pres s2 name L' ns O2).
      assert (Q1 : L <> [] <-> L' <> []).
      { rewrite !at_some_in. split; intros [k Z]; exists k; apply LP; exact Z. }
      assert (Q2 : present a ns <-> present a' ns). { unfold a, a'. rewrite (members_pres _ _ _ _ _ O1), (members_pres _ _ _ _ _ O2), DE, P. reflexivity. }
      assert (Q3 : (exists k m, In (k, m) L /\ m <> [] /\ ns = (name ++ "::" ++ k)%string) <-> (exists k m, In (k, m) L' /\ m <> [] /\ ns = (name ++ "::" ++ k)%string)).
      { split; intros (k & m & J & M & ->).
        - apply (at_in L k m LD) in J. destruct (at_key L' k) as [m'|] eqn:A'; [|exfalso; apply (proj1 (LP k)); congruence]. exists k, m'.
          split; [apply at_in; assumption|]. split; [|reflexivity]. apply at_some_in in M. destruct M as [n M]. apply at_some_in. exists n. rewrite <- (LV k m m' n J A'). exact M.
        - apply (at_in L' k m LD') in J. destruct (at_key L k) as [m'|] eqn:A'; [|exfalso; apply (proj2 (LP k)); congruence]. exists k, m'.
          split; [apply at_in; assumption|]. split; [|reflexivity]. apply at_some_in in M. destruct M as [n M]. apply at_some_in. exists n. rewrite (LV k m' m n A' J). exact M. }
      rewrite Q1, Q2, Q3. reflexivity.
  Qed.
  Lemma collect_alike (d : decl R) : collects_alike d.
  Proof.
    induction d using decl_all; try (intros prefix e e' T; cbn [collect_definition]).
    - apply twin_define. exact T.
    - apply twin_define. exact T.
    - apply twin_fold; [|apply twin_define, twin_define; exact T]. intros x x' f _ X. destruct f; [apply twin_add; exact X|exact X].
    - apply twin_fold; [|apply twin_define; exact T]. intros x x' f _ X. apply twin_define, twin_add. exact X.
    - apply twin_fold; [|apply twin_define; exact T]. intros x x' f _ X. apply twin_add. exact X.
    - destruct (split_last _) as [[? ?]|]; [apply twin_import|]; exact T.
    - destruct b as [body|]; [apply (module_alike n body H); exact T|exact T].
  Qed.
  Lemma build_alike (ds : list (decl R)) : twin (build_env s1 ds) (build_env s2 ds).
  Proof.
    unfold build_env, inject_builtin_bindings. apply twin_add, twin_absent, twin_import_absent. apply twin_fold; [|apply twin_refl]. intros e e' d _ T. apply collect_alike. exact T.
  Qed.
  Lemma import_absent_uses e k b : use_paths (add_import_if_absent e k b) = use_paths e.
  Proof. unfold add_import_if_absent. destruct (at_key (definitions e) k); [reflexivity|]. destruct (at_key (imports e) k); reflexivity. Qed.
  Lemma merge_uses sh e o : use_paths (merge sh e o) = use_paths e.
  Proof.
    unfold merge. match goal with |- use_paths (fold_left ?f _ _) = _ => assert (X : forall l e, use_paths (fold_left f l e) = use_paths e) end.
    { induction l as [|[k m] l IH]; intros a; [reflexivity|]. cbn [fold_left]. rewrite IH. cbn [fst snd]. apply (add_all_rest k (sh _ m) a). }
    rewrite X. clear X. generalize (sh _ (definitions o)) as l. intros l. revert e. induction l as [|d l IH]; intros e; [reflexivity|]. cbn. rewrite IH. apply import_absent_uses.
  Qed.
  Lemma merge_alike e e' o o' : alike_env e e' -> alike_env o o' -> env_ok o -> env_ok o' -> alike_env (merge s1 e o) (merge s2 e' o').
  Proof.
    intros [A B C D] [A' B' C' D'] K K'. destruct (merge_is s1 O1 e o K) as (X1 & X2 & X3), (merge_is s2 O2 e' o' K') as (Y1 & Y2 & Y3). constructor.
    - intros n. rewrite X1, Y1. apply A.
    - intros n. rewrite X3, Y3, B, A, A'. reflexivity.
    - intros n. rewrite !merge_uses. apply C.
    - intros ns n. rewrite X2, Y2, D, D'. reflexivity.
  Qed.
  Lemma uses_alike e e' : alike_env e e' -> env_ok e -> env_ok e' -> independent e -> alike_env (resolve_use_imports s1 e) (resolve_use_imports s2 e').
  Proof.
    intros [A B C D] K K' IND. assert (IND' : independent e').
    { intros a p b q [W W'] [X X'] N. apply (IND a p b q); [split|split|exact N]; auto; rewrite B; assumption. }
    destruct (uses_are s1 O1 e K IND) as (X1 & X2 & X3 & X4), (uses_are s2 O2 e' K' IND') as (Y1 & Y2 & Y3 & Y4).
    assert (T : forall n, target e n = target e' n).
    { intros n. unfold target, found. rewrite B. destruct (at_key (imports e') n) as [[]|]; try reflexivity. destruct path as [|u [|v q]]; try reflexivity.
      destruct (split_last (u :: v :: q)) as [[x f]|]; [rewrite D|]; reflexivity. }
    constructor.
    - intros n. rewrite X1, Y1. apply A.
    - intros n. rewrite X2, Y2, T, B. reflexivity.
    - intros n. rewrite X3, Y3, T, C. reflexivity.
    - intros ns n. rewrite X4, Y4, T, D. destruct (lookup_qualified e' ns n); [reflexivity|]. destruct (target e' ns) as [[p b]|]; [apply D|reflexivity].
  Qed.
End Two.
Definition ready (shuffle : forall A, map_of A -> map_of A) (prelude : option env) (decls : list (decl string)) : env :=
  match prelude with Some p => merge shuffle (build_env shuffle decls) p | None => build_env shuffle decls end.
Theorem module_env_alike s1 s2 prelude decls : any_order s1 -> any_order s2 -> opt_all env_ok prelude -> independent (ready s1 prelude decls) ->
  alike_env (module_env s1 prelude decls) (module_env s2 prelude decls).
Proof.
  intros O1 O2 K IND. unfold module_env. pose proof (proj1 (build_alike s1 s2 O1 O2 decls)) as B. destruct prelude as [p|]; cbn in K, IND.
  - apply uses_alike; [exact O1|exact O2| | | |exact IND].
    + apply merge_alike; [exact O1|exact O2|exact B|constructor; reflexivity|exact K|exact K].
    + apply merge_ok, build_ok.
    + apply merge_ok, build_ok.
  - apply uses_alike; [exact O1|exact O2|exact B| | |exact IND]; apply build_ok.
Qed.

(** ** The resolver *)
Record alike (s s' : st) : Prop := {
  al_scopes : scopes s = scopes s'; al_gen : gen s = gen s'; al_resumes : resumes s = resumes s'; al_path : mpath s = mpath s'; al_diags : diags s = diags s';
  al_ops : forall n, at_key (ops s) n = at_key (ops s') n }.
Definition cong {A B} (f f' : st -> A -> st * B) (x : A) : Prop := forall s s', alike s s' -> snd (f s x) = snd (f' s' x) /\ alike (fst (f s x)) (fst (f' s' x)).
Ltac use H A := match type of (H _ _ A) with snd (?f) = snd (?g) /\ _ =>
  let E := fresh "E" in let B := fresh "B" in destruct (H _ _ A) as [E B]; destruct f, g; cbn [fst snd] in E, B; try subst end.
Lemma cong_fresh s s' : alike s s' -> snd (fresh s) = snd (fresh s') /\ alike (fst (fresh s)) (fst (fresh s')).
Proof. intros [A B C D E F]. cbn. split; [exact B|]. constructor; cbn; auto. congruence. Qed.
Lemma cong_bind x : cong bind_local bind_local x.
Proof. intros s s' [A B C D E F]. unfold bind_local, fresh. cbn. rewrite A, B. split; [reflexivity|]. constructor; cbn; auto. Qed.
Lemma cong_param p : cong bind_param bind_param p.
Proof. intros s s' A. unfold bind_param. use (cong_bind (fst p)) A. auto. Qed.
Lemma cong_each {X Y} (f f' : st -> X -> st * Y) l : Forall (cong f f') l -> cong (each f) (each f') l.
Proof. induction 1 as [|x l H _ IH]; intros s s' A; cbn; [auto|]. use H A. use IH B. cbn. split; [reflexivity|assumption]. Qed.
Lemma cong_maybe {X Y} (f f' : st -> X -> st * Y) o : opt_all (cong f f') o -> cong (maybe f) (maybe f') o.
Proof. destruct o as [x|]; intros H s s' A; cbn; [|auto]. cbn in H. use H A. auto. Qed.
Lemma alike_push s s' : alike s s' -> alike (push_scope s) (push_scope s').
Proof. intros [A B C D E F]. constructor; cbn; congruence || auto. Qed.
Lemma alike_pop s s' : alike s s' -> alike (pop_scope s) (pop_scope s').
Proof. intros [A B C D E F]. constructor; cbn; congruence || auto. Qed.
Lemma alike_resume s s' id : alike s s' -> alike (push_resume s id) (push_resume s' id).
Proof. intros [A B C D E F]. constructor; cbn; congruence || auto. Qed.
Lemma alike_unresume s s' : alike s s' -> alike (pop_resume s) (pop_resume s').
Proof. intros [A B C D E F]. constructor; cbn; congruence || auto. Qed.
Lemma alike_with_path s s' p p' : p = p' -> alike s s' -> alike (with_path s p) (with_path s' p').
Proof. intros -> [A B C D E F]. constructor; cbn; congruence || auto. Qed.
Lemma alike_with_ops s s' m m' : (forall n, at_key m n = at_key m' n) -> alike s s' -> alike (with_ops s m) (with_ops s' m').
Proof. intros H [A B C D E F]. constructor; cbn; congruence || auto. Qed.

Section Resolver.
  Variables s1 s2 : forall A, map_of A -> map_of A.
  Hypotheses (O1 : any_order s1) (O2 : any_order s2).
  Variables e1 e2 : env.
  Hypotheses (K1 : env_ok e1) (K2 : env_ok e2) (AE : alike_env e1 e2).
  Lemma cong_name x : cong (resolve_name e1) (resolve_name e2) x.
  Proof.
    intros s s' A. pose proof A as [A1 A2 A3 A4 A5 A6]. destruct AE as [B1 B2 B3 B4]. unfold resolve_name, global_binding, lookup. rewrite A1, A4.
    assert (R : alike (report s x) (report s' x)) by (constructor; cbn; congruence || auto).
    destruct (is_simple x).
    - destruct (lookup_scopes (scopes s') (last_segment_of x)); [auto|]. rewrite B1, B2, A6.
      assert (X : match mpath s' with [] => None | _ => lookup_qualified e1 (join (mpath s')) (last_segment_of x) end = match mpath s' with [] => None | _ => lookup_qualified e2 (join (mpath s')) (last_segment_of x) end).
      { destruct (mpath s'); [reflexivity|]. apply B4. }
      rewrite X. destruct (match mpath s' with [] => None | _ => lookup_qualified e2 (join (mpath s')) (last_segment_of x) end); [auto|].
      destruct (at_key (definitions e2) (last_segment_of x)); [auto|]. destruct (at_key (imports e2) (last_segment_of x)); [auto|]. destruct (at_key (ops s') (last_segment_of x)); auto.
    - destruct (parent_path x) as [ns|]; [|auto]. rewrite B4. destruct (lookup_qualified e2 ns (last_segment_of x)); auto.
  Qed.
  Lemma cong_ability x : cong (resolve_handler_ability e1) (resolve_handler_ability e2) x.
  Proof. intros s s' A. unfold resolve_handler_ability. destruct (String.eqb x "_"); [auto|]. apply cong_name. exact A. Qed.
  Lemma cong_pattern p : cong (resolve_pattern e1) (resolve_pattern e2) p.
  Proof.
    induction p using pat_all with (Q := cong (resolve_field e1) (resolve_field e2)); intros s s' A; match goal with |- snd (resolve_pattern _ _ ?p) = _ /\ _ => rewrite (pattern_eq e1 s p), (pattern_eq e2 s' p) | |- snd (resolve_field _ _ ?p) = _ /\ _ => rewrite (field_eq e1 s p), (field_eq e2 s' p) end; try (split; [reflexivity|exact A]).
    - use (cong_bind x) A. auto.
    - use (cong_name c) A. use (cong_each _ _ _ H) B. auto.
    - assert (X : opt_all (cong (resolve_name e1) (resolve_name e2)) t) by (destruct t; cbn; [apply cong_name|exact I]). use (cong_maybe _ _ _ X) A. use (cong_each _ _ _ H) B. auto.
    - use (cong_each _ _ _ H) A. auto.
    - use (cong_each _ _ _ H) A. auto.
    - use (cong_each _ _ _ H) A. destruct r as [y|]; [|auto]. destruct (String.eqb y "_"); [auto|]. use (cong_bind y) B. auto.
    - use IHp A. use (cong_bind x) B. auto.
    - use (cong_bind x) A. auto.
    - use IHp A. auto.
  Qed.
  Lemma cong_patterns l : cong (each (resolve_pattern e1)) (each (resolve_pattern e2)) l.
  Proof. apply cong_each. apply Forall_forall. intros p _. apply cong_pattern. Qed.
  Lemma cong_kind k : cong (resolve_kind e1) (resolve_kind e2) k.
  Proof.
    intros s s' A. destruct k as [p|a op ps|a op ps id]; cbn [resolve_kind].
    - use (cong_pattern p) A. auto.
    - use (cong_ability a) A. use (cong_patterns ps) B. auto.
    - use (cong_ability a) A. use (cong_patterns ps) B. use cong_fresh B0. cbn [fst snd]. split; [reflexivity|]. apply alike_resume. assumption.
  Qed.
  Lemma cong_expr x : cong (resolve_expr e1) (resolve_expr e2) x.
  Proof.
    induction x using expr_all with (S := cong (resolve_stmt e1) (resolve_stmt e2)) (A := cong (resolve_arm e1) (resolve_arm e2)) (H := cong (resolve_handler e1) (resolve_handler e2));
      intros s s' A; match goal with |- snd (resolve_expr _ _ ?p) = _ /\ _ => rewrite (expr_eq e1 s p), (expr_eq e2 s' p) | |- snd (resolve_stmt _ _ ?p) = _ /\ _ => rewrite (stmt_eq e1 s p), (stmt_eq e2 s' p) | |- snd (resolve_arm _ _ ?p) = _ /\ _ => rewrite (arm_eq e1 s p), (arm_eq e2 s' p) | |- snd (resolve_handler _ _ ?p) = _ /\ _ => rewrite (handler_eq e1 s p), (handler_eq e2 s' p) end; cbv zeta; try (split; [reflexivity|exact A]).
    - use (cong_name r) A. auto.
    - use IHx A. use (cong_each _ _ _ H) B. auto.
    - use (cong_name c) A. use (cong_each _ _ _ H) B. auto.
    - use (cong_name t) A.
      assert (X : Forall (cong (fun s f => let '(s, x) := resolve_expr e1 s (snd f) in (s, (fst f, x))) (fun s (f : string * expr string) => let '(s, x) := resolve_expr e2 s (snd f) in (s, (fst f, x)))) fs).
      { eapply Forall_impl; [|exact H]. intros f Y a b Z. use Y Z. auto. }
      use (cong_each _ _ _ X) B. use (cong_maybe _ _ _ H0) B0. auto.
    - use IHx A. use (cong_each _ _ _ H) B. auto.
    - apply alike_push in A. use (cong_each _ _ _ H) A. use IHx B. cbn [fst snd]. split; [reflexivity|]. apply alike_pop. assumption.
    - use IHx A. use (cong_each _ _ _ H) B. auto.
    - apply alike_push in A. assert (X : Forall (cong bind_param bind_param) ps) by (apply Forall_forall; intros p _; apply cong_param).
      use (cong_each _ _ _ X) A. use IHx B. cbn [fst snd]. split; [reflexivity|]. apply alike_pop. assumption.
    - use IHx A. use (cong_each _ _ _ H) B. auto.
    - use IHx A. cbn [fst snd]. rewrite (al_resumes _ _ B). auto.
    - use (cong_each _ _ _ H) A. auto.
    - use (cong_each _ _ _ H) A. auto.
    - use IHx1 A. use IHx2 B. auto.
    - use IHx A. use (cong_pattern p) B. auto.
    - use IHx A. auto.
    - apply alike_push in A. use (cong_pattern p) A. use (cong_maybe _ _ _ H) B. use IHx B0. cbn [fst snd]. split; [reflexivity|]. apply alike_pop. assumption.
    - apply alike_push in A. use (cong_kind k) A. use IHx B. cbn [fst snd]. split; [reflexivity|]. apply alike_pop. destruct h0; try apply alike_unresume; assumption.
  Qed.
  Lemma injected_alike effects n : at_key (injected s1 e1 effects) n = at_key (injected s2 e2 effects) n.
  Proof.
    assert (X : forall b, at_key (injected s1 e1 effects) n = Some b <-> at_key (injected s2 e2 effects) n = Some b).
    { intros b. rewrite (injected_ok s1 e1 O1 K1), (injected_ok s2 e2 O2 K2). unfold declared_operation, operation_of. destruct AE as [_ _ _ B4].
      split; intros (be & a & af & -> & (m & N & L & O) & F); exists be, a, af; split; [reflexivity| |reflexivity|].
      - split; [exists m; rewrite <- B4; auto|]. intros a' I (b' & m' & N' & L' & O'). apply (F a' I). exists b', m'. rewrite B4. auto.
      - split; [exists m; rewrite B4; auto|]. intros a' I (b' & m' & N' & L' & O'). apply (F a' I). exists b', m'. rewrite <- B4. auto. }
    destruct (at_key (injected s1 e1 effects) n) as [b|]; [symmetry; apply X; reflexivity|]. destruct (at_key (injected s2 e2 effects) n) as [b|]; [|reflexivity]. apply X. reflexivity.
  Qed.
  Lemma annotation_alike a : resolve_annotation e1 a = resolve_annotation e2 a.
  Proof. induction a; cbn; try reflexivity; [|rewrite IHa; reflexivity]. destruct AE as [B1 _ B3 _]. rewrite B1, B3. reflexivity. Qed.
  Lemma cong_decl d : cong (resolve_decl s1 e1) (resolve_decl s2 e2) d.
  Proof.
    induction d using decl_all; intros s s' A; cbn [resolve_decl]; try (split; [reflexivity|exact A]).
    - apply alike_push in A. assert (X : Forall (cong bind_param bind_param) ps) by (apply Forall_forall; intros p _; apply cong_param). use (cong_each _ _ _ X) A.
      match type of B with alike ?u ?u' => assert (Y : alike (match ef with Some l => with_ops u (fold_left (inject_ability s1 e1) l []) | None => u end)
                                                            (match ef with Some l => with_ops u' (fold_left (inject_ability s2 e2) l []) | None => u' end)) end.
      { destruct ef as [l|]; [|exact B]. apply alike_with_ops; [|exact B]. apply (injected_alike (Some l)). }
      use (cong_expr b) Y. cbn [fst snd]. split; [|apply alike_pop, alike_with_ops; [reflexivity|assumption]]. f_equal. destruct ef as [l|]; [|reflexivity]. cbn. f_equal. apply map_ext. apply annotation_alike.
    - pose proof (al_path _ _ A) as P. assert (X : opt_all (cong (each (resolve_decl s1 e1)) (each (resolve_decl s2 e2))) b) by (destruct b; cbn; [apply cong_each; exact H|exact I]).
      pose proof (alike_with_path s s' (mpath s ++ [n]) (mpath s' ++ [n]) ltac:(rewrite P; reflexivity) A) as Y. use (cong_maybe _ _ _ X) Y. cbn [fst snd].
      split; [reflexivity|]. apply alike_with_path; [rewrite (al_path _ _ B); reflexivity|assumption].
  Qed.
  Lemma with_env_alike decls : resolve_with_env s1 e1 decls = resolve_with_env s2 e2 decls.
  Proof.
    unfold resolve_with_env. assert (A : alike start start) by (constructor; reflexivity).
    assert (X : Forall (cong (resolve_decl s1 e1) (resolve_decl s2 e2)) decls) by (apply Forall_forall; intros d _; apply cong_decl).
    use (cong_each _ _ _ X) A. destruct B as [_ G _ _ D _]. rewrite G, D. reflexivity.
  Qed.
End Resolver.
Theorem order_irrelevant s1 s2 prelude decls : any_order s1 -> any_order s2 -> opt_all env_ok prelude -> independent (ready s1 prelude decls) ->
  resolve_module s1 prelude decls = resolve_module s2 prelude decls.
Proof.
  intros O1 O2 K IND. unfold resolve_module. apply with_env_alike; [exact O1|exact O2|apply module_env_ok|apply module_env_ok|]. apply module_env_alike; assumption.
Qed.
