(** Proofs for C56: declarations, and names that are not local. *)
From Verif Require Export ResolveMain.
From Coq Require Import Lia.
Local Open Scope N_scope.
Open Scope list_scope.

(** ** Maps with different keys *)
Lemma at_in {A} (m : map_of A) k v : keys_distinct m -> at_key m k = Some v <-> In (k, v) m.
Proof.
  unfold keys_distinct. induction m as [|[j w] m IH]; cbn; intros D; [split; [discriminate|intros []]|].
  apply NoDup_cons_iff in D. destruct D as [N D]. destruct (String.eqb_spec j k) as [->|E].
  - split; [intros [= ->]; left; reflexivity|]. intros [[= ->]|H]; [reflexivity|]. destruct N. apply in_map_iff. exists (k, v). split; [reflexivity|exact H].
  - rewrite (IH D). split; [auto|]. intros [[= K _]|H]; [congruence|exact H].
Qed.
Lemma at_none {A} (m : map_of A) k : at_key m k = None <-> ~ In k (map fst m).
Proof.
  induction m as [|[j w] m IH]; cbn; [split; [intros _ []|reflexivity]|]. destruct (String.eqb_spec j k) as [->|E].
  - split; [discriminate|]. intros H. destruct H. left. reflexivity.
  - rewrite IH. split; [intros H [K|K]; auto|auto].
Qed.
Lemma at_perm {A} (m m' : map_of A) k : keys_distinct m -> Permutation m m' -> at_key m' k = at_key m k.
Proof.
  intros D P. assert (D' : keys_distinct m'). { exact (Permutation_NoDup (Permutation_map fst P) D). }
  destruct (at_key m k) as [v|] eqn:E.
  - apply at_in; [exact D'|]. apply (Permutation_in _ P). apply at_in; assumption.
  - apply at_none. apply at_none in E. intros H. apply E. exact (Permutation_in _ (Permutation_sym (Permutation_map fst P)) H).
Qed.
Lemma insert_keys {A} (m : map_of A) k v : forall j, In j (map fst (insert m k v)) <-> j = k \/ In j (map fst m).
Proof.
  induction m as [|[i w] m IH]; intros j; cbn; [intuition auto|]. destruct (String.eqb_spec i k) as [->|E]; cbn; [intuition auto|]. rewrite IH. intuition auto.
Qed.
Lemma insert_distinct {A} (m : map_of A) k v : keys_distinct m -> keys_distinct (insert m k v).
Proof.
  unfold keys_distinct. induction m as [|[i w] m IH]; cbn; intros D; [constructor; [intros []|constructor]|].
  apply NoDup_cons_iff in D. destruct D as [N D]. destruct (String.eqb_spec i k) as [->|E]; cbn; constructor; auto.
  rewrite insert_keys. intros [->|H]; [congruence|exact (N H)].
Qed.
Lemma absent_distinct {A} (m : map_of A) k v : keys_distinct m -> keys_distinct (insert_if_absent m k v).
Proof. unfold insert_if_absent. intros D. destruct (at_key m k); [exact D|apply insert_distinct; exact D]. Qed.
Lemma at_absent {A} (m : map_of A) k v j : at_key (insert_if_absent m k v) j = match at_key m j with Some w => Some w | None => if String.eqb k j then Some v else None end.
Proof.
  unfold insert_if_absent. destruct (at_key m k) eqn:E.
  - destruct (at_key m j) eqn:E'; [reflexivity|]. destruct (String.eqb_spec k j); congruence.
  - rewrite at_insert. destruct (String.eqb_spec k j) as [->|N]; [rewrite E; reflexivity|]. destruct (at_key m j); reflexivity.
Qed.

(** ** The last separator *)
Lemma rsplit_first : forall l acc p n, rsplit acc l = Some (p, n) ->
  exists m, l = m ++ sep ++ p /\ n = rev m ++ acc /\ forall a b, m ++ [":"%char] <> a ++ sep ++ b.
Proof.
  induction l as [|c l IH]; intros acc p n H; [discriminate|]. cbn [rsplit] in H.
  destruct l as [|d l]; [discriminate|].
  destruct (Ascii.eqb c ":" && Ascii.eqb d ":")%bool eqn:E.
  - injection H as <- <-. apply andb_prop in E as [E1 E2]. apply Ascii.eqb_eq in E1, E2. subst.
    exists []. split; [reflexivity|]. split; [reflexivity|]. intros [|x a] b K; cbn in K; [discriminate|]. destruct a; discriminate.
  - apply IH in H as (m & E1 & E2 & K). exists (c :: m). rewrite E1. split; [reflexivity|]. split.
    + rewrite E2. cbn [rev]. rewrite <- app_assoc. reflexivity.
    + intros [|x a] b Q; cbn in Q; injection Q; [|intros Q' _; exact (K _ _ Q')]. intros Q' ->. assert (d = ":"%char) as ->.
      { destruct m as [|y m]; cbn in E1, Q'; injection E1; injection Q'; congruence. } cbn in E. discriminate.
Qed.

(** ** Operations of declared effects *)
Definition is_op (b : binding) : bool := match b with AbilityOp _ _ _ => true | _ => false end.
Lemma inject_all l : forall m x, keys_distinct l ->
  at_key (fold_left inject_one l m) x = match at_key m x with Some b => Some b | None => match at_key l x with Some b => if is_op b then Some b else None | None => None end end.
Proof.
  induction l as [|[k b] l IH]; intros m x D; cbn [fold_left]; [destruct (at_key m x); reflexivity|].
  unfold keys_distinct in D. cbn in D. apply NoDup_cons_iff in D. destruct D as [N D]. rewrite (IH _ _ D). unfold inject_one at 1. cbn [fst snd].
  assert (E : at_key match b with AbilityOp _ _ _ => insert_if_absent m k b | _ => m end x =
    match at_key m x with Some w => Some w | None => if String.eqb k x && is_op b then Some b else None end).
  { destruct b; cbn [is_op]; rewrite ?andb_false_r, ?andb_true_r; try (destruct (at_key m x); reflexivity). apply at_absent. }
  rewrite E. cbn [at_key]. destruct (at_key m x); [reflexivity|]. destruct (String.eqb_spec k x) as [->|K]; cbn [andb].
  - apply at_none in N. rewrite N. destruct (is_op b); reflexivity.
  - reflexivity.
Qed.
Lemma upper_ok c r : upper_start (String c r) = true <-> 65 <= N_of_ascii c <= 90.
Proof. cbn. rewrite andb_true_iff, !N.leb_le. reflexivity. Qed.
Lemma upper_spec s : upper_start s = true <-> upper s.
Proof.
  unfold upper. destruct s as [|c r]; [split; [discriminate|intros (c & r & [=] & _)]|]. rewrite upper_ok. split.
  - intros H. exists c, r. auto.
  - intros (c' & r' & [= -> ->] & H). exact H.
Qed.
Lemma join_text l : join l = path_text l.
Proof. unfold join. induction l as [|a [|b l] IH]; [reflexivity..|]. cbn [String.concat path_text] in *. rewrite IH. reflexivity. Qed.
Lemma extract_ok a n : extract_ability_name a = Some n <-> ability_named a n.
Proof.
  revert n. induction a as [s|segs|c IH args|]; intros n; cbn.
  - split.
    + destruct (upper_start s) eqn:U; [|discriminate]. intros [= <-]. destruct s as [|c r]; [discriminate|]. constructor. apply upper_ok in U. exact U.
    + inversion 1; subst. rewrite (proj2 (upper_ok _ _)) by assumption. reflexivity.
  - split.
    + destruct segs as [|a segs]; [discriminate|]. rewrite join_text. intros [= <-]. constructor. discriminate.
    + inversion 1; subst. rewrite join_text. destruct segs; [congruence|reflexivity].
  - rewrite IH. split; [constructor; assumption|inversion 1; assumption].
  - split; [discriminate|inversion 1].
Qed.
Section Order.
  Variables (shuffle : forall A, map_of A -> map_of A) (e : env).
  Hypothesis (AO : any_order shuffle) (EO : env_ok e).
  Lemma members_distinct n : keys_distinct (members e n).
  Proof.
    unfold members. destruct (at_key (namespaces e) n) as [m|] eqn:E; [|constructor]. apply at_in in E; [|apply EO]. exact (ns_ok _ EO _ _ E).
  Qed.
  Lemma members_at n x : at_key (members e n) x = lookup_qualified e n x.
  Proof. unfold members, lookup_qualified. destruct (at_key (namespaces e) n); reflexivity. Qed.
  Lemma inject_ability_at m a x : at_key (inject_ability shuffle e m a) x =
    match at_key m x with
    | Some b => Some b
    | None => match extract_ability_name a with Some n => match lookup_qualified e n x with Some b => if is_op b then Some b else None | None => None end | None => None end
    end.
  Proof.
    unfold inject_ability. destruct (extract_ability_name a) as [n|]; [|destruct (at_key m x); reflexivity].
    rewrite inject_all by (exact (Permutation_NoDup (Permutation_map fst (AO _ _)) (members_distinct n))).
    rewrite (at_perm (members e n) (shuffle _ (members e n)) x (members_distinct n) (AO _ _)). rewrite members_at. reflexivity.
  Qed.
  Lemma operation_at a x b : (match extract_ability_name a with
      Some n => match lookup_qualified e n x with Some b => if is_op b then Some b else None | None => None end | None => None end) = Some b <-> operation_of e a x b.
  Proof.
    unfold operation_of. split.
    - destruct (extract_ability_name a) as [n|] eqn:E; [|discriminate]. destruct (lookup_qualified e n x) as [b'|] eqn:L; [|discriminate].
      destruct (is_op b') eqn:O; [|discriminate]. intros [= ->]. exists n. split; [apply extract_ok; exact E|]. split; [exact L|].
      destruct b; try discriminate. do 3 eexists. reflexivity.
    - intros (n & E & L & i & o & k & ->). apply extract_ok in E. rewrite E, L. reflexivity.
  Qed.
  Definition first_op (l : list ann) (x : string) : option binding := at_key (fold_left (inject_ability shuffle e) l []) x.
  Lemma inject_keep l : forall m x b, at_key m x = Some b -> at_key (fold_left (inject_ability shuffle e) l m) x = Some b.
  Proof. induction l as [|a l IH]; intros m x b H; cbn; [exact H|]. apply IH. rewrite inject_ability_at, H. reflexivity. Qed.
  Lemma inject_from l : forall m x, at_key m x = None -> forall b, at_key (fold_left (inject_ability shuffle e) l m) x = Some b <->
    exists before a after, l = before ++ a :: after /\ operation_of e a x b /\ forall a', In a' before -> ~ exists b', operation_of e a' x b'.
  Proof.
    induction l as [|a l IH]; intros m x H b; cbn [fold_left].
    - split; [congruence|]. intros (p & a & q & E & _). destruct p; discriminate.
    - destruct (at_key (inject_ability shuffle e m a) x) as [b0|] eqn:E.
      + pose proof E as E0. rewrite inject_ability_at, H in E. apply operation_at in E. rewrite (inject_keep l _ _ _ E0). split.
        * intros [= <-]. exists [], a, l. split; [reflexivity|]. split; [exact E|]. intros a' [].
        * intros (p & a1 & q & L & O & F). destruct p as [|a2 p]; cbn in L; injection L; intros L1 L2; subst.
          -- apply operation_at in O. apply operation_at in E. congruence.
          -- destruct (F a2); [left; reflexivity|]. exists b0. exact E.
      + rewrite (IH _ _ E). rewrite inject_ability_at, H in E. split; intros (p & a1 & q & L & O & F).
        * exists (a :: p), a1, q. subst l. split; [reflexivity|]. split; [exact O|]. intros a' [<-|I]; [|exact (F _ I)]. intros [b' B]. apply operation_at in B. congruence.
        * destruct p as [|a2 p]; cbn in L; injection L; intros L1 L2; subst.
          -- apply operation_at in O. congruence.
          -- exists p, a1, q. split; [reflexivity|]. split; [exact O|]. intros a' I. apply F. right. exact I.
  Qed.
  Definition injected (effects : option (list ann)) : map_of binding := match effects with Some l => fold_left (inject_ability shuffle e) l [] | None => [] end.
  Lemma injected_ok effects x b : at_key (injected effects) x = Some b <-> declared_operation e effects x b.
  Proof.
    unfold declared_operation. destruct effects as [l|]; cbn [injected].
    - rewrite (inject_from l [] x eq_refl b). split; intros (p & a & q & E & H); exists p, a, q; [subst; auto|]. injection E; auto.
    - split; [discriminate|]. intros (p & a & q & E & H). discriminate.
  Qed.
  Lemma as_ref_ok b x : binding_to_ref b x = as_ref b x.
  Proof. destruct b as [| i [t|] a | | | |]; reflexivity. Qed.
  Lemma global_item path effects x b : global_binding e path (injected effects) x = Some b <-> item_of e path effects x b.
  Proof.
    unfold global_binding, lookup.
    set (M := match path with [] => None | _ => lookup_qualified e (join path) x end).
    assert (MS : forall b, M = Some b -> path <> [] /\ lookup_qualified e (path_text path) x = Some b).
    { unfold M. intros c. destruct path; [discriminate|]. rewrite join_text. split; [discriminate|assumption]. }
    assert (MN : M = None <-> (path <> [] -> lookup_qualified e (path_text path) x = None)).
    { unfold M. destruct path; [intuition congruence|]. rewrite join_text. split; [auto|]. intros H. apply H. discriminate. }
    split.
    - destruct M as [c|] eqn:EM.
      + intros [= ->]. destruct (MS _ eq_refl). apply of_module; assumption.
      + pose proof (proj1 MN eq_refl) as MN'. destruct (at_key (definitions e) x) as [c|] eqn:ED.
        * intros [= ->]. apply of_file; assumption.
        * destruct (at_key (imports e) x) as [c|] eqn:EI.
          -- intros [= ->]. apply of_import; assumption.
          -- intros H. apply injected_ok in H. apply of_effect; assumption.
    - intros H. destruct H as [b P L|b P D|b P D I|b P D I O].
      + assert (M = Some b) as ->. { unfold M. destruct path; [congruence|]. rewrite join_text. exact L. } reflexivity.
      + rewrite (proj2 MN P), D. reflexivity.
      + rewrite (proj2 MN P), D, I. reflexivity.
      + rewrite (proj2 MN P), D, I. apply injected_ok. exact O.
  Qed.
  Lemma global_means path effects : global_ok e path effects (meaning e path (injected effects)).
  Proof.
    intros x. unfold meaning. split.
    - intros S. apply is_simple_ok in S. rewrite S. destruct (global_binding e path (injected effects) x) as [b|] eqn:B.
      + left. exists b. rewrite as_ref_ok. split; [apply global_item; exact B|reflexivity].
      + right. split; [|reflexivity]. intros b H. apply global_item in H. congruence.
    - intros S. assert (S' : is_simple x = false). { destruct (is_simple x) eqn:E; [|reflexivity]. destruct S. apply is_simple_ok. exact E. }
      rewrite S'. destruct (proj2 (split_join x) S') as (p & P & J). exists p, (last_segment_of x). split; [exact J|]. split.
      + unfold last_segment_of, parent_path in *. destruct (rsplit_once x) as [[p' n]|] eqn:R; [|discriminate]. injection P; intros ->. clear - R.
        unfold rsplit_once in R. destruct (rsplit [] (rev (list_ascii_of_string x))) as [[q m]|] eqn:E; [|discriminate]. injection R; intros <- <-; clear R.
        destruct (rsplit_first _ _ _ _ E) as (k & _ & -> & K). intros a b H. apply (f_equal list_ascii_of_string) in H. rewrite !las_app in H.
        rewrite list_ascii_of_string_of_list_ascii, app_nil_r in H. apply (f_equal (@rev ascii)) in H. rewrite !rev_app_distr, rev_involutive in H.
        apply (K (rev (list_ascii_of_string b)) (rev (list_ascii_of_string a))). cbn in H. rewrite H, <- app_assoc. reflexivity.
      + rewrite P. destruct (lookup_qualified e p (last_segment_of x)) as [b|]; [rewrite as_ref_ok|]; reflexivity.
  Qed.
End Order.
