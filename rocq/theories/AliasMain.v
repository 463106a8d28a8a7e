(** Aliases resolve; their names are fresh; the result does not depend on the order of the hash map. *)
From Coq Require Import Lia Permutation Sorted.
From Verif Require Import AliasSpec TextProofs AliasProofs.
Local Open Scope nat_scope.

(** ** Comparing *)
Record comparator {A} (c : A -> A -> comparison) : Prop := {
  c_opp : forall x y, c y x = CompOpp (c x y);
  c_eq : forall x y z, c x y = Eq -> c x z = c y z;
  c_lt : forall x y z, c x y = Lt -> c y z = Lt -> c x z = Lt;
}.
Lemma c_refl {A} (c : A -> A -> comparison) x : comparator c -> c x x = Eq.
Proof. intros H. pose proof (c_opp _ H x x) as E. destruct (c x x); try discriminate; reflexivity. Qed.
Lemma N_comparator : comparator N.compare.
Proof.
  constructor; intros.
  - apply N.compare_antisym.
  - apply N.compare_eq_iff in H. subst. reflexivity.
  - rewrite N.compare_lt_iff in *. lia.
Qed.
Lemma flip_comparator {A} (c : A -> A -> comparison) : comparator c -> comparator (fun x y => c y x).
Proof.
  intros H. constructor; intros.
  - apply (c_opp _ H).
  - rewrite (c_opp _ H x z), (c_opp _ H y z). f_equal. apply (c_eq _ H). rewrite (c_opp _ H), H0. reflexivity.
  - eapply (c_lt _ H); eauto.
Qed.
Lemma by_comparator {A B} (f : A -> B) (c : B -> B -> comparison) : comparator c -> comparator (fun x y => c (f x) (f y)).
Proof. intros H. constructor; intros; [apply (c_opp _ H)|apply (c_eq _ H); auto|eapply (c_lt _ H); eauto]. Qed.
Definition lex {A} (c d : A -> A -> comparison) (x y : A) : comparison := match c x y with Eq => d x y | r => r end.
Lemma lex_comparator {A} (c d : A -> A -> comparison) : comparator c -> comparator d -> comparator (lex c d).
Proof.
  intros H K. unfold lex. constructor; intros.
  - rewrite (c_opp _ H x y). destruct (c x y); cbn; auto. apply (c_opp _ K).
  - destruct (c x y) eqn:E; try discriminate. rewrite <- (c_eq _ H _ _ z E). destruct (c x z); auto. apply (c_eq _ K). auto.
  - destruct (c x y) eqn:E1; try discriminate.
    + rewrite <- (c_eq _ H _ _ z E1) in H1. destruct (c x z); auto. eapply (c_lt _ K); eauto.
    + destruct (c y z) eqn:E2; try discriminate.
      * assert (X : c z x = c y x) by (symmetry; apply (c_eq _ H); exact E2). rewrite (c_opp _ H x z), (c_opp _ H x y), E1 in X. destruct (c x z); cbn in X; congruence.
      * rewrite (c_lt _ H _ _ _ E1 E2). reflexivity.
Qed.
Lemma text_cmp_eq : forall a b, text_cmp a b = Eq <-> a = b.
Proof.
  induction a as [|x a IH]; intros [|y b]; cbn; try (split; congruence). destruct (x ?= y)%N eqn:E.
  - apply N.compare_eq_iff in E. subst. rewrite IH. split; congruence.
  - split; [discriminate|]. intros X. inversion X; subst. rewrite N.compare_refl in E. discriminate.
  - split; [discriminate|]. intros X. inversion X; subst. rewrite N.compare_refl in E. discriminate.
Qed.
Lemma text_comparator : comparator text_cmp.
Proof.
  constructor.
  - induction x as [|x a IH]; intros [|y b]; cbn; auto. rewrite (N.compare_antisym x y). destruct (x ?= y)%N; cbn; auto.
  - intros x y z E. apply text_cmp_eq in E. subst. reflexivity.
  - induction x as [|x a IH]; intros [|y b] [|z c]; cbn; try congruence. destruct (x ?= y)%N eqn:E1; try discriminate; destruct (y ?= z)%N eqn:E2; try discriminate; intros H1 H2.
    + apply N.compare_eq_iff in E1, E2. subst. rewrite N.compare_refl. eauto.
    + apply N.compare_eq_iff in E1. subst. rewrite E2. reflexivity.
    + apply N.compare_eq_iff in E2. subst. rewrite E1. reflexivity.
    + rewrite N.compare_lt_iff in *. replace (x ?= z)%N with Lt; auto. symmetry. apply N.compare_lt_iff. lia.
Qed.

(** ** A sorted permutation is unique *)
Section Unique.
  Context {A : Type} (le : A -> A -> bool).
  Hypothesis total : forall x y, le x y = true \/ le y x = true.
  Hypothesis trans : forall x y z, le x y = true -> le y z = true -> le x z = true.
  Local Notation R := (fun x y => le x y = true).
  Lemma insert_sorted x l : StronglySorted R l -> StronglySorted R (insert le x l).
  Proof.
    induction 1 as [|y l S IH F]; cbn; [repeat constructor|]. destruct (le x y) eqn:E.
    - constructor; [constructor; auto|]. constructor; auto. eapply Forall_impl; [|exact F]. intros z Hz. eapply trans; eauto.
    - constructor; auto. assert (Forall (R y) (x :: l)) by (constructor; [destruct (total x y); congruence|exact F]). eapply Permutation_Forall; [apply insert_perm|assumption].
  Qed.
  Lemma sort_sorted l : StronglySorted R (sort le l).
  Proof. induction l; cbn; [constructor|apply insert_sorted; assumption]. Qed.
  Lemma sorted_unique : forall l l', StronglySorted R l -> StronglySorted R l' -> Permutation l l' -> (forall x y, In x l -> In y l -> le x y = true -> le y x = true -> x = y) -> l = l'.
  Proof.
    induction l as [|x l IH]; intros l' S S' P AS.
    - apply Permutation_nil in P. auto.
    - destruct l' as [|y l']; [apply Permutation_sym, Permutation_nil in P; discriminate|]. inversion S as [|? ? S1 F1]; subst. inversion S' as [|? ? S2 F2]; subst.
      assert (x = y).
      { assert (Ix : In x (y :: l')) by (eapply Permutation_in; [exact P|left; reflexivity]). assert (Iy : In y (x :: l)) by (eapply Permutation_in; [apply Permutation_sym; exact P|left; reflexivity]).
        destruct Ix as [->|Ix]; auto. destruct Iy as [->|Iy]; auto. rewrite Forall_forall in F1, F2. apply AS; [left; reflexivity|right; exact Iy|apply F1; exact Iy|apply F2; exact Ix]. }
      subst y. f_equal. apply IH; auto. { eapply Permutation_cons_inv; exact P. } intros a b Ia Ib. apply AS; right; assumption.
  Qed.
  Lemma sort_perm_inv l l' : Permutation l l' -> (forall x y, In x l -> In y l -> le x y = true -> le y x = true -> x = y) -> sort le l = sort le l'.
  Proof.
    intros P AS. apply sorted_unique; auto using sort_sorted.
    - etransitivity; [apply Permutation_sym, sort_perm|]. etransitivity; [exact P|apply sort_perm].
    - intros x y Ix Iy. apply AS; (eapply Permutation_in; [apply Permutation_sym, (sort_perm le)|assumption]).
  Qed.
End Unique.
Definition leb_of (c : comparison) : bool := match c with Gt => false | _ => true end.
Lemma leb_total {A} (c : A -> A -> comparison) : comparator c -> forall x y, leb_of (c x y) = true \/ leb_of (c y x) = true.
Proof. intros H x y. rewrite (c_opp _ H x y). destruct (c x y); cbn; auto. Qed.
Lemma leb_trans {A} (c : A -> A -> comparison) : comparator c -> forall x y z, leb_of (c x y) = true -> leb_of (c y z) = true -> leb_of (c x z) = true.
Proof.
  intros H x y z. destruct (c x y) eqn:E1; cbn; try discriminate.
  - rewrite (c_eq _ H _ _ z E1). auto.
  - destruct (c y z) eqn:E2; cbn; try discriminate; intros _ _.
    + assert (X : c z x = c y x) by (symmetry; apply (c_eq _ H); exact E2). rewrite (c_opp _ H x z), (c_opp _ H x y), E1 in X. destruct (c x z); cbn in X |- *; congruence.
    + rewrite (c_lt _ H _ _ _ E1 E2). reflexivity.
Qed.

(** ** Collecting a sorted list *)
Lemma put_last {A} k (v : A) l : Forall (fun x => below (fst x) k) l -> put k v l = l ++ [(k, v)].
Proof.
  induction 1 as [|[k' v'] l H F IH]; cbn [put app]; auto. unfold below in H. cbn in H. rewrite (c_opp _ text_comparator k' k), H. cbn. rewrite IH. reflexivity.
Qed.
Lemma collect_from {A} (l : list (text * A)) : forall m, StronglySorted below (map fst (m ++ l)) -> fold_left (fun m kv => put (fst kv) (snd kv) m) l m = m ++ l.
Proof.
  induction l as [|[k v] l IH]; intros m S; cbn [fold_left fst snd]; [rewrite app_nil_r; reflexivity|].
  rewrite put_last; [rewrite IH, <- app_assoc; [reflexivity|]; rewrite <- app_assoc; exact S|].
  clear IH. induction m as [|[k' v'] m IHm]; constructor.
  - cbn in S. inversion S as [|? ? ? F]; subst. rewrite Forall_forall in F. apply F. rewrite map_app. apply in_or_app. right. left. reflexivity.
  - apply IHm. cbn in S. inversion S; assumption.
Qed.
Lemma collect_sorted {A} (l : list (text * A)) : StronglySorted below (map fst l) -> collect l = l.
Proof. intros S. apply (collect_from l []). exact S. Qed.

(** ** Resolving *)
Lemma all_some_map {A B} (f : A -> option B) (g : B -> A) (l : list B) : Forall (fun x => f (g x) = Some x) l -> all_some (map f (map g l)) = Some l.
Proof. induction 1 as [|x l H F IH]; cbn; auto. rewrite H, IH. reflexivity. Qed.
Lemma abbreviated_eq al d n ps ats : abbreviated al (Ty d n ps ats) = match al (Ty d n ps ats) with Some a => Alias a | None => Ty d n (map (abbreviated al) ps) (map (fun kv => match kv with (k, v) => (k, abbreviated_attr al v) end) ats) end.
Proof. reflexivity. Qed.
Lemma build_type_eq e d n ps ats : build_type e (Ty d n ps ats) = match all_some (map (build_type e) ps), all_some (map (fun kv => match kv with (k, v) => option_map (fun v => (k, v)) (build_attr e v) end) ats) with Some ps, Some ats => Some (Ty d n ps (collect ats)) | _, _ => None end.
Proof. reflexivity. Qed.
Lemma build_both e (al : ty -> option text) :
  (forall t, plain t -> (forall s name, s = t \/ inside s t -> al s = Some name -> env_get e name = Some s) -> build_type e (abbreviated al t) = Some t)
  /\ (forall a, plain_attr a -> (forall s name, inside_value s a -> al s = Some name -> env_get e name = Some s) -> build_attr e (abbreviated_attr al a) = Some a).
Proof.
  apply ty_both.
  - intros d n ps ats Hp Ha P K. inversion P as [? ? ? ? Pp Pa So]; subst. rewrite abbreviated_eq. destruct (al (Ty d n ps ats)) as [nm|] eqn:E; [cbn; apply K; auto|].
    rewrite build_type_eq, all_some_map.
    + rewrite (all_some_map (fun kv : text * attr => let (k, v) := kv in option_map (fun v => (k, v)) (build_attr e v))).
      * rewrite collect_sorted by exact So. reflexivity.
      * rewrite Forall_forall in *. intros [k v] I. pose proof (Ha _ I (Pa _ I)) as Q. cbn [snd] in Q. cbv beta iota. rewrite Q; [reflexivity|]. intros s name Is. apply K. right. eapply inside_attr; eauto.
    + rewrite Forall_forall in *. intros p I. apply Hp; auto. intros s name Is. apply K. right. eapply inside_param; eauto.
  - intros a P. inversion P.
  - intros t H P K. inversion P as [? Pt| |? N]; subst; [|exfalso; eapply N; reflexivity]. change (option_map Type_ (build_type e (abbreviated al t)) = Some (Type_ t)). rewrite H; auto. intros s name Is. apply K. constructor. exact Is.
  - intros l H P K. inversion P as [|? Pl|? ? N]; subst; [|exfalso; eapply N; reflexivity]. change (option_map List (all_some (map (build_attr e) (map (abbreviated_attr al) l))) = Some (List l)). rewrite all_some_map; auto. rewrite Forall_forall in *. intros a I. apply H; auto. intros s name Is. apply K. econstructor; eauto.
  - intros a N1 N2 P K. destruct a; try reflexivity; [exfalso; eapply N1; reflexivity|exfalso; eapply N2; reflexivity].
Qed.
Lemma build_back e al t : plain t -> (forall s name, s = t \/ inside s t -> al s = Some name -> env_get e name = Some s) -> build_type e (abbreviated al t) = Some t.
Proof. apply build_both. Qed.

Definition sound (e : env) (m : amap) : Prop := forall t name, look m t = Some name -> env_get e name = Some t.
(** Each definition resolves to its type where it stands. *)
Fixpoint stepwise (e : env) (ds : list (text * amap * ty)) : Prop :=
  match ds with
  | [] => True
  | (name, m, t) :: ds => build_type e (abbreviated (look m) t) = Some t /\ stepwise ((name, t) :: e) ds
  end.
Lemma stepwise_app ds1 ds2 : forall e, stepwise e (ds1 ++ ds2) <-> stepwise e ds1 /\ stepwise (rev (map (fun d => (fst (fst d), snd d)) ds1) ++ e) ds2.
Proof.
  induction ds1 as [|[[n m] t] ds IH]; intros e; [cbn; tauto|]. cbn [app stepwise map rev fst snd]. rewrite IH, <- app_assoc. cbn. tauto.
Qed.
Lemma stepwise_build ds : forall e, stepwise e ds -> build_defs e (map read_def ds) = Some (rev (map (fun d => (fst (fst d), snd d)) ds) ++ e).
Proof.
  induction ds as [|[[n m] t] ds IH]; intros e; cbn [stepwise map read_def build_defs rev fst snd]; [reflexivity|]. intros [E S]. rewrite E, (IH _ S), <- app_assoc. reflexivity.
Qed.

Section Manual.
  Variable all : list (text * ty).
  Hypothesis distinct : NoDup (map fst all).
  Hypothesis plains : forall a, In a all -> plain (snd a).
  Definition known (e : env) (m : amap) (done : list (text * ty)) : Prop :=
    forall t name, look m t = Some name -> (env_get e name = Some t /\ (In name (map fst done) \/ ~ In name (map fst all))) \/ (In (name, t) all /\ ~ In t (map snd done)).
  Lemma manual_ok : forall l done e m, Permutation all (done ++ l) -> (forall pre a post, l = pre ++ a :: post -> forall s, In s (map snd all) -> inside s (snd a) -> In s (map snd (done ++ pre))) ->
    known e m done -> let (ds, m') := manual_defs l m in stepwise e ds /\ known (rev l ++ e) m' (done ++ l) /\ map (fun d => (fst (fst d), snd d)) ds = l.
  Proof.
    induction l as [|[name t] l IH]; intros done e m P O K; cbn [manual_defs]; [rewrite app_nil_r; cbn; auto|].
    assert (It : In (name, t) all) by (eapply Permutation_in; [apply Permutation_sym; exact P|apply in_or_app; right; left; reflexivity]).
    assert (ND : NoDup (map fst (done ++ (name, t) :: l))) by (eapply Permutation_NoDup; [apply Permutation_map; exact P|exact distinct]).
    assert (Fr : ~ In name (map fst done)) by (rewrite map_app in ND; apply NoDup_remove_2 in ND; rewrite in_app_iff in ND; tauto).
    specialize (IH (done ++ [(name, t)]) ((name, t) :: e) (set (unset m t) t name)). rewrite <- app_assoc in IH.
    destruct (manual_defs l (set (unset m t) t name)) as [ds m']. cbn [stepwise map fst snd rev].
    destruct IH as (S & K' & E); [exact P| | |].
    - intros pre a post -> s Is In_. pose proof (O ((name, t) :: pre) a post eq_refl s Is In_) as Q. rewrite <- app_assoc. exact Q.
    - intros u nm. rewrite look_set. destruct (same t u) eqn:Eu.
      + apply same_spec in Eu. subst. intros X. injection X as <-. left. rewrite env_get_cons, text_eqb_refl. split; auto. left. rewrite map_app. apply in_or_app. right. left. reflexivity.
      + intros X. apply same_false in Eu. rewrite look_unset_other in X by auto. destruct (K u nm X) as [[G D]|[I D]].
        * left. assert (name <> nm). { intros ->. destruct D as [D|D]; [contradiction|]. apply D. change nm with (fst (nm, t)). apply in_map. exact It. }
          rewrite env_get_cons. destruct (text_eqb name nm) eqn:En; [apply text_eqb_spec in En; contradiction|]. split; auto. rewrite map_app, in_app_iff. tauto.
        * right. split; auto. rewrite map_app, in_app_iff. cbn. intros [Q|[Q|[]]]; auto.
    - rewrite <- app_assoc. cbn [app]. split; [|split; [exact K'|f_equal; exact E]]. split; [|exact S]. apply build_back; [apply (plains _ It)|]. intros s nm [->|Is] L.
      + rewrite look_unset_same in L. discriminate.
      + rewrite look_unset_other in L. 2:{ intros ->. exact (inside_irrefl _ Is). }
        destruct (K s nm L) as [[G _]|[I D]]; auto. exfalso. apply D. pose proof (O [] (name, t) l eq_refl s (in_map snd _ _ I) Is) as Q. rewrite app_nil_r in Q. exact Q.
  Qed.
End Manual.
Lemma auto_ok : forall l e m, (forall a, In a l -> plain (snd a)) -> NoDup (map fst l) -> (forall x, In x (map fst l) -> ~ In x (map snd m)) -> sound e m ->
  let (ds, m') := auto_defs l m in stepwise e ds /\ sound (rev l ++ e) m' /\ map (fun d => (fst (fst d), snd d)) ds = l.
Proof.
  induction l as [|[name t] l IH]; intros e m P N F S; cbn [auto_defs]; [cbn; auto|]. cbn in N. inversion N as [|? ? N1 N2]; subst.
  specialize (IH ((name, t) :: e) (set m t name)). destruct (auto_defs l (set m t name)) as [ds m']. cbn [stepwise map fst snd rev]. destruct IH as (St & So & E).
  - intros a I. apply P. right. exact I.
  - exact N2.
  - intros x Ix. unfold set. cbn [map snd]. intros [->|K]; [contradiction|]. apply (F x); [right; exact Ix|]. apply in_map_iff in K as (y & <- & Iy). apply filter_In in Iy as [Iy _]. apply in_map. exact Iy.
  - intros u nm. rewrite look_set, env_get_cons. destruct (same t u) eqn:Eu.
    + apply same_spec in Eu. subst. intros X. injection X as <-. rewrite text_eqb_refl. reflexivity.
    + intros X. destruct (text_eqb name nm) eqn:En; [|apply S; exact X]. apply text_eqb_spec in En. subst. exfalso. apply (F nm); [left; reflexivity|]. eapply look_value; eauto.
  - rewrite <- app_assoc. split; [|split; [exact So|f_equal; exact E]]. split; [|exact St]. apply build_back; [apply (P (name, t)); left; reflexivity|]. intros s nm _. apply S.
Qed.

(** ** Names *)
Lemma taken_spec used s : taken used s = true <-> In s used.
Proof. unfold taken. rewrite existsb_exists. split; [intros (x & I & E); apply text_eqb_spec in E; subst; exact I|intros I; exists s; split; auto using text_eqb_refl]. Qed.
Lemma write_uint_inj a b : write_uint a = write_uint b -> a = b.
Proof. intros E. rewrite <- (number_write a), <- (number_write b), E. reflexivity. Qed.
Lemma suffixed_free : forall fuel used base i s, suffixed fuel used base i = Some s -> ~ In s used.
Proof. induction fuel as [|fuel IH]; cbn; intros used base i s H; [discriminate|]. destruct (taken used _) eqn:E; [eauto|]. injection H as <-. intros I. apply taken_spec in I. congruence. Qed.
Lemma numbered_free : forall fuel used i s n, numbered fuel used i = Some (s, n) -> ~ In s used.
Proof. induction fuel as [|fuel IH]; cbn; intros used i s n H; [discriminate|]. destruct (taken used _) eqn:E; [eauto|]. injection H as <- <-. intros I. apply taken_spec in I. congruence. Qed.
Lemma choose_free fuel t used next s n : choose_alias_name fuel t used next = Some (s, n) -> ~ In s used.
Proof.
  unfold choose_alias_name. destruct (hint t) as [b|]; [|apply numbered_free]. destruct (taken used b) eqn:E.
  - destruct (suffixed fuel used b 1) as [x|] eqn:F; cbn; [|discriminate]. intros H. injection H as <- <-. eapply suffixed_free; eauto.
  - intros H. injection H as <- <-. intros I. apply taken_spec in I. congruence.
Qed.
Lemma name_all_ok : forall l fuel used next r, name_all fuel l used next = Some r -> map snd r = l /\ NoDup (map fst r) /\ forall x, In x (map fst r) -> ~ In x used.
Proof.
  induction l as [|t l IH]; cbn; intros fuel used next r H; [injection H as <-; cbn; repeat split; auto; constructor|].
  destruct (choose_alias_name fuel t used next) as [[s n]|] eqn:E; [|discriminate]. destruct (name_all fuel l (s :: used) n) as [q|] eqn:Eq; cbn in H; [|discriminate]. injection H as <-.
  destruct (IH _ _ _ _ Eq) as (M & ND & F). cbn. split; [f_equal; exact M|]. split.
  - constructor; auto. intros I. apply (F s I). left. reflexivity.
  - intros x [<-|I]; [eapply choose_free; eauto|]. intros K. apply (F x I). right. exact K.
Qed.
(** Enough rounds find a free name. *)
Lemma runs_out (f : N -> text) used n : (forall a b, f a = f b -> a = b) -> (forall i, (i < N.of_nat n)%N -> In (f i) used) -> n <= List.length used.
Proof.
  intros Inj H. rewrite <- (seq_length n 0), <- (map_length (fun k => f (N.of_nat k))). apply NoDup_incl_length.
  - apply FinFun.Injective_map_NoDup; [|apply seq_NoDup]. intros a b E. apply Inj in E. lia.
  - intros x I. apply in_map_iff in I as (k & <- & Ik). apply in_seq in Ik. apply H. lia.
Qed.
Lemma suffixed_none : forall fuel used base i, suffixed fuel used base i = None -> forall j, (j < N.of_nat fuel)%N -> In (base ++ ch "_" :: write_uint (i + j)) used.
Proof.
  induction fuel as [|fuel IH]; intros used base i H j Hj; [lia|]. cbn [suffixed] in H. destruct (taken used _) eqn:E; [|discriminate].
  destruct (N.eq_dec j 0) as [->|Nz]; [rewrite N.add_0_r; apply taken_spec; exact E|]. replace (i + j)%N with (i + 1 + (j - 1))%N by lia. apply IH; [exact H|lia].
Qed.
Lemma numbered_none : forall fuel used i, numbered fuel used i = None -> forall j, (j < N.of_nat fuel)%N -> In (ch "t" :: write_uint (i + j)) used.
Proof.
  induction fuel as [|fuel IH]; intros used i H j Hj; [lia|]. cbn [numbered] in H. destruct (taken used _) eqn:E; [|discriminate].
  destruct (N.eq_dec j 0) as [->|Nz]; [rewrite N.add_0_r; apply taken_spec; exact E|]. replace (i + j)%N with (i + 1 + (j - 1))%N by lia. apply IH; [exact H|lia].
Qed.
Lemma choose_total fuel t used next : List.length used < fuel -> exists r, choose_alias_name fuel t used next = Some r.
Proof.
  intros L. unfold choose_alias_name. destruct (hint t) as [b|].
  - destruct (taken used b); [|eauto]. destruct (suffixed fuel used b 1) as [x|] eqn:F; [cbn; eauto|]. exfalso.
    pose proof (runs_out (fun j => b ++ ch "_" :: write_uint (1 + j)) used fuel) as R. pose proof (suffixed_none _ _ _ _ F) as S. cbv beta in R. enough (fuel <= List.length used) by lia. apply R; auto.
    intros x y E. apply app_inv_head in E. apply (f_equal (@List.tl N)) in E. cbn [List.tl] in E. apply write_uint_inj in E. lia.
  - destruct (numbered fuel used next) as [x|] eqn:F; [eauto|]. exfalso. pose proof (runs_out (fun j => ch "t" :: write_uint (next + j)) used fuel) as R. pose proof (numbered_none _ _ _ F) as S. cbv beta in R. enough (fuel <= List.length used) by lia. apply R; auto.
    intros x y E. apply (f_equal (@List.tl N)) in E. cbn [List.tl] in E. apply write_uint_inj in E. lia.
Qed.
Lemma name_all_total : forall l fuel used next, List.length used + List.length l <= fuel -> exists r, name_all fuel l used next = Some r.
Proof.
  induction l as [|t l IH]; intros fuel used next L; [cbn; eauto|]. cbn in L. destruct (choose_total fuel t used next ltac:(lia)) as ([s n] & E). cbn [name_all]. rewrite E.
  destruct (IH fuel (s :: used) n) as (r & ->); [cbn; lia|]. cbn. eauto.
Qed.

Lemma initial_in : forall l m t name, look (fold_left (fun m (a : text * ty) => set m (snd a) (fst a)) l m) t = Some name -> In (name, t) l \/ look m t = Some name.
Proof.
  induction l as [|[n u] l IH]; cbn [fold_left]; intros m t name H; auto. destruct (IH _ _ _ H) as [I|I]; [left; right; exact I|]. cbn [fst snd] in I. rewrite look_set in I. destruct (same u t) eqn:E; auto.
  apply same_spec in E. subst. injection I as <-. left. left. reflexivity.
Qed.
Lemma initial_consistent aliases : consistent [] aliases (initial aliases).
Proof. intros t name H. destruct (initial_in _ _ _ _ H) as [I|I]; [left; exact I|discriminate I]. Qed.
Lemma initial_length : forall l m, List.length (fold_left (fun m (a : text * ty) => set m (snd a) (fst a)) l m) <= List.length l + List.length m.
Proof.
  induction l as [|[n t] l IH]; cbn [fold_left]; intros m; [cbn; lia|]. specialize (IH (set m t n)). cbn [fst snd List.length]. unfold set in *. cbn [List.length] in IH.
  assert (F : List.length (unset m t) <= List.length m) by (clear; unfold unset; induction m as [|x q IH]; cbn; [lia|destruct (negb (same (fst x) t)); cbn; lia]). lia.
Qed.

(** ** Modules *)
Section Module.
  Variable complexity : ty -> N.
  Variables min_uses min_complexity : N.
  Variable show : N -> text.
  Variable finite : N -> bool.
  Local Notation auto := (auto_aliases complexity min_uses min_complexity show finite).
  Local Notation whole := (module_aliases complexity min_uses min_complexity show finite).

  Lemma auto_aliases_ok fuel counts m r : auto fuel counts m = Some r ->
    NoDup (map fst r) /\ (forall x, In x (map fst r) -> ~ In x (map snd m)) /\ (forall a, In a r -> In (snd a) (map fst counts)).
  Proof.
    unfold auto_aliases. destruct (name_all _ _ _ _) as [q|] eqn:E; cbn; [|discriminate]. intros H. injection H as <-. destruct (name_all_ok _ _ _ _ _ E) as (M & N & F). destruct (topological_ok q) as [P _]. split; [|split].
    - eapply Permutation_NoDup; [apply Permutation_map; exact P|exact N].
    - intros x I. apply F. eapply Permutation_in; [apply Permutation_map, Permutation_sym; exact P|exact I].
    - intros a I. apply (Permutation_in _ (Permutation_sym P)) in I. apply (in_map snd) in I. rewrite M in I. apply in_map_iff in I as (c & <- & I). eapply Permutation_in in I; [|apply Permutation_sym, sort_perm].
      apply filter_In in I as [I _]. apply in_map. exact I.
  Qed.
  Lemma auto_total fuel counts m : List.length m + List.length counts <= fuel -> exists r, auto fuel counts m = Some r.
  Proof.
    intros L. unfold auto_aliases. set (c := filter _ counts). destruct (name_all_total (map fst (sort (not_after complexity show finite) c)) fuel (map snd m) 0) as (r & ->); [|cbn; eauto].
    rewrite !map_length. rewrite <- (Permutation_length (sort_perm _ c)). assert (List.length c <= List.length counts) by (unfold c; clear; induction counts as [|x l IH]; cbn; [lia|destruct (match look m (fst x) with Some _ => false | None => _ end); cbn; lia]). lia.
  Qed.
  Lemma manual_length : forall l m, List.length (snd (manual_defs l m)) <= List.length l + List.length m.
  Proof.
    induction l as [|[n t] l IH]; intros m; [cbn; lia|]. cbn [manual_defs]. specialize (IH (set (unset m t) t n)). destruct (manual_defs l (set (unset m t) t n)) as [ds m']. cbn [snd List.length] in *. unfold set in IH. cbn [List.length] in IH.
    assert (F : forall q, List.length (unset q t) <= List.length q) by (clear; intros q; unfold unset; induction q as [|x q IH]; cbn; [lia|destruct (negb (same (fst x) t)); cbn; lia]). pose proof (F (unset m t)). pose proof (F m). lia.
  Qed.
  Lemma module_ok fuel aliases outer counts e : NoDup (map fst aliases) -> (forall a, In a aliases -> plain (snd a)) -> (forall c, In c counts -> plain (fst c)) -> consistent e aliases outer ->
    List.length aliases + List.length outer + List.length counts <= fuel ->
    exists ds m, whole fuel aliases outer counts = Some (ds, m) /\ stepwise e ds /\ sound (rev (map (fun d => (fst (fst d), snd d)) ds) ++ e) m.
  Proof.
    intros N Pa Pc C L. unfold module_aliases. set (l := topological_sort (sort name_not_after aliases)).
    assert (P : Permutation aliases l) by (etransitivity; [apply sort_perm|apply topological_ok]).
    assert (O : ordered (map snd aliases) [] l).
    { intros pre a post E s Is K. apply (proj2 (topological_ok (sort name_not_after aliases)) pre a post E s); auto. eapply Permutation_in; [apply Permutation_map, sort_perm|exact Is]. }
    pose proof (manual_ok aliases N Pa l [] e outer P) as M. pose proof (manual_length l outer) as Len. destruct (manual_defs l outer) as [ds m]. cbn [snd] in Len.
    destruct M as (S & K & E).
    - intros pre a post El s Is In_. destruct (O pre a post El s Is In_) as [[]|Q]; exact Q.
    - intros t name H. destruct (C t name H) as [I|[G I]]; [right; auto|left; auto].
    - assert (So : sound (rev l ++ e) m).
      { intros t name H. destruct (K t name H) as [[G _]|[I D]]; auto. exfalso. apply D. cbn [app]. eapply Permutation_in; [apply Permutation_map; exact P|]. change t with (snd (name, t)). apply in_map. exact I. }
      destruct (auto_total fuel counts m) as (r & Er). { rewrite <- (Permutation_length P) in Len. lia. }
      rewrite Er. destruct (auto_aliases_ok _ _ _ _ Er) as (Nr & Fr & Ir).
      pose proof (auto_ok r (rev l ++ e) m) as A. destruct (auto_defs r m) as [ds' m']. destruct A as (S' & So' & E'); auto.
      { intros a I. apply Ir in I. apply in_map_iff in I as (c & <- & I). apply Pc. exact I. }
      exists (ds ++ ds'), m'. split; [reflexivity|]. split.
      + apply stepwise_app. split; [exact S|]. rewrite E. exact S'.
      + assert (EE : map (fun d : text * amap * ty => (fst (fst d), snd d)) (ds ++ ds') = l ++ r) by (etransitivity; [apply map_app|]; f_equal; assumption).
        match goal with |- sound (rev ?x ++ e) m' => replace x with (l ++ r) by (symmetry; exact EE) end. rewrite rev_app_distr, <- app_assoc. exact So'.
  Qed.
  (** The order of the hash map does not show. *)
  Lemma Permutation_filter {A} (f : A -> bool) l l' : Permutation l l' -> Permutation (filter f l) (filter f l').
  Proof.
    induction 1 as [|x l l' P IH|x y l|l1 l2 l3 P1 IH1 P2 IH2]; cbn; auto.
    - destruct (f x); auto.
    - destruct (f x), (f y); auto. apply perm_swap.
    - etransitivity; eauto.
  Qed.
  Definition key_cmp : ty * N -> ty * N -> comparison :=
    lex (fun a b => (snd b ?= snd a)%N) (lex (fun a b => (complexity (fst b) ?= complexity (fst a))%N) (fun a b => text_cmp (plain_text show finite (fst a)) (plain_text show finite (fst b)))).
  Lemma key_comparator : comparator key_cmp.
  Proof.
    apply lex_comparator; [|apply lex_comparator].
    - apply (flip_comparator (fun a b : ty * N => (snd a ?= snd b)%N)), (by_comparator (fun a : ty * N => snd a)), N_comparator.
    - apply (flip_comparator (fun a b : ty * N => (complexity (fst a) ?= complexity (fst b))%N)), (by_comparator (fun a : ty * N => complexity (fst a))), N_comparator.
    - apply (by_comparator (fun a : ty * N => plain_text show finite (fst a))), text_comparator.
  Qed.
  Lemma not_after_key a b : not_after complexity show finite a b = leb_of (key_cmp a b).
  Proof. unfold not_after, key_cmp, lex. destruct (snd b ?= snd a)%N; [|reflexivity..]. destruct (complexity (fst b) ?= complexity (fst a))%N; reflexivity. Qed.
  Lemma auto_perm fuel counts counts' m : Permutation counts counts' -> NoDup (map fst counts) ->
    (forall a b, In a (map fst counts) -> In b (map fst counts) -> plain_text show finite a = plain_text show finite b -> a = b) -> auto fuel counts m = auto fuel counts' m.
  Proof.
    intros P N Inj. unfold auto_aliases. f_equal. f_equal. f_equal. apply sort_perm_inv.
    - intros x y. rewrite !not_after_key. apply leb_total, key_comparator.
    - intros x y z. rewrite !not_after_key. apply leb_trans, key_comparator.
    - apply Permutation_filter. exact P.
    - intros [a n] [b k] Ia Ib. rewrite !not_after_key. rewrite (c_opp _ key_comparator (a, n) (b, k)). intros L1 L2. assert (E : key_cmp (a, n) (b, k) = Eq) by (destruct (key_cmp (a, n) (b, k)); cbn in *; congruence).
      unfold key_cmp, lex in E. cbn [fst snd] in E. destruct (k ?= n)%N eqn:E1; try discriminate. destruct (complexity b ?= complexity a)%N eqn:E2; try discriminate. apply text_cmp_eq in E. apply N.compare_eq_iff in E1. subst.
      apply filter_In in Ia as [Ia _]. apply filter_In in Ib as [Ib _]. f_equal. apply Inj; [apply (in_map fst _ _ Ia)|apply (in_map fst _ _ Ib)|exact E].
  Qed.
End Module.
