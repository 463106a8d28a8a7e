(** Annotations, receivers and the types of expressions. *)
From Verif Require Export TdnrSpec MonoSyntax.
From Verif Require Import TyProofs SubstProofs PathProofs MonoRefs.
Local Open Scope nat_scope. Local Open Scope list_scope.

Section AnnotInd.
  Variable P : annot -> Prop.
  Hypothesis Hn : forall n, P (ANamed n). Hypothesis Hp : forall p, P (APath p). Hypothesis Ha : forall c ts, P c -> Forall P ts -> P (AApp c ts).
  Hypothesis Hf : forall ps r es, P (AFunc ps r es). Hypothesis Ht : forall ts, P (ATuple ts). Hypothesis Hi : P AInfer. Hypothesis He : P AErr.
  Fixpoint annot_all (a : annot) : P a :=
    match a with
    | ANamed n => Hn n | APath p => Hp p
    | AApp c ts => Ha c ts (annot_all c) ((fix go l : Forall P l := match l with [] => Forall_nil _ | x :: l => Forall_cons _ (annot_all x) (go l) end) ts)
    | AFunc ps r es => Hf ps r es | ATuple ts => Ht ts | AInfer => Hi | AErr => He
    end.
End AnnotInd.

(** ** Paths *)
Lemma names_nonempty p : Forall name_ok p -> forall s, In s p -> s <> EmptyString.
Proof. rewrite Forall_forall. intros H s I. apply H in I as [I _]. exact I. Qed.
Lemma text_nil p : Forall name_ok p -> path_text p = "" -> p = [].
Proof. intros H E. destruct p; auto. exfalso. eapply path_text_nonempty; eauto; [discriminate|]. apply names_nonempty; auto. Qed.
Lemma text_inj p q : Forall name_ok p -> Forall name_ok q -> path_text p = path_text q -> p = q.
Proof.
  intros A B E. destruct p as [|s p]; [symmetry; apply text_nil; auto|]. destruct q as [|t q]; [apply text_nil; auto|].
  rewrite Forall_forall in A, B. apply path_las; try discriminate; auto. congruence.
Qed.
Lemma pushed path n : Forall name_ok path -> fst (push_prefix (path_text path) n) = path_text (path ++ [n]).
Proof.
  intros H. destruct path as [|s path]; [reflexivity|]. rewrite path_text_app by discriminate. apply push_text. apply path_text_nonempty; [discriminate|]. apply names_nonempty; auto.
Qed.
Lemma qualified path n : Forall name_ok path -> fst (qualified_symbol (path_text path) n) = path_text (path ++ [n]).
Proof.
  intros H. rewrite <- pushed by auto. unfold qualified_symbol, push_prefix. destruct (path_text path); reflexivity.
Qed.
Lemma ok_snoc path n : Forall name_ok path -> name_ok n -> Forall name_ok (path ++ [n]).
Proof. intros. apply Forall_app; auto. Qed.
Lemma trimmed path : Forall name_ok path -> trim_end (path_text path) = path_text path.
Proof.
  intros H. unfold trim_end. assert (E : trim_rev (rev (list_ascii_of_string (path_text path))) = rev (list_ascii_of_string (path_text path))).
  { destruct path as [|s path] using rev_ind; [reflexivity|]. apply Forall_app in H as [H S]. inv S. destruct H2 as [NE NC].
    assert (exists pre, path_text (path ++ [s]) = (pre ++ s)%string) as [pre ->].
    { destruct path; [exists ""%string; reflexivity|]. rewrite path_text_app by discriminate. exists (path_text (s0 :: path) ++ "::")%string. rewrite append_assoc. reflexivity. }
    rewrite las_app, rev_app_distr. destruct s as [|c s]; [contradiction|].
    assert (exists x r, rev (list_ascii_of_string (String c s)) = x :: r /\ In x (list_ascii_of_string (String c s))) as [x [r [E I]]].
    { destruct (rev (list_ascii_of_string (String c s))) eqn:Q; [apply (f_equal (@List.length _)) in Q; rewrite rev_length in Q; discriminate|].
      exists a, l. split; auto. apply in_rev. rewrite Q. cbn; auto. }
    rewrite E. cbn [List.app trim_rev]. destruct (r ++ rev (list_ascii_of_string pre)); auto.
    destruct (Ascii.eqb_spec x ":"); [subst; contradiction|]. reflexivity. }
  rewrite E, rev_involutive. apply string_of_list_ascii_of_string.
Qed.
Lemma simple_name n : name_ok n -> is_simple n = true.
Proof.
  intros [_ H]. apply is_simple_ok. intros a b ->. apply H. rewrite las_app. apply in_or_app. right. cbn. auto.
Qed.
Lemma long_path p q s : is_simple (path_text (p :: q :: s)) = false.
Proof.
  destruct (is_simple _) eqn:E; auto. apply is_simple_ok in E. exfalso. eapply (E p (path_text (q :: s))). reflexivity.
Qed.

(** ** Known types *)
Definition texts (k : typelist) : list (string * tydef) := List.map (fun e => (path_text (fst e), snd e)) k.
Definition known_ok (k : typelist) : Prop := Forall (fun e => Forall name_ok (fst e)) k.
Lemma path_eqb_eq a b : path_eqb a b = true <-> a = b.
Proof. unfold path_eqb. destruct (list_eq_dec string_dec a b); split; congruence. Qed.
Lemma find_app {A} (f : A -> bool) a b : find f (a ++ b) = match find f a with Some x => Some x | None => find f b end.
Proof. induction a; cbn; auto. destruct (f a); auto. Qed.
Lemma declared_text k p : known_ok k -> Forall name_ok p -> at_name_last (texts k) (path_text p) = declared k p.
Proof.
  intros K P. unfold declared. induction K as [|[q d] k Q K IH]; cbn; auto. cbn [fst snd] in *. rewrite find_app. cbn [find].
  fold (texts k). rewrite IH. destruct (find _ (rev k)) as [e|]; cbn [option_map]; auto.
  destruct (String.eqb_spec (path_text q) (path_text p)) as [E|E]; cbn [fst].
  - apply text_inj in E as ->; auto. rewrite (proj2 (path_eqb_eq p p) eq_refl). reflexivity.
  - destruct (path_eqb q p) eqn:F; auto. apply path_eqb_eq in F as ->. contradiction.
Qed.
Lemma around_snoc scope s : around (scope ++ [s]) = (scope ++ [s]) :: around scope.
Proof. induction scope as [|x scope IH]; cbn; auto. rewrite IH. reflexivity. Qed.
Lemma parent path s : Forall name_ok path -> name_ok s ->
  match rsplit_once (path_text (path ++ [s])) with Some (p, _) => p | None => "" end = path_text path.
Proof.
  intros P S. destruct path as [|x path].
  - cbn. destruct (rsplit_once s) as [[a b]|] eqn:E; auto. apply rsplit_once_some in E. apply simple_name, is_simple_ok in S. destruct (S a b E).
  - rewrite path_text_app by discriminate. change (path_text (x :: path) ++ "::" ++ s)%string with (join_path (path_text (x :: path)) s).
    rewrite rsplit_once_join by auto. reflexivity.
Qed.
Lemma append_length a b : String.length (a ++ b)%string = String.length a + String.length b.
Proof. induction a; cbn; auto. Qed.
Lemma scoped_meant k n : known_ok k -> name_ok n -> forall scope fuel, Forall name_ok scope -> String.length (path_text scope) <= fuel ->
  scoped_identity fuel (texts k) (path_text scope) n = meant k scope [n].
Proof.
  intros K N. induction scope as [|s scope IH] using rev_ind; intros fuel S F.
  - assert (E : scoped_identity fuel (texts k) (path_text []) n = get_identity (texts k) n) by (destruct fuel; reflexivity). rewrite E.
    unfold get_identity. change n with (path_text [n]) at 1. rewrite declared_text by auto. unfold meant. cbn [around find List.app].
    destruct (declared k [n]) eqn:D; cbn; rewrite ?D; auto.
  - apply Forall_app in S as [S T]. inv T. assert (NE : path_text (scope ++ [s]) <> "") by (intros E; apply text_nil in E; [destruct scope; discriminate|apply ok_snoc; auto]).
    destruct fuel as [|fuel]; [destruct (path_text (scope ++ [s])); [contradiction|cbn in F; lia]|].
    assert (E : scoped_identity (Datatypes.S fuel) (texts k) (path_text (scope ++ [s])) n =
       match at_name_last (texts k) (path_text (scope ++ [s]) ++ "::" ++ n)%string with Some d => d
       | None => scoped_identity fuel (texts k) (match rsplit_once (path_text (scope ++ [s])) with Some (parent, _) => parent | None => "" end) n end).
    { cbn [scoped_identity]. destruct (path_text (scope ++ [s])); [contradiction|reflexivity]. }
    rewrite E, parent, <- path_text_app by (solve [auto | destruct scope; discriminate]). rewrite declared_text by (auto using ok_snoc).
    unfold meant. rewrite around_snoc. cbn [find]. destruct (declared k ((scope ++ [s]) ++ [n])) eqn:D; [rewrite D; reflexivity|].
    rewrite IH; [reflexivity|auto|].
    destruct scope as [|x scope]; [cbn; lia|]. rewrite path_text_app, !append_length in F by discriminate. cbn [String.length] in F. lia.
Qed.
Lemma lookup_meant k scope p : known_ok k -> Forall name_ok scope -> Forall name_ok p -> p <> [] ->
  lookup_type_identity (texts k) (path_text p) (path_text scope) = meant k scope p.
Proof.
  intros K S P NE. unfold lookup_type_identity. destruct p as [|n [|m p]]; [contradiction| |].
  - inv P. cbn [path_text]. rewrite simple_name by auto. cbn [negb]. rewrite trimmed by auto. apply scoped_meant; auto.
  - rewrite long_path. cbn [negb]. unfold get_identity, meant. rewrite declared_text by auto. reflexivity.
Qed.

(** ** Annotations *)
Lemma primitive n p : from_primitive_name n = Some p <-> n = prim_text p.
Proof.
  unfold from_primitive_name. split.
  - intros H. repeat (match type of H with context [String.eqb n ?s] => destruct (String.eqb_spec n s) as [->|_]; [injection H as <-; reflexivity|] end). discriminate.
  - intros ->. destruct p; reflexivity.
Qed.
Lemma annot_args ts : fold_right (fun t P => annot_ok t /\ P) True ts -> Forall annot_ok ts.
Proof. induction ts; cbn; intros H; constructor; tauto. Qed.
Lemma annotation_type_ok k scope a : known_ok k -> Forall name_ok scope -> annot_ok a -> annotated k scope a (annotation_type (texts k) (path_text scope) a).
Proof.
  intros K S. induction a using annot_all; cbn [annot_ok annotation_type]; intros O; try constructor.
  - destruct (from_primitive_name n) as [p|] eqn:E; [apply primitive in E as ->; constructor|].
    unfold nominal. change n with (path_text [n]) at 2. rewrite lookup_meant by (auto; discriminate). constructor.
    intros p Q. apply primitive in Q. congruence.
  - destruct p as [|s p]; [constructor|]. rewrite qualified_path_text by (try discriminate; apply names_nonempty; auto).
    unfold nominal. rewrite lookup_meant by (auto; discriminate). constructor. discriminate.
  - apply IHa; tauto.
  - destruct O as [_ O]. apply annot_args in O. clear IHa. induction H; inv O; cbn; constructor; auto.
Qed.
Lemma annotated_det k scope a : forall t u, annotated k scope a t -> annotated k scope a u -> t = u.
Proof.
  induction a using annot_all; intros t u A B; inv A; inv B; auto.
  - destruct p, p0; try discriminate; auto.
  - exfalso. eapply H0; eauto.
  - exfalso. eapply H0; eauto.
  - contradiction.
  - contradiction.
  - f_equal; [eapply IHa; eauto|]. clear - H H4 H6. revert ts'0 H6. induction H4; intros ts'' B; inv B; auto. inv H. f_equal; eauto.
Qed.
Lemma receiver_named a : (exists n, receiver_name a = Some n) <-> names_type a.
Proof.
  split.
  - induction a using annot_all; cbn; intros [m E]; try discriminate; try constructor; eauto.
    intros ->. discriminate.
  - induction 1; cbn; eauto. unfold qualified_path_symbol, split_last. destruct (rev p) eqn:E; eauto.
    apply (f_equal (@rev _)) in E. rewrite rev_involutive in E. contradiction.
Qed.

(** ** Effects *)
Lemma variable_case n : is_type_variable n = true <-> lower_case n.
Proof.
  unfold is_type_variable, lower_case. destruct n as [|c s]; split; try discriminate.
  - intros [c [s [E _]]]. discriminate.
  - intros H. apply andb_true_iff in H as [A B]. exists c, s. split; auto. apply N.leb_le in A, B. auto.
  - intros [d [r [E [A B]]]]. injection E as <- <-. apply andb_true_iff. split; apply N.leb_le; auto.
Qed.
Lemma variable_not n : is_type_variable n = false -> ~ lower_case n.
Proof. intros E H. apply variable_case in H. congruence. Qed.
Lemma row_variable_ok a : is_row_variable a = true <-> row_variable a.
Proof.
  unfold row_variable. destruct a; cbn; try (split; [discriminate|intros [H|[m [H _]]]; discriminate]).
  - rewrite variable_case. split; [eauto|]. intros [H|[m [H L]]]; [discriminate|]. injection H as <-. auto.
  - split; auto.
Qed.
Lemma split_last_some p n q : split_last p = Some (n, q) -> p = q ++ [n].
Proof.
  unfold split_last. destruct (rev p) eqn:E; [discriminate|]. intros [= -> <-]. apply (f_equal (@rev _)) in E. rewrite rev_involutive in E. exact E.
Qed.
Lemma split_last_none p : split_last p = None -> p = [].
Proof. unfold split_last. destruct (rev p) eqn:E; [|discriminate]. intros _. apply (f_equal (@rev _)) in E. rewrite rev_involutive in E. exact E. Qed.
Lemma path_ability_ok q n : Forall name_ok (q ++ [n]) -> ability_resolved (fst (qualified_symbol (push_all "" q) n)) = path_ability (q ++ [n]).
Proof.
  intros O. pose proof O as O'. apply Forall_app in O' as [Q _].
  change ""%string with (path_text []). rewrite push_all_text by (apply names_nonempty; auto). cbn [List.app]. rewrite qualified by auto.
  unfold ability_resolved, path_ability. destruct (path_eqb (q ++ [n]) _) eqn:E.
  - apply path_eqb_eq in E. rewrite E. reflexivity.
  - destruct (String.eqb_spec (path_text (q ++ [n])) "std::io::Io") as [F|_]; auto.
    change "std::io::Io"%string with (path_text ["std"; "io"; "Io"]%string) in F. apply text_inj in F; auto.
    + rewrite F in E. rewrite (proj2 (path_eqb_eq _ _) eq_refl) in E. discriminate.
    + repeat constructor; try discriminate; cbn; intuition discriminate.
Qed.
Definition effect_list (o : option effect) : list effect := match o with Some e => [e] | None => [] end.
Lemma effect_ok k scope a : known_ok k -> Forall name_ok scope -> annot_ok a ->
  effect_of k scope a (effect_list (annotation_effect (annotation_type (texts k) (path_text scope)) a)).
Proof.
  intros K S O.
  assert (ARGS : forall ts, Forall annot_ok ts -> Forall2 (annotated k scope) ts (List.map (annotation_type (texts k) (path_text scope)) ts)).
  { induction 1; cbn; constructor; auto. apply annotation_type_ok; auto. }
  destruct a; cbn [annotation_effect]; try constructor.
  - destruct (is_type_variable n) eqn:V; cbn [effect_list]; constructor; [apply variable_case; auto|apply variable_not; auto].
  - cbn [annot_ok] in O. destruct (split_last p) as [[n q]|] eqn:E; [|apply split_last_none in E as ->; constructor].
    apply split_last_some in E as ->. destruct (is_type_variable n) eqn:V; cbn [effect_list]; [constructor; apply variable_case; auto|].
    rewrite path_ability_ok by auto. constructor. apply variable_not; auto.
  - cbn [annot_ok] in O. destruct O as [C O]. apply annot_args in O. destruct a; try (cbn; constructor; intros; discriminate).
    + destruct (is_type_variable n) eqn:V; cbn [effect_list]; constructor; auto; [apply variable_case; auto|apply variable_not; auto].
    + cbn [annot_ok] in C. destruct (split_last p) as [[n q]|] eqn:E; [|apply split_last_none in E as ->; constructor].
      apply split_last_some in E as ->. destruct (is_type_variable n) eqn:V; cbn [effect_list]; [constructor; apply variable_case; auto|].
      rewrite path_ability_ok by auto. constructor; auto. apply variable_not; auto.
Qed.
Lemma row_ok k scope l e : known_ok k -> Forall name_ok scope -> (forall x, l = Some x -> Forall annot_ok x) ->
  annotations_effect_row (annotation_type (texts k) (path_text scope)) l = Some e -> row_of k scope l e.
Proof.
  intros K S O. destruct l as [l|]; cbn; [|intros [= <-]; constructor].
  assert (G : existsb is_row_variable l = false ->
     row_of k scope (Some l) (flat_map (fun a => effect_list (annotation_effect (annotation_type (texts k) (path_text scope)) a)) l, None)).
  { intros V. rewrite flat_map_concat_map. constructor.
    - apply Forall_forall. intros a I R. apply row_variable_ok in R. assert (X : existsb is_row_variable l = true) by (apply existsb_exists; eauto). congruence.
    - specialize (O l eq_refl). clear V. induction O; cbn; constructor; auto. apply effect_ok; auto. }
  destruct l as [|a l]; [intros [= <-]; apply (G eq_refl)|]. destruct (existsb is_row_variable (a :: l)) eqn:V; [discriminate|]. intros [= <-]. apply G; auto.
Qed.
Lemma row_none convert l : annotations_effect_row convert l = None <-> exists x a, l = Some x /\ In a x /\ row_variable a.
Proof.
  destruct l as [l|]; [|split; [discriminate|intros [x [a [E _]]]; discriminate]].
  assert (G : existsb is_row_variable l = true <-> exists x a, Some l = Some x /\ In a x /\ row_variable a).
  { rewrite existsb_exists. split.
    - intros [a [I R]]. apply row_variable_ok in R. eauto.
    - intros [x [a [E [I R]]]]. injection E as <-. apply row_variable_ok in R. eauto. }
  rewrite <- G. unfold annotations_effect_row. destruct l as [|a l]; [split; discriminate|]. destruct (existsb is_row_variable (a :: l)); split; congruence.
Qed.
Lemma annotateds_det k scope ts : forall us vs, Forall2 (annotated k scope) ts us -> Forall2 (annotated k scope) ts vs -> us = vs.
Proof. induction ts; intros us vs A B; inv A; inv B; auto. f_equal; eauto using annotated_det. Qed.
Lemma effect_det k scope a e e' : effect_of k scope a e -> effect_of k scope a e' -> e = e'.
Proof.
  intros A B; inv A; inv B; auto; try contradiction;
    repeat match goal with H : _ ++ [_] = _ ++ [_] |- _ => apply app_inj_tail in H as [? ?]; subst | H : _ ++ [_] = [] |- _ => apply app_eq_nil in H as [_ H]; discriminate
           | H : [] = _ ++ [_] |- _ => symmetry in H; apply app_eq_nil in H as [_ H]; discriminate end; auto; try contradiction; try congruence;
    try (repeat f_equal; eapply annotateds_det; eauto; fail); exfalso;
    match goal with H : forall _, ?a <> _ |- _ => eapply H; reflexivity end.
Qed.
Lemma row_det k scope l e e' : row_of k scope l e -> row_of k scope l e' -> e = e'.
Proof.
  intros A B; inv A; inv B; auto. f_equal. f_equal. clear H H2. revert es0 H3. induction H0; intros es'' B; inv B; auto. f_equal; eauto using effect_det.
Qed.

(** ** Receivers *)
Lemma head_det t h h' : head_of t h -> head_of t h' -> h = h'.
Proof. intros A. revert h'. induction A; intros h' B; inv B; auto. Qed.
Lemma same_ok d : forall a, same_constructor d a = true <-> exists h, head_of d h /\ head_of a h.
Proof.
  assert (NO : forall d, (forall h, ~ head_of d h) -> forall a, False <-> exists h, head_of d h /\ head_of a h) by (intros; firstorder).
  assert (BASE : forall d g, (forall h, head_of d h -> h = g) -> head_of d g -> forall f : ty -> bool,
     (forall c ts, f (TApp c ts) = f c) -> (forall a, (forall c ts, a <> TApp c ts) -> f a = true <-> head_of a g) -> forall a, f a = true <-> exists h, head_of d h /\ head_of a h).
  { intros d' g U G f FA FB a. transitivity (head_of a g); [|split; [eauto|intros [h [A B]]; apply U in A; subst; auto]].
    induction a using ty_induct; try (apply FB; intros; discriminate). rewrite FA, IHa. split; [apply head_app|]. intros Q; inv Q; auto. }
  assert (NONE : forall f : ty -> bool, (forall c ts, f (TApp c ts) = f c) -> (forall a, (forall c ts, a <> TApp c ts) -> f a = false) -> forall a, f a = false).
  { intros f FA FB a. induction a using ty_induct; try (apply FB; intros; discriminate). rewrite FA; auto. }
  assert (EMPTY : forall d, (forall h, ~ head_of d h) -> (forall c ts, same_constructor d (TApp c ts) = same_constructor d c) ->
     (forall a, (forall c ts, a <> TApp c ts) -> same_constructor d a = false) -> forall a, same_constructor d a = true <-> exists h, head_of d h /\ head_of a h).
  { intros d' N FA FB a. rewrite (NONE _ FA FB). split; [discriminate|]. intros [h [A _]]. destruct (N h A). }
  induction d using ty_induct;
    try (apply EMPTY; [intros h Q; inv Q|reflexivity|intros a Q; destruct a; try reflexivity; destruct (Q a args); reflexivity]).
  - apply (BASE _ (inr p)); [intros h Q; inv Q; auto|constructor|reflexivity|]. intros a Q. destruct a; cbn; try (split; [discriminate|intros R; inv R]; fail).
    + rewrite prim_eqb_eq. split; [intros ->; constructor|intros R; inv R; auto].
    + destruct (Q a args); auto.
  - apply (BASE _ (inl d)); [intros h Q; inv Q; auto|constructor|reflexivity|]. intros a Q. destruct a; cbn; try (split; [discriminate|intros R; inv R]; fail).
    + rewrite tydef_eqb_eq. split; [intros ->; constructor|intros R; inv R; auto].
    + destruct (Q a args0); auto.
  - intros a. cbn [same_constructor]. rewrite IHd. split; intros [h [A B]]; exists h; split; auto; [constructor; auto|inv A; auto].
Qed.
Lemma matches_ok e t : receiver_matches e t = true <-> takes (m_type e) t.
Proof.
  unfold receiver_matches, receiver_ty, takes.
  destruct (m_type e) as [| | | | |l r ef c| | | |]; try (split; [discriminate|intros [q [ps [r [x [c [h [E _]]]]]]]; discriminate]).
  destruct l as [|p ps]; [split; [discriminate|intros [q [ps [r' [x [c' [h [E _]]]]]]]; discriminate]|].
  rewrite same_ok. split.
  - intros [h [A B]]. exists p, ps. do 3 eexists. exists h. auto.
  - intros [q [qs [r' [x [c' [h [E [A B]]]]]]]]. injection E as <- <- <- <- <-. eauto.
Qed.

(** ** Types of expressions *)
Definition text_of (str : option ty) : ty := match str with Some t => t | None => TNamed (unknown "String") "String" [] end.
Lemma made_constructed t u : made t u <-> constructed u = t.
Proof.
  split.
  - intros H; inv H; auto. destruct u; auto. exfalso. eapply H0; eauto.
  - intros <-. destruct u; constructor; intros; discriminate.
Qed.
Lemma collected {A B} (f : A -> option B) l : forall r,
  (List.length (flat_map (fun a => match f a with Some b => [b] | None => [] end) l) = List.length l /\ flat_map (fun a => match f a with Some b => [b] | None => [] end) l = r)
  <-> Forall2 (fun a b => f a = Some b) l r.
Proof.
  assert (LE : forall l, List.length (flat_map (fun a => match f a with Some b => [b] | None => [] end) l) <= List.length l).
  { induction l0 as [|x l0 IH]; cbn; auto. destruct (f x); cbn; lia. }
  induction l as [|a l IH]; intros r; cbn.
  - split; [intros [_ <-]; constructor|intros H; inv H; auto].
  - destruct (f a) as [b|] eqn:E; cbn; split.
    + intros [L <-]. constructor; auto. apply IH. split; auto; lia.
    + intros H. inv H. apply IH in H4 as [L Q]. rewrite Q in *. split; [congruence|]. rewrite E in H2. injection H2 as ->. auto.
    + intros [L _]. specialize (LE l). lia.
    + intros H. inv H. congruence.
Qed.
Lemma typed_ok lit str e : forall t, get_expr_type lit str e = Some t <-> typed lit (text_of str) e t.
Proof.
  induction e using expr_all; intros u; cbn [get_expr_type]; try (split; [discriminate|intros Q; inv Q]; fail).
  - split; [intros [= <-]; constructor|intros Q; inv Q; auto].
  - split.
    + intros H. destruct (lit l) eqn:E; cbn in H; try discriminate; injection H as <-; try (eapply ty_lit; rewrite E; reflexivity). apply ty_text; auto.
    + intros Q; inv Q; [|match goal with H : lit l = _ |- _ => rewrite H end; reflexivity]. destruct (lit l); cbn in *; congruence.
  - split.
    + destruct (get_expr_type lit str e) as [[]|] eqn:E; try discriminate. intros [= <-]. econstructor. apply IHe. reflexivity.
    + intros Q; inv Q. match goal with H : typed _ _ e _ |- _ => apply IHe in H as -> end. reflexivity.
  - split; [intros [= <-]; constructor; apply made_constructed; auto|intros Q; inv Q]. f_equal. apply made_constructed; auto.
  - split; [intros [= <-]; constructor; apply made_constructed; auto|intros Q; inv Q]. f_equal. apply made_constructed; auto.
  - split; [intros Q; constructor; apply IHe; auto|intros Q; inv Q; apply IHe; auto].
  - assert (X : forall ts, Forall2 (fun e t => get_expr_type lit str e = Some t) es ts <-> Forall2 (typed lit (text_of str)) es ts).
    { clear u. induction H; intros ts; split; intros Q; inv Q; constructor; auto; try (apply H; auto); apply IHForall; auto. }
    cbv zeta. pose proof (collected (get_expr_type lit str) es) as C. split.
    + destruct (Nat.eqb_spec (List.length (flat_map (fun e => match get_expr_type lit str e with Some t => [t] | None => [] end) es)) (List.length es)) as [L|]; [|discriminate].
      intros [= <-]. constructor. apply X, C. auto.
    + intros Q; inv Q. match goal with H : Forall2 _ es _ |- _ => apply X, C in H as [L <-] end. rewrite L, Nat.eqb_refl. reflexivity.
  - split; [intros [= <-]; constructor|intros Q; inv Q; auto].
Qed.
Lemma typed_det lit str e t u : typed lit str e t -> typed lit str e u -> t = u.
Proof. change str with (text_of (Some str)). rewrite <- !typed_ok. congruence. Qed.
