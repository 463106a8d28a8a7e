From Coq Require Import Ascii.
From Verif Require Export PathSpec.
Open Scope list_scope.

Notation sep := (":"%char :: ":"%char :: nil).

Lemma las_app a b : list_ascii_of_string (a ++ b)%string = list_ascii_of_string a ++ list_ascii_of_string b.
Proof. induction a as [|c a IH]; [reflexivity|]. cbn. f_equal. exact IH. Qed.

Lemma las_inj a b : list_ascii_of_string a = list_ascii_of_string b -> a = b.
Proof.
  intros H. rewrite <- (string_of_list_ascii_of_string a), H. apply string_of_list_ascii_of_string.
Qed.

Lemma rsplit_some : forall l acc p n, rsplit acc l = Some (p, n) ->
  exists m, l = m ++ sep ++ p /\ n = rev m ++ acc.
Proof.
  induction l as [|c l IH]; intros acc p n H; [discriminate|]. cbn [rsplit] in H.
  destruct l as [|d l]; [discriminate|].
  destruct (Ascii.eqb c ":" && Ascii.eqb d ":")%bool eqn:E.
  - injection H as <- <-. apply andb_prop in E as [E1 E2]. apply Ascii.eqb_eq in E1, E2. subst.
    exists []. split; reflexivity.
  - apply IH in H as [m [E1 E2]]. exists (c :: m). rewrite E1. split; [reflexivity|].
    rewrite E2. cbn [rev]. rewrite <- app_assoc. reflexivity.
Qed.

Lemma rsplit_none : forall l acc, rsplit acc l = None -> forall m p, l <> m ++ sep ++ p.
Proof.
  induction l as [|c l IH]; intros acc H m p E.
  - destruct m; discriminate.
  - cbn [rsplit] in H. destruct m as [|x m].
    + cbn in E. injection E as -> ->. cbn in H. discriminate.
    + cbn in E. injection E as -> E. destruct l as [|d l].
      * destruct m; discriminate.
      * destruct (Ascii.eqb x ":" && Ascii.eqb d ":")%bool; [discriminate|].
        exact (IH (x :: acc) H m p E).
Qed.

(** The last separator is found: the part after it has none and does not begin inside one. *)
Lemma rsplit_exact : forall m acc p, (forall a b, m <> a ++ sep ++ b) -> (forall a, m <> a ++ [":"%char]) ->
  rsplit acc (m ++ sep ++ p) = Some (p, rev m ++ acc).
Proof.
  induction m as [|c m IH]; intros acc p A L; [reflexivity|].
  assert (A' : forall a b, m <> a ++ sep ++ b) by (intros a b E; apply (A (c :: a) b); rewrite E; reflexivity).
  assert (L' : forall a, m <> a ++ [":"%char]) by (intros a E; apply (L (c :: a)); rewrite E; reflexivity).
  assert (Step : rsplit acc ((c :: m) ++ sep ++ p) = rsplit (c :: acc) (m ++ sep ++ p)).
  { destruct m as [|d m].
    - cbn [List.app rsplit]. destruct (Ascii.eqb_spec c ":") as [->|]; [|reflexivity].
      exfalso. apply (L []). reflexivity.
    - change ((c :: d :: m) ++ sep ++ p) with (c :: d :: (m ++ sep ++ p)).
      change ((d :: m) ++ sep ++ p) with (d :: (m ++ sep ++ p)).
      cbn [rsplit]. destruct (Ascii.eqb_spec c ":") as [->|]; [|reflexivity].
      destruct (Ascii.eqb_spec d ":") as [->|]; [|reflexivity].
      exfalso. apply (A [] m). reflexivity. }
  rewrite Step, IH by assumption. cbn [rev]. rewrite <- app_assoc. reflexivity.
Qed.

Lemma name_rev n : name_ok n ->
  (forall a b, rev (list_ascii_of_string n) <> a ++ sep ++ b) /\
  (forall a, rev (list_ascii_of_string n) <> a ++ [":"%char]).
Proof.
  intros [_ H]. split; intros.
  - intros E. apply H. rewrite in_rev, E, in_app_iff. right. left. reflexivity.
  - intros E. apply H. rewrite in_rev, E, in_app_iff. right. left. reflexivity.
Qed.

Lemma rsplit_once_join p n : name_ok n -> rsplit_once (join_path p n) = Some (p, n).
Proof.
  intros H. apply name_rev in H as [A B]. unfold rsplit_once, join_path.
  rewrite !las_app. cbn [list_ascii_of_string]. rewrite rev_app_distr. cbn [List.app rev].
  rewrite <- !app_assoc.
  change ([":"%char] ++ [":"%char] ++ rev (list_ascii_of_string p)) with (sep ++ rev (list_ascii_of_string p)).
  rewrite rsplit_exact by assumption.
  rewrite !rev_involutive, app_nil_r, !string_of_list_ascii_of_string. reflexivity.
Qed.

Lemma rsplit_once_some s p n : rsplit_once s = Some (p, n) -> s = join_path p n.
Proof.
  unfold rsplit_once. destruct (rsplit [] _) as [[q m]|] eqn:E; [|discriminate].
  intros H. injection H as <- <-. apply rsplit_some in E as [k [E1 E2]].
  apply las_inj. unfold join_path. rewrite !las_app, !list_ascii_of_string_of_list_ascii.
  rewrite <- (rev_involutive (list_ascii_of_string s)), E1, E2, app_nil_r, rev_app_distr.
  cbn. rewrite <- !app_assoc. reflexivity.
Qed.

Lemma rsplit_once_none s : rsplit_once s = None <-> simple_text s.
Proof.
  split.
  - unfold rsplit_once. destruct (rsplit [] _) as [[q m]|] eqn:E; [discriminate|]. intros _ a b Q.
    apply (rsplit_none _ _ E (rev (list_ascii_of_string b)) (rev (list_ascii_of_string a))).
    rewrite Q, !las_app. cbn [list_ascii_of_string]. rewrite rev_app_distr. cbn [List.app rev].
    rewrite <- !app_assoc. reflexivity.
  - intros H. destruct (rsplit_once s) as [[p n]|] eqn:E; [|reflexivity].
    apply rsplit_once_some in E. exfalso. exact (H p n E).
Qed.

Lemma has_separator_ok l : has_separator l = true <-> exists a b, l = a ++ sep ++ b.
Proof.
  induction l as [|c l IH].
  - split; [discriminate|]. intros [[|x a] [b E]]; discriminate.
  - cbn [has_separator]. destruct l as [|d l].
    + split; [discriminate|]. intros [[|x [|y a]] [b E]]; discriminate.
    + rewrite orb_true_iff, andb_true_iff, !Ascii.eqb_eq, IH. split.
      * intros [[-> ->]|[a [b ->]]]; [exists [], l; reflexivity | exists (c :: a), b; reflexivity].
      * intros [[|x a] [b E]].
        -- injection E as -> -> ->. left. auto.
        -- injection E as -> E. right. exists a, b. exact E.
Qed.

Lemma is_simple_ok s : is_simple s = true <-> simple_text s.
Proof.
  unfold is_simple, simple_text. rewrite negb_true_iff. split.
  - intros H a b E. assert (X : has_separator (list_ascii_of_string s) = true).
    { apply has_separator_ok. exists (list_ascii_of_string a), (list_ascii_of_string b).
      rewrite E, !las_app. reflexivity. }
    congruence.
  - intros H. destruct (has_separator _) eqn:E; [|reflexivity]. exfalso.
    apply has_separator_ok in E as [a [b E]]. apply (H (string_of_list_ascii a) (string_of_list_ascii b)).
    apply las_inj. rewrite E, !las_app, !list_ascii_of_string_of_list_ascii. reflexivity.
Qed.

Lemma join_split p n : name_ok n ->
  parent_path (join_path p n) = Some p /\ last_segment_of (join_path p n) = n.
Proof. intros H. unfold parent_path, last_segment_of. rewrite rsplit_once_join by exact H. auto. Qed.

Lemma split_join s :
  (is_simple s = true -> parent_path s = None /\ last_segment_of s = s) /\
  (is_simple s = false -> exists p, parent_path s = Some p /\ s = join_path p (last_segment_of s)).
Proof.
  unfold parent_path, last_segment_of. split; intros H.
  - apply is_simple_ok, rsplit_once_none in H. rewrite H. auto.
  - destruct (rsplit_once s) as [[p n]|] eqn:E.
    + exists p. split; [reflexivity | apply rsplit_once_some; exact E].
    + apply rsplit_once_none, is_simple_ok in E. congruence.
Qed.

(** Building names *)
Lemma append_assoc (a b c : string) : ((a ++ b) ++ c)%string = (a ++ (b ++ c))%string.
Proof. induction a as [|x a IH]; [reflexivity|]. cbn. f_equal. exact IH. Qed.
Lemma append_nil a : (a ++ "")%string = a.
Proof. induction a as [|x a IH]; [reflexivity|]. cbn. f_equal. exact IH. Qed.

Lemma truncate_app p q : truncate (p ++ q)%string (String.length p) = p.
Proof.
  unfold truncate. induction p as [|c p IH]; cbn.
  - destruct q; reflexivity.
  - f_equal. exact IH.
Qed.

Lemma buffers_restored p n :
  truncate (fst (push_prefix p n)) (snd (push_prefix p n)) = p /\ snd (qualified_symbol p n) = p.
Proof.
  unfold push_prefix, qualified_symbol. cbn [fst snd]. destruct p as [|c p].
  - split; [|reflexivity]. apply (truncate_app EmptyString).
  - cbn [snd]. rewrite !append_assoc. split; apply truncate_app.
Qed.

Lemma push_text buf seg : buf <> EmptyString -> fst (push_prefix buf seg) = (buf ++ "::" ++ seg)%string.
Proof. intros H. unfold push_prefix. destruct buf; [contradiction|]. cbn [fst]. apply append_assoc. Qed.

Lemma path_text_app l : forall s, l <> [] -> path_text (l ++ [s]) = (path_text l ++ "::" ++ s)%string.
Proof.
  induction l as [|x l IH]; intros s H; [contradiction|]. destruct l as [|y l]; [reflexivity|].
  change (path_text ((x :: y :: l) ++ [s])) with (x ++ "::" ++ path_text ((y :: l) ++ [s]))%string.
  change (path_text (x :: y :: l)) with (x ++ "::" ++ path_text (y :: l))%string.
  rewrite IH by discriminate. rewrite !append_assoc. reflexivity.
Qed.

Lemma path_text_nonempty l : l <> [] -> (forall s, In s l -> s <> EmptyString) -> path_text l <> EmptyString.
Proof.
  destruct l as [|x l]; intros H A; [contradiction|]. assert (N := A x (or_introl eq_refl)).
  destruct x as [|c x]; [contradiction|]. cbn. destruct l; discriminate.
Qed.

Lemma push_all_text path : forall done, (forall s, In s (done ++ path) -> s <> EmptyString) ->
  push_all (path_text done) path = path_text (done ++ path).
Proof.
  induction path as [|s path IH]; intros done A; [rewrite app_nil_r; reflexivity|]. cbn [push_all].
  assert (E : fst (push_prefix (path_text done) s) = path_text (done ++ [s])).
  { destruct done as [|d done]; [reflexivity|].
    rewrite push_text by (apply path_text_nonempty; [discriminate|]; intros x Hx; apply A; apply in_or_app; left; exact Hx).
    symmetry. apply path_text_app. discriminate. }
  rewrite E, IH; rewrite <- app_assoc; [reflexivity | exact A].
Qed.

Lemma qualified_path_text path : path <> [] -> (forall s, In s path -> s <> EmptyString) ->
  qualified_path_symbol path = Some (path_text path).
Proof.
  intros H A. destruct (exists_last H) as [l [s ->]]. unfold qualified_path_symbol, split_last.
  rewrite rev_app_distr. cbn [rev List.app]. rewrite rev_involutive.
  change EmptyString with (path_text []). rewrite push_all_text.
  2:{ intros x Hx. apply A. apply in_or_app. left. exact Hx. }
  cbn [List.app]. f_equal. destruct l as [|x l]; [reflexivity|].
  rewrite path_text_app by discriminate.
  assert (N : path_text (x :: l) <> EmptyString).
  { apply path_text_nonempty; [discriminate|]. intros y Hy. apply A. apply in_or_app. left. exact Hy. }
  unfold qualified_symbol. destruct (path_text (x :: l)) as [|c t]; [contradiction|]. cbn [fst].
  apply append_assoc.
Qed.

Lemma path_las l : l <> [] -> forall m, m <> [] ->
  (forall s, In s l -> name_ok s) -> (forall s, In s m -> name_ok s) ->
  list_ascii_of_string (path_text l) = list_ascii_of_string (path_text m) -> l = m.
Proof.
  (* a colon-free prefix followed by a separator or the end is determined *)
  assert (K : forall a b x y : list ascii, ~ In ":"%char a -> ~ In ":"%char b ->
    (x = [] \/ exists t, x = ":"%char :: t) -> (y = [] \/ exists t, y = ":"%char :: t) ->
    a ++ x = b ++ y -> a = b /\ x = y).
  { induction a as [|c a IH]; intros b x y Ha Hb Hx Hy E.
    - destruct b as [|d b]; [auto|]. cbn in E. exfalso. destruct Hx as [->|[t ->]]; [discriminate|].
      injection E as <- _. apply Hb. left. reflexivity.
    - destruct b as [|d b].
      + cbn in E. exfalso. destruct Hy as [->|[t ->]]; [discriminate|]. injection E as -> _. apply Ha. left. reflexivity.
      + injection E as -> E. destruct (IH b x y) as [-> ->]; auto; intros Q; [apply Ha | apply Hb]; right; exact Q. }
  induction l as [|s l IH]; intros Hl m Hm Nl Nm E; [contradiction|].
  destruct m as [|t m]; [contradiction|].
  assert (X : forall s l, path_text (s :: l) = (s ++ match l with [] => "" | _ => "::" ++ path_text l end)%string).
  { intros a [|b r]; [symmetry; apply append_nil | reflexivity]. }
  rewrite !X, !las_app in E.
  apply K in E as [E1 E2].
  - apply las_inj in E1. subst t. f_equal.
    destruct l as [|x l], m as [|y m]; try reflexivity; try discriminate.
    cbn [list_ascii_of_string append] in E2. injection E2 as E2.
    apply IH; auto; try discriminate; intros z Hz; [apply Nl | apply Nm]; right; exact Hz.
  - apply (Nl s). left. reflexivity.
  - apply (Nm t). left. reflexivity.
  - destruct l; [left; reflexivity | right; eexists; reflexivity].
  - destruct m; [left; reflexivity | right; eexists; reflexivity].
Qed.

Lemma qualified_injective l m : l <> [] -> m <> [] ->
  (forall s, In s l -> name_ok s) -> (forall s, In s m -> name_ok s) ->
  qualified_path_symbol l = qualified_path_symbol m -> l = m.
Proof.
  intros Hl Hm Nl Nm E.
  rewrite (qualified_path_text l) in E by (first [exact Hl | intros s Hs; apply Nl; exact Hs]).
  rewrite (qualified_path_text m) in E by (first [exact Hm | intros s Hs; apply Nm; exact Hs]).
  injection E as E. apply path_las; auto. congruence.
Qed.
