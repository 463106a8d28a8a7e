From Coq Require Import Ascii Permutation.
From Verif Require Import InternModel InternSpec InternProofs.
From Verif Require Export EffectRowModel EffectRowSpec TyProofs.

Lemma has_effect_In es e : has_effect es e = true <-> In e es.
Proof.
  unfold has_effect. rewrite existsb_exists. split.
  - intros [x [Hx E]]. apply effect_eqb_eq in E. subst. exact Hx.
  - intros H. exists e. split; [exact H | apply effect_eqb_eq; reflexivity].
Qed.

Lemma has_effect_not es e : has_effect es e = false <-> ~ In e es.
Proof. rewrite <- has_effect_In. destruct (has_effect es e); split; congruence. Qed.

Lemma contains_ok r e : contains r e = true <-> member e r.
Proof. apply has_effect_In. Qed.

Lemma by_name_ok r n :
  (contains_by_name r n = true <-> exists e, member e r /\ ability_name (fst e) = n) /\
  (forall e, In e (find_by_name r n) <-> member e r /\ ability_name (fst e) = n).
Proof.
  split.
  - unfold contains_by_name. rewrite existsb_exists. split; intros [e [H E]]; exists e; split; auto;
    apply String.eqb_eq; exact E.
  - intros e. unfold find_by_name. rewrite filter_In, String.eqb_eq. reflexivity.
Qed.

Lemma NoDup_snoc {A} (l : list A) x : NoDup l -> ~ In x l -> NoDup (l ++ [x]).
Proof.
  intros N H. apply (Permutation_NoDup (l := x :: l)).
  - apply Permutation_cons_append.
  - constructor; assumption.
Qed.

Lemma add_effect_ok r e :
  (forall x, member x (add_effect r e) <-> x = e \/ member x r) /\
  snd (add_effect r e) = snd r /\ (distinct r -> distinct (add_effect r e)) /\
  (member e r -> add_effect r e = r).
Proof.
  unfold add_effect, member, distinct. destruct r as [es t]. cbn [fst snd].
  destruct (has_effect es e) eqn:E.
  - apply has_effect_In in E. repeat split; auto. intros [->|H]; auto.
  - apply has_effect_not in E. split; [|split; [reflexivity|split]].
    + intros x. rewrite in_app_iff. cbn. intuition congruence.
    + intros N. apply NoDup_snoc; assumption.
    + intros H. contradiction.
Qed.

Lemma remove_first_ok es e : match remove_first es e with
  | Some es' => In e es /\ exists a b, es = a ++ e :: b /\ es' = a ++ b /\ ~ In e a
  | None => ~ In e es
  end.
Proof.
  induction es as [|x es IH]; [intros []|]. cbn [remove_first].
  destruct (effect_eqb x e) eqn:E.
  - apply effect_eqb_eq in E. subst x. split; [left; reflexivity|]. exists [], es. auto.
  - assert (N : x <> e) by (intros ->; assert (effect_eqb e e = true) by (apply effect_eqb_eq; reflexivity); congruence).
    destruct (remove_first es e) as [es'|].
    + destruct IH as [H [a [b [-> [-> Ha]]]]]. split; [right; exact H|].
      exists (x :: a), b. cbn. intuition congruence.
    + intros [H|H]; auto.
Qed.

Lemma remove_effect_ok r e :
  (remove_effect r e <> None <-> member e r) /\
  forall r', remove_effect r e = Some r' ->
    snd r' = snd r /\ Permutation (fst r) (e :: fst r') /\
    (distinct r -> distinct r' /\ forall x, member x r' <-> member x r /\ x <> e).
Proof.
  unfold remove_effect, member, distinct. destruct r as [es t]. cbn [fst snd].
  pose proof (remove_first_ok es e) as H. destruct (remove_first es e) as [es'|].
  - destruct H as [H [a [b [-> [-> Ha]]]]]. split; [split; [intros _; exact H | discriminate]|].
    intros r' E. injection E as <-. cbn [fst snd]. split; [reflexivity|].
    split; [symmetry; apply Permutation_middle|].
    intros N. apply NoDup_remove in N as [N1 N2]. split; [exact N1|].
    intros x. rewrite in_app_iff. cbn. rewrite (in_app_iff a (e :: b)). cbn.
    split.
    + intros Hx. split; [tauto|]. intros ->. apply N2. apply in_or_app. tauto.
    + intros [[Hx|[Hx|Hx]] Hne]; auto. congruence.
  - split; [|discriminate]. split; [congruence | contradiction].
Qed.

Lemma remove_with_constraint_ok r e fresh :
  match remove_with_constraint r e fresh with
  | Removed r' => member e r /\ remove_effect r e = Some r'
  | NeedsConstraint v e' rest => ~ member e r /\ snd r = Some v /\ e' = e /\ rest = fresh
  | NotFound => ~ member e r /\ closed r
  end.
Proof.
  unfold remove_with_constraint. destruct (contains r e) eqn:E.
  - apply contains_ok in E. destruct (remove_effect r e) eqn:R; [auto|].
    exfalso. apply (proj1 (remove_effect_ok r e)) in E. congruence.
  - assert (N : ~ member e r) by (rewrite <- contains_ok; congruence).
    unfold closed. destruct (snd r) eqn:T; auto.
Qed.

Lemma add_all_In es2 : forall es1 x, In x (add_all es1 es2) <-> In x es1 \/ In x es2.
Proof.
  induction es2 as [|e es2 IH]; intros es1 x; cbn [add_all]; [cbn; tauto|].
  rewrite IH. destruct (has_effect es1 e) eqn:E; cbn.
  - apply has_effect_In in E. intuition congruence.
  - rewrite in_app_iff. cbn. tauto.
Qed.

Lemma add_all_NoDup es2 : forall es1, NoDup es1 -> NoDup (add_all es1 es2).
Proof.
  induction es2 as [|e es2 IH]; intros es1 N; cbn [add_all]; [exact N|].
  apply IH. destruct (has_effect es1 e) eqn:E; [exact N|].
  apply NoDup_snoc; [exact N | apply has_effect_not; exact E].
Qed.

Lemma add_all_prefix es2 : forall es1, exists t, add_all es1 es2 = es1 ++ t.
Proof.
  induction es2 as [|e es2 IH]; intros es1; cbn [add_all]; [exists []; rewrite app_nil_r; reflexivity|].
  destruct (has_effect es1 e); [apply IH|].
  destruct (IH (es1 ++ [e])) as [t ->]. exists (e :: t). rewrite <- app_assoc. reflexivity.
Qed.

Lemma union_ok r1 r2 fresh :
  (forall e, member e (union r1 r2 fresh) <-> member e r1 \/ member e r2) /\
  (distinct r1 -> distinct (union r1 r2 fresh)) /\
  (closed (union r1 r2 fresh) <-> closed r1 /\ closed r2) /\
  (closed r2 -> snd (union r1 r2 fresh) = snd r1) /\
  (closed r1 -> snd (union r1 r2 fresh) = snd r2) /\
  (~ closed r1 -> ~ closed r2 -> snd (union r1 r2 fresh) = Some fresh).
Proof.
  unfold union, member, distinct, closed. destruct r1 as [e1 t1], r2 as [e2 t2]. cbn [fst snd].
  split; [intros e; apply add_all_In|]. split; [apply add_all_NoDup|].
  split; [destruct t1, t2; split; try tauto; try discriminate; intros [A B]; congruence|].
  destruct t1, t2; split; try split; intros; try congruence; reflexivity.
Qed.

(** Duplicates *)
Lemma conflicts_ok all : forall rest seen, all = rev seen ++ rest -> NoDup (rev seen) ->
  match conflicts all seen rest with
  | None => NoDup all
  | Some (a, ds) => exists e j, fst e = a /\ nth_error all j = Some e /\ NoDup (firstn j all) /\
      In e (firstn j all) /\ ds = filter (fun x => effect_eqb x e) all
  end.
Proof.
  induction rest as [|e rest IH]; intros seen E N; cbn [conflicts].
  - rewrite E, app_nil_r. exact N.
  - destruct (has_effect seen e) eqn:H.
    + apply has_effect_In in H. exists e, (List.length (rev seen)). split; [reflexivity|].
      rewrite E. rewrite nth_error_app2, Nat.sub_diag by lia. rewrite firstn_length_app.
      split; [reflexivity|]. split; [exact N|]. split; [apply in_rev in H; exact H | reflexivity].
    + apply has_effect_not in H. apply IH.
      * cbn [rev]. rewrite <- app_assoc. exact E.
      * cbn [rev]. apply NoDup_snoc; [exact N|]. rewrite <- in_rev. exact H.
Qed.

Lemma filter_eqb_all e es x : In x (filter (fun x => effect_eqb x e) es) -> x = e.
Proof. intros H. apply filter_In in H as [_ H]. apply effect_eqb_eq in H. exact H. Qed.

Lemma first_occurrence (e : effect) l : In e l -> exists i, nth_error l i = Some e /\ ~ In e (firstn i l).
Proof.
  induction l as [|x l IH]; [intros []|]. intros H. destruct (effect_eq_dec x e) as [->|N].
  - exists 0. split; [reflexivity | intros []].
  - destruct H as [H|H]; [contradiction|]. destruct (IH H) as [i [A B]]. exists (S i). split; [exact A|].
    cbn. intros [C|C]; auto.
Qed.

Lemma count_filter e es : List.length (List.filter (fun x => effect_eqb x e) es) = count_occ effect_eq_dec es e.
Proof.
  induction es as [|x es IH]; [reflexivity|]. cbn. destruct (effect_eqb x e) eqn:E.
  - apply effect_eqb_eq in E. subst. destruct (effect_eq_dec e e); [|congruence]. cbn. f_equal. exact IH.
  - destruct (effect_eq_dec x e) as [->|]; [|exact IH].
    assert (effect_eqb e e = true) by (apply effect_eqb_eq; reflexivity). congruence.
Qed.

Lemma conflicting_ok r :
  (find_conflicting_effects r = None <-> distinct r) /\
  forall a ds, find_conflicting_effects r = Some (a, ds) ->
    exists e i j, first_repetition (fst r) i j /\ nth_error (fst r) j = Some e /\ fst e = a /\
      ds = repeat e (count_occ effect_eq_dec (fst r) e) /\ 2 <= List.length ds.
Proof.
  unfold find_conflicting_effects, distinct. destruct r as [es t]. cbn [fst].
  pose proof (conflicts_ok es es [] eq_refl (NoDup_nil _)) as H.
  assert (K : forall a ds, conflicts es [] es = Some (a, ds) ->
    exists e i j, first_repetition es i j /\ nth_error es j = Some e /\ fst e = a /\
      ds = repeat e (count_occ effect_eq_dec es e) /\ 2 <= List.length ds).
  { intros a ds E. rewrite E in H. destruct H as [e [j [Ha [Hj [N [Hi ->]]]]]].
    destruct (first_occurrence _ _ Hi) as [i [Ei _]].
    assert (L : i < j).
    { assert (i < List.length (firstn j es)) by (apply nth_error_Some; congruence).
      rewrite firstn_length in H. lia. }
    rewrite nth_error_firstn in Ei by exact L.
    exists e, i, j. split; [|split; [exact Hj|split; [exact Ha|]]].
    - split; [exact L|]. split; [exists e; auto | exact N].
    - split.
      + rewrite <- count_filter. clear. remember (filter _ _) as l eqn:E.
        assert (F : forall x, In x l -> x = e) by (subst; intros; eapply filter_eqb_all; eassumption).
        clear E. induction l as [|x l IH]; [reflexivity|]. cbn. rewrite (F x (or_introl eq_refl)) at 1.
        f_equal. apply IH. intros. apply F. right. assumption.
      + rewrite count_filter. rewrite <- (firstn_skipn j es), count_occ_app.
        assert (A : count_occ effect_eq_dec (firstn j es) e > 0) by (apply count_occ_In; exact Hi).
        assert (B : count_occ effect_eq_dec (skipn j es) e > 0).
        { apply count_occ_In. apply (nth_error_In _ 0). rewrite nth_error_skipn, Nat.add_0_r. exact Hj. }
        lia. }
  split; [|exact K]. split.
  - intros E. rewrite E in H. exact H.
  - intros N. destruct (conflicts es [] es) as [[a ds]|] eqn:E; [|reflexivity]. exfalso.
    destruct (K a ds eq_refl) as [e [i [j [[L [[x [Hi Hj]] _]] _]]]].
    rewrite NoDup_nth_error in N. assert (i < List.length es) by (apply nth_error_Some; congruence).
    specialize (N i j H0). rewrite Hi, Hj in N. specialize (N eq_refl). lia.
Qed.

Lemma effect_decides : decides_eq effect_eqb.
Proof. intros a b. apply effect_eqb_eq. Qed.

(** The hash map holds each effect seen so far with the origin of its first occurrence. *)
Definition firsts (done : list (effect * nat)) (m : list (effect * nat)) : Prop :=
  forall e, mget effect_eqb m e =
    option_map snd (List.find (fun p => effect_eqb (fst p) e) done).

Lemma find_app {A} (f : A -> bool) l1 l2 : List.find f (l1 ++ l2) =
  match List.find f l1 with Some x => Some x | None => List.find f l2 end.
Proof. induction l1 as [|x l1 IH]; [reflexivity|]. cbn. destruct (f x); [reflexivity | exact IH]. Qed.

Lemma duplicate_ok ann : forall rest done m, firsts done m -> NoDup (List.map fst done) ->
  match duplicate ann m rest with
  | None => NoDup (List.map fst (done ++ rest))
  | Some (ds, id0, id) => exists e i j, i < j /\
      nth_error (done ++ rest) i = Some (e, id0) /\ nth_error (done ++ rest) j = Some (e, id) /\
      NoDup (firstn j (List.map fst (done ++ rest))) /\ ds = filter (fun x => effect_eqb x e) ann
  end.
Proof.
  induction rest as [|[e id] rest IH]; intros done m F N; cbn [duplicate].
  - rewrite app_nil_r. exact N.
  - pose proof (F e) as Fe. destruct (mget effect_eqb m e) as [id0|] eqn:E.
    + destruct (List.find _ done) as [[e0 x]|] eqn:G; [|discriminate]. cbn in Fe. injection Fe as ->.
      apply find_some in G as [G1 G2]. cbn in G2. apply effect_eqb_eq in G2. subst e0.
      apply In_nth_error in G1 as [i Hi].
      assert (L : i < List.length done) by (apply nth_error_Some; congruence).
      exists e, i, (List.length done). split; [exact L|].
      split; [rewrite nth_error_app1 by exact L; exact Hi|].
      split; [rewrite nth_error_app2, Nat.sub_diag by lia; reflexivity|]. split; [|reflexivity].
      rewrite map_app, <- (map_length fst done), firstn_length_app. exact N.
    + destruct (List.find _ done) as [x|] eqn:G; [discriminate|].
      specialize (IH (done ++ [(e, id)]) (minsert effect_eqb m e id)).
      rewrite <- app_assoc in IH. cbn [List.app] in IH. apply IH.
      * intros x. rewrite find_app. destruct (effect_eq_dec e x) as [->|Hne].
        -- rewrite (mget_insert_same _ effect_decides), G. cbn.
           assert (R : effect_eqb x x = true) by (apply effect_eqb_eq; reflexivity). rewrite R. reflexivity.
        -- rewrite (mget_insert_other _ effect_decides) by exact Hne. rewrite F.
           destruct (List.find (fun p => effect_eqb (fst p) x) done) as [y|]; [reflexivity|]. cbn.
           destruct (effect_eqb e x) eqn:Q; [apply effect_eqb_eq in Q; contradiction | reflexivity].
      * rewrite map_app. cbn. apply NoDup_snoc; [exact N|]. intros Hin.
        apply in_map_iff in Hin as [[e' k] [Q Hin]]. cbn in Q. subst e'.
        apply (find_none _ _ G) in Hin. cbn in Hin.
        assert (R : effect_eqb e e = true) by (apply effect_eqb_eq; reflexivity). congruence.
Qed.

Lemma combine_nth {A B} (l1 : list A) : forall (l2 : list B) i,
  nth_error (combine l1 l2) i =
  match nth_error l1 i, nth_error l2 i with Some a, Some b => Some (a, b) | _, _ => None end.
Proof.
  induction l1 as [|a l1 IH]; intros [|b l2] [|i]; cbn; try reflexivity.
  - destruct (nth_error l1 i); reflexivity.
  - apply IH.
Qed.

Lemma map_fst_combine {A B} (l1 : list A) : forall l2 : list B, List.length l1 <= List.length l2 ->
  List.map fst (combine l1 l2) = l1.
Proof.
  induction l1 as [|a l1 IH]; intros [|b l2] H; cbn in *; try reflexivity; [lia|].
  f_equal. apply IH. lia.
Qed.

Lemma find_duplicate_ok origins r :
  let annotated := firstn (List.length origins) (fst r) in
  (find_duplicate origins r = None <-> NoDup annotated) /\
  forall ds first dup, find_duplicate origins r = Some (ds, first, dup) ->
    exists e i j, first_repetition annotated i j /\ nth_error annotated j = Some e /\
      nth_error origins i = Some first /\ nth_error origins j = Some dup /\
      ds = repeat e (count_occ effect_eq_dec annotated e).
Proof.
  cbn zeta. unfold find_duplicate. destruct r as [es t]. cbn [fst].
  assert (A : firstn (Nat.min (List.length es) (List.length origins)) es = firstn (List.length origins) es).
  { destruct (Nat.min_spec (List.length es) (List.length origins)) as [[H ->]|[H ->]]; [|reflexivity].
    rewrite firstn_all, firstn_all2 by lia. reflexivity. }
  rewrite A. clear A. set (ann := firstn (List.length origins) es).
  assert (L : List.length ann <= List.length origins) by (unfold ann; rewrite firstn_length; lia).
  pose proof (duplicate_ok ann (combine ann origins) [] []) as D. cbn [List.app] in D.
  specialize (D (fun e => eq_refl) (NoDup_nil _)). rewrite (map_fst_combine ann origins L) in D.
  assert (K : forall ds first dup, duplicate ann [] (combine ann origins) = Some (ds, first, dup) ->
    exists e i j, first_repetition ann i j /\ nth_error ann j = Some e /\
      nth_error origins i = Some first /\ nth_error origins j = Some dup /\
      ds = repeat e (count_occ effect_eq_dec ann e)).
  { intros ds first dup E. rewrite E in D. destruct D as [e [i [j [Lij [Hi [Hj [N Hds]]]]]]].
    rewrite combine_nth in Hi, Hj.
    destruct (nth_error ann i) eqn:Ai; [|discriminate]. destruct (nth_error origins i) eqn:Oi; [|discriminate].
    destruct (nth_error ann j) eqn:Aj; [|discriminate]. destruct (nth_error origins j) eqn:Oj; [|discriminate].
    injection Hi as -> ->. injection Hj as -> ->.
    exists e, i, j. split; [split; [exact Lij|]; split; [exists e; auto | exact N]|].
    split; [exact Aj|]. split; [exact Oi|]. split; [exact Oj|].
    rewrite Hds, <- count_filter. clear. remember (filter _ _) as l eqn:E.
    assert (F : forall x, In x l -> x = e) by (subst; intros; eapply filter_eqb_all; eassumption).
    clear E. induction l as [|x l IH]; [reflexivity|]. cbn. rewrite (F x (or_introl eq_refl)) at 1.
    f_equal. apply IH. intros. apply F. right. assumption. }
  split; [|exact K]. split.
  - intros E. rewrite E in D. exact D.
  - intros N. destruct (duplicate ann [] (combine ann origins)) as [[[ds f] d]|] eqn:E; [|reflexivity].
    exfalso. destruct (K ds f d eq_refl) as [e [i [j [[Lij [[x [Hi Hj]] _]] _]]]].
    rewrite NoDup_nth_error in N. assert (i < List.length ann) by (apply nth_error_Some; congruence).
    specialize (N i j H). rewrite Hi, Hj in N. specialize (N eq_refl). lia.
Qed.

(** * Row substitutions *)
Lemma nat_decides : decides_eq Nat.eqb.
Proof. intros a b. apply Nat.eqb_eq. Qed.

Lemma rget_In s v r : rget s v = Some r -> In v (List.map fst s).
Proof.
  unfold rget. induction s as [|[k x] s IH]; [discriminate|]. cbn.
  destruct (Nat.eqb v k) eqn:E; [apply Nat.eqb_eq in E; auto | auto].
Qed.

Lemma existsb_In v l : existsb (Nat.eqb v) l = true <-> In v l.
Proof.
  rewrite existsb_exists. split.
  - intros [x [H E]]. apply Nat.eqb_eq in E. subst. exact H.
  - intros H. exists v. split; [exact H | apply Nat.eqb_refl].
Qed.

Lemma rloop_fuel s : forall fuel visited r,
  NoDup visited -> incl visited (List.map fst s) -> List.length s < fuel + List.length visited ->
  exists r', rloop fuel s visited r = Some r'.
Proof.
  induction fuel as [|fuel IH]; intros visited r N I L.
  - apply NoDup_incl_length in I; [|exact N]. rewrite map_length in I. lia.
  - cbn [rloop]. destruct (snd r) as [v|]; [|eauto]. destruct (rget s v) as [r'|] eqn:G; [|eauto].
    destruct (existsb (Nat.eqb v) visited) eqn:E; [eauto|].
    assert (V : ~ In v visited) by (rewrite <- existsb_In; congruence).
    apply IH.
    + constructor; assumption.
    + intros x [<-|Hx]; [apply rget_In in G; exact G | auto].
    + cbn. lia.
Qed.

Lemma rloop_total s r : exists r', rloop (S (List.length s)) s [] r = Some r'.
Proof. apply rloop_fuel; [constructor | intros x [] | cbn; lia]. Qed.

Lemma rapply_loop s r : rloop (S (List.length s)) s [] r = Some (rapply s r).
Proof. unfold rapply. destruct (rloop_total s r) as [r' E]. rewrite E. reflexivity. Qed.

Lemma chain_trans s a b c : chain s a b -> chain s b c -> chain s a c.
Proof. induction 1; intros; [assumption | eapply chain_next; eauto]. Qed.

(** Members of the result: exactly the effects on the chain. *)
Lemma rloop_sound s : forall fuel visited r r', rloop fuel s visited r = Some r' ->
  (forall e, member e r' -> stands_for (rget s) r e) /\ (distinct r -> distinct r') /\
  (exists t, fst r' = fst r ++ t).
Proof.
  induction fuel as [|fuel IH]; intros visited r r' E; [discriminate|]. cbn [rloop] in E.
  assert (Done : forall x, Some r = Some x -> (forall e, member e x -> stands_for (rget s) r e) /\
            (distinct r -> distinct x) /\ exists t, fst x = fst r ++ t).
  { intros x H. injection H as <-. split; [|split; [auto | exists []; rewrite app_nil_r; reflexivity]].
    intros e He. exists r. split; [constructor | exact He]. }
  destruct (snd r) as [v|] eqn:T; [|apply Done; exact E].
  destruct (rget s v) as [q|] eqn:G; [|apply Done; exact E].
  destruct (existsb (Nat.eqb v) visited); [apply Done; exact E|].
  apply IH in E as [M [D P]]. split; [|split].
  - intros e He. destruct (M e He) as [r2 [C Hm]].
    inversion C as [x|x w y z Hw Hy Hc]; subst.
    + unfold member in Hm. cbn in Hm. apply add_all_In in Hm as [Hm|Hm].
      * exists r. split; [constructor | exact Hm].
      * exists q. split; [eapply chain_next; eauto; constructor | exact Hm].
    + cbn in Hw. exists r2. split; [|exact Hm]. eapply chain_next; [exact T | exact G|].
      eapply chain_next; eauto.
  - intros N. apply D. apply add_all_NoDup. exact N.
  - destruct P as [t ->]. cbn [fst]. destruct (add_all_prefix (fst q) (fst r)) as [t' ->].
    exists (t' ++ t). rewrite app_assoc. reflexivity.
Qed.

Lemma chain_det s a b c : chain s a b -> chain s a c -> chain s b c \/ chain s c b.
Proof.
  intros H. revert c. induction H as [a|a v a' b E F H IH]; intros c Hc; [left; exact Hc|].
  inversion Hc as [x|x w y z E2 F2 H2]; subst.
  - right. eapply chain_next; eauto.
  - rewrite E in E2. injection E2 as <-. rewrite F in F2. injection F2 as <-. apply IH. exact H2.
Qed.

(** [merged]: rows reached through the visited variables have been merged in. *)
Definition merged (s : row_subst) (visited : list nat) (es : list effect) : Prop :=
  forall v q e, In v visited -> rget s v = Some q -> In e (fst q) -> In e es.
(** The visited variables are closed under following tails, up to the current tail. *)
Definition followed (s : row_subst) (visited : list nat) (t : option nat) : Prop :=
  forall v q, In v visited -> rget s v = Some q ->
    snd q = t \/ exists w, snd q = Some w /\ In w visited.

Lemma rloop_complete s : forall fuel visited r r',
  merged s visited (fst r) -> followed s visited (snd r) -> rloop fuel s visited r = Some r' ->
  exists visited', incl visited visited' /\ merged s visited' (fst r') /\ followed s visited' (snd r') /\
    incl (fst r) (fst r') /\
    (forall v, snd r = Some v -> snd r' = Some v \/ In v visited') /\
    (forall v q, snd r' = Some v -> rget s v = Some q -> In v visited').
Proof.
  induction fuel as [|fuel IH]; intros visited r r' M F E; [discriminate|]. cbn [rloop] in E.
  destruct (snd r) as [v|] eqn:T.
  2:{ injection E as <-. exists visited. rewrite T. split; [intros x Hx; exact Hx|].
      split; [exact M|]. split; [exact F|]. split; [intros x Hx; exact Hx|]. split; intros; discriminate. }
  destruct (rget s v) as [q|] eqn:G.
  2:{ injection E as <-. exists visited. rewrite T. split; [intros x Hx; exact Hx|].
      split; [exact M|]. split; [exact F|]. split; [intros x Hx; exact Hx|]. split.
      - intros w Hw. left. exact Hw.
      - intros w q Hw Hq. congruence. }
  destruct (existsb (Nat.eqb v) visited) eqn:V.
  { injection E as <-. apply existsb_In in V. exists visited. rewrite T. split; [intros x Hx; exact Hx|].
    split; [exact M|]. split; [exact F|]. split; [intros x Hx; exact Hx|]. split.
    - intros w Hw. left. exact Hw.
    - intros w q' Hw Hq. congruence. }
  apply IH in E.
  - destruct E as [vs [I1 [I2 [I3 [I4 [I5 I6]]]]]]. exists vs. split; [intros x Hx; apply I1; right; exact Hx|].
    split; [exact I2|]. split; [exact I3|]. split.
    + intros x Hx. apply I4. cbn. apply add_all_In. left. exact Hx.
    + split; [|exact I6]. intros w Hw. right. apply I1. left. congruence.
  - cbn [fst]. intros w q' e [<-|Hw] Hq He.
    + rewrite G in Hq. injection Hq as <-. apply add_all_In. right. exact He.
    + apply add_all_In. left. eapply M; eauto.
  - cbn [snd]. intros w q' [<-|Hw] Hq.
    + left. congruence.
    + right. destruct (F w q' Hw Hq) as [H|[x [Hx Hi]]].
      * exists v. split; [exact H | left; reflexivity].
      * exists x. split; [exact Hx | right; exact Hi].
Qed.

Lemma visited_closed s vs t : followed s vs t ->
  (forall v q, t = Some v -> rget s v = Some q -> In v vs) ->
  forall a b, chain (rget s) a b -> forall v, snd a = Some v -> (In v vs \/ t = Some v) ->
  a = b \/ exists w, In w vs /\ rget s w = Some b.
Proof.
  intros F K a b C. induction C as [a|a v a' b E G C IH]; intros u Hu Hin; [left; reflexivity|].
  rewrite E in Hu. injection Hu as <-. right.
  assert (V : In v vs) by (destruct Hin as [H|H]; [exact H | eapply K; eauto]).
  destruct (snd a') as [w|] eqn:T.
  - destruct (IH w eq_refl) as [->|H].
    + destruct (F v a' V G) as [H|[x [Hx Hi]]].
      * right. congruence.
      * left. congruence.
    + exists v. auto.
    + exact H.
  - inversion C; subst; [exists v; auto | congruence].
Qed.

Lemma rapply_ok s r :
  (forall e, member e (rapply s r) <-> stands_for (rget s) r e) /\
  (distinct r -> distinct (rapply s r)) /\
  (exists t, fst (rapply s r) = fst r ++ t).
Proof.
  pose proof (rapply_loop s r) as E. pose proof (rloop_sound s _ _ _ _ E) as [A [B C]].
  split; [|auto]. intros e. split; [apply A|].
  intros [q [Hc Hq]].
  destruct (rloop_complete s (S (List.length s)) [] r (rapply s r)) as [vs [_ [M [F [I [T K]]]]]]; auto.
  { intros v q' e' []. } { intros v q' []. }
  inversion Hc as [x|x v y z Hv Hy Hc']; subst; [apply I; exact Hq|].
  destruct (visited_closed s vs (snd (rapply s r)) F K r q Hc v Hv) as [->|[w [Hw Gw]]].
  - destruct (T v Hv); auto.
  - apply I. exact Hq.
  - eapply M; eauto.
Qed.

Lemma chain_end_unique s r a b : chain_end (rget s) r a -> chain_end (rget s) r b -> a = b.
Proof.
  assert (K : forall a b, chain (rget s) a b -> (snd a = None \/ exists v, snd a = Some v /\ rget s v = None) -> a = b).
  { intros x y C H. inversion C; subst; [reflexivity|]. destruct H as [H|[w [Q1 Q2]]]; congruence. }
  intros [C1 H1] [C2 H2]. destruct (chain_det _ _ _ _ C1 C2) as [C|C].
  - apply K; assumption.
  - symmetry. apply K; assumption.
Qed.

(** Number of tail steps from [a] to [b]. *)
Inductive steps (s : nat -> option row) : nat -> row -> row -> list nat -> Prop :=
| steps_0 r : steps s 0 r r []
| steps_S n r v r' r'' vs : snd r = Some v -> s v = Some r' -> steps s n r' r'' vs ->
    steps s (S n) r r'' (v :: vs).

Lemma chain_steps s a b : chain s a b -> exists n vs, steps s n a b vs.
Proof.
  induction 1 as [a|a v a' b E F C [n [vs IH]]].
  - exists 0, []. constructor.
  - exists (S n), (v :: vs). econstructor; eauto.
Qed.

Lemma steps_from_tail s n a b vs : steps s n a b vs -> forall a', snd a' = snd a -> n <> 0 -> steps s n a' b vs.
Proof. destruct 1; intros a' E N; [congruence|]. econstructor; eauto. congruence. Qed.

Lemma loop_to_end s : forall n r b vs, steps (rget s) n r b vs ->
  (snd b = None \/ exists v, snd b = Some v /\ rget s v = None) ->
  forall fuel visited r0 r', snd r0 = snd r -> (forall v, In v vs -> ~ In v visited) -> NoDup vs ->
  rloop fuel s visited r0 = Some r' -> snd r' = snd b.
Proof.
  induction 1 as [r|n r v r1 b vs E G St IH]; intros End fuel visited r0 r' T D N L;
    (destruct fuel as [|fuel]; [discriminate|]); cbn [rloop] in L.
  - rewrite T in L. destruct End as [End|[v [Ev Gv]]].
    + rewrite End in L. injection L as <-. congruence.
    + rewrite Ev, Gv in L. injection L as <-. congruence.
  - rewrite T, E, G in L.
    destruct (existsb (Nat.eqb v) visited) eqn:V.
    + exfalso. apply existsb_In in V. apply (D v); [left; reflexivity | exact V].
    + inversion N; subst. eapply (IH End fuel (v :: visited)); [| | |exact L].
      * reflexivity.
      * intros w Hw [<-|Hi]; [contradiction | apply (D w); [right; exact Hw | exact Hi]].
      * assumption.
Qed.

(** A terminating chain visits no variable twice. *)
Lemma steps_det s n a b vs : steps s n a b vs -> (snd b = None \/ exists v, snd b = Some v /\ s v = None) ->
  forall m c ws, steps s m a c ws -> (snd c = None \/ exists v, snd c = Some v /\ s v = None) -> n = m /\ vs = ws.
Proof.
  induction 1 as [a|n a v a' b vs E F St IH]; intros Eb m c ws H Ec.
  - inversion H; subst; [auto|]. destruct Eb as [Eb|[w [E1 E2]]]; congruence.
  - inversion H as [|m' x w y z us E2 F2 St2]; subst.
    + destruct Ec as [Ec|[w [E1 E2]]]; congruence.
    + rewrite E in E2. injection E2 as <-. rewrite F in F2. injection F2 as <-.
      destruct (IH Eb m' c us St2 Ec) as [-> ->]. auto.
Qed.

Lemma steps_split s n a b vs : steps s n a b vs -> forall v, In v vs ->
  exists m c us, snd c = Some v /\ steps s (S m) c b us /\ S m <= n.
Proof.
  induction 1 as [a|n a v a' b vs E F St IH]; intros w Hw; [destruct Hw|].
  destruct Hw as [<-|Hw].
  - exists n, a, (v :: vs). split; [exact E|]. split; [econstructor; eauto | lia].
  - destruct (IH w Hw) as [m [c [us [A [B C]]]]]. exists m, c, us. auto.
Qed.

Lemma steps_nodup s n a b vs : steps s n a b vs -> (snd b = None \/ exists v, snd b = Some v /\ s v = None) ->
  NoDup vs.
Proof.
  induction 1 as [a|n a v a' b vs E F St IH]; intros Eb; constructor; [|apply IH; exact Eb].
  intros Hin. destruct (steps_split _ _ _ _ _ St v Hin) as [m [c [us [Hc [Sc L]]]]].
  assert (S2 : steps s (S n) c b (v :: vs)) by (econstructor; eauto).
  destruct (steps_det _ _ _ _ _ Sc Eb _ _ _ S2 Eb) as [Q _]. lia.
Qed.

Lemma rapply_tail s r r' : chain_end (rget s) r r' -> snd (rapply s r) = snd r'.
Proof.
  intros [C E]. apply chain_steps in C as [n [vs St]].
  apply (loop_to_end s n r r' vs St E (S (List.length s)) [] r (rapply s r) eq_refl); [intros v _ [] | | apply rapply_loop].
  eapply steps_nodup; eauto.
Qed.

(** * The constraint produced by removal *)
Lemma constraint_semantics s r e v fresh r0 :
  remove_with_constraint r e fresh = NeedsConstraint v r0 fresh ->
  rget s fresh = None -> v <> fresh ->
  let s' := minsert Nat.eqb s v ([e], Some fresh) in
  member e (rapply s' r) /\ snd (rapply s' r) = Some fresh /\
  forall x, member x (rapply s' r) <-> x = e \/ member x r.
Proof.
  intros R Hf Hne s'. pose proof (remove_with_constraint_ok r e fresh) as H. rewrite R in H.
  destruct H as [_ [T [_ _]]].
  assert (Gv : rget s' v = Some ([e], Some fresh)).
  { unfold s', rget. apply (mget_insert_same _ nat_decides). }
  assert (Gf : rget s' fresh = None).
  { unfold s', rget. rewrite (mget_insert_other _ nat_decides) by exact Hne. exact Hf. }
  assert (X : forall x, member x (rapply s' r) <-> x = e \/ member x r).
  { intros x. rewrite (proj1 (rapply_ok s' r) x). split.
    - intros [q [C Hq]]. inversion C as [y|y w z q' E G C']; subst; [right; exact Hq|].
      rewrite T in E. injection E as <-. rewrite Gv in G. injection G as <-.
      inversion C' as [y|y w z q' E G C2]; subst.
      + destruct Hq as [->|[]]. left. reflexivity.
      + cbn in E. injection E as <-. congruence.
    - intros [->|Hm].
      + exists ([e], Some fresh). split; [eapply chain_next; eauto; constructor | left; reflexivity].
      + exists r. split; [constructor | exact Hm]. }
  split; [apply X; left; reflexivity|]. split; [|exact X].
  rewrite (rapply_tail s' r ([e], Some fresh)); [reflexivity|]. split.
  - eapply chain_next; eauto. constructor.
  - right. exists fresh. auto.
Qed.

(** * Conventions *)
Lemma conv_rank_inj a b : conv_rank a = conv_rank b -> a = b.
Proof. destruct a, b; cbn; congruence. Qed.
Lemma conv_join_rank a b : conv_rank (conv_join a b) = Nat.max (conv_rank a) (conv_rank b).
Proof. destruct a, b; reflexivity. Qed.

Definition need (req : ability -> option conv) (e : effect) : conv :=
  match req (fst e) with Some k => k | None => Cps end.

Lemma fold_conv req es : forall c,
  conv_rank (fold_left (fun c e => conv_join c (need req e)) es c) =
  fold_right Nat.max (conv_rank c) (List.map (fun e => conv_rank (need req e)) es).
Proof.
  induction es as [|e es IH]; intros c; [reflexivity|]. cbn [fold_left List.map fold_right].
  rewrite IH, conv_join_rank. clear IH. generalize (conv_rank c) (conv_rank (need req e)).
  induction es as [|x es IH]; intros a b; cbn; [lia|]. rewrite IH. lia.
Qed.

Lemma row_convention_rank req r : conv_rank (row_convention req r) =
  Nat.max (fold_right Nat.max 0 (List.map (fun e => conv_rank (need req e)) (fst r)))
          (match snd r with Some _ => 2 | None => 0 end).
Proof.
  unfold row_convention. cbn zeta. destruct (snd r).
  - rewrite conv_join_rank. change (fun c e => conv_join c match req (fst e) with Some k => k | None => Cps end)
      with (fun c e => conv_join c (need req e)). rewrite fold_conv. reflexivity.
  - change (fun c e => conv_join c match req (fst e) with Some k => k | None => Cps end)
      with (fun c e => conv_join c (need req e)). rewrite fold_conv. cbn [conv_rank]. lia.
Qed.

Lemma fold_max_le (l : list nat) k : fold_right Nat.max 0 l <= k <-> forall x, In x l -> x <= k.
Proof.
  induction l as [|x l IH]; cbn.
  - split; [intros _ y [] | lia].
  - rewrite Nat.max_lub_iff, IH. split.
    + intros [A B] y [<-|H]; auto.
    + intros H. split; [apply H; auto | intros; apply H; auto].
Qed.

Lemma row_convention_least req r k :
  conv_rank (row_convention req r) <= conv_rank k <->
  (forall e, member e r -> exists c, (req (fst e) = Some c \/ (req (fst e) = None /\ c = Cps)) /\
                                     conv_rank c <= conv_rank k) /\
  (snd r <> None -> k = Cps).
Proof.
  rewrite row_convention_rank, Nat.max_lub_iff, fold_max_le. split.
  - intros [A B]. split.
    + intros e He. exists (need req e). split.
      * unfold need. destruct (req (fst e)); auto.
      * apply A. apply in_map_iff. exists e. auto.
    + intros H. destruct (snd r); [|congruence]. destruct k; cbn in B; try lia. reflexivity.
  - intros [A B]. split.
    + intros x Hx. apply in_map_iff in Hx as [e [<- He]]. destruct (A e He) as [c [Hc Hk]].
      unfold need. destruct Hc as [Hc|[Hc ->]]; rewrite Hc; exact Hk.
    + destruct (snd r); [|lia]. rewrite B by discriminate. cbn. lia.
Qed.

(** * Effect diagnostics *)
Lemma undeclared_ok s d b :
  (closed (rapply s d) -> forall e, In e (undeclared_effects s d b) <->
     stands_for (rget s) b e /\ forall e', stands_for (rget s) d e' -> fst e' <> fst e) /\
  (~ closed (rapply s d) -> undeclared_effects s d b = []).
Proof.
  unfold undeclared_effects, closed. split.
  - intros C e. rewrite C, filter_In. rewrite <- (proj1 (rapply_ok s b) e). unfold member at 1.
    rewrite negb_true_iff. split; intros [A B]; split; auto.
    + intros e' He' Q. apply (proj1 (rapply_ok s d)) in He'.
      assert (X : existsb (fun x => ability_eqb (fst x) (fst e)) (fst (rapply s d)) = true).
      { apply existsb_exists. exists e'. split; [exact He' | apply ability_eqb_eq; exact Q]. }
      congruence.
    + destruct (existsb _ _) eqn:X; [|reflexivity]. exfalso. apply existsb_exists in X as [e' [He' Q]].
      apply ability_eqb_eq in Q. apply (B e'); [apply (rapply_ok s d); exact He' | exact Q].
  - intros C. destruct (snd (rapply s d)); [reflexivity | congruence].
Qed.

Lemma main_unhandled_ok s b e :
  In e (main_unhandled s b) <-> stands_for (rget s) b e /\ ab_builtin (fst e) = false.
Proof.
  unfold main_unhandled. rewrite filter_In, negb_true_iff, <- (proj1 (rapply_ok s b) e). reflexivity.
Qed.
