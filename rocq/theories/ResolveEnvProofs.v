(** Proofs for C57: what the environment of a file contains. *)
From Verif Require Export ResolveEnvSpec ResolveDone.
From Coq Require Import Lia.
Open Scope list_scope.

(** ** Lookups after additions *)
Lemma lq_set e ns m ns' n : lookup_qualified {| definitions := definitions e; imports := imports e; namespaces := insert (namespaces e) ns m; use_paths := use_paths e |} ns' n =
  if String.eqb ns ns' then at_key m n else lookup_qualified e ns' n.
Proof. unfold lookup_qualified. cbn [namespaces]. rewrite at_insert. destruct (String.eqb ns ns'); reflexivity. Qed.
Lemma lq_add e ns k b ns' n : lookup_qualified (add_to_namespace e ns k b) ns' n =
  if String.eqb ns ns' then if String.eqb k n then Some b else lookup_qualified e ns' n else lookup_qualified e ns' n.
Proof.
  unfold add_to_namespace. rewrite lq_set. destruct (String.eqb_spec ns ns') as [->|N]; [|reflexivity]. rewrite at_insert.
  destruct (String.eqb k n); [reflexivity|]. apply members_at.
Qed.
Lemma lq_absent e ns k b ns' n : lookup_qualified (add_to_namespace_if_absent e ns k b) ns' n =
  match lookup_qualified e ns' n with Some c => Some c | None => if String.eqb ns ns' && String.eqb k n then Some b else None end.
Proof.
  unfold add_to_namespace_if_absent. rewrite lq_set. destruct (String.eqb_spec ns ns') as [->|N]; cbn [andb].
  - rewrite at_absent, members_at. reflexivity.
  - destruct (lookup_qualified e ns' n); reflexivity.
Qed.
Lemma lq_define e k b ns n : lookup_qualified (define e k b) ns n = lookup_qualified e ns n.
Proof. reflexivity. Qed.
Lemma lq_import e k b ns n : lookup_qualified (add_import e k b) ns n = lookup_qualified e ns n.
Proof. reflexivity. Qed.
Lemma def_define e k b n : at_key (definitions (define e k b)) n = if String.eqb k n then Some b else at_key (definitions e) n.
Proof. apply at_insert. Qed.

Lemma nodup_disjoint {A} (a b : list A) x : NoDup (a ++ b) -> In x a -> In x b -> False.
Proof.
  induction a as [|y a IH]; cbn; intros N I J; [destruct I|]. apply NoDup_cons_iff in N. destruct N as [N N']. destruct I as [<-|I]; [|eauto].
  apply N. apply in_or_app. auto.
Qed.
Section Fold.
  Variable shuffle : forall A, map_of A -> map_of A.
  Hypothesis AO : any_order shuffle.
  Lemma shuffled {A} (m : map_of A) : keys_distinct m -> keys_distinct (shuffle A m).
  Proof. exact (Permutation_NoDup (Permutation_map fst (AO _ m))). Qed.
  Lemma at_shuffled {A} (m : map_of A) k : keys_distinct m -> at_key (shuffle A m) k = at_key m k.
  Proof. intros D. exact (at_perm m _ k D (AO _ m)). Qed.
  Lemma members_defs ns e m : definitions (add_members shuffle ns e m) = definitions e.
  Proof. unfold add_members. generalize (shuffle _ m) as l. intros l. revert e. induction l as [|d l IH]; intros e; [reflexivity|]. cbn. rewrite IH. reflexivity. Qed.
  Lemma members_lq ns e m ns' n : keys_distinct m ->
    lookup_qualified (add_members shuffle ns e m) ns' n = if String.eqb ns ns' then match at_key m n with Some b => Some b | None => lookup_qualified e ns' n end else lookup_qualified e ns' n.
  Proof.
    intros D. unfold add_members. rewrite <- (at_shuffled m n D). pose proof (shuffled m D) as D'. revert D'. generalize (shuffle _ m) as l. clear D m.
    intros l. revert e. induction l as [|[k b] l IH]; intros e D; cbn [fold_left at_key].
    - destruct (String.eqb ns ns'); reflexivity.
    - unfold keys_distinct in D. cbn in D. apply NoDup_cons_iff in D. destruct D as [N D]. rewrite (IH _ D). cbn [fst snd]. rewrite lq_add.
      destruct (String.eqb ns ns'); [|reflexivity]. destruct (String.eqb_spec k n) as [->|K]; [|reflexivity]. apply at_none in N. rewrite N. reflexivity.
  Qed.

  Lemma longer a b : (a ++ "::" ++ b)%string <> a.
  Proof.
    intros H. apply (f_equal String.length) in H. revert H. induction a as [|c a IH]; cbn; [discriminate|]. intros [= H]. exact (IH H).
  Qed.
  Lemma append_cancel a b c : (a ++ b)%string = (a ++ c)%string -> b = c.
  Proof. induction a as [|x a IH]; cbn; [auto|]. intros [= H]. auto. Qed.
  Definition nested (name : string) (e : env) (L : map_of (map_of binding)) : env := fold_left (add_nested shuffle name) L e.
  Lemma nested_step name e k mk ns n : keys_distinct mk ->
    lookup_qualified (add_nested shuffle name e (k, mk)) ns n =
      if String.eqb name ns then match lookup_qualified e ns n with Some b => Some b | None => if String.eqb k n then Some (Module [name; k]) else None end
      else if String.eqb (name ++ "::" ++ k) ns then match at_key mk n with Some b => Some b | None => lookup_qualified e ns n end
      else lookup_qualified e ns n.
  Proof.
    intros D. unfold add_nested. cbn [fst snd]. rewrite lq_absent, (members_lq _ _ _ _ _ D).
    destruct (String.eqb_spec name ns) as [->|N]; cbn [andb].
    - destruct (String.eqb_spec (ns ++ "::" ++ k) ns) as [H|_]; [destruct (longer _ _ H)|]. reflexivity.
    - destruct (String.eqb (name ++ "::" ++ k) ns).
      + destruct (at_key mk n); [reflexivity|]. destruct (lookup_qualified e ns n); reflexivity.
      + destruct (lookup_qualified e ns n); reflexivity.
  Qed.
  Lemma nested_defs name e L : definitions (nested name e L) = definitions e.
  Proof.
    unfold nested. revert e. induction L as [|[k m] L IH]; intros e; [reflexivity|]. cbn [fold_left]. rewrite IH. unfold add_nested. cbn. apply members_defs.
  Qed.
  Lemma nested_own name L : forall e n, (forall k m, In (k, m) L -> keys_distinct m) ->
    lookup_qualified (nested name e L) name n =
      match lookup_qualified e name n with Some b => Some b | None => match at_key L n with Some _ => Some (Module [name; n]) | None => None end end.
  Proof.
    induction L as [|[k m] L IH]; intros e n D; cbn [nested fold_left at_key].
    - destruct (lookup_qualified e name n); reflexivity.
    - change (fold_left (add_nested shuffle name) L) with (fun e => nested name e L). cbv beta. rewrite IH by (intros; eapply D; right; eassumption).
      rewrite nested_step by (eapply D; left; reflexivity). rewrite String.eqb_refl. destruct (lookup_qualified e name n); [reflexivity|].
      destruct (String.eqb_spec k n) as [->|N]; reflexivity.
  Qed.
  Lemma nested_other name L : forall e ns n, (forall k m, In (k, m) L -> keys_distinct m) -> ns <> name -> (forall k, In k (map fst L) -> ns <> (name ++ "::" ++ k)%string) ->
    lookup_qualified (nested name e L) ns n = lookup_qualified e ns n.
  Proof.
    induction L as [|[k m] L IH]; intros e ns n D N K; cbn [nested fold_left]; [reflexivity|].
    change (fold_left (add_nested shuffle name) L) with (fun e => nested name e L). cbv beta. rewrite IH; [|intros; eapply D; right; eassumption|exact N|intros j J; apply K; right; exact J].
    rewrite nested_step by (eapply D; left; reflexivity). destruct (String.eqb_spec name ns); [congruence|].
    destruct (String.eqb_spec (name ++ "::" ++ k) ns) as [H|_]; [|reflexivity]. destruct (K k); [left; reflexivity|]. symmetry. exact H.
  Qed.
  Lemma nested_in name L : forall e k m n, (forall k m, In (k, m) L -> keys_distinct m) -> keys_distinct L -> at_key L k = Some m ->
    lookup_qualified (nested name e L) (name ++ "::" ++ k) n = match at_key m n with Some b => Some b | None => lookup_qualified e (name ++ "::" ++ k) n end.
  Proof.
    induction L as [|[j mj] L IH]; intros e k m n D KD A; [discriminate|]. cbn [nested fold_left]. cbn [at_key] in A.
    unfold keys_distinct in KD. cbn in KD. apply NoDup_cons_iff in KD. destruct KD as [NI KD].
    change (fold_left (add_nested shuffle name) L) with (fun e => nested name e L). cbv beta.
    assert (NN : String.eqb name (name ++ "::" ++ k) = false). { apply String.eqb_neq. intros H. symmetry in H. exact (longer _ _ H). }
    destruct (String.eqb_spec j k) as [->|J].
    - injection A; intros ->. rewrite nested_other; [| |apply longer|].
      + rewrite nested_step by (eapply D; left; reflexivity). rewrite NN, String.eqb_refl. reflexivity.
      + intros; eapply D; right; eassumption.
      + intros i I H. apply append_cancel in H. cbn in H. injection H; intros ->. exact (NI I).
    - rewrite (IH _ k m); [|intros; eapply D; right; eassumption|exact KD|exact A].
      rewrite nested_step by (eapply D; left; reflexivity). rewrite NN.
      destruct (String.eqb_spec (name ++ "::" ++ j) (name ++ "::" ++ k)) as [H|_]; [|reflexivity]. apply append_cancel in H. cbn in H. injection H; congruence.
  Qed.

  (** ** One declaration *)
  Context {R : Type}.
  Notation collect := (collect_definition shuffle (R := R)).
  Definition is_module (b : binding) : Prop := exists q, b = Module q.
  Lemma module_dec b : is_module b \/ ~ is_module b.
  Proof. destruct b; try (right; intros [? ?]; discriminate). left. eexists. reflexivity. Qed.
  Lemma declares_item pre (d : decl R) path b : declares pre d path b -> ~ is_module b.
  Proof. induction 1; first [assumption | intros [? ?]; discriminate]. Qed.
  Definition sound1 pre (d : decl R) (e e' : env) : Prop :=
    (forall n b, at_key (definitions e') n = Some b -> at_key (definitions e) n = Some b \/ declares pre d [n] b) /\
    (forall ns n b, lookup_qualified e' ns n = Some b -> lookup_qualified e ns n = Some b \/
       exists p, p <> [] /\ Forall name_ok p /\ ns = path_text p /\ (declares pre d (p ++ [n]) b \/ is_module b)).
  Definition complete1 pre (d : decl R) (e e' : env) : Prop :=
    (forall n, at_key (definitions e) n <> None -> at_key (definitions e') n <> None) /\
    (forall n b, declares pre d [n] b -> at_key (definitions e') n <> None) /\
    (forall p n b, p <> [] -> declares pre d (p ++ [n]) b -> exists b', lookup_qualified e' (path_text p) n = Some b' /\ ~ is_module b').
  Definition kept (e e' : env) : Prop := forall ns n b, lookup_qualified e ns n = Some b -> ~ is_module b -> exists b', lookup_qualified e' ns n = Some b' /\ ~ is_module b'.

  Lemma qualified_text pre n : (forall s, In s pre -> s <> EmptyString) -> fst (qualified_symbol (path_text pre) n) = path_text (pre ++ [n]).
  Proof.
    intros H. destruct pre as [|a pre]; [reflexivity|]. pose proof (path_text_nonempty (a :: pre) ltac:(discriminate) H) as N.
    rewrite path_text_app by discriminate. unfold qualified_symbol. destruct (path_text (a :: pre)) eqn:E; [congruence|]. cbn [fst]. rewrite append_assoc. reflexivity.
  Qed.
  Lemma pushed_text pre n : (forall s, In s pre -> s <> EmptyString) -> fst (push_prefix (path_text pre) n) = path_text (pre ++ [n]).
  Proof.
    intros H. destruct pre as [|a pre]; [reflexivity|]. pose proof (path_text_nonempty (a :: pre) ltac:(discriminate) H) as N.
    rewrite path_text_app by discriminate. apply push_text. exact N.
  Qed.
  Definition full (pre : list string) : Prop := forall s, In s pre -> s <> EmptyString.
  Lemma full_snoc pre n : full pre -> name_ok n -> full (pre ++ [n]).
  Proof. intros F [N _] s S. apply in_app_or in S. destruct S as [S|[<-|[]]]; auto. Qed.

  (** Plain definitions. *)
  Lemma one_def pre d e n b : declares pre d [n] b -> (forall path c, declares pre d path c -> path = [n]) ->
    sound1 pre d e (define e n b) /\ complete1 pre d e (define e n b) /\ kept e (define e n b).
  Proof.
    intros H U. split; [|split].
    - split.
      + intros k c. rewrite def_define. destruct (String.eqb_spec n k) as [->|N]; [|auto]. intros [= <-]. auto.
      + intros ns k c. rewrite lq_define. auto.
    - split; [|split].
      + intros k. rewrite def_define. destruct (String.eqb n k); [discriminate|auto].
      + intros k c D. apply U in D. injection D; intros ->. rewrite def_define, String.eqb_refl. discriminate.
      + intros p k c P D. apply U in D. destruct p as [|x [|y p]]; [congruence|discriminate..].
    - intros ns k c L M. exists c. auto.
  Qed.

  Section Step.
    Variable pre : list string.
    Hypothesis F : full pre.
    Lemma fields_step n : name_ok n -> forall fs0 fs i all e, all = fs0 ++ fs ->
      let e' := fold_left (add_field n (path_text (pre ++ [n]))) fs e in
      definitions e' = definitions e /\
      (forall ns k b, lookup_qualified e' ns k = Some b -> lookup_qualified e ns k = Some b \/ (ns = n /\ declares (R := R) pre (DStruct n i all) [n; k] b)) /\
      (forall ns k b, lookup_qualified e ns k = Some b -> ~ is_module b -> exists b', lookup_qualified e' ns k = Some b' /\ ~ is_module b') /\
      (forall f, In (Some f) fs -> exists b', lookup_qualified e' n f = Some b' /\ ~ is_module b').
    Proof.
      intros NO fs0 fs. revert fs0. induction fs as [|f fs IH]; intros fs0 i all e A e'.
      - subst e'. cbn. split; [reflexivity|]. split; [auto|]. split; [intros ns k b L M; exists b; auto|intros f []].
      - subst e'. cbn [fold_left]. destruct (IH (fs0 ++ [f]) i all (add_field n (path_text (pre ++ [n])) e f)) as (D & S & K & C); [rewrite A, <- app_assoc; reflexivity|].
        destruct f as [f|]; cbn [add_field] in *.
        + assert (Q : fst (qualified_symbol (path_text (pre ++ [n])) f) = path_text (pre ++ [n; f])).
          { rewrite qualified_text by (apply full_snoc; assumption). rewrite <- app_assoc. reflexivity. }
          assert (DF : declares (R := R) pre (DStruct n i all) [n; f] (Function (path_text (pre ++ [n; f])))). { constructor. rewrite A. apply in_or_app. right. left. reflexivity. }
          rewrite Q in *. split; [rewrite D; reflexivity|]. split; [|split].
          * intros ns k b L. destruct (S _ _ _ L) as [L'|L']; [|auto]. rewrite lq_add in L'. destruct (String.eqb_spec n ns) as [<-|N]; [|auto].
            destruct (String.eqb_spec f k) as [<-|N]; [|auto]. injection L'; intros <-. auto.
          * intros ns k b L M. assert (X : exists b', lookup_qualified (add_to_namespace e n f (Function (path_text (pre ++ [n; f])))) ns k = Some b' /\ ~ is_module b').
            { rewrite lq_add. destruct (String.eqb n ns); [destruct (String.eqb f k)|]; eauto. eexists. split; [reflexivity|]. intros [q [=]]. }
            destruct X as (b' & L' & M'). exact (K _ _ _ L' M').
          * intros g [[= ->]|I]; [|exact (C _ I)]. apply (K n g (Function (path_text (pre ++ [n; g])))); [|intros [q [=]]].
            rewrite lq_add, !String.eqb_refl. reflexivity.
        + split; [exact D|]. split; [exact S|]. split; [exact K|]. intros g [[=]|I]. exact (C _ I).
    Qed.
    Lemma struct_step n i fs e : name_ok n ->
      let e' := collect (path_text pre) e (DStruct n i fs) in sound1 pre (DStruct n i fs) e e' /\ complete1 pre (DStruct n i fs) e e' /\ kept e e'.
    Proof.
      intros NO e'. subst e'. cbn [collect_definition]. rewrite qualified_text, pushed_text by exact F.
      set (e0 := define (define e n _) n _). assert (L0 : forall ns k, lookup_qualified e0 ns k = lookup_qualified e ns k) by reflexivity.
      assert (D0 : forall k, at_key (definitions e0) k = if String.eqb n k then Some (Constructor (path_text (pre ++ [n])) None (List.length fs)) else at_key (definitions e) k).
      { intros k. unfold e0. rewrite !def_define. destruct (String.eqb n k); reflexivity. }
      destruct (fields_step n NO [] fs i fs e0 eq_refl) as (D & S & K & C). split; [|split].
      - split.
        + intros k b. rewrite D, D0. destruct (String.eqb_spec n k) as [<-|N]; [|auto]. intros [= <-]. right. constructor.
        + intros ns k b L. destruct (S _ _ _ L) as [L'|[-> L']]; [rewrite L0 in L'; auto|]. right. exists [n].
          split; [discriminate|]. split; [repeat constructor; apply NO|]. split; [reflexivity|]. left. exact L'.
      - split; [|split].
        + intros k. rewrite D, D0. destruct (String.eqb n k); [discriminate|auto].
        + intros k b H. inversion H; subst. rewrite D, D0, String.eqb_refl. discriminate.
        + intros p k b P H. inversion H; subst.
          * destruct p as [|x [|y p]]; [congruence|discriminate..].
          * assert (p = [n] /\ k = f) as [-> ->]. { destruct p as [|x [|y [|z p]]]; cbn in *; try discriminate. split; congruence. }
            apply C. assumption.
      - intros ns k b L M. rewrite <- L0 in L. exact (K _ _ _ L M).
    Qed.
    Lemma variants_step n : forall vs0 vs i all e, all = vs0 ++ vs ->
      let e' := fold_left (add_variant n (path_text pre)) vs e in
      (forall k b, at_key (definitions e') k = Some b -> at_key (definitions e) k = Some b \/ declares (R := R) pre (DEnum n i all) [k] b) /\
      (forall k, at_key (definitions e) k <> None -> at_key (definitions e') k <> None) /\
      (forall v a, In (v, a) vs -> at_key (definitions e') v <> None) /\
      (forall ns k b, lookup_qualified e' ns k = Some b -> lookup_qualified e ns k = Some b \/ (ns = n /\ declares (R := R) pre (DEnum n i all) [n; k] b)) /\
      (forall ns k b, lookup_qualified e ns k = Some b -> ~ is_module b -> exists b', lookup_qualified e' ns k = Some b' /\ ~ is_module b') /\
      (forall v a, In (v, a) vs -> exists b', lookup_qualified e' n v = Some b' /\ ~ is_module b').
    Proof.
      intros vs0 vs. revert vs0. induction vs as [|[v a] vs IH]; intros vs0 i all e A e'.
      - subst e'. cbn. split; [auto|]. split; [auto|]. split; [intros v a []|]. split; [auto|]. split; [intros ns k b L M; exists b; auto|intros f a []].
      - subst e'. cbn [fold_left]. destruct (IH (vs0 ++ [(v, a)]) i all (add_variant n (path_text pre) e (v, a))) as (D & D1 & D2 & S & K & C); [rewrite A, <- app_assoc; reflexivity|].
        unfold add_variant in *. cbn [fst snd] in *. rewrite (qualified_text pre v F) in *. set (c := Constructor (path_text (pre ++ [v])) (Some v) a) in *.
        assert (IN : In (v, a) all). { rewrite A. apply in_or_app. right. left. reflexivity. }
        assert (M0 : ~ is_module c) by (intros [q [=]]).
        split; [|split; [|split; [|split; [|split]]]].
        + intros k b L. destruct (D _ _ L) as [L'|L']; [|auto]. rewrite def_define in L'. destruct (String.eqb_spec v k) as [<-|N]; [|auto].
          injection L'; intros <-. right. constructor. exact IN.
        + intros k H. apply D1. rewrite def_define. destruct (String.eqb v k); [discriminate|exact H].
        + intros w x [[= <- <-]|I]; [|exact (D2 _ _ I)]. apply D1. rewrite def_define, String.eqb_refl. discriminate.
        + intros ns k b L. destruct (S _ _ _ L) as [L'|L']; [|auto]. rewrite lq_define, lq_add in L'. destruct (String.eqb_spec n ns) as [<-|N]; [|auto].
          destruct (String.eqb_spec v k) as [<-|N]; [|auto]. injection L'; intros <-. right. split; [reflexivity|]. constructor. exact IN.
        + intros ns k b L M. assert (X : exists b', lookup_qualified (define (add_to_namespace e n v c) v c) ns k = Some b' /\ ~ is_module b').
          { rewrite lq_define, lq_add. destruct (String.eqb n ns); [destruct (String.eqb v k)|]; eauto. }
          destruct X as (b' & L' & M'). exact (K _ _ _ L' M').
        + intros w x [[= <- <-]|I]; [|exact (C _ _ I)]. apply (K n v c); [|exact M0]. rewrite lq_define, lq_add, !String.eqb_refl. reflexivity.
    Qed.
    Lemma enum_step n i vs e : name_ok n ->
      let e' := collect (path_text pre) e (DEnum n i vs) in sound1 pre (DEnum n i vs) e e' /\ complete1 pre (DEnum n i vs) e e' /\ kept e e'.
    Proof.
      intros NO e'. subst e'. cbn [collect_definition]. rewrite qualified_text by exact F. set (e0 := define e n _).
      destruct (variants_step n [] vs i vs e0 eq_refl) as (D & D1 & D2 & S & K & C). split; [|split].
      - split.
        + intros k b L. destruct (D _ _ L) as [L'|L']; [|auto]. unfold e0 in L'. rewrite def_define in L'. destruct (String.eqb_spec n k) as [<-|N]; [|auto].
          injection L'; intros <-. right. constructor.
        + intros ns k b L. destruct (S _ _ _ L) as [L'|[-> L']]; [auto|]. right. exists [n].
          split; [discriminate|]. split; [repeat constructor; apply NO|]. split; [reflexivity|]. left. exact L'.
      - split; [|split].
        + intros k H. apply D1. unfold e0. rewrite def_define. destruct (String.eqb n k); [discriminate|exact H].
        + intros k b H. inversion H; subst.
          * apply D1. unfold e0. rewrite def_define, String.eqb_refl. discriminate.
          * eapply D2. eassumption.
        + intros p k b P H. inversion H; subst.
          * destruct p as [|x [|y p]]; [congruence|discriminate..].
          * assert (p = [n] /\ k = v) as [-> ->]. { destruct p as [|x [|y [|z p]]]; cbn in *; try discriminate. split; congruence. }
            eapply C. eassumption.
          * destruct p as [|x [|y p]]; [congruence|discriminate..].
      - intros ns k b L M. exact (K _ _ _ L M).
    Qed.
    Lemma operations_step n : forall os0 os all e, all = os0 ++ os ->
      let e' := fold_left (add_operation n (SourceAbility (path_text (pre ++ [n])))) os e in
      definitions e' = definitions e /\
      (forall ns k b, lookup_qualified e' ns k = Some b -> lookup_qualified e ns k = Some b \/ (ns = n /\ declares (R := R) pre (DAbility n all) [n; k] b)) /\
      (forall ns k b, lookup_qualified e ns k = Some b -> ~ is_module b -> exists b', lookup_qualified e' ns k = Some b' /\ ~ is_module b') /\
      (forall v a, In (v, a) os -> exists b', lookup_qualified e' n v = Some b' /\ ~ is_module b').
    Proof.
      intros os0 os. revert os0. induction os as [|[v a] os IH]; intros os0 all e A e'.
      - subst e'. cbn. split; [auto|]. split; [auto|]. split; [intros ns k b L M; exists b; auto|intros f a []].
      - subst e'. cbn [fold_left]. destruct (IH (os0 ++ [(v, a)]) all (add_operation n (SourceAbility (path_text (pre ++ [n]))) e (v, a))) as (D & S & K & C); [rewrite A, <- app_assoc; reflexivity|].
        unfold add_operation in *. cbn [fst snd] in *. set (c := AbilityOp _ v a) in *.
        assert (IN : In (v, a) all). { rewrite A. apply in_or_app. right. left. reflexivity. }
        assert (M0 : ~ is_module c) by (intros [q [=]]).
        split; [rewrite D; reflexivity|]. split; [|split].
        + intros ns k b L. destruct (S _ _ _ L) as [L'|L']; [|auto]. rewrite lq_add in L'. destruct (String.eqb_spec n ns) as [<-|N]; [|auto].
          destruct (String.eqb_spec v k) as [<-|N]; [|auto]. injection L'; intros <-. right. split; [reflexivity|]. constructor. exact IN.
        + intros ns k b L M. assert (X : exists b', lookup_qualified (add_to_namespace e n v c) ns k = Some b' /\ ~ is_module b').
          { rewrite lq_add. destruct (String.eqb n ns); [destruct (String.eqb v k)|]; eauto. }
          destruct X as (b' & L' & M'). exact (K _ _ _ L' M').
        + intros w x [[= <- <-]|I]; [|exact (C _ _ I)]. apply (K n v c); [|exact M0]. rewrite lq_add, !String.eqb_refl. reflexivity.
    Qed.
    Lemma ability_step n os e : name_ok n ->
      let e' := collect (path_text pre) e (DAbility n os) in sound1 pre (DAbility n os) e e' /\ complete1 pre (DAbility n os) e e' /\ kept e e'.
    Proof.
      intros NO e'. subst e'. cbn [collect_definition]. rewrite qualified_text by exact F. set (e0 := define e n _).
      destruct (operations_step n [] os os e0 eq_refl) as (D & S & K & C). split; [|split].
      - split.
        + intros k b. rewrite D. unfold e0. rewrite def_define. destruct (String.eqb_spec n k) as [<-|N]; [|auto]. intros [= <-]. right. constructor.
        + intros ns k b L. destruct (S _ _ _ L) as [L'|[-> L']]; [auto|]. right. exists [n].
          split; [discriminate|]. split; [repeat constructor; apply NO|]. split; [reflexivity|]. left. exact L'.
      - split; [|split].
        + intros k H. rewrite D. unfold e0. rewrite def_define. destruct (String.eqb n k); [discriminate|exact H].
        + intros k b H. inversion H; subst. rewrite D. unfold e0. rewrite def_define, String.eqb_refl. discriminate.
        + intros p k b P H. inversion H; subst.
          * destruct p as [|x [|y p]]; [congruence|discriminate..].
          * assert (p = [n] /\ k = o) as [-> ->]. { destruct p as [|x [|y [|z p]]]; cbn in *; try discriminate. split; congruence. }
            eapply C. eassumption.
      - intros ns k b L M. exact (K _ _ _ L M).
    Qed.
  End Step.

  (** ** Modules and whole bodies *)
  Definition represents pre (ds : list (decl R)) (e : env) : Prop :=
    (forall n b, at_key (definitions e) n = Some b -> declared pre ds [n] b) /\
    (forall n b, declared pre ds [n] b -> at_key (definitions e) n <> None) /\
    (forall ns n b, lookup_qualified e ns n = Some b -> exists p, p <> [] /\ Forall name_ok p /\ ns = path_text p /\ (declared pre ds (p ++ [n]) b \/ is_module b)) /\
    (forall p n b, p <> [] -> declared pre ds (p ++ [n]) b -> exists b', lookup_qualified e (path_text p) n = Some b' /\ ~ is_module b').
  (** No item inside a module of that name is known yet. *)
  Definition unopened (d : decl R) (e : env) : Prop :=
    forall m, In m (module_name d) -> forall a q n b, Forall name_ok (m :: a :: q) -> lookup_qualified e (path_text (m :: a :: q)) n = Some b -> is_module b.
  Definition bodies_once (d : decl R) : Prop := forall n body, d = DModule n (Some body) -> modules_once body.
  Definition step_good (d : decl R) : Prop := forall pre e, full pre -> (forall n, In n (decl_names d) -> name_ok n) -> bodies_once d -> unopened d e ->
    let e' := collect (path_text pre) e d in sound1 pre d e e' /\ complete1 pre d e e' /\ kept e e'.

  Lemma declares_names pre (d : decl R) path b : declares pre d path b -> incl path (decl_names d).
  Proof.
    induction 1; intros s Hs; cbn in Hs |- *; destruct Hs as [<-|Hs]; auto; try (destruct Hs as [<-|[]]); try destruct Hs;
      try (right; apply in_flat_map; eexists; split; [eassumption|]; left; reflexivity); try (right; apply in_map_iff; eexists; split; [|eassumption]; reflexivity).
    right. apply in_flat_map. exists d. split; [assumption|]. auto.
  Qed.
  Lemma declares_long pre (d : decl R) a c x q b : declares pre d (a :: c :: x :: q) b -> In a (module_name d).
  Proof. intros H. inversion H; subst. left. reflexivity. Qed.
  Lemma declared_app pre (l l' : list (decl R)) path b : declared pre (l ++ l') path b <-> declared pre l path b \/ declared pre l' path b.
  Proof.
    unfold declared. split.
    - intros (d & I & H). apply in_app_or in I. destruct I; eauto.
    - intros [(d & I & H)|(d & I & H)]; exists d; split; auto; apply in_or_app; auto.
  Qed.
  Lemma declared_one pre (d : decl R) path b : declared pre [d] path b <-> declares pre d path b.
  Proof. split; [intros (x & [<-|[]] & H); exact H|intros H; exists d; split; [left; reflexivity|exact H]]. Qed.

  Lemma body_good pre (ds : list (decl R)) : full pre -> Forall step_good ds -> names_ok ds -> modules_once ds ->
    represents pre ds (fold_left (collect (path_text pre)) ds empty_env).
  Proof.
    intros F G N O. inversion O as [? ND OB]; subst. clear O.
    assert (X : forall ds1 ds0 e, ds = ds0 ++ ds1 -> represents pre ds0 e -> represents pre ds (fold_left (collect (path_text pre)) ds1 e)).
    { induction ds1 as [|d ds1 IH]; intros ds0 e E RP; cbn [fold_left]; [rewrite app_nil_r in E; subst; exact RP|].
      apply (IH (ds0 ++ [d])); [rewrite E, <- app_assoc; reflexivity|]. destruct RP as (DS & DC & NS & NC).
      assert (ID : In d ds) by (rewrite E; apply in_or_app; right; left; reflexivity).
      rewrite Forall_forall in G. destruct (G d ID pre e F) as ((S1 & S2) & (C1 & C2 & C3) & K).
      - intros n I. apply N. apply in_flat_map. eauto.
      - intros n body ->. exact (OB _ _ ID).
      - intros m M a q n b OK L. destruct (NS _ _ _ L) as (p & P & NP & T & [D|D]); [|exact D]. exfalso.
        assert (EP : m :: a :: q = p).
        { apply path_las; [discriminate|exact P| | |rewrite T; reflexivity]; apply Forall_forall; assumption. }
        subst p. destruct D as (d' & I' & D). cbn in D. assert (Z : exists x r, q ++ [n] = x :: r) by (destruct q; cbn; eauto). destruct Z as (x & r & Z). rewrite Z in D.
        apply declares_long in D. rewrite E, flat_map_app in ND. apply (nodup_disjoint _ _ m ND); [|cbn; apply in_or_app; left; exact M].
        apply in_flat_map. exists d'. auto.
      - split; [|split; [|split]].
        + intros n b L. apply declared_app. destruct (S1 _ _ L) as [L'|L']; [left; auto|right; apply declared_one; exact L'].
        + intros n b D. apply declared_app in D. destruct D as [D|D]; [apply C1; eapply DC; exact D|]. apply declared_one in D. eapply C2; exact D.
        + intros ns n b L. destruct (S2 _ _ _ L) as [L'|(p & P & NP & T & D)].
          * destruct (NS _ _ _ L') as (p & P & NP & T & D). exists p. split; [exact P|]. split; [exact NP|]. split; [exact T|].
            destruct D as [D|D]; [left; apply declared_app; auto|auto].
          * exists p. split; [exact P|]. split; [exact NP|]. split; [exact T|]. destruct D as [D|D]; [left; apply declared_app; right; apply declared_one; exact D|auto].
        + intros p n b P D. apply declared_app in D. destruct D as [D|D].
          * destruct (NC _ _ _ P D) as (b' & L & M). exact (K _ _ _ L M).
          * apply declared_one in D. exact (C3 _ _ _ P D). }
    apply (X ds [] empty_env); [reflexivity|]. split; [|split; [|split]].
    - intros n b [=].
    - intros n b (d & [] & _).
    - intros ns n b [=].
    - intros p n b _ (d & [] & _).
  Qed.

  Lemma path_cons a p : p <> [] -> path_text (a :: p) = (a ++ "::" ++ path_text p)%string.
  Proof. destruct p; [congruence|reflexivity]. Qed.
  Lemma module_good name body : Forall step_good body -> step_good (DModule name (Some body)).
  Proof.
    intros G pre e F N O U e'.
    assert (NO : name_ok name) by (apply N; left; reflexivity).
    assert (FB : full (pre ++ [name])) by (apply full_snoc; assumption).
    assert (RP : represents (pre ++ [name]) body (fold_left (collect (path_text (pre ++ [name]))) body empty_env)).
    { apply body_good; [exact FB|exact G| |eapply O; reflexivity]. intros n I. apply N. right. exact I. }
    assert (IO : env_ok (fold_left (collect (path_text (pre ++ [name]))) body empty_env)).
    { apply fold_keeps; [|exact empty_ok]. intros a b A. apply collect_ok. exact A. }
    subst e'. cbn [collect_definition]. rewrite pushed_text by exact F.
    set (inner := fold_left _ body empty_env) in *. set (e1 := add_members shuffle name e (definitions inner)).
    change (fold_left (add_nested shuffle name) (shuffle _ (namespaces inner)) e1) with (nested name e1 (shuffle _ (namespaces inner))).
    set (L := shuffle _ (namespaces inner)). set (e2 := nested name e1 L).
    destruct IO as [KD _ KN KE _]. destruct RP as (DS & DC & NS & NC).
    assert (LD : keys_distinct L) by (apply shuffled; exact KN).
    assert (LE : forall k m, In (k, m) L -> keys_distinct m).
    { intros k m I. eapply KE. eapply Permutation_in; [apply Permutation_sym; exact (AO _ (namespaces inner))|exact I]. }
    assert (LA : forall k, at_key L k = at_key (namespaces inner) k) by (intros k; apply at_shuffled; exact KN).
    assert (E1 : forall ns n, lookup_qualified e1 ns n = if String.eqb name ns then match at_key (definitions inner) n with Some b => Some b | None => lookup_qualified e ns n end else lookup_qualified e ns n).
    { intros ns n. unfold e1. apply members_lq. exact KD. }
    assert (D2 : definitions e2 = definitions e). { unfold e2, e1. rewrite nested_defs, members_defs. reflexivity. }
    assert (Cases : forall ns, ns = name \/ (exists k m, ns = (name ++ "::" ++ k)%string /\ at_key L k = Some m) \/ (ns <> name /\ forall k, In k (map fst L) -> ns <> (name ++ "::" ++ k)%string)).
    { intros ns. destruct (string_dec ns name) as [->|N1]; [auto|]. right.
      destruct (Exists_dec (fun k => ns = (name ++ "::" ++ k)%string) (map fst L) (fun k => string_dec _ _)) as [X|X].
      - left. apply Exists_exists in X. destruct X as (k & I & ->). destruct (at_key L k) as [m|] eqn:A; [eauto|]. apply at_none in A. contradiction.
      - right. split; [exact N1|]. intros k I H. apply X. apply Exists_exists. eauto. }
    assert (InnerL : forall k m n, at_key L k = Some m -> at_key m n = lookup_qualified inner k n).
    { intros k m n A. unfold lookup_qualified. rewrite <- LA, A. reflexivity. }
    assert (Lift : forall path b, declared (pre ++ [name]) body path b -> declares pre (DModule name (Some body)) (name :: path) b).
    { intros path b (d & I & D). econstructor; eassumption. }
    assert (Far : forall k, String.eqb name (name ++ "::" ++ k) = false).
    { intros k. apply String.eqb_neq. intros H. symmetry in H. exact (longer _ _ H). }
    split; [|split].
    - split.
      + intros n b. cbn [add_import definitions]. rewrite D2. auto.
      + intros ns n b. rewrite lq_import. destruct (Cases ns) as [->|[(k & m & -> & A)|[N1 N2]]].
        * unfold e2. rewrite nested_own by exact LE. rewrite E1, String.eqb_refl.
          assert (Y : declared (pre ++ [name]) body [n] b \/ is_module b -> exists p, p <> [] /\ Forall name_ok p /\ name = path_text p /\ (declares pre (DModule name (Some body)) (p ++ [n]) b \/ is_module b)).
          { intros Y. exists [name]. split; [discriminate|]. split; [constructor; auto|]. split; [reflexivity|]. destruct Y as [Y|Y]; [left; apply (Lift _ _ Y)|auto]. }
          destruct (at_key (definitions inner) n) as [c|] eqn:C.
          { intros [= ->]. right. apply Y. left. apply DS. exact C. }
          destruct (lookup_qualified e name n) as [c|]; [auto|]. destruct (at_key L n); [|discriminate]. intros [= <-]. right. apply Y. right. eexists. reflexivity.
        * unfold e2. rewrite (nested_in name L _ k m n LE LD A). rewrite (InnerL _ _ _ A), E1, Far.
          destruct (lookup_qualified inner k n) as [c|] eqn:C; [|auto]. intros [= ->]. right.
          destruct (NS _ _ _ C) as (p & P & NP & -> & D). exists (name :: p). split; [discriminate|]. split; [constructor; auto|].
          split; [symmetry; apply path_cons; exact P|]. destruct D as [D|D]; [left; apply (Lift _ _ D)|auto].
        * unfold e2. rewrite (nested_other name L _ ns n LE N1 N2), E1. destruct (String.eqb_spec name ns); [congruence|]. auto.
    - split; [|split].
      + intros n. cbn [add_import definitions]. rewrite D2. auto.
      + intros n b H. inversion H; subst. match goal with H : declares _ _ [] _ |- _ => inversion H end.
      + intros p n b P H. rewrite lq_import. inversion H as [| | | | | | | | |? ? ? d path ? I D]; subst.
        assert (DB : declared (pre ++ [name]) body path b) by (exists d; auto).
        destruct p as [|x p]; [congruence|]. match goal with E : _ = (_ :: _) ++ _ |- _ => cbn in E; injection E; intros Ep <- end.
        destruct p as [|y p]; cbn in Ep.
        * subst path. cbn [path_text]. unfold e2. rewrite nested_own by exact LE. rewrite E1, String.eqb_refl. pose proof (DC _ _ DB) as X.
          destruct (at_key (definitions inner) n) as [c|] eqn:C; [|congruence]. exists c. split; [reflexivity|].
          destruct (DS _ _ C) as (d' & _ & D'). exact (declares_item _ _ _ _ D').
        * rewrite path_cons by discriminate. subst path. destruct (NC (y :: p) n b) as (c & LC & MC); [discriminate|exact DB|].
          pose proof LC as LC'. unfold lookup_qualified in LC'. destruct (at_key (namespaces inner) (path_text (y :: p))) as [m|] eqn:A; [|discriminate].
          rewrite <- LA in A. unfold e2. rewrite (nested_in name L _ _ m n LE LD A). rewrite (InnerL _ _ _ A), LC. exists c. auto.
    - intros ns n b LK M. rewrite lq_import. destruct (Cases ns) as [->|[(k & m & -> & A)|[N1 N2]]].
      + unfold e2. rewrite nested_own by exact LE. rewrite E1, String.eqb_refl. destruct (at_key (definitions inner) n) as [c|] eqn:C.
        * exists c. split; [reflexivity|]. destruct (DS _ _ C) as (d' & _ & D'). exact (declares_item _ _ _ _ D').
        * rewrite LK. eauto.
      + unfold e2. rewrite (nested_in name L _ k m n LE LD A). rewrite (InnerL _ _ _ A), E1, Far.
        destruct (lookup_qualified inner k n) as [c|] eqn:C; [|eauto]. exists c. split; [reflexivity|].
        destruct (module_dec c) as [MC|MC]; [|exact MC]. exfalso. apply M.
        destruct (NS _ _ _ C) as (p & P & NP & -> & _). destruct p as [|a q]; [congruence|].
        apply (U name (or_introl eq_refl) a q n b); [constructor; auto|]. rewrite path_cons by discriminate. exact LK.
      + unfold e2. rewrite (nested_other name L _ ns n LE N1 N2), E1. destruct (String.eqb_spec name ns); [congruence|]. eauto.
  Qed.
  Lemma all_good (d : decl R) : step_good d.
  Proof.
    induction d using decl_all.
    1-2: intros pre e F N O U; cbn [collect_definition]; rewrite qualified_text by exact F; apply one_def; [constructor|intros path c D; inversion D; reflexivity].
    - intros pre e F N O U. apply struct_step; [exact F|]. apply N. left. reflexivity.
    - intros pre e F N O U. apply enum_step; [exact F|]. apply N. left. reflexivity.
    - intros pre e F N O U. apply ability_step; [exact F|]. apply N. left. reflexivity.
    - intros pre e F N O U e'.
      assert (Q : definitions e' = definitions e /\ forall ns n, lookup_qualified e' ns n = lookup_qualified e ns n).
      { subst e'. cbn [collect_definition]. destruct (split_last _) as [[? ?]|]; split; reflexivity. }
      destruct Q as [Q1 Q2]. split; [|split].
      + split; [intros n b; rewrite Q1; auto|intros ns n b; rewrite Q2; auto].
      + split; [intros n; rewrite Q1; auto|]. split; [intros n b H; inversion H|intros q n b _ H; inversion H].
      + intros ns n b L M. exists b. rewrite Q2. auto.
    - destruct b as [body|]; [apply module_good; assumption|].
      intros pre e F N O U e'. change e' with e. split; [|split].
      + split; auto.
      + split; [auto|]. split; [intros k c X; inversion X|intros q k c _ X; inversion X].
      + intros ns k c L M. exists c. auto.
  Qed.
  Theorem file_represented (ds : list (decl R)) : names_ok ds -> modules_once ds -> represents [] ds (fold_left (collect "") ds empty_env).
  Proof. intros N O. apply (body_good [] ds); [intros s []| |exact N|exact O]. apply Forall_forall. intros d _. apply all_good. Qed.
End Fold.
