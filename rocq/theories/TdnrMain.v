(** Method calls become the calls of the declared methods. *)
From Verif Require Export TdnrIndex.
From Verif Require Import TyProofs SubstProofs PathProofs MonoRefs.
Local Open Scope nat_scope. Local Open Scope list_scope.

(** ** One candidate *)
Lemma filter_one {A} (g : A -> bool) l x : filter g l = [x] <-> exists a b, l = a ++ x :: b /\ g x = true /\ forall y, In y (a ++ b) -> g y = false.
Proof.
  assert (NIL : forall l, filter g l = [] <-> forall y, In y l -> g y = false).
  { induction l0 as [|z l0 IH]; cbn; [tauto|]. destruct (g z) eqn:E; split.
    - discriminate.
    - intros H. rewrite H in E; [discriminate|auto].
    - intros H y [<-|I]; auto. apply IH; auto.
    - intros H. apply IH. auto. }
  split.
  - induction l as [|z l IH]; cbn; [discriminate|]. destruct (g z) eqn:E.
    + intros [= -> F]. exists [], l. split; auto. split; auto. apply NIL; auto.
    + intros F. destruct (IH F) as [a [b [-> [G H]]]]. exists (z :: a), b. split; auto. split; auto. intros y [<-|I]; auto.
  - intros [a [b [-> [G H]]]]. rewrite filter_app. cbn. rewrite G, (proj2 (NIL a)), (proj2 (NIL b)); auto; intros; apply H, in_or_app; auto.
Qed.
Definition good (name : string) (t : ty) (m : method) : bool := String.eqb (fst m) name && receiver_matches (snd (enc m)) t.
Lemma good_ok name t m : good name t m = true <-> fits_call name t m.
Proof. unfold good, fits_call. rewrite andb_true_iff, String.eqb_eq, matches_ok. reflexivity. Qed.
Lemma good_not name t m : good name t m = false <-> ~ fits_call name t m.
Proof. rewrite <- good_ok. destruct (good name t m); split; congruence. Qed.
Lemma the_method_filter ms name t m : the_method ms name t m <-> filter (good name t) ms = [m].
Proof.
  rewrite filter_one. unfold the_method. split; intros [a [b [E [G H]]]]; exists a, b; split; auto; split; try (apply good_ok; auto); intros; apply good_not; auto.
Qed.
Lemma entries ms name t :
  filter (fun e => receiver_matches e t) (List.map snd (filter (fun m => String.eqb (fst m) name) (List.map enc ms))) = List.map (fun m => snd (enc m)) (filter (good name t) ms).
Proof.
  induction ms as [|m ms IH]; cbn [List.map filter]; auto. unfold good at 1. change (fst (enc m)) with (fst m). destruct (String.eqb (fst m) name); cbn [andb List.map filter]; auto.
  destruct (receiver_matches (snd (enc m)) t); cbn [List.map]; congruence.
Qed.
Lemma lookup_ok r ms name t e : methods r = List.map enc ms -> lookup_method r (Some t) name = Some e <-> exists m, the_method ms name t m /\ e = snd (enc m).
Proof.
  intros M. unfold lookup_method. cbn [obind]. rewrite M, entries. split.
  - destruct (filter (good name t) ms) as [|m [|n l]] eqn:F; cbn; try discriminate. intros [= <-]. exists m. split; auto. apply the_method_filter; auto.
  - intros [m [T ->]]. apply the_method_filter in T as ->. reflexivity.
Qed.

(** ** Expressions *)
Section Becomes.
  Variables (lit : N -> literal) (r : resolver) (ms : list method).
  Hypothesis M : methods r = List.map enc ms.
  Let str := text_of (string_type r).
  Lemma call_ok i o o' name es es' : becomes lit ms str o o' -> Forall2 (becomes lit ms str) es es' -> becomes lit ms str (MethodCall i o name es) (method_call lit r i o' name es').
  Proof.
    intros O E. unfold method_call. destruct (lookup_method r (get_expr_type lit (string_type r) o') name) as [e|] eqn:L.
    - destruct (get_expr_type lit (string_type r) o') as [t|] eqn:G; [|discriminate]. apply (lookup_ok _ _ _ _ _ M) in L as [[n [p f]] [T ->]].
      assert (n = name) as -> by (destruct T as [a [b [_ [[N _] _]]]]; auto). cbn. eapply be_call; eauto. apply typed_ok; auto.
    - apply be_left; auto. intros t m Y T. apply typed_ok in Y. rewrite Y in L.
      assert (X : lookup_method r (Some t) name = Some (snd (enc m))) by (apply (lookup_ok _ _ _ _ _ M); eauto). congruence.
  Qed.
  Lemma mapped {A} (R : A -> A -> Prop) f l : Forall (fun a => R a (f a)) l -> Forall2 R l (List.map f l).
  Proof. induction 1; cbn; auto. Qed.
  Lemma resolve_ok e : becomes lit ms str e (resolve_expr lit r e).
  Proof.
    induction e using expr_all; cbn [resolve_expr]; try (constructor; auto using mapped; fail).
    - constructor; [|destruct sp; constructor; auto]. apply (mapped (fun a b => fst a = fst b /\ becomes lit ms str (snd a) (snd b)) (fun f => (fst f, resolve_expr lit r (snd f)))).
      each H. auto.
    - apply call_ok; auto using mapped.
    - constructor; auto. apply (mapped _ (resolve_stmt lit r)). each H. destruct a; constructor; auto.
    - constructor; auto. apply (mapped _ (resolve_arm lit r)). each H. destruct a as [j p [g|] b], H1; constructor; auto; constructor; auto.
    - constructor; auto. apply (mapped _ (resolve_handler_arm lit r)). each H. destruct a; constructor; auto.
  Qed.
  Lemma resolve_decl_ok d : becomes_decl lit ms str d (resolve_decl lit r d).
  Proof.
    induction d using decl_all; cbn [resolve_decl]; try constructor.
    - apply resolve_ok.
    - destruct b as [b|]; cbn; constructor. apply mapped. exact H.
  Qed.
End Becomes.

(** ** Stages *)
Section Stages.
  Variables (ann : N -> option annot) (effs : N -> option (list annot)) (lit : N -> literal) (other : N -> other_decl).
  Hypothesis MEAN : meanings_ok ann effs other.
  Definition texts_in (ds : list decl) : list ty := flat_map (fun d => match text_type other d with Some t => [t] | None => [] end) ds.
  Lemma text_type_ok d : string_decl other d = text_type other d.
  Proof.
    unfold string_decl, text_type. destruct d; auto. destruct (other n) as [? s ? ?|? s|]; auto; destruct (String.eqb_spec s "String"), (string_dec s "String"); subst; auto; contradiction.
  Qed.
  Lemma find_text ds : find_map (string_decl other) ds = hd_error (texts_in ds).
  Proof. unfold texts_in. induction ds as [|d ds IH]; cbn; auto. rewrite text_type_ok. destruct (text_type other d); cbn; auto. Qed.
  Definition stage (done : list (list decl)) (r : resolver) : Prop :=
    ids r = texts (known_in other done) /\ string_type r = hd_error (texts_in (concat done)) /\
    exists l, Forall2 (import_offers ann effs lit other done) (seq 0 (List.length done)) l /\ methods r = List.map enc (concat l).
  Lemma text_stage done r : stage done r -> text other done = text_of (string_type r).
  Proof. intros [_ [-> _]]. unfold text, text_of, texts_in. destruct (flat_map _ (concat done)); reflexivity. Qed.
  Lemma texts_app a b : texts (a ++ b) = texts a ++ texts b.
  Proof. apply map_app. Qed.
  Lemma known_snoc done ds : known_in other (done ++ [ds]) = known_in other done ++ flat_map (types_in other []) ds.
  Proof. unfold known_in. rewrite concat_app. cbn [concat]. rewrite app_nil_r, flat_map_app, app_assoc. reflexivity. Qed.
  Lemma known_in_ok done : Forall (Forall decl_ok) done -> known_ok (known_in other done).
  Proof.
    intros D. unfold known_in. apply Forall_app. split.
    - repeat constructor; try discriminate; cbn; intuition discriminate.
    - apply (types_all _ _ lit _ MEAN). apply Forall_concat; auto.
  Qed.
  Lemma identities done r ds : Forall (Forall decl_ok) (done ++ [ds]) -> ids r = texts (known_in other done) ->
    ids r ++ flat_map (type_identities other "") ds = texts (known_in other (done ++ [ds])).
  Proof.
    intros D ->. apply Forall_app in D as [_ D]. inv D. destruct (types_all _ _ lit _ MEAN ds H1) as [-> _]. rewrite <- texts_app, known_snoc. reflexivity.
  Qed.
  Lemma import_more done ds i l : i < List.length done -> import_offers ann effs lit other done i l -> import_offers ann effs lit other (done ++ [ds]) i l.
  Proof.
    intros L [m [ls [N [F E]]]]. exists m, ls. split; [rewrite nth_error_app1; auto|]. rewrite firstn_app. replace (S i - List.length done) with 0 by lia.
    cbn [firstn]. rewrite app_nil_r. auto.
  Qed.
  Lemma stage_next done r ds r' : Forall (Forall decl_ok) (done ++ [ds]) -> stage done r -> index_external_module ann effs lit other r ds = Some r' -> stage (done ++ [ds]) r'.
  Proof.
    intros D S E. pose proof S as [I [T [l [F M]]]]. unfold index_external_module, add_module in E. rewrite (identities done) in E by auto.
    assert (T' : match string_type r with Some t => Some t | None => find_map (string_decl other) ds end = hd_error (texts_in (concat (done ++ [ds])))).
    { rewrite T, find_text, concat_app. unfold texts_in. rewrite flat_map_app. cbn. rewrite app_nil_r. destruct (flat_map _ (concat done)); reflexivity. }
    rewrite T' in E. destruct (index_decls _ _ _ _ _ _ ds) as [x|] eqn:X; [|discriminate]. injection E as <-.
    assert (DS : Forall decl_ok ds) by (apply Forall_app in D as [_ D]; inv D; auto).
    apply index_all_ok in X as [ls [A ->]]; auto using known_in_ok. split; [reflexivity|]. split; [reflexivity|].
    exists (l ++ [concat ls]). cbn [methods]. rewrite M, <- map_app, concat_app. cbn [concat]. rewrite app_nil_r. split; auto.
    rewrite app_length, seq_app. cbn [List.length seq Nat.add]. apply Forall2_app.
    - assert (L : forall i, In i (seq 0 (List.length done)) -> i < List.length done) by (intros i Q; apply in_seq in Q; lia).
      clear - MEAN F L. induction F; [constructor|]. constructor; [apply import_more; auto; apply L; cbn; auto|]. apply IHF. intros; apply L; cbn; auto.
    - constructor; [|constructor]. exists ds, ls. split; [rewrite nth_error_app2, Nat.sub_diag by lia; auto|]. split; auto.
      replace (firstn (Datatypes.S (List.length done)) (done ++ [ds])) with (done ++ [ds]) by (symmetry; apply firstn_all2; rewrite app_length; cbn; lia).
      replace (text other (done ++ [ds])) with (text_of (hd_error (texts_in (concat (done ++ [ds]))))); [exact A|].
      unfold text, texts_in, text_of. destruct (flat_map _ (concat (done ++ [ds]))); reflexivity.
  Qed.
  Lemma stages rest : forall done r r', Forall (Forall decl_ok) (done ++ rest) -> stage done r -> ofold (index_external_module ann effs lit other) rest r = Some r' -> stage (done ++ rest) r'.
  Proof.
    induction rest as [|ds rest IH]; intros done r r' D S E; cbn in E; [injection E as <-; rewrite app_nil_r; auto|].
    change (obind (index_external_module ann effs lit other r ds) (ofold (index_external_module ann effs lit other) rest) = Some r') in E.
    apply obind_some in E as [r1 [A B]]. replace (done ++ ds :: rest) with ((done ++ [ds]) ++ rest) in * by (rewrite <- app_assoc; reflexivity).
    eapply IH; eauto. eapply stage_next; eauto. apply Forall_app in D as [D _]. auto.
  Qed.
  Lemma stage_new : stage [] new.
  Proof. split; [reflexivity|]. split; [reflexivity|]. exists []. split; [constructor|reflexivity]. Qed.
  Lemma indexed imports ds r : Forall (Forall decl_ok) imports -> Forall decl_ok ds -> index_all ann effs lit other imports ds = Some r ->
    text other imports = text_of (string_type r) /\ exists ms, all_methods ann effs lit other imports ds ms /\ methods r = List.map enc ms.
  Proof.
    intros DI D E. apply obind_some in E as [r0 [A B]]. apply (stages imports [] new r0) in A; auto using stage_new. cbn [List.app] in A.
    pose proof A as [I [T [l [F M]]]]. unfold add_module in B. rewrite (identities imports) in B by (auto; apply Forall_app; auto).
    destruct (index_decls _ _ _ _ _ _ ds) as [x|] eqn:X; [|discriminate]. injection B as <-. cbn [string_type methods].
    pose proof (text_stage _ _ A) as TX. split; auto. apply index_all_ok in X as [ls [Q ->]]; auto; [|apply known_in_ok, Forall_app; auto].
    exists (concat l ++ concat ls). split; [|rewrite map_app; congruence]. exists l, ls. split; auto. split; auto. rewrite TX. exact Q.
  Qed.
  Lemma all_resolved imports ds ds' : Forall (Forall decl_ok) imports -> Forall decl_ok ds -> resolve_tdnr ann effs lit other imports ds = Some ds' ->
    exists ms, all_methods ann effs lit other imports ds ms /\ Forall2 (becomes_decl lit ms (text other imports)) ds ds'.
  Proof.
    intros DI D E. unfold resolve_tdnr in E. destruct (index_all ann effs lit other imports ds) as [r|] eqn:X; [|discriminate]. injection E as <-.
    destruct (indexed _ _ _ DI D X) as [T [ms [A M]]]. exists ms. split; auto. rewrite T. apply mapped, Forall_forall. intros d _. apply resolve_decl_ok; auto.
  Qed.
  Lemma fold_none rest : forall r, ofold (index_external_module ann effs lit other) rest r = None <-> exists ds d, In ds rest /\ In d ds /\ open_method ann effs d.
  Proof.
    induction rest as [|ds rest IH]; intros r; cbn; [split; [discriminate|intros [ds [d [[] _]]]]|].
    change (obind (index_external_module ann effs lit other r ds) (ofold (index_external_module ann effs lit other) rest) = None <->
      exists ds0 d, (ds = ds0 \/ In ds0 rest) /\ In d ds0 /\ open_method ann effs d).
    destruct (index_external_module ann effs lit other r ds) as [r1|] eqn:E; cbn [obind].
    - rewrite IH. split; [intros [x [d [I N]]]; exists x, d; auto|]. intros [x [d [[<-|I] [J N]]]]; [|exists x, d; auto].
      exfalso. unfold index_external_module, add_module in E. assert (index_decls ann effs lit other (ids r ++ flat_map (type_identities other "") ds)
         (match string_type r with Some t => Some t | None => find_map (string_decl other) ds end) ds = None) as Q by (apply indexes_none; eauto). rewrite Q in E. discriminate.
    - split; auto. intros _. unfold index_external_module, add_module in E. destruct (index_decls _ _ _ _ _ _ ds) eqn:Q; [discriminate|].
      apply indexes_none in Q as [d [I N]]; auto. exists ds, d. auto.
  Qed.
  Lemma panics imports ds : resolve_tdnr ann effs lit other imports ds = None <-> exists m d, In m (imports ++ [ds]) /\ In d m /\ open_method ann effs d.
  Proof.
    unfold resolve_tdnr, index_all. destruct (ofold _ imports new) as [r|] eqn:E; cbn [obind].
    - unfold add_module. destruct (index_decls _ _ _ _ _ _ ds) eqn:Q; cbn; split; try discriminate.
      + intros [m [d [I [J N]]]]. exfalso. apply in_app_iff in I as [I|[<-|[]]].
        * assert (X : ofold (index_external_module ann effs lit other) imports new = None) by (apply fold_none; eauto). congruence.
        * assert (X : exists d, In d ds /\ open_method ann effs d) by eauto. eapply indexes_none in X. rewrite X in Q. discriminate.
      + intros _. apply indexes_none in Q as [d [I N]]; auto. exists ds, d. split; auto. apply in_or_app. cbn. auto.
      + auto.
    - cbn. split; auto. intros _. apply fold_none in E as [m [d [I N]]]. exists m, d. split; auto. apply in_or_app. auto.
  Qed.
End Stages.
