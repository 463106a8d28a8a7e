(** Remaining method calls, second runs and fields. *)
From Verif Require Export TdnrMain MonoParts.
From Verif Require Import TyProofs SubstProofs PathProofs MonoRefs.
Local Open Scope nat_scope. Local Open Scope list_scope.

(** ** The methods are determined *)
Lemma Forall2_det {A B} (R S : A -> B -> Prop) l : Forall (fun a => forall b c, R a b -> S a c -> b = c) l -> forall x y, Forall2 R l x -> Forall2 S l y -> x = y.
Proof. induction 1; intros x' y A1 B1; inv A1; inv B1; auto. f_equal; eauto. Qed.
Lemma accessor_det k path name tps f : forall a b, accessor_of k path name tps f a -> accessor_of k path name tps f b -> a = b.
Proof.
  intros a b A B. inv A; inv B; auto.
  match goal with X : annotated _ _ (self_annotation _ _) _, Y : annotated _ _ (self_annotation _ _) _ |- _ => pose proof (annotated_det _ _ _ _ _ X Y); subst end.
  match goal with X : annotated _ _ ?a _, Y : annotated _ _ ?a _ |- _ => pose proof (annotated_det _ _ _ _ _ X Y); subst end. auto.
Qed.
Section Det.
  Variables (ann : N -> option annot) (effs : N -> option (list annot)) (lit : N -> literal) (other : N -> other_decl).
  Lemma function_det k str path f t u : function_type ann effs lit k str path f t -> function_type ann effs lit k str path f u -> t = u.
  Proof.
    intros [ps [r [e [A [B [C ->]]]]]] [qs [r' [e' [A' [B' [C' ->]]]]]].
    assert (ps = qs) as ->.
    { eapply Forall2_det; [|exact A|exact A']. apply Forall_forall. intros p _ x y. unfold parameter. destruct (ann (p_ann p)); [apply annotated_det|congruence]. }
    assert (r = r') as ->.
    { unfold returned in *. destruct (ann (f_ret f)); [eapply annotated_det; eauto|]. destruct B as [B|[-> B]], B' as [B'|[-> B']]; eauto using typed_det; exfalso; [eapply B'|eapply B]; eauto. }
    rewrite (row_det _ _ _ _ _ C C'). reflexivity.
  Qed.
  Lemma offers_det k str d : forall path a b, offers ann effs lit other k str path d a -> offers ann effs lit other k str path d b -> a = b.
  Proof.
    induction d using decl_all; intros path x y A B; inv A; inv B; auto; try contradiction.
    - match goal with X : function_type _ _ _ _ _ _ _ _, Y : function_type _ _ _ _ _ _ _ _ |- _ => pose proof (function_det _ _ _ _ _ _ X Y); subst end. auto.
    - f_equal. cbn [opt_all] in H. eapply Forall2_det; [|eassumption|eassumption]. each H. eauto.
    - match goal with X : other n = _, Y : other n = _ |- _ => rewrite X in Y; injection Y as <- <- <- <- end.
      f_equal. eapply Forall2_det; [|eassumption|eassumption]. apply Forall_forall. intros f _. apply accessor_det.
    - exfalso. match goal with H : forall _ _ _ _, other n <> _ |- _ => eapply H; eassumption end.
    - exfalso. match goal with H : forall _ _ _ _, other n <> _ |- _ => eapply H; eassumption end.
  Qed.
  Lemma methods_det imports ds a b : all_methods ann effs lit other imports ds a -> all_methods ann effs lit other imports ds b -> a = b.
  Proof.
    intros [l [l' [A [B ->]]]] [m [m' [A' [B' ->]]]]. f_equal; f_equal.
    - eapply Forall2_det; [|exact A|exact A']. apply Forall_forall. intros i _ x y [d [u [D [U ->]]]] [e [v [E [V ->]]]]. rewrite D in E. injection E as <-.
      f_equal. eapply Forall2_det; [|exact U|exact V]. apply Forall_forall. intros z _. apply offers_det.
    - eapply Forall2_det; [|exact B|exact B']. apply Forall_forall. intros z _. apply offers_det.
  Qed.
End Det.

(** ** Reports *)
Lemma rep_block i ss v : report_expr (Block i ss v) = flat_map report_stmt ss ++ report_expr v. Proof. reflexivity. Qed.
Lemma rep_case i x l : report_expr (Case i x l) = report_expr x ++ flat_map report_arm l. Proof. reflexivity. Qed.
Lemma rep_handle i x l : report_expr (Handle i x l) = report_expr x ++ flat_map report_handler l. Proof. reflexivity. Qed.
Lemma rep_arm i p g b : report_arm (Arm i p g b) = match g with Some g => report_expr g | None => [] end ++ report_expr b. Proof. reflexivity. Qed.
Lemma report_case e v : In v (report_expr e) <-> (exists o es, e = MethodCall (fst v) o (snd v) es) \/ exists x, part x e /\ In v (report_expr x).
Proof.
  split.
  - destruct e; rewrite ?rep_block, ?rep_case, ?rep_handle; cbn [report_expr In]; rewrite ?in_app_iff, ?in_flat_map; intros I; try (right; some_part; fail); try destruct I as [I|I];
      try (right; some_part; fail); try (destruct I as [x [J K]]; right; some_part; fail); try (destruct I; fail).
    + destruct I as [[n x] [J K]]. cbn in K. right. some_part.
    + destruct spread; [|destruct I]. right. some_part.
    + left. subst v. cbn. eauto.
    + destruct I as [I|[x [J I]]]; right; some_part.
    + destruct I as [[j p a x|j x] [J K]]; right; change (In v (report_expr x)) in K; some_part.
    + destruct I as [[j p g x] [J K]]. rewrite rep_arm in K. apply in_app_iff in K as [K|K]; [destruct g; [|destruct K]|]; right; some_part.
    + destruct I as [[j k x] [J K]]. change (In v (report_expr x)) in K. right; some_part.
  - intros [[o [es ->]]|[x [P I]]]; [destruct v; cbn; auto|].
    inversion P; subst; rewrite ?rep_block, ?rep_case, ?rep_handle; cbn [report_expr In]; rewrite ?in_app_iff, ?in_flat_map; eauto.
    + right. eexists. split; eauto. rewrite rep_arm. apply in_or_app. auto.
    + right. eexists. split; eauto. rewrite rep_arm. apply in_or_app. auto.
Qed.
Lemma reported_expr e i m : In (i, m) (report_expr e) <-> exists o es, within (MethodCall i o m es) e.
Proof.
  rewrite (collects (fun e v => exists o es, e = MethodCall (fst v) o (snd v) es) report_expr report_case). cbn. split.
  - intros [x [W [o [es ->]]]]. eauto.
  - intros [o [es W]]. eauto.
Qed.
Lemma reported_decl i m d : forall path, In (i, m) (report_decl d) <-> exists p f, In (p, f) (all_functions path d) /\ In (i, m) (report_expr (f_body f)).
Proof.
  induction d using decl_all; intros path; cbn [report_decl all_functions]; try (split; [intros []|intros [p [f [[] _]]]]; fail).
  - split; [intros I; do 2 eexists; split; [left; reflexivity|auto]|]. intros [p [g [[E|[]] I]]]. injection E as <- <-. auto.
  - destruct b as [b|]; [|split; [intros []|intros [p [f [[] _]]]]]. cbn [opt_all] in H. rewrite Forall_forall in H. rewrite in_flat_map. split.
    + intros [d [J I]]. apply (H d J (path ++ [n])) in I as [p [f [K I]]]. exists p, f. split; auto. apply in_flat_map. eauto.
    + intros [p [f [K I]]]. apply in_flat_map in K as [d [J K]]. exists d. split; auto. apply (H d J (path ++ [n])). eauto.
Qed.
Lemma reported ds i m : In (i, m) (report_unresolved_methods ds) <->
  exists p f o es, In (p, f) (source_functions ds) /\ within (MethodCall i o m es) (f_body f).
Proof.
  unfold report_unresolved_methods, source_functions. rewrite in_flat_map. split.
  - intros [d [J I]]. apply (reported_decl _ _ _ []) in I as [p [f [K I]]]. apply reported_expr in I as [o [es W]]. exists p, f, o, es. split; auto. apply in_flat_map. eauto.
  - intros [p [f [o [es [K W]]]]]. apply in_flat_map in K as [d [J K]]. exists d. split; auto. apply (reported_decl _ _ _ []). exists p, f. split; auto. apply reported_expr. eauto.
Qed.

(** ** What is left *)
Lemma expr_parts (P : expr -> Prop) : (forall e, (forall y, part y e -> P y) -> P e) -> forall e, P e.
Proof.
  intros Q. induction e using expr_all; apply Q; intros y X; inversion X; subst; auto;
    repeat match goal with H : Forall _ _ |- _ => rewrite Forall_forall in H end; auto.
  - match goal with K : In (_, y) fs |- _ => apply H in K; cbn in K; auto end.
  - match goal with K : In (Let _ _ _ y) _ |- _ => apply H in K; auto end.
  - match goal with K : In (Do_ _ y) _ |- _ => apply H in K; auto end.
  - match goal with K : In (Arm _ _ (Some y) _) _ |- _ => apply H in K; destruct K; auto end.
  - match goal with K : In (Arm _ _ _ y) _ |- _ => apply H in K; destruct K; auto end.
  - match goal with K : In (HArm _ _ y) _ |- _ => apply H in K; auto end.
Qed.
Section Left.
  Variables (lit : N -> literal) (r : resolver).
  Lemma re_block i ss v : resolve_expr lit r (Block i ss v) = Block i (List.map (resolve_stmt lit r) ss) (resolve_expr lit r v). Proof. reflexivity. Qed.
  Lemma re_case i x l : resolve_expr lit r (Case i x l) = Case i (resolve_expr lit r x) (List.map (resolve_arm lit r) l). Proof. reflexivity. Qed.
  Lemma re_handle i x l : resolve_expr lit r (Handle i x l) = Handle i (resolve_expr lit r x) (List.map (resolve_handler_arm lit r) l). Proof. reflexivity. Qed.
  Lemma re_let i p a x : resolve_stmt lit r (Let i p a x) = Let i p a (resolve_expr lit r x). Proof. reflexivity. Qed.
  Lemma re_do i x : resolve_stmt lit r (Do_ i x) = Do_ i (resolve_expr lit r x). Proof. reflexivity. Qed.
  Lemma re_arm i p g x : resolve_arm lit r (Arm i p g x) = Arm i p (option_map (resolve_expr lit r) g) (resolve_expr lit r x). Proof. reflexivity. Qed.
  Lemma re_harm i k x : resolve_handler_arm lit r (HArm i k x) = HArm i k (resolve_expr lit r x). Proof. reflexivity. Qed.
  Lemma part_resolved e y : part y (resolve_expr lit r e) -> (exists x, part x e /\ y = resolve_expr lit r x) \/ exists i v, y = Var i v.
  Proof.
    intros P. destruct e; rewrite ?re_block, ?re_case, ?re_handle in P; cbn [resolve_expr] in P; unfold method_call in P; try destruct (lookup_method _ _ _); inversion P; subst; clear P;
      try match goal with K : In y (resolve_expr _ _ _ :: _) |- _ => destruct K as [<-|K] end;
      try (match goal with K : In _ (List.map _ _) |- _ => apply in_map_iff in K as [x [E K]] end); eauto using part;
      try (left; eexists; split; [|symmetry; eassumption]; econstructor; eassumption).
    - destruct x as [m x]. injection E as <- <-. left. eexists. split; [econstructor; eauto|reflexivity].
    - destruct spread as [z|]; cbn in *; [|discriminate]. left. exists z. split; [constructor|congruence].
    - destruct x as [j' p' a' x|j' x]; [|discriminate]. injection E as <- <- <- <-. left. eexists. split; [econstructor; eauto|reflexivity].
    - destruct x as [j' p' a' x|j' x]; [discriminate|]. injection E as <- <-. left. eexists. split; [eapply part_do; eauto|reflexivity].
    - destruct x as [j' p' [g'|] x]; [|discriminate]. injection E as <- <- <- <-. left. eexists. split; [eapply part_guard; eauto|reflexivity].
    - destruct x as [j' p' g' x]. injection E as <- <- <- <-. left. eexists. split; [eapply part_arm; eauto|reflexivity].
    - destruct x as [j' k' x]. injection E as <- <- <-. left. eexists. split; [eapply part_handler; eauto|reflexivity].
  Qed.
  Lemma left_expr i o m es : forall e, within (MethodCall i o m es) (resolve_expr lit r e) -> lookup_method r (get_expr_type lit (string_type r) o) m = None.
  Proof.
    induction e as [e IH] using expr_parts. intros W. apply within_case in W as [E|[y [P W]]].
    - destruct e; try discriminate. cbn [resolve_expr] in E. unfold method_call in E. match type of E with context [lookup_method ?a ?b ?c] => destruct (lookup_method a b c) eqn:L end; [discriminate|]. injection E as -> -> -> ->. exact L.
    - apply part_resolved in P as [[x [P ->]]|[j [v ->]]]; [eauto|]. inversion W; subst. match goal with H : part _ (Var _ _) |- _ => inversion H end.
  Qed.
  Lemma source_resolved ds p g : In (p, g) (source_functions (List.map (resolve_decl lit r) ds)) -> exists f, In (p, f) (source_functions ds) /\ g = with_body f (resolve_expr lit r (f_body f)).
  Proof.
    assert (D : forall d path, In (p, g) (all_functions path (resolve_decl lit r d)) -> exists f, In (p, f) (all_functions path d) /\ g = with_body f (resolve_expr lit r (f_body f))).
    { induction d using decl_all; intros path I; cbn [resolve_decl all_functions] in *; try (destruct I; fail).
      - destruct I as [E|[]]. injection E as <- <-. exists f. split; auto. left. reflexivity.
      - destruct b as [b|]; [|destruct I]. cbn [option_map opt_all] in *. apply in_flat_map in I as [d' [J I]]. apply in_map_iff in J as [d [<- J]].
        rewrite Forall_forall in H. apply (H d J) in I as [f [K E]]. exists f. split; auto. apply in_flat_map. eauto. }
    unfold source_functions. intros I. apply in_flat_map in I as [d' [J I]]. apply in_map_iff in J as [d [<- J]]. apply D in I as [f [K E]]. exists f. split; auto. apply in_flat_map. eauto.
  Qed.
End Left.
Lemma left_over ann effs lit other imports ds ds' ms p f i o m es :
  meanings_ok ann effs other -> Forall (Forall decl_ok) imports -> Forall decl_ok ds -> resolve_tdnr ann effs lit other imports ds = Some ds' ->
  all_methods ann effs lit other imports ds ms -> In (p, f) (source_functions ds') -> within (MethodCall i o m es) (f_body f) ->
  forall t x, typed lit (text other imports) o t -> ~ the_method ms m t x.
Proof.
  intros MEAN DI D E A I W t x T X. unfold resolve_tdnr in E. destruct (index_all ann effs lit other imports ds) as [r|] eqn:Q; [|discriminate]. injection E as <-.
  destruct (indexed _ _ _ _ MEAN _ _ _ DI D Q) as [S [ms' [A' M]]]. rewrite (methods_det _ _ _ _ _ _ _ _ A A') in X. rewrite S in T. apply typed_ok in T.
  apply source_resolved in I as [g [_ ->]]. apply left_expr in W. rewrite T in W.
  assert (Y : lookup_method r (Some t) m = Some (snd (enc x))) by (apply (lookup_ok _ _ _ _ _ M); eauto). congruence.
Qed.

(** ** A second run *)
Section Again.
  Variables (ann : N -> option annot) (effs : N -> option (list annot)) (lit : N -> literal) (other : N -> other_decl).
  (** Entries that differ in result types only. *)
  Definition alike (e e' : string * mentry) : Prop :=
    fst e = fst e' /\ m_func (snd e) = m_func (snd e') /\ receiver_ty (snd e) = receiver_ty (snd e').
  Lemma alike_refl e : alike e e. Proof. repeat split. Qed.
  Lemma alike_list l : Forall2 alike l l. Proof. induction l; constructor; auto using alike_refl. Qed.
  Lemma alike_lookup r r' t m : Forall2 alike (methods r) (methods r') -> lookup_method r t m = None -> lookup_method r' t m = None.
  Proof.
    intros F. unfold lookup_method. destruct t as [t|]; auto. cbn [obind].
    assert (L : Forall2 (fun a b => True) (filter (fun e => receiver_matches e t) (List.map snd (filter (fun x => String.eqb (fst x) m) (methods r))))
       (filter (fun e => receiver_matches e t) (List.map snd (filter (fun x => String.eqb (fst x) m) (methods r'))))).
    { induction F as [|a b l l' [N [_ R]] F IH]; cbn; auto. rewrite N. destruct (String.eqb (fst b) m); auto. cbn.
      assert (receiver_matches (snd a) t = receiver_matches (snd b) t) as -> by (unfold receiver_matches; rewrite R; auto). destruct (receiver_matches (snd b) t); auto. }
    destruct L as [|a b l l' _ L]; auto. destruct L; auto. discriminate.
  Qed.
  Section Twice.
    Variables r r' : resolver.
    Hypothesis F : Forall2 alike (methods r) (methods r').
    Hypothesis S : string_type r = string_type r'.
    Lemma again e : resolve_expr lit r' (resolve_expr lit r e) = resolve_expr lit r e.
    Proof.
      assert (MAP : forall es, Forall (fun e => resolve_expr lit r' (resolve_expr lit r e) = resolve_expr lit r e) es ->
        List.map (resolve_expr lit r') (List.map (resolve_expr lit r) es) = List.map (resolve_expr lit r) es) by (intros es X; rewrite map_map; apply map_eq; auto).
      induction e using expr_all; rewrite ?re_block, ?re_case, ?re_handle; cbn [resolve_expr]; try (f_equal; auto; fail).
      - f_equal; [|destruct sp; cbn in *; congruence]. rewrite map_map. apply map_eq. each H. cbn. congruence.
      - unfold method_call. destruct (lookup_method r (get_expr_type lit (string_type r) (resolve_expr lit r e)) n) eqn:L; cbn [resolve_expr List.map]; rewrite IHe, MAP by auto; auto.
        unfold method_call. rewrite <- S, (alike_lookup r r'); auto.
      - f_equal; auto. rewrite map_map. apply map_eq. each H. destruct a; rewrite ?re_let, ?re_do; f_equal; auto.
      - f_equal; auto. rewrite map_map. apply map_eq. each H. destruct a as [j p g b], H1. rewrite !re_arm. f_equal; auto. destruct g; cbn in *; congruence.
      - f_equal; auto. rewrite map_map. apply map_eq. each H. destruct a; rewrite !re_harm; f_equal; auto.
    Qed.
    Lemma again_decl d : resolve_decl lit r' (resolve_decl lit r d) = resolve_decl lit r d.
    Proof.
      induction d using decl_all; cbn [resolve_decl]; auto.
      - unfold with_body. cbn. rewrite again. auto.
      - destruct b as [b|]; cbn; auto. f_equal. f_equal. rewrite map_map. apply map_eq. exact H.
    Qed.
  End Twice.
  Lemma index_again r0 ids str d : forall p, match index_decl ann effs lit other ids str p d, index_decl ann effs lit other ids str p (resolve_decl lit r0 d) with
    | Some l, Some l' => Forall2 alike l l' | None, None => True | _, _ => False end.
  Proof.
    induction d using decl_all; intros p; cbn [resolve_decl index_decl].
    - cbn [f_params f_name with_body]. destruct (f_params f) as [|x ps] eqn:PS; auto. destruct (obind _ _); auto. unfold build_func_type. cbn [f_ret f_effects f_body f_params with_body].
      destruct (annotations_effect_row _ _); cbn; [|auto]. constructor; [|constructor]. split; [reflexivity|]. split; [reflexivity|]. unfold receiver_ty. cbn. rewrite PS. reflexivity.
    - constructor.
    - destruct b as [b|]; cbn [option_map]; auto. cbn [opt_all] in H. set (p' := fst (push_prefix p n)). clearbody p'.
      assert (X : match otraverse (index_decl ann effs lit other ids str p') b, otraverse (index_decl ann effs lit other ids str p') (List.map (resolve_decl lit r0) b) with
        | Some l, Some l' => Forall2 alike (concat l) (concat l') | None, None => True | _, _ => False end).
      { induction H as [|d b D _ IH]; cbn; auto. fold (otraverse (index_decl ann effs lit other ids str p')). specialize (D p').
        destruct (index_decl ann effs lit other ids str p' d), (index_decl ann effs lit other ids str p' (resolve_decl lit r0 d)); cbn; auto; try contradiction.
        destruct (otraverse _ b), (otraverse _ (List.map _ b)); cbn; auto. apply Forall2_app; auto. }
      destruct (otraverse _ b), (otraverse _ (List.map _ b)); cbn; auto.
    - destruct (other n); auto using alike_list.
  Qed.
  Lemma types_again r0 d : forall p, type_identities other p (resolve_decl lit r0 d) = type_identities other p d.
  Proof.
    induction d using decl_all; intros p; cbn [resolve_decl type_identities]; auto. destruct b as [b|]; cbn; auto. set (p' := fst (push_prefix p n)). clearbody p'.
    rewrite (flat_map_concat_map _ (List.map _ b)), map_map, flat_map_concat_map. f_equal. apply map_eq. each H. auto.
  Qed.
  Lemma second imports ds ds' : resolve_tdnr ann effs lit other imports ds = Some ds' -> resolve_tdnr ann effs lit other imports ds' = Some ds'.
  Proof.
    unfold resolve_tdnr, index_all. destruct (ofold _ imports new) as [r|]; cbn [obind]; [|discriminate]. unfold add_module.
    destruct (index_decls _ _ _ _ _ _ ds) as [l|] eqn:E; cbn; [|discriminate]. intros [= <-].
    set (r1 := {| ids := ids r ++ flat_map (type_identities other "") ds; methods := methods r ++ l; string_type := string_type r |}).
    assert (T : flat_map (type_identities other "") (List.map (resolve_decl lit r1) ds) = flat_map (type_identities other "") ds).
    { rewrite (flat_map_concat_map _ (List.map _ ds)), map_map, flat_map_concat_map. f_equal. apply map_eq, Forall_forall. intros; apply types_again. }
    rewrite T. set (is := ids r ++ flat_map (type_identities other "") ds) in *. unfold index_decls in *.
    assert (X : match otraverse (index_decl ann effs lit other is (string_type r) "") ds, otraverse (index_decl ann effs lit other is (string_type r) "") (List.map (resolve_decl lit r1) ds) with
        | Some l, Some l' => Forall2 alike (concat l) (concat l') | None, None => True | _, _ => False end).
    { clearbody is r1. clear. induction ds as [|d b IH]; cbn; auto. fold (otraverse (index_decl ann effs lit other is (string_type r) "")). pose proof (index_again r1 is (string_type r) d "") as D.
        destruct (index_decl ann effs lit other is (string_type r) "" d), (index_decl ann effs lit other is (string_type r) "" (resolve_decl lit r1 d)); cbn; auto; try contradiction.
        destruct (otraverse _ b), (otraverse _ (List.map _ b)); cbn; auto. apply Forall2_app; auto. }
    destruct (otraverse _ ds) as [ls|]; [|discriminate]. injection E as <-. destruct (otraverse _ (List.map _ ds)) as [ls'|]; [|contradiction]. cbn. f_equal.
    rewrite map_map. apply map_eq, Forall_forall. intros d _. apply again_decl; cbn; auto. apply Forall2_app; auto using alike_list.
  Qed.
End Again.

(** ** Fields *)
Lemma Forall2_pick {A B} (R : A -> B -> Prop) l l' a : Forall2 R l l' -> In a l -> exists b, In b l' /\ R a b.
Proof. induction 1; intros K; [destruct K|]. destruct K as [<-|K]; [exists y; cbn; auto|]. destruct (IHForall2 K) as [b [X Y]]. exists b. cbn. auto. Qed.
Section Fields.
  Variables (ann : N -> option annot) (effs : N -> option (list annot)) (lit : N -> literal) (other : N -> other_decl).
  Lemma accessor_offered k str d : forall path ms at_ n node name tps fields f a, offers ann effs lit other k str path d ms -> In (at_, n) (others path d) ->
    other n = Struct node name tps fields -> In (Some f, a) fields -> exists s t, annotated k (at_ ++ [name]) (self_annotation name tps) s /\
      In (f, ((at_ ++ [name]) ++ [f], TFunc [s] t ([], None) Direct)) ms.
  Proof.
    induction d using decl_all; intros path ms at_ x node name tps fields g a O I Q J; cbn [others] in I; try (destruct I; fail).
    - destruct b as [b|]; [|destruct I]. inv O. cbn [opt_all] in H. apply in_flat_map in I as [d [K I]].
      assert (exists m, In m ms0 /\ offers ann effs lit other k str (path ++ [n]) d m) as [m [IM OM]].
      { eapply Forall2_pick; eauto. }
      rewrite Forall_forall in H. destruct (H d K _ _ _ _ _ _ _ _ _ _ OM I Q J) as [s [t [A B]]]. exists s, t. split; auto. apply in_concat. eauto.
    - destruct I as [E|[]]. injection E as <- <-. inv O; [|exfalso; match goal with Y : forall _ _ _ _, other n <> _ |- _ => eapply Y; eassumption end].
      match goal with Y : other n = _ |- _ => rewrite Q in Y; injection Y as <- <- <- <- end.
      assert (exists m, In m ms0 /\ accessor_of k (path ++ [name]) name tps (Some g, a) m) as [m [IM OM]].
      { eapply Forall2_pick; eauto. }
      inv OM. exists s, t. split; auto. apply in_concat. eexists. split; eauto. cbn. auto.
  Qed.
  Lemma field_offered imports ds ms path n node name tps fields f a t :
    all_methods ann effs lit other imports ds ms -> In (path, n) (flat_map (others []) ds) -> other n = Struct node name tps fields -> In (Some f, a) fields ->
    (forall p, name <> prim_text p) ->
    declared (known_in other (imports ++ [ds])) (path ++ [name]) = Some (mkTyDef (Source node) (path_text (path ++ [name]))) ->
    declared (known_in other (imports ++ [ds])) (path ++ [name; name]) = None ->
    head_of t (inl (mkTyDef (Source node) (path_text (path ++ [name])))) ->
    exists ft, In (f, (path ++ [name; f], ft)) ms /\ takes ft t.
  Proof.
    intros [l [l' [_ [O ->]]]] I Q J NP D1 D2 H. apply in_flat_map in I as [d [K I]].
    assert (exists m, In m l' /\ offers ann effs lit other (known_in other (imports ++ [ds])) (text other imports) [] d m) as [m [IM OM]].
    { eapply Forall2_pick; eauto. }
    destruct (accessor_offered _ _ _ _ _ _ _ _ _ _ _ _ _ OM I Q J) as [s [t' [A B]]]. exists (TFunc [s] t' ([], None) Direct). split.
    - rewrite <- app_assoc in B. apply in_or_app. right. apply in_concat. eauto.
    - exists s, []. do 3 eexists. exists (inl (mkTyDef (Source node) (path_text (path ++ [name])))). split; [reflexivity|]. split; auto.
      assert (N : forall u, annotated (known_in other (imports ++ [ds])) (path ++ [name]) (ANamed name) u -> head_of u (inl (mkTyDef (Source node) (path_text (path ++ [name]))))).
      { intros u X. inv X; [exfalso; eapply NP; eauto|]. replace (meant _ _ _) with (mkTyDef (Source node) (path_text (path ++ [name]))); [constructor|].
        unfold meant. rewrite around_snoc. cbn [find]. rewrite <- (app_assoc path [name] [name]). cbn [List.app]. rewrite D2.
        assert (exists z, around path = path :: z) as [z ->] by (clear; destruct path as [|s p] using rev_ind; [exists []; reflexivity|rewrite around_snoc; eauto]).
        cbn [find]. rewrite D1. rewrite D1. reflexivity. }
      unfold self_annotation in A. destruct tps; [apply N; auto|]. inv A. constructor. apply N; auto.
  Qed.
End Fields.
