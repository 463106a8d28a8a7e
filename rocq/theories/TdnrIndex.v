(** The index holds the declared methods. *)
From Verif Require Export TdnrTypes.
From Verif Require Import TyProofs SubstProofs PathProofs MonoRefs.
Local Open Scope nat_scope. Local Open Scope list_scope.

Definition enc (m : method) : string * mentry := (fst m, {| m_func := path_text (fst (snd m)); m_type := snd (snd m) |}).
Section Index.
  Variables (ann : N -> option annot) (effs : N -> option (list annot)) (lit : N -> literal) (other : N -> other_decl).
  Hypothesis MEAN : meanings_ok ann effs other.

  Lemma types_ok d : forall path, Forall name_ok path -> decl_ok d ->
    type_identities other (path_text path) d = texts (types_in other path d) /\ known_ok (types_in other path d).
  Proof.
    destruct MEAN as [_ [_ OT]]. unfold known_ok. induction d using decl_all; intros path P O; cbn [type_identities types_in]; auto.
    - destruct b as [b|]; auto. inv O. cbn [opt_all] in H. rewrite pushed by auto. pose proof (ok_snoc _ _ P H2) as PO.
      induction H; inv H3; cbn; auto. destruct IHForall as [A B]; auto. destruct (H _ PO H5) as [C D].
      unfold texts in *. rewrite map_app. split; [f_equal; auto|apply Forall_app; auto].
    - specialize (OT n). destruct (other n); cbn in OT; auto; cbn; rewrite qualified by auto; split; auto; repeat constructor; cbn; apply ok_snoc; tauto.
  Qed.
  Lemma types_all ds : Forall decl_ok ds -> flat_map (type_identities other "") ds = texts (flat_map (types_in other []) ds) /\ known_ok (flat_map (types_in other []) ds).
  Proof.
    unfold known_ok. induction 1 as [|d ds D _ IH]; cbn; auto. destruct (types_ok d [] (Forall_nil _) D) as [A B]. destruct IH as [C E].
    unfold texts in *. rewrite map_app. split; [f_equal; auto|apply Forall_app; auto].
  Qed.
  Lemma like f : method_like ann f <-> exists p ps n, f_params f = p :: ps /\ obind (ann (p_ann p)) receiver_name = Some n.
  Proof.
    unfold method_like. split.
    - intros [p [ps [a [E [A N]]]]]. apply receiver_named in N as [n N]. exists p, ps, n. rewrite A. auto.
    - intros [p [ps [n [E B]]]]. apply obind_some in B as [a [A B]]. exists p, ps, a. repeat split; auto. apply receiver_named. eauto.
  Qed.
  Section Known.
    Variables (k : typelist) (str : option ty).
    Hypothesis K : known_ok k.
    Lemma built path f t : Forall name_ok path -> build_func_type ann effs lit (texts k) str (path_text path) f = Some t -> function_type ann effs lit k (text_of str) path f t.
    Proof.
      destruct MEAN as [AN [EF _]]. intros P E. unfold build_func_type in E.
      destruct (annotations_effect_row (annotation_type (texts k) (path_text path)) (effs (f_effects f))) as [e|] eqn:R; [|discriminate]. injection E as <-.
      do 3 eexists. split; [|split; [|split; [|reflexivity]]].
      - induction (f_params f) as [|p ps IH]; cbn; constructor; auto. unfold parameter, opt_annotation_type. destruct (ann (p_ann p)) eqn:Q; auto.
        apply annotation_type_ok; eauto.
      - unfold returned. destruct (ann (f_ret f)) eqn:Q; [apply annotation_type_ok; eauto|].
        destruct (get_expr_type lit str (f_body f)) eqn:G; [left; apply typed_ok; auto|]. right. split; auto. intros u T. apply typed_ok in T. congruence.
      - eapply row_ok; eauto.
    Qed.
    Lemma accessors path name tparams fields : Forall name_ok path -> name_ok name -> Forall name_ok tparams ->
      Forall (fun f => match fst f with Some m => name_ok m | None => True end /\ annot_ok (snd f)) fields ->
      exists ms, Forall2 (accessor_of k path name tparams) fields ms /\ flat_map (accessor (texts k) (path_text path) name tparams) fields = List.map enc (concat ms).
    Proof.
      intros P N T F. induction F as [|[[m|] a] fields [M A] F [ms [X Y]]]; [exists []; auto| |].
      - cbn [flat_map accessor fst snd]. eexists ([(m, (path ++ [m], TFunc [_] _ ([], None) Direct))] :: ms). split.
        + constructor; auto. constructor; [|apply annotation_type_ok; auto].
          replace (match tparams with [] => ANamed name | _ :: _ => AApp (ANamed name) (List.map ANamed tparams) end) with (self_annotation name tparams) by reflexivity.
          apply annotation_type_ok; auto. unfold self_annotation. destruct tparams; cbn [annot_ok]; auto. split; auto. clear - T. induction T; cbn; auto.
        + cbn [concat]. rewrite map_app, <- Y. cbn [List.map enc fst snd List.app]. rewrite qualified by auto. reflexivity.
      - exists ([] :: ms). split; [constructor; auto; constructor|]. cbn. auto.
    Qed.
    Lemma index_ok d : forall path l, Forall name_ok path -> decl_ok d -> index_decl ann effs lit other (texts k) str (path_text path) d = Some l ->
      exists ms, offers ann effs lit other k (text_of str) path d ms /\ l = List.map enc ms.
    Proof.
      induction d using decl_all; intros path l P O E; cbn [index_decl] in E.
      - inv O. destruct (f_params f) as [|p ps] eqn:Q.
        { injection E as <-. exists []. split; auto. constructor. rewrite like. intros [p [ps [n [E _]]]]. congruence. }
        destruct (obind (ann (p_ann p)) receiver_name) eqn:R.
        + destruct (build_func_type ann effs lit (texts k) str (path_text path) f) as [t|] eqn:B; [|discriminate]. injection E as <-.
          exists [(f_name f, (path ++ [f_name f], t))]. split; [|cbn; unfold enc; cbn; rewrite qualified; auto].
          constructor; [apply like; eauto|apply built; auto].
        + injection E as <-. exists []. split; auto. constructor. rewrite like. intros [p' [ps' [n [E S]]]]. rewrite Q in E. injection E as <- <-. congruence.
      - injection E as <-. exists []. split; auto. constructor.
      - destruct b as [b|]; [|injection E as <-; exists []; split; auto; constructor]. inv O. cbn [opt_all] in H. rewrite pushed in E by auto. pose proof (ok_snoc _ _ P H2) as PO.
        destruct (otraverse _ b) as [ls|] eqn:T; [|discriminate]. injection E as <-. apply otraverse_some in T.
        assert (exists ms, Forall2 (offers ann effs lit other k (text_of str) (path ++ [n])) b ms /\ concat ls = List.map enc (concat ms)) as [ms [A B]].
        { clear - H H3 T PO. induction T; [exists []; auto|]. inv H. inv H3. destruct IHT as [ms [A B]]; auto. destruct (H4 _ _ PO H2 H0) as [m [C ->]].
          exists (m :: ms). split; auto. cbn. rewrite map_app. congruence. }
        exists (concat ms). split; auto. constructor; auto.
      - destruct MEAN as [_ [_ OT]]. specialize (OT n). destruct (other n) as [node name tps fs|node name|] eqn:Q;
          try (injection E as <-; exists []; split; auto; apply of_other; intros; congruence).
        destruct OT as [N [T F]]. rewrite pushed in E by auto. injection E as <-. destruct (accessors (path ++ [name]) name tps fs) as [ms [A B]]; auto using ok_snoc.
        exists (concat ms). split; auto. econstructor; eauto.
    Qed.
    Lemma index_all_ok ds l : Forall decl_ok ds -> index_decls ann effs lit other (texts k) str ds = Some l ->
      exists ms, Forall2 (offers ann effs lit other k (text_of str) []) ds ms /\ l = List.map enc (concat ms).
    Proof.
      unfold index_decls. intros O E. destruct (otraverse _ ds) as [ls|] eqn:T; [|discriminate]. injection E as <-. apply otraverse_some in T.
      induction T; [exists []; auto|]. inv O. destruct IHT as [ms [A B]]; auto. destruct (index_ok x [] y) as [m [C ->]]; auto.
      exists (m :: ms). split; auto. cbn. rewrite map_app. congruence.
    Qed.
  End Known.

  (** ** Panics *)
  Lemma index_none ids str d : forall p path, index_decl ann effs lit other ids str p d = None <->
    exists q f l a, In (q, f) (all_functions path d) /\ method_like ann f /\ effs (f_effects f) = Some l /\ In a l /\ row_variable a.
  Proof.
    induction d using decl_all; intros p path; cbn [index_decl all_functions].
    - transitivity (method_like ann f /\ annotations_effect_row (annotation_type ids p) (effs (f_effects f)) = None).
      + rewrite like. destruct (f_params f) as [|x ps]; [split; [discriminate|intros [[? [? [? [? _]]]] _]; discriminate]|].
        destruct (obind (ann (p_ann x)) receiver_name) as [n|] eqn:R.
        * unfold build_func_type. destruct (annotations_effect_row _ _); cbn; split; try discriminate; try (intros [_ Q]; discriminate); auto. intros _. split; eauto 6.
        * split; [discriminate|]. intros [[? [? [? [Q S]]]] _]. injection Q as <- <-. congruence.
      + rewrite row_none. split.
        * intros [M [l [a [E [I R]]]]]. exists (path ++ [f_name f]), f, l, a. cbn. auto.
        * intros [q [g [l [a [[E|[]] [M [F [I R]]]]]]]]. injection E as <- <-. split; eauto.
    - split; [discriminate|]. intros [q [f [l [a [[] _]]]]].
    - destruct b as [b|]; [|split; [discriminate|intros [q [f [l [a [[] _]]]]]]]. cbn [opt_all] in H.
      set (p' := fst (push_prefix p n)). clearbody p'. transitivity (exists d, In d b /\ index_decl ann effs lit other ids str p' d = None).
      + clear H. induction b as [|d b IH]; cbn [otraverse option_map]; [split; [discriminate|intros [d [[] _]]]|]. cbn. fold (otraverse (index_decl ann effs lit other ids str p')).
        destruct (index_decl ann effs lit other ids str p' d) eqn:E; cbn.
        * destruct (otraverse _ b); cbn in *; rewrite ?IH; split; try discriminate; intros [x [I N]].
          -- destruct I as [<-|I]; [congruence|]. assert (Some (concat l0) = None) by (apply IH; eauto). discriminate.
          -- eauto.
          -- destruct I as [<-|I]; [congruence|]. eauto.
        * split; auto. eauto.
      + split.
        * intros [d [I N]]. rewrite Forall_forall in H. apply (H d I p' (path ++ [n])) in N as [q [f [l [a [J N]]]]]. exists q, f, l, a. split; auto. apply in_flat_map. eauto.
        * intros [q [f [l [a [J N]]]]]. apply in_flat_map in J as [d [I J]]. exists d. split; auto. rewrite Forall_forall in H. apply (H d I p' (path ++ [n])). exists q, f, l, a. auto.
    - destruct (other n); split; try discriminate; intros [q [f [l [a [[] _]]]]].
  Qed.
  Lemma indexes_none ids str ds : index_decls ann effs lit other ids str ds = None <-> exists d, In d ds /\ open_method ann effs d.
  Proof.
    unfold index_decls, open_method. induction ds as [|d ds IH]; [split; [discriminate|intros [d [[] _]]]|]. cbn [otraverse]. cbn. fold (otraverse (index_decl ann effs lit other ids str "")).
    destruct (index_decl ann effs lit other ids str "" d) eqn:E; cbn.
    - destruct (otraverse _ ds); cbn in *; split; try discriminate.
      + intros [x [[<-|I] N]]; [apply (index_none ids str d "" []) in N; congruence|]. assert (Some (concat l0) = None) by (apply IH; eauto). discriminate.
      + intros _. destruct (proj1 IH eq_refl) as [x [I N]]. eauto.
      + auto.
    - split; auto. intros _. exists d. split; auto. apply (index_none ids str d "" []); auto.
  Qed.
End Index.
