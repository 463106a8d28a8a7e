(** Inference finds typings. *)
From Verif Require Import TyProofs UnifySpec UnifyComplete SubstProofs InferRun InferSolve InferFo InferPat.

Definition means (th : nat -> styp) (bs : list (nat * ty)) : list (nat * styp) :=
  List.map (fun b => (fst b, mean th none (snd b))) bs.

Section Bind.
  Variable cs : list cdecl.
  Notation K := (ctor_types cs).
  Notation pf := (pfacts cs).

  Section Collect.
    Variable N : list (nat * ty).
    Variable f : nat -> ty.
    Variables th1 th2 : nat -> styp.
    Hypothesis H12 : forall v, th2 v = mean th1 none (f v).
    Hypothesis H22 : forall v, th2 v = mean th2 none (f v).

    Lemma mean_once t : mean th1 none (fill f t) = mean th2 none t.
    Proof. rewrite mean_fill. apply mean_ext; [|reflexivity]. intros v _. symmetry. apply H12. Qed.
    Lemma mean_twice t : mean th1 none (fill f (fill f t)) = mean th2 none t.
    Proof. rewrite mean_once, mean_fill. apply mean_ext; [|reflexivity]. intros v _. symmetry. apply H22. Qed.

    Lemma collect_ok : forall p ty T, pf N th2 p T -> (is_variant p = false -> mean th1 none (fill f ty) = T) ->
      ptyped K p T (means th1 (collect_pat N f p ty)).
    Proof.
      assert (A : forall ps, Forall (fun p => forall ty T, pf N th2 p T -> (is_variant p = false -> mean th1 none (fill f ty) = T) ->
          ptyped K p T (means th1 (collect_pat N f p ty))) ps ->
        forall t0 Ts, pfacts_all cs N th2 ps Ts ->
        ptyped_all K ps Ts (means th1 (concat (List.map (fun p => collect_pat N f p (match look (pat_id p) N with Some t => fill f t | None => t0 end)) ps)))).
      { induction 1 as [|p ps H F IH]; intros t0 [|T Ts] P; cbn in P; try contradiction; [reflexivity|]. destruct P as [P1 P2].
        cbn [List.map concat ptyped_all]. eexists. eexists. split; [unfold means; apply map_app|]. split; [|apply IH, P2].
        apply H; [exact P1|]. intros V. apply pfacts_eq in P1 as [P1 _]. destruct (P1 V) as [t [-> Ht]]. rewrite mean_twice. exact Ht. }
      induction p as [i|i x|i l|i c ps F|i ps F|i ps F|i ps r F|i p x IH] using pat_ind'; intros ty T P HT;
        apply pfacts_eq in P; destruct P as [P0 P]; rewrite ptyped_eq; cbn [collect_pat is_variant] in *.
      - reflexivity.
      - cbn. rewrite HT by reflexivity. reflexivity.
      - split; [exact P | reflexivity].
      - destruct ps as [|q ps]; [destruct P; repeat split; assumption|]. destruct P as [Ts [P1 P2]]. exists Ts. split; [exact P1|]. apply A; assumption.
      - destruct P as [Ts [P1 P2]]. exists Ts. split; [exact P1|]. apply A; assumption.
      - destruct P as [U [P1 P2]]. exists U. split; [exact P1|]. apply A; assumption.
      - destruct P as [U [P1 P2]]. eexists U, _. split; [exact P1|]. split; [apply A; eassumption|].
        unfold means. rewrite map_app. f_equal. destruct r; [|reflexivity]. cbn. rewrite HT by reflexivity. reflexivity.
      - eexists. split; [cbn; rewrite HT by reflexivity; reflexivity|]. apply IH; [exact P|]. intros V.
        assert (X := HT eq_refl). apply pfacts_eq in P as [P1 _]. rewrite mean_fill in X.
        rewrite mean_once, mean_fill, <- X. apply mean_ext; [|reflexivity]. intros v _. rewrite <- H12. symmetry. apply H22.
    Qed.
  End Collect.

  Lemma app_log (l l' : list guess) : l ++ l' = [] -> l' = [].
  Proof. intros H. apply app_eq_nil in H. apply H. Qed.

  (** [bind_pat] leaves the equations, the nodes and the instances alone. *)
  Definition keeps {A} (m : M A) : Prop := forall st a st', m st = (a, st') ->
    i_cs st' = i_cs st /\ i_nodes st' = i_nodes st /\ i_refs st' = i_refs st /\ exists l, i_log st' = l ++ i_log st.
  Lemma keeps_ret {A} (a : A) : keeps (ret a).
  Proof. intros st b st' [= <- <-]. repeat split. exists []. reflexivity. Qed.
  Lemma keeps_bnd {A B} (m : M A) (f : A -> M B) : keeps m -> (forall a, keeps (f a)) -> keeps (bnd m f).
  Proof.
    intros H H0 st b st' E. apply bnd_inv in E as [a [st1 [E1 E2]]]. destruct (H _ _ _ E1) as [X1 [X2 [X3 [l X4]]]].
    destruct (H0 a _ _ _ E2) as [Y1 [Y2 [Y3 [l' Y4]]]]. repeat split; try congruence. exists (l' ++ l). rewrite <- app_assoc. congruence.
  Qed.
  Lemma keeps_fresh : keeps fresh.
  Proof. intros st b st' [= <- <-]. repeat split. exists []. reflexivity. Qed.
  Lemma keeps_guessed g : keeps (guessed g).
  Proof. intros st b st' [= <- <-]. repeat split. exists [g]. reflexivity. Qed.
  Lemma keeps_node i : keeps (node i).
  Proof. intros st b st' [= <- <-]. repeat split. exists []. reflexivity. Qed.
  Lemma keeps_mmap {A B} (f : A -> M B) l : Forall (fun a => keeps (f a)) l -> keeps (mmap f l).
  Proof.
    induction 1; cbn [mmap]; [apply keeps_ret|]. apply keeps_bnd; [assumption|]. intros. apply keeps_bnd; [assumption|]. intros. apply keeps_ret.
  Qed.
  Lemma keeps_mzip {A B C} (f : A -> B -> M C) l : (forall a b, In a l -> keeps (f a b)) -> forall l', keeps (mzip f l l').
  Proof.
    induction l as [|a l IH]; intros H [|b l']; cbn [mzip]; try apply keeps_ret. apply keeps_bnd; [apply H; left; reflexivity|]. intros.
    apply keeps_bnd; [apply IH; intros; apply H; right; assumption|]. intros. apply keeps_ret.
  Qed.
  Lemma keeps_fresh_for {A} (l : list A) : keeps (fresh_for l).
  Proof. apply keeps_mmap, Forall_forall. intros. apply keeps_fresh. Qed.
  Lemma keeps_list_elem t : keeps (list_elem t).
  Proof.
    assert (O : keeps (guessed Opened ;~ fresh)) by (apply keeps_bnd; [apply keeps_guessed | intros; apply keeps_fresh]).
    unfold list_elem. destruct t as [| | | |[o ?] ? args| | |c args| |]; try exact O.
    - destruct o; try exact O. destruct args as [|a [|]]; try exact O. apply keeps_ret.
    - destruct c as [| | | |[o ?] ? ?| | | | |]; try exact O. destruct o; try exact O. destruct args as [|a [|]]; try exact O. apply keeps_ret.
  Qed.
  Lemma keeps_bind p : forall t, keeps (bind_pat p t).
  Proof.
    induction p as [i|i x|i l|i c ps F|i ps F|i ps F|i ps r F|i p x IH] using pat_ind'; intros t; cbn [bind_pat]; try apply keeps_ret.
    - apply keeps_bnd; [|intros; apply keeps_ret]. apply keeps_mmap. revert F. apply Forall_impl. intros p Hp.
      apply keeps_bnd; [apply keeps_node|]. intros o. apply keeps_bnd; [|intros; apply Hp].
      destruct o; [apply keeps_ret | apply keeps_bnd; [apply keeps_guessed | intros; apply keeps_fresh]].
    - apply keeps_bnd.
      + destruct t; try apply keeps_ret; (apply keeps_bnd; [apply keeps_guessed | intros; apply keeps_fresh_for]).
      + intros ts. apply keeps_bnd; [|intros; apply keeps_ret]. apply keeps_mzip. intros p u Hp. apply (proj1 (Forall_forall _ _) F _ Hp).
    - apply keeps_bnd; [apply keeps_list_elem|]. intros. apply keeps_bnd; [|intros; apply keeps_ret]. apply keeps_mmap.
      revert F. apply Forall_impl. intros p Hp. apply Hp.
    - apply keeps_bnd; [apply keeps_list_elem|]. intros. apply keeps_bnd; [|intros; apply keeps_ret]. apply keeps_mmap.
      revert F. apply Forall_impl. intros p Hp. apply Hp.
    - apply keeps_bnd; [apply IH|]. intros. apply keeps_ret.
  Qed.

  Lemma list_elem_ok th t U st a st' : mean th none t = SList U -> list_elem t st = (a, st') -> i_log st' = [] -> mean th none a = U /\ st' = st.
  Proof.
    intros T E L.
    assert (O : (guessed Opened ;~ fresh) st = (a, st') -> mean th none a = U /\ st' = st).
    { intros X. apply bnd_inv in X as [u [st1 [X1 X2]]]. injection X1 as <- <-. injection X2 as <- <-. discriminate. }
    unfold list_elem in E. destruct t as [| | | |[o ?] ? args| | |c args| |]; try (apply O; exact E).
    - destruct o; try (apply O; exact E). destruct args as [|a' [|]]; try (apply O; exact E). injection E as <- <-.
      cbn in T. injection T as _ T. auto.
    - discriminate.
  Qed.

  Section BindOk.
    Variable th : nat -> styp.
    Definition bind_fact (p : pat) : Prop := forall t T st bs st', bind_pat p t st = (bs, st') -> i_log st' = [] ->
      pf (i_nodes st) th p T -> (is_variant p = false -> mean th none t = T) -> ptyped K p T (means th bs).

    Lemma means_concat b bs : means th (concat (b :: bs)) = means th b ++ means th (concat bs).
    Proof. cbn. unfold means. apply map_app. Qed.

    Lemma bind_zip ps : Forall bind_fact ps -> forall ts Ts st bss st', mzip bind_pat ps ts st = (bss, st') -> i_log st' = [] ->
      pfacts_all cs (i_nodes st) th ps Ts -> List.map (mean th none) ts = Ts -> ptyped_all K ps Ts (means th (concat bss)).
    Proof.
      induction 1 as [|p ps H F IH]; intros ts Ts st bss st' E L P HT.
      - destruct Ts; [|contradiction]. destruct ts; [|discriminate]. injection E as <- <-. reflexivity.
      - destruct Ts as [|T Ts]; [contradiction|]. destruct ts as [|t ts]; [discriminate|]. injection HT as HT1 HT2. destruct P as [P1 P2].
        apply mzip_inv in E as [bs [st1 [bss' [-> [E1 E2]]]]].
        destruct (keeps_bind p t _ _ _ E1) as [_ [N1 [_ [l1 L1]]]].
        destruct (keeps_mzip bind_pat ps (fun q u _ => keeps_bind q u) ts _ _ _ E2) as [_ [_ [_ [l2 L2]]]].
        rewrite L in L2. symmetry in L2. apply app_log in L2.
        cbn [ptyped_all]. exists (means th bs), (means th (concat bss')). split; [apply means_concat|]. split.
        + eapply H; eauto.
        + eapply IH; eauto. rewrite N1. exact P2.
    Qed.
    Lemma bind_same ps a U : Forall bind_fact ps -> mean th none a = U -> forall st bss st', mmap (fun p => bind_pat p a) ps st = (bss, st') -> i_log st' = [] ->
      pfacts_all cs (i_nodes st) th ps (repeat U (List.length ps)) -> ptyped_all K ps (repeat U (List.length ps)) (means th (concat bss)).
    Proof.
      intros F HU. induction F as [|p ps H F IH]; intros st bss st' E L P.
      - injection E as <- <-. reflexivity.
      - destruct P as [P1 P2]. apply mmap_inv in E as [bs [st1 [bss' [-> [E1 E2]]]]].
        destruct (keeps_bind p a _ _ _ E1) as [_ [N1 [_ [l1 L1]]]].
        destruct (keeps_mmap (fun p => bind_pat p a) ps (proj2 (Forall_forall _ _) (fun q _ => keeps_bind q a)) _ _ _ E2) as [_ [_ [_ [l2 L2]]]].
        rewrite L in L2. symmetry in L2. apply app_log in L2.
        cbn [ptyped_all List.length repeat]. exists (means th bs), (means th (concat bss')). split; [apply means_concat|]. split.
        + eapply H; eauto.
        + eapply IH; eauto. rewrite N1. exact P2.
    Qed.
    Lemma bind_nodes ps : Forall bind_fact ps -> forall Ts st bss st',
      mmap (fun p => o <~ node (pat_id p) ;; t <~ match o with Some t => ret t | None => guessed Unknown ;~ fresh end ;; bind_pat p t) ps st = (bss, st') ->
      i_log st' = [] -> pfacts_all cs (i_nodes st) th ps Ts -> ptyped_all K ps Ts (means th (concat bss)).
    Proof.
      induction 1 as [|p ps H F IH]; intros Ts st bss st' E L P.
      - destruct Ts; [|contradiction]. injection E as <- <-. reflexivity.
      - destruct Ts as [|T Ts]; [contradiction|]. destruct P as [P1 P2].
        apply mmap_inv in E as [bs [st1 [bss' [-> [E1 E2]]]]].
        assert (KE : forall q, keeps (o <~ node (pat_id q) ;; t <~ match o with Some t => ret t | None => guessed Unknown ;~ fresh end ;; bind_pat q t)).
        { intros q. apply keeps_bnd; [apply keeps_node|]. intros o. apply keeps_bnd; [|intros; apply keeps_bind].
          destruct o; [apply keeps_ret | apply keeps_bnd; [apply keeps_guessed | intros; apply keeps_fresh]]. }
        destruct (KE p _ _ _ E1) as [_ [N1 [_ [l1 L1]]]].
        destruct (keeps_mmap _ ps (proj2 (Forall_forall _ _) (fun q _ => KE q)) _ _ _ E2) as [_ [_ [_ [l2 L2]]]].
        rewrite L in L2. symmetry in L2. apply app_log in L2.
        cbn [ptyped_all]. exists (means th bs), (means th (concat bss')). split; [apply means_concat|]. split.
        + apply bnd_inv in E1 as [o [st2 [E1 E3]]]. injection E1 as <- <-. apply bnd_inv in E3 as [t [st3 [E3 E4]]].
          destruct (keeps_bind p t _ _ _ E4) as [_ [_ [_ [l4 L4]]]].
          rewrite L2 in L4. symmetry in L4. apply app_log in L4.
          destruct (look (pat_id p) (i_nodes st)) as [t'|] eqn:El.
          * injection E3 as <- <-. eapply H; eauto. intros V. pose proof P1 as P1'. apply pfacts_eq in P1' as [P1' _].
            destruct (P1' V) as [t2 [X1 X2]]. congruence.
          * apply bnd_inv in E3 as [u [st4 [X1 X2]]]. injection X1 as <- <-. injection X2 as <- <-. discriminate.
        + eapply IH; eauto. rewrite N1. exact P2.
    Qed.

    Lemma bind_ok : forall p, bind_fact p.
    Proof.
      induction p as [i|i x|i l|i c ps F|i ps F|i ps F|i ps r F|i p x IH] using pat_ind'; intros t T st bs st' E L P HT;
        apply pfacts_eq in P; destruct P as [P0 P]; rewrite ptyped_eq; cbn [bind_pat is_variant] in *.
      - injection E as <- <-. reflexivity.
      - injection E as <- <-. cbn. rewrite HT; reflexivity.
      - injection E as <- <-. split; [exact P | reflexivity].
      - apply bnd_inv in E as [bss [st1 [E1 E2]]]. injection E2 as <- <-. destruct ps as [|q ps].
        + injection E1 as <- <-. destruct P. repeat split; assumption.
        + destruct P as [Ts [P1 P2]]. exists Ts. split; [exact P1|]. eapply bind_nodes; eauto.
      - apply bnd_inv in E as [ts [st0 [E0 E]]]. apply bnd_inv in E as [bss [st1 [E1 E2]]]. injection E2 as <- <-.
        destruct P as [Ts [-> P2]]. exists Ts. split; [reflexivity|].
        destruct (keeps_mzip bind_pat ps (fun q u _ => keeps_bind q u) ts _ _ _ E1) as [_ [_ [_ [l2 L2]]]].
        rewrite L in L2. symmetry in L2. apply app_log in L2.
        assert (O : (guessed Opened ;~ fresh_for ps) st = (ts, st0) -> False).
        { intros X. apply bnd_inv in X as [u [st2 [X1 X2]]]. injection X1 as <- <-.
          destruct (keeps_fresh_for _ _ _ _ X2) as [_ [_ [_ [l3 L3]]]]. rewrite L2 in L3. destruct l3; discriminate. }
        destruct t; try (exfalso; apply O; exact E0). injection E0 as <- <-.
        eapply bind_zip; eauto. specialize (HT eq_refl). cbn in HT. congruence.
      - apply bnd_inv in E as [a [st0 [E0 E]]]. apply bnd_inv in E as [bss [st1 [E1 E2]]]. injection E2 as <- <-.
        destruct P as [U [-> P2]]. exists U. split; [reflexivity|].
        destruct (keeps_mmap (fun p => bind_pat p a) ps (proj2 (Forall_forall _ _) (fun q _ => keeps_bind q a)) _ _ _ E1) as [_ [_ [_ [l2 L2]]]].
        rewrite L in L2. symmetry in L2. apply app_log in L2.
        destruct (list_elem_ok th t U _ _ _ (HT eq_refl) E0 L2) as [HU ->]. eapply bind_same; eauto.
      - apply bnd_inv in E as [a [st0 [E0 E]]]. apply bnd_inv in E as [bss [st1 [E1 E2]]]. injection E2 as <- <-.
        destruct P as [U [-> P2]].
        destruct (keeps_mmap (fun p => bind_pat p a) ps (proj2 (Forall_forall _ _) (fun q _ => keeps_bind q a)) _ _ _ E1) as [_ [_ [_ [l2 L2]]]].
        rewrite L in L2. symmetry in L2. apply app_log in L2.
        destruct (list_elem_ok th t U _ _ _ (HT eq_refl) E0 L2) as [HU ->].
        eexists U, _. split; [reflexivity|]. split; [eapply bind_same; eauto|]. unfold means. rewrite map_app. f_equal.
        destruct r; [|reflexivity]. cbn. rewrite HU. reflexivity.
      - apply bnd_inv in E as [bs' [st1 [E1 E2]]]. injection E2 as <- <-. eexists. split; [cbn; rewrite HT by reflexivity; reflexivity|].
        eapply IH; eauto.
    Qed.
  End BindOk.
End Bind.
