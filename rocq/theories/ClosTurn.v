(** Lemmas: the module after one turn of the first pass runs like the module before. *)
From Verif Require Export ClosEnter.
From Coq Require Import Lia.
Local Open Scope list_scope.

Lemma lift_new parent ev c : forall st, exists new, s_new (snd (lift parent ev c st)) = s_new st ++ new.
Proof.
  induction c as [v|i r k IH|x t IHt e IHe r k IHk|cv caps ps b IHb r k IHk]; intros st; cbn [lift].
  - exists []. now rewrite app_nil_r.
  - destruct (IH st) as [new H]. destruct (lift parent ev k st). eauto.
  - destruct (IHt st) as [n1 H1]. destruct (lift parent ev t st) as [t' st1].
    destruct (IHe st1) as [n2 H2]. destruct (lift parent ev e st1) as [e' st2].
    destruct (IHk st2) as [n3 H3]. destruct (lift parent ev k st2) as [k' st3]. cbn [snd] in *.
    rewrite H3, H2, H1, <- !app_assoc. eauto.
  - destruct (lowerable cv ps).
    + cbv zeta. destruct (build_lifted _ cv ev caps ps b (s_next st)) as [f n1].
      match goal with |- context [lift parent ev k ?s] => destruct (IHk s) as [new H]; destruct (lift parent ev k s) as [k' st1] end. cbn [snd s_new] in *.
      rewrite H, <- app_assoc. eauto.
    + destruct (IHk st) as [new H]. destruct (lift parent ev k st). eauto.
Qed.

Lemma build_lifted_grows name c ev caps ps b n : n <= snd (build_lifted name c ev caps ps b n).
Proof.
  unfold build_lifted. cbv zeta. destruct caps as [|a l].
  - match goal with |- context [clone ?m ?n1 b] => pose proof (clone_grows b m n1) as G; destruct (clone m n1 b) end. cbn [snd] in *. lia.
  - match goal with |- context [clone ?m ?n1 b] => pose proof (clone_grows b m n1) as G; destruct (clone m n1 b) end. cbn [snd] in *. lia.
Qed.

Lemma build_lifted_name name c ev caps ps b n : f_name (fst (build_lifted name c ev caps ps b n)) = name.
Proof.
  unfold build_lifted. cbv zeta. destruct caps as [|a l].
  - match goal with |- context [clone ?m ?n1 b] => destruct (clone m n1 b) end. reflexivity.
  - match goal with |- context [clone ?m ?n1 b] => destruct (clone m n1 b) end. reflexivity.
Qed.

Lemma lift_grows parent ev c : forall st, s_next st <= s_next (snd (lift parent ev c st)).
Proof.
  induction c as [v|i r k IH|x t IHt e IHe r k IHk|cv caps ps b IHb r k IHk]; intros st; cbn [lift].
  - cbn. lia.
  - specialize (IH st). destruct (lift parent ev k st). exact IH.
  - specialize (IHt st). destruct (lift parent ev t st) as [t' st1].
    specialize (IHe st1). destruct (lift parent ev e st1) as [e' st2].
    specialize (IHk st2). destruct (lift parent ev k st2) as [k' st3]. cbn [snd] in *. lia.
  - destruct (lowerable cv ps).
    + cbv zeta. pose proof (build_lifted_grows (lifted_name parent (counter (s_counters st) parent)) cv ev caps ps b (s_next st)) as G.
      destruct (build_lifted _ cv ev caps ps b (s_next st)) as [f n1]. cbn [snd] in G.
      match goal with |- context [lift parent ev k ?s] => specialize (IHk s); destruct (lift parent ev k s) as [k' st1] end.
      cbn [snd s_next] in *. lia.
    + specialize (IHk st). destruct (lift parent ev k st). exact IHk.
Qed.

Lemma hid_lowerable c ps : hid c <= List.length ps -> lowerable c ps = true.
Proof.
  unfold lowerable. destruct c as [[]|]; cbn; intros H; try reflexivity; destruct ps; cbn in *; try lia; reflexivity.
Qed.
Lemma scoped_hid cv (ps : list nat) : match cv with Some c => hidden_args c <= List.length ps | None => True end -> hid cv <= List.length ps.
Proof. destruct cv; cbn; [auto|lia]. Qed.

Section Turn.
  Variable W : Type.
  Variable prim : nat -> list Z -> W -> option (Z * W).
  Variable P P' : cmodule.
  Variable n0 : nat.
  Notation lv := (lv P').
  Notation er := (er P').

  Hypothesis Hsite : forall f g, find_func P f = Some g ->
    func_ok n0 g /\ exists st, n0 <= s_next st
      /\ find_func P' f = Some (mkFunc (f_name g) (f_ev g) (f_params g) (fst (lift (f_name g) (func_evidence g) (f_body g) st)))
      /\ forall h, In h (s_new (snd (lift (f_name g) (func_evidence g) (f_body g) st))) -> find_func P' (f_name h) = Some h.

  Lemma er_same sc r rho rho' y y' : er sc (lookup []) rho rho' -> ~ In r sc -> lv y y' ->
    er (r :: sc) (lookup []) (upd rho r y) (upd rho' r y').
  Proof.
    intros [H1 H2] Hr Ry. split.
    - intros v [<-|Hv]; [rewrite upd_same; discriminate|]. rewrite upd_other by (intros ->; contradiction). auto.
    - intros v x [<-|Hv] Hx; cbn [lookup].
      + rewrite upd_same in Hx |- *. injection Hx as <-. eauto.
      + rewrite upd_other in Hx |- * by (intros ->; contradiction). apply (H2 v x Hv Hx).
  Qed.
  Lemma er_fresh sc r rho rho' y' : er sc (lookup []) rho rho' -> ~ In r sc -> er sc (lookup []) rho (upd rho' r y').
  Proof.
    intros [H1 H2] Hr. split; [assumption|]. intros v x Hv Hx. cbn [lookup]. rewrite upd_other by (intros ->; contradiction).
    apply (H2 v x Hv Hx).
  Qed.

  Lemma lift_exec fuel parent : calls W prim P P' fuel -> forall c ev cur cur' sc rho rho' st w,
    lv cur cur' -> scoped ev sc c -> below n0 c -> Forall (fun v => v < n0) sc -> n0 <= s_next st -> (forall e, ev = Some e -> In e sc) ->
    er sc (lookup []) rho rho' ->
    (forall h, In h (s_new (snd (lift parent ev c st))) -> find_func P' (f_name h) = Some h) ->
    orel lv (exec W prim P (enter W prim P fuel) ev cur rho c w)
            (exec W prim P' (enter W prim P' fuel) ev cur' rho' (fst (lift parent ev c st)) w).
  Proof.
    intros HC c.
    induction c as [v|i r k IH|x t IHt e IHe r k IHk|cv caps ps b IHb r k IHk];
      intros ev cur cur' sc rho rho' st w Hcur Hs Hb Hsc Hst Hev He Hnew; cbn [lift] in *.
    all: assert (Hev' : forall r e, ev = Some e -> In e (r :: sc)) by (intros r0 e0 E0; right; auto).
    - cbn. destruct (er_get _ _ _ _ _ v He Hs) as (a & a' & -> & Ea & Ra). cbn [lookup] in Ea. rewrite Ea. cbn. eauto.
    - destruct Hs as (Hi & _ & Hr & Hs). destruct Hb as (_ & Hrn & Hb).
      pose proof (step_rel W prim P P' fuel i cur cur' sc [] rho rho' w HC Hcur He Hi) as Hstp. rewrite rename_nil in Hstp.
      assert (Hk : forall y y' w', lv y y' -> orel lv (exec W prim P (enter W prim P fuel) ev cur (upd rho r y) k w')
        (exec W prim P' (enter W prim P' fuel) ev cur' (upd rho' r y') (fst (lift parent ev k st)) w')).
      { intros y y' w' Ry. apply (IH ev cur cur' (r :: sc)); auto; [now apply er_same|].
        destruct (lift parent ev k st); exact Hnew. }
      destruct (lift parent ev k st) as [k' st1]. cbn [fst exec] in *.
      destruct (step W prim P (enter W prim P fuel) cur i rho w) as [y w'| |]; cbn in Hstp.
      + destruct Hstp as (y' & -> & Ry). now apply Hk.
      + exact I.
      + now rewrite Hstp.
    - destruct Hs as (Hx & Ht & He0 & Hr & Hk). destruct Hb as (_ & Hbt & Hbe & Hrn & Hbk).
      pose proof (lift_grows parent ev t st) as G1.
      specialize (IHt ev cur cur' sc rho rho' st w Hcur Ht Hbt Hsc Hst Hev He).
      destruct (lift parent ev t st) as [t' st1]. cbn [fst snd] in *.
      pose proof (lift_new parent ev e st1) as N2. pose proof (lift_grows parent ev e st1) as G2.
      specialize (IHe ev cur cur' sc rho rho' st1 w Hcur He0 Hbe Hsc ltac:(lia) Hev He).
      destruct (lift parent ev e st1) as [e' st2]. cbn [fst snd] in *.
      pose proof (lift_new parent ev k st2) as N3.
      assert (Hk' : forall y y' w', lv y y' -> orel lv (exec W prim P (enter W prim P fuel) ev cur (upd rho r y) k w')
        (exec W prim P' (enter W prim P' fuel) ev cur' (upd rho' r y') (fst (lift parent ev k st2)) w')).
      { intros y y' w' Ry. apply (IHk ev cur cur' (r :: sc)); auto; [lia|now apply er_same|].
        destruct (lift parent ev k st2); exact Hnew. }
      destruct (lift parent ev k st2) as [k' st3]. cbn [fst snd exec] in *.
      destruct N2 as [l2 N2]. destruct N3 as [l3 N3].
      assert (IHe' := IHe ltac:(intros h Hh; apply Hnew; rewrite N3; apply in_or_app; now left)).
      assert (IHt' := IHt ltac:(intros h Hh; apply Hnew; rewrite N3, N2; apply in_or_app; left; apply in_or_app; now left)).
      clear IHe IHt.
      destruct (er_get _ _ _ _ _ x He Hx) as (a & a' & -> & Ea & Ra). cbn [lookup] in Ea. rewrite Ea.
      destruct a; try exact I. inversion Ra; subst.
      destruct (Z.eqb z 0).
      + destruct (exec W prim P (enter W prim P fuel) ev cur rho e w) as [y w'| |]; cbn in IHe'.
        * destruct IHe' as (y' & -> & Ry). now apply Hk'.
        * exact I.
        * now rewrite IHe'.
      + destruct (exec W prim P (enter W prim P fuel) ev cur rho t w) as [y w'| |]; cbn in IHt'.
        * destruct IHt' as (y' & -> & Ry). now apply Hk'.
        * exact I.
        * now rewrite IHt'.
    - destruct Hs as (Hi & Hnd & Hd & Hh & Hsb & Hr & Hk). destruct Hb as (_ & _ & _ & Hrn & Hbk).
      apply scoped_hid in Hh. rewrite (hid_lowerable _ _ Hh) in *. cbv zeta in *.
      set (name := lifted_name parent (counter (s_counters st) parent)) in *.
      pose proof (build_lifted_name name cv ev caps ps b (s_next st)) as Hname.
      pose proof (build_lifted_grows name cv ev caps ps b (s_next st)) as G.
      destruct (build_lifted name cv ev caps ps b (s_next st)) as [g n1] eqn:Eg. cbn [fst snd] in Hname, G.
      match goal with |- context [lift parent ev k ?s] => set (st1 := s) in * end.
      pose proof (lift_new parent ev k st1) as [new N].
      assert (Hk' : forall y y' rho2, lv y y' -> er sc (lookup []) rho rho2 ->
        orel lv (exec W prim P (enter W prim P fuel) ev cur (upd rho r y) k w)
        (exec W prim P' (enter W prim P' fuel) ev cur' (upd rho2 r y') (fst (lift parent ev k st1)) w)).
      { intros y y' rho2 Ry He2. apply (IHk ev cur cur' (r :: sc)); auto; [unfold st1; cbn [s_next]; lia|now apply er_same|].
        destruct (lift parent ev k st1); exact Hnew. }
      destruct (lift parent ev k st1) as [k' st2]. cbn [fst snd exec] in *.
      assert (Hg : find_func P' name = Some g).
      { rewrite <- Hname. apply Hnew. rewrite N. unfold st1. cbn [s_new]. apply in_or_app. left. apply in_or_app. right. now left. }
      destruct (er_values _ _ _ _ _ caps He Hi) as (vs & vs' & Ev & Ev' & Rv). rewrite map_lookup_nil in Ev'.
      assert (Hn1 : ~ In n1 sc).
      { intros Hin. rewrite Forall_forall in Hsc. specialize (Hsc _ Hin). lia. }
      assert (Hstep : forall ent, step W prim P' ent cur' (match caps with [] => INull | _ => IData KEnv caps end) rho' w
        = Done (match caps with [] => VNull | _ => VData KEnv vs' end) w).
      { intros ent. destruct caps; [reflexivity|]. cbn [step]. now rewrite Ev'. }
      cbn [exec]. rewrite Hstep. cbn [step]. rewrite upd_same.
      apply Hk'; [|now apply er_fresh].
      apply (lv_lift P' cv _ ev rho caps ps (s_next st) b name _ vs vs'); auto.
      + rewrite Eg. exact Hg.
      + intros p Hp Hq. apply in_app_or in Hq as [Hq|Hq]; [apply (Hd p Hp); auto|].
        apply (Hd p Hp). apply Hev. unfold inherited in Hq. destruct cv; [destruct Hq|]. destruct ev as [e|]; [|destruct Hq].
        destruct (existsb (Nat.eqb e) caps); [destruct Hq|]. destruct Hq as [<-|[]]. reflexivity.
  Qed.

  Lemma turn_calls fuel : calls W prim P P' fuel.
  Proof.
    induction fuel as [|fuel IH].
    - assert (C1 : forall f vs vs' w, Forall2 lv vs vs' ->
        orel lv (call_func W P (enter W prim P 0) f vs w) (call_func W P' (enter W prim P' 0) f vs' w)).
      { intros f vs vs' w Hv. unfold call_func. destruct (find_func P f) as [g|] eqn:Ef; [|exact I].
        destruct (Hsite f g Ef) as (_ & st & _ & -> & _). cbn [f_params]. rewrite <- (forall2_length _ _ _ Hv).
        destruct (List.length vs =? List.length (f_params g)); [reflexivity|exact I]. }
      split; [exact C1|]. intros cur cur' cc g g' vs vs' w Hcur Hg Hv. inversion Hg; subst; try exact I.
      + cbn [call_closure]. destruct (conv_eqb c cc); [|exact I].
        destruct c as [c|]; apply C1; [|auto]. destruct c; cbn; [auto| |]; destruct Hv; auto.
      + rewrite !call_lam. rewrite <- (forall2_length _ _ _ Hv), seq_length.
        destruct (conv_eqb c cc && (List.length vs =? List.length ps)); [reflexivity|exact I].
      + rewrite call_lam. destruct (conv_eqb c cc && (List.length vs =? List.length ps)) eqn:E; [|exact I].
        apply andb_prop in E as [Ec El]. apply Nat.eqb_eq in El. cbn [call_closure]. rewrite Ec.
        assert (Hl : List.length (lift_actuals c cur' (match caps with [] => VNull | _ => VData KEnv vs'0 end) vs')
           = List.length (f_params (fst (build_lifted name c ev0 caps ps b n)))).
        { rewrite actuals_length by (rewrite <- (forall2_length _ _ _ Hv); lia).
          rewrite build_lifted_eq by assumption. destruct (clone _ _ b). cbn [fst f_params]. unfold lift_args. rewrite seq_length.
          rewrite <- (forall2_length _ _ _ Hv). lia. }
        destruct c as [c|]; cbn [lift_actuals] in Hl; unfold call_func; rewrite H, Hl, Nat.eqb_refl; reflexivity.
    - assert (C1 : forall f vs vs' w, Forall2 lv vs vs' ->
        orel lv (call_func W P (enter W prim P (S fuel)) f vs w) (call_func W P' (enter W prim P' (S fuel)) f vs' w)).
      { intros f vs vs' w Hv. unfold call_func. destruct (find_func P f) as [g|] eqn:Ef; [|exact I].
        destruct (Hsite f g Ef) as ((Hnd & Hlt & Hne & Hb & Hs) & st & Hst & -> & Hnew). cbn [f_params f_ev f_body].
        rewrite <- (forall2_length _ _ _ Hv).
        destruct (List.length vs =? List.length (f_params g)) eqn:El; [|exact I]. apply Nat.eqb_eq in El.
        cbn [enter].
        change (evidence_name (mkFunc (f_name g) (f_ev g) (f_params g) (fst (lift (f_name g) (func_evidence g) (f_body g) st))))
          with (evidence_name g).
        rewrite (evidence_same g) in *.
        apply (lift_exec fuel (f_name g) IH _ _ _ _ (f_params g)); auto.
        - destruct (f_ev g); [|constructor]. destruct Hv; [constructor|assumption].
        - intros e E. unfold evidence_name in E. destruct (f_ev g); [|discriminate]. destruct (f_params g); [discriminate|].
          injection E as <-. now left.
        - split.
          + intros v Hi. apply In_nth_error in Hi as [j Hj]. destruct (upds_lookup _ vs empty j v Hnd El Hj) as (x & _ & ->). discriminate.
          + intros v x Hi Hx. cbn [lookup]. apply In_nth_error in Hi as [j Hj].
            destruct (upds_lookup _ vs empty j v Hnd El Hj) as (y & Hy & Ey). rewrite Ey in Hx. injection Hx as <-.
            destruct (forall2_nth _ _ _ _ _ Hv Hy) as (y' & Hy' & Ry). exists y'. split; [|assumption].
            apply (upds_in _ _ _ _ _ _ Hnd Hj Hy'). }
      split; [exact C1|]. intros cur cur' cc g g' vs vs' w Hcur Hg Hv. inversion Hg; subst; try exact I.
      + cbn [call_closure]. destruct (conv_eqb c cc); [|exact I].
        destruct c as [c|]; apply C1; [|auto]. destruct c; cbn; [auto| |]; destruct Hv; auto.
      + rewrite !call_lam. rewrite <- (forall2_length _ _ _ Hv), seq_length.
        destruct (conv_eqb c cc && (List.length vs =? List.length ps)) eqn:E; [|exact I].
        apply andb_prop in E as [_ El]. apply Nat.eqb_eq in El. cbn [enter].
        apply (keep_call W prim P P' fuel IH c ev ev' rho rho' ps m sc); auto. split; assumption.
      + rewrite call_lam. destruct (conv_eqb c cc && (List.length vs =? List.length ps)) eqn:E; [|exact I].
        apply andb_prop in E as [Ec El]. apply Nat.eqb_eq in El. cbn [call_closure]. rewrite Ec.
        destruct (lift_call W prim P P' fuel IH c _ ev0 rho caps ps n b name cur cur' vs vs' vs0 vs'0 w eq_refl) as [Hl Ho]; auto.
        cbn [enter].
        destruct c as [c|]; cbn [lift_actuals] in *; unfold call_func; rewrite H, Hl, Nat.eqb_refl; exact Ho.
  Qed.

  Lemma turn_run fuel f zs w : observe (run W prim P fuel f zs w) <> RWrong ->
    observe (run W prim P' fuel f zs w) = observe (run W prim P fuel f zs w).
  Proof.
    intros H. unfold run in *. assert (Hz : Forall2 lv (map VInt zs) (map VInt zs)).
    { clear H. induction zs; cbn; constructor; auto. constructor. }
    destruct (turn_calls fuel) as [C _]. specialize (C f _ _ w Hz).
    destruct (call_func W P (enter W prim P fuel) f (map VInt zs) w) as [v w'| |]; cbn in C.
    - destruct C as (v' & -> & Rv). cbn. now rewrite (lv_see _ _ _ Rv).
    - now elim H.
    - now rewrite C.
  Qed.
End Turn.
