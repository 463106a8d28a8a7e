(** Functions that the backend is made for compile, and their code is valid (C72). *)
From Verif Require Export EmitSim.

Section Valid.
  Variables indirect ends : nat -> bool.
  Variable params : nat -> list vt.
  Variable pushes : nat -> option vt.
  Variable all : list (nat * vt).
  Variable Uniq : NoDup (List.map fst all).
  Notation slot := (fun v => position_of v all).
  Notation tys := (List.map snd all).
  Notation emits := (emits slot indirect).
  Notation emit := (emit slot indirect).
  Notation checks := (checks params pushes ends tys).
  Notation check := (check params pushes ends tys).
  Notation fine := (fine params pushes ends indirect).

  Lemma checks_app labels : forall a b s, checks labels (a ++ b) s = match checks labels a s with Some s => checks labels b s | None => None end.
  Proof.
    induction a as [|i a IH]; intros b s; [reflexivity|]. unfold EmitSpec.checks in *. cbn [app check_list].
    destruct (check labels i s); [apply IH|reflexivity].
  Qed.
  Lemma checks_cons labels i l s : checks labels (i :: l) s = match check labels i s with Some s => checks labels l s | None => None end.
  Proof. reflexivity. Qed.
  Lemma typed_slot v t : In (v, t) all -> exists i, position_of v all = Some i /\ nth_error tys i = Some t.
  Proof. apply position_in. exact Uniq. Qed.
  Lemma typed_slots : forall vs ts, Forall2 (fun v t => In (v, t) all) vs ts ->
    exists is, slots slot vs = Some is /\ Forall2 (fun i t => nth_error tys i = Some t) is ts.
  Proof.
    induction 1 as [|v t vs ts H _ [is [E F]]]; [exists []; split; constructor|]. destruct (typed_slot v t H) as [i [E1 E2]].
    exists (i :: is). cbn. rewrite E1, E. split; [reflexivity|]. constructor; assumption.
  Qed.
  Lemma check_gets labels is ts : Forall2 (fun i t => nth_error tys i = Some t) is ts -> forall s,
    checks labels (List.map IGet is) s = Some (rev ts ++ fst s, snd s).
  Proof.
    induction 1 as [|i t is ts H _ IH]; intros s; [destruct s; reflexivity|]. cbn [List.map]. rewrite checks_cons. cbn [EmitSpec.check].
    rewrite H, IH. cbn. rewrite <- app_assoc. reflexivity.
  Qed.
  Lemma pops_all : forall ts a b, pops ts (ts ++ a, b) = Some (a, b).
  Proof. induction ts as [|t ts IH]; intros a b; [reflexivity|]. cbn. rewrite Nat.eqb_refl. apply IH. Qed.
  Lemma check_plain labels G k args : incl G all -> typed_args params indirect G k args ->
    exists is, slots slot (ordered indirect k args) = Some is /\ forall st s,
      checks labels (List.map IGet is ++ IOp k :: st) s =
      checks labels st (if ends k then unreachable_after else push (pushes k) s).
  Proof.
    intros I T. unfold typed_args in T. fold (ordered indirect k args) in T.
    destruct (typed_slots (ordered indirect k args) (params k)) as [is [E F]].
    { clear - I T. induction T; constructor; auto. }
    exists is. split; [exact E|]. intros st s. rewrite checks_app, (check_gets labels is (params k) F), checks_cons. cbn [EmitSpec.check].
    rewrite pops_all. destruct s; reflexivity.
  Qed.
  Definition bt (t : vt) : option vt := block_type (negb (is_nil t)) t.
  Lemma check_result labels r t : In (r, t) all -> exists st, set_result slot r t = Some st /\ forall s, checks labels st (push (bt t) s) = Some s.
  Proof.
    intros H. unfold set_result, bt. destruct (is_nil t) eqn:E.
    - exists []. split; [reflexivity|]. intros [a b]. reflexivity.
    - destruct (typed_slot r t H) as [i [E1 E2]]. exists [ISet i]. rewrite E1. split; [reflexivity|]. intros [a b]. rewrite checks_cons. cbn [EmitSpec.check].
      rewrite E2. cbn. rewrite Nat.eqb_refl. reflexivity.
  Qed.
  Lemma check_inits labels G init ps : incl G all -> incl ps all -> Forall2 (fun v (b : nat * vt) => In (v, snd b) G) init ps ->
    exists is ls, slots slot init = Some is /\ slots slot (List.map fst ps) = Some ls /\ Forall2 (fun i t => nth_error tys i = Some t) ls (List.map snd ps) /\
      forall s, checks labels (flat_map (fun x : nat * nat => [IGet (fst x); ISet (snd x)]) (combine is ls)) s = Some s.
  Proof.
    intros IG IP. induction 1 as [|v b init ps H F IH].
    - exists [], []. repeat split; try constructor.
    - destruct IH as [is [ls [E1 [E2 [E3 E4]]]]]; [intros x Hx; apply IP; right; exact Hx|].
      destruct (typed_slot v (snd b) (IG _ H)) as [i [Ei Ti]].
      destruct b as [r t]. destruct (typed_slot r t (IP _ (or_introl eq_refl))) as [j [Ej Tj]]. cbn [fst snd List.map] in *.
      exists (i :: is), (j :: ls). split; [cbn; rewrite Ei, E1; reflexivity|]. split; [cbn; rewrite Ej, E2; reflexivity|].
      split; [constructor; assumption|]. intros s. cbn [combine flat_map fst snd app]. rewrite checks_cons. cbn [EmitSpec.check]. rewrite Ti, checks_cons.
      cbn [EmitSpec.check]. rewrite Tj. cbn. rewrite Nat.eqb_refl. destruct s. apply E4.
  Qed.

  Definition labels_ok (p : place) (labels : list (option vt)) (ls : list nat) : Prop :=
    match p with
    | Top | Arm _ => True
    | LoopArm _ ps lt => Forall2 (fun i t => nth_error tys i = Some t) ls ps /\ exists x rest, labels = x :: None :: bt lt :: rest
    | Body ps lt => Forall2 (fun i t => nth_error tys i = Some t) ls ps /\ exists rest, labels = None :: bt lt :: rest
    end.
  Definition want (p : place) : option vt := match p with Top => None | Arm t | LoopArm t _ _ => Some t | Body _ lt => Some lt end.
  Definition ok (p : place) (l : list sop) (s s' : vstack) : Prop :=
    (s' = unreachable_after /\ leaves ends l) \/
    (s' = s /\ exists t, want p = Some t /\
      (t <> nil_t -> exists v i, region_result (flat_map lower l) = Some v /\ position_of v all = Some i /\ nth_error tys i = Some t)).
  Lemma ok_cons p o l s s' : ok p l s s' -> ok p (o :: l) s s'.
  Proof.
    intros [[E [l' [x [-> H]]]]|[E [t [T H]]]]; [left; split; [exact E|]; exists (o :: l'), x; auto|].
    right. split; [exact E|]. exists t. split; [exact T|]. intros D. destruct (H D) as [v [i [E1 E2]]]. exists v, i. split; [|exact E2].
    cbn [flat_map]. apply result_right. exact E1.
  Qed.
  (** The end of a region with its value. *)
  Lemma end_region labels p l is s' t : want p = Some t -> checks labels is ([], false) = Some s' -> ok p l ([], false) s' ->
    exists av, get_result slot (negb (is_nil t)) (flat_map lower l) = Some av /\ ended (bt t) (checks labels (is ++ av) ([], false)) = true.
  Proof.
    intros T C O. unfold get_result, bt. destruct O as [[-> LV]|[-> [t' [T' H]]]].
    - rewrite (leaves_result ends l LV). exists []. split; [destruct (negb (is_nil t)); reflexivity|]. rewrite app_nil_r, C. destruct (is_nil t); reflexivity.
    - rewrite T in T'. injection T' as <-. destruct (is_nil t) eqn:E; cbn [negb].
      + exists []. split; [reflexivity|]. rewrite app_nil_r, C. reflexivity.
      + destruct H as [v [i [E1 [E2 E3]]]]; [intros ->; discriminate|]. exists [IGet i]. rewrite E1, E2. split; [reflexivity|].
        rewrite checks_app, C, checks_cons. cbn [EmitSpec.check]. rewrite E3. cbn. rewrite Nat.eqb_refl. reflexivity.
  Qed.

  Lemma valid_fine G p l : fine G p l -> forall nest ls labels s, incl G all -> incl (own l) all -> nest_ok p nest ls -> labels_ok p labels ls ->
    exists is s', emits nest (flat_map lower l) = Some is /\ checks labels is s = Some s' /\ ok p l s s'.
  Proof.
    induction 1 as [G p k args l E E1 T F IH|G p k args r t l E E1 T F IH|G p k args E T|G p c r t th el l Ic Y F1 IH1 F2 IH2 F IH
                   |G ps lt c r t th el Ic Y1 Y2 Q F1 IH1 F2 IH2|G p init ps r r' t body l FA F1 IH1 F IH|G p t v T I|G p T
                   |G t ps lt vs FA LE|G t ps lt v I]; intros nest ls labels s IG IO NO LO.
    - destruct (check_plain labels G k args IG T) as [gs [Eg C]]. destruct (IH nest ls labels s IG IO NO LO) as [is [s' [Ei [Ci O]]]].
      exists ((List.map IGet gs ++ [IOp k]) ++ is), s'. split; [|split; [|apply ok_cons; exact O]].
      + cbn [flat_map lower app]. rewrite emits_cons by exact Logic.I. cbn [EmitModel.emit]. rewrite Eg. cbn [obind]. rewrite Ei. reflexivity.
      + rewrite <- app_assoc. cbn [app]. rewrite C, E, E1. destruct s; exact Ci.
    - rewrite own_cons in IO. cbn [flat_map lower locals_of app] in IO.
      assert (IG' : incl ((r, t) :: G) all) by (intros x [<-|Hx]; [apply IO; left; reflexivity|auto]).
      assert (IO' : incl (own l) all) by (intros x Hx; apply IO; right; exact Hx).
      destruct (check_plain labels G k args IG T) as [gs [Eg C]]. destruct (IH nest ls labels s IG' IO' NO LO) as [is [s' [Ei [Ci O]]]].
      destruct (check_result labels r t (IG' _ (or_introl eq_refl))) as [st [Est Cst]].
      exists ((List.map IGet gs ++ IOp k :: st) ++ is), s'. split; [|split; [|apply ok_cons; exact O]].
      + cbn [flat_map lower app]. rewrite emits_cons by exact Logic.I. cbn [EmitModel.emit]. rewrite Eg. cbn [obind]. rewrite Est. cbn [obind]. rewrite Ei. reflexivity.
      + rewrite <- app_assoc. cbn [app]. rewrite C, E, E1, checks_app.
        replace (if is_nil t then None else Some t) with (bt t) by (unfold bt; destruct (is_nil t); reflexivity). rewrite Cst. exact Ci.
    - destruct (check_plain labels G k args IG T) as [gs [Eg C]]. exists ((List.map IGet gs ++ [IOp k]) ++ []), unreachable_after. split; [|split].
      + cbn [flat_map lower app]. rewrite emits_cons by exact Logic.I. cbn [EmitModel.emit]. rewrite Eg. reflexivity.
      + rewrite app_nil_r, C, E. reflexivity.
      + left. split; [reflexivity|]. exists [], (OPlain k args None). auto.
    - (* if *)
      rewrite own_cons in IO. cbn [flat_map lower locals_of] in IO. rewrite app_nil_r, <- !app_assoc in IO. fold (own th) in IO. fold (own el) in IO.
      assert (Ia : incl (own th) all) by (intros x Hx; apply IO; apply in_or_app; left; exact Hx).
      assert (Ib : incl (own el) all) by (intros x Hx; apply IO; apply in_or_app; right; apply in_or_app; left; exact Hx).
      assert (IG' : incl ((r, t) :: G) all) by (intros x [<-|Hx]; [apply IO; apply in_or_app; right; apply in_or_app; right; left; reflexivity|auto]).
      assert (IO' : incl (own l) all) by (intros x Hx; apply IO; apply in_or_app; right; apply in_or_app; right; right; exact Hx).
      assert (NO' : nest_ok (arm p t) (NIf :: nest) ls).
      { destruct p; cbn in NO |- *; auto. destruct NO as [X [rest ->]]. split; [exact X|]. exists rest. reflexivity. }
      assert (LO' : labels_ok (arm p t) (bt t :: labels) ls).
      { destruct p; cbn in LO |- *; auto. destruct LO as [X [rest ->]]. split; [exact X|]. exists (bt t), rest. reflexivity. }
      assert (WT : want (arm p t) = Some t) by (destruct p; reflexivity).
      destruct (IH1 _ _ _ ([], false) IG Ia NO' LO') as [ta [sa [Eta [Cta Oa]]]]. destruct (IH2 _ _ _ ([], false) IG Ib NO' LO') as [ea [sb [Eea [Cea Ob]]]].
      destruct (IH _ _ _ s IG' IO' NO LO) as [is [s' [Ei [Ci O]]]].
      destruct (end_region _ _ _ _ _ t WT Cta Oa) as [tv [Etv Dt]]. destruct (end_region _ _ _ _ _ t WT Cea Ob) as [ev [Eev De]].
      destruct (check_result labels r t (IG' _ (or_introl eq_refl))) as [st [Est Cst]]. destruct (typed_slot c bool_t (IG _ Ic)) as [i [Eci Tci]].
      assert (Wt : match region_result (flat_map lower th) with Some _ => negb (is_nil t) | None => false end = negb (is_nil t)).
      { destruct Y as [->|Y]; [destruct (region_result (flat_map lower th)); reflexivity|]. destruct (yields_result th Y) as [v ->]. reflexivity. }
      assert (Est' : (if negb (is_nil t) then set_result slot r t else Some []) = Some st).
      { unfold set_result in *. destruct (is_nil t); exact Est. }
      exists ((IGet i :: IIf (bt t) (ta ++ tv) (ea ++ ev) :: st) ++ is), s'. split; [|split; [|apply ok_cons; exact O]].
      + cbn [flat_map lower app]. rewrite emits_cons by exact Logic.I. cbn [EmitModel.emit]. rewrite Wt, Eci. cbn [obind].
        fold (emits (NIf :: nest) (flat_map lower th)). fold (emits (NIf :: nest) (flat_map lower el)).
        change (emit_list slot (emit (NIf :: nest)) (NIf :: nest)) with (emits (NIf :: nest)).
        rewrite Eta. cbn [obind]. rewrite Etv. cbn [obind]. rewrite Eea. cbn [obind]. rewrite Eev. cbn [obind]. rewrite Est'. cbn [obind]. rewrite Ei. reflexivity.
      + cbn [app]. rewrite checks_cons. cbn [EmitSpec.check]. rewrite Tci, checks_cons. cbn [EmitSpec.check]. cbn [push listed app pop fst snd]. rewrite Nat.eqb_refl.
        change (check_list (check (bt t :: labels))) with (checks (bt t :: labels)). rewrite Dt, De. cbn [andb].
        replace (fst s, snd s) with s by (destruct s; reflexivity). rewrite checks_app, Cst. exact Ci.
    - (* last if *)
      rewrite own_cons in IO. cbn [flat_map lower locals_of] in IO. rewrite app_nil_r, <- !app_assoc in IO. fold (own th) in IO. fold (own el) in IO.
      assert (Ia : incl (own th) all) by (intros x Hx; apply IO; apply in_or_app; left; exact Hx).
      assert (Ib : incl (own el) all) by (intros x Hx; apply IO; apply in_or_app; right; apply in_or_app; left; exact Hx).
      assert (IR : In (r, t) all) by (apply IO; apply in_or_app; right; apply in_or_app; right; left; reflexivity).
      assert (NO' : nest_ok (LoopArm t ps lt) (NIf :: nest) ls).
      { cbn in NO |- *. destruct NO as [X [rest ->]]. split; [exact X|]. exists rest. reflexivity. }
      assert (LO' : labels_ok (LoopArm t ps lt) (None :: labels) ls).
      { cbn in LO |- *. destruct LO as [X [rest ->]]. split; [exact X|]. exists None, rest. reflexivity. }
      destruct (IH1 _ _ _ ([], false) IG Ia NO' LO') as [ta [sa [Eta [Cta Oa]]]]. destruct (IH2 _ _ _ ([], false) IG Ib NO' LO') as [ea [sb [Eea [Cea Ob]]]].
      destruct (typed_slot c bool_t (IG _ Ic)) as [i [Eci Tci]]. destruct (typed_slot r t IR) as [ir [Eir Tir]].
      exists ([IGet i; IIf None ta ea] ++ []), s. split; [|split].
      + cbn [flat_map lower app]. rewrite emits_cons by exact Logic.I. cbn [EmitModel.emit]. rewrite (leaves_result ends th Y1), Eci. cbn [obind].
        change (emit_list slot (emit (NIf :: nest)) (NIf :: nest)) with (emits (NIf :: nest)).
        rewrite Eta. cbn [obind get_result]. rewrite Eea. cbn [obind get_result]. rewrite !app_nil_r. reflexivity.
      + cbn [app]. rewrite checks_cons. cbn [EmitSpec.check]. rewrite Tci, checks_cons. cbn [EmitSpec.check]. cbn [push listed app pop fst snd]. rewrite Nat.eqb_refl.
        change (check_list (check (None :: labels))) with (checks (None :: labels)). rewrite Cta, Cea.
        assert (Z : forall l s', ok (LoopArm t ps lt) l ([], false) s' -> ended None (Some s') = true).
        { intros x s' [[-> _]|[-> _]]; reflexivity. }
        rewrite (Z _ _ Oa), (Z _ _ Ob). cbn [andb]. destruct s; reflexivity.
      + right. split; [reflexivity|]. exists lt. split; [reflexivity|]. intros D. exists r, ir. split; [reflexivity|]. split; [exact Eir|].
        destruct Q as [->| <-]; [destruct (D eq_refl)|exact Tir].
    - (* loop *)
      rewrite own_cons in IO. cbn [flat_map lower locals_of] in IO. rewrite !app_nil_r, <- !app_assoc in IO. fold (own body) in IO.
      assert (Ip : incl ps all) by (intros x Hx; apply IO; apply in_or_app; left; exact Hx).
      assert (Ib : incl (own body) all) by (intros x Hx; apply IO; apply in_or_app; right; apply in_or_app; left; exact Hx).
      assert (IR : In (r', t) all) by (apply IO; apply in_or_app; right; apply in_or_app; right; left; reflexivity).
      assert (IG' : incl ((r, t) :: G) all) by (intros x [<-|Hx]; [apply IO; apply in_or_app; right; apply in_or_app; right; right; left; reflexivity|auto]).
      assert (IO' : incl (own l) all) by (intros x Hx; apply IO; apply in_or_app; right; apply in_or_app; right; right; right; exact Hx).
      destruct (check_inits (bt t :: labels) G init ps IG Ip FA) as [gi [gl [Egi [Egl [Tgl Cin]]]]].
      assert (NO' : nest_ok (Body (List.map snd ps) t) (NLoop gl :: NBlock :: nest) gl).
      { split; [|exists nest; reflexivity]. rewrite (slots_length _ _ _ Egl), !map_length. reflexivity. }
      assert (LO' : labels_ok (Body (List.map snd ps) t) (None :: bt t :: labels) gl) by (split; [exact Tgl|exists labels; reflexivity]).
      destruct (IH1 _ _ _ ([], false) (incl_app Ip IG) Ib NO' LO') as [ba [sa [Eba [Cba Oa]]]].
      destruct (IH _ _ _ s IG' IO' NO LO) as [is [s' [Ei [Ci O]]]].
      destruct (end_region _ (Body (List.map snd ps) t) _ _ _ t eq_refl Cba Oa) as [bv [Ebv Db]].
      destruct (check_result labels r t (IG' _ (or_introl eq_refl))) as [st [Est Cst]].
      destruct (check_result (bt t :: labels) r' t IR) as [st1 [Est1 Cst1]].
      destruct (typed_slot r' t IR) as [ir [Eir Tir]].
      assert (Len : List.length init = List.length ps) by exact (Forall2_len _ _ _ FA).
      assert (Z : forall x q, set_result slot x t = Some q -> (if negb (is_nil t) then set_result slot x t else Some []) = Some q).
      { intros x q. unfold set_result. destruct (is_nil t); auto. }
      set (ini := flat_map (fun x : nat * nat => [IGet (fst x); ISet (snd x)]) (combine gi gl)) in *.
      set (lp := ini ++ ILoop (bt t) (ba ++ bv) :: st1).
      assert (Eav : exists av, get_result slot (negb (is_nil t)) [WLoop init ps r' t (flat_map lower body)] = Some av /\
        ended (bt t) (checks (bt t :: labels) (lp ++ av) ([], false)) = true).
      { assert (Clp : checks (bt t :: labels) lp ([], false) = Some ([], false)).
        { unfold lp. rewrite checks_app, Cin, checks_cons. cbn [EmitSpec.check]. change (check_list (check (None :: bt t :: labels))) with (checks (None :: bt t :: labels)).
          rewrite Db. apply Cst1. }
        unfold get_result, bt. destruct (is_nil t) eqn:En; cbn [negb].
        - exists []. split; [reflexivity|]. rewrite app_nil_r. unfold bt in Clp. rewrite En in Clp. cbn [negb] in Clp. rewrite Clp. reflexivity.
        - exists [IGet ir]. cbn [region_result rev app result_of]. rewrite Eir. split; [reflexivity|]. rewrite checks_app. unfold bt in Clp. rewrite En in Clp. cbn [negb] in Clp. rewrite Clp.
          rewrite checks_cons. cbn [EmitSpec.check]. rewrite Tir. cbn. rewrite Nat.eqb_refl. reflexivity. }
      destruct Eav as [av [Eav Dav]].
      exists ((IBlock (bt t) (lp ++ av) :: st) ++ is), s'. split; [|split; [|apply ok_cons; exact O]].
      + cbn [flat_map lower app]. rewrite emits_cons by exact Logic.I. cbn [EmitModel.emit].
        change (emit_list slot (emit (NBlock :: nest)) (NBlock :: nest)) with (emits (NBlock :: nest)).
        rewrite emits_cons by exact Logic.I. cbn [EmitModel.emit].
        change (emit_list slot (emit (NLoop gl :: NBlock :: nest)) (NLoop gl :: NBlock :: nest)) with (emits (NLoop gl :: NBlock :: nest)).
        rewrite Egl. cbn [obind]. rewrite Egi. cbn [obind]. rewrite Len, Nat.eqb_refl.
        change (emit_list slot (emit (NLoop gl :: NBlock :: nest)) (NLoop gl :: NBlock :: nest)) with (emits (NLoop gl :: NBlock :: nest)).
        rewrite Eba. cbn [obind]. rewrite Ebv. cbn [obind]. rewrite (Z _ _ Est1). cbn [obind].
        change (emits (NBlock :: nest) []) with (Some (@nil instr)). cbn [obind]. rewrite Eav. cbn [obind]. rewrite (Z _ _ Est). cbn [obind]. rewrite Ei. cbn [obind].
        unfold lp, ini, bt. rewrite app_nil_r. reflexivity.
      + cbn [app]. rewrite checks_cons. cbn [EmitSpec.check]. change (check_list (check (bt t :: labels))) with (checks (bt t :: labels)). rewrite Dav, checks_app, Cst. exact Ci.
    - destruct (typed_slot v t (IG _ I)) as [i [Ei Ti]]. exists [], s. split; [reflexivity|]. split; [reflexivity|]. right. split; [reflexivity|].
      exists t. split; [destruct p; try discriminate; exact T|]. intros _. exists v, i. auto.
    - exists [], s. split; [reflexivity|]. split; [reflexivity|]. right. split; [reflexivity|]. exists nil_t. split; [destruct p; try discriminate; exact T|]. intros X. destruct (X eq_refl).
    - cbn [nest_ok labels_ok] in NO, LO. destruct NO as [Ln [rest ->]]. destruct LO as [TL [x [rest' ->]]]. destruct vs as [|v [|]]; [| |cbn in LE; lia].
      + exists [IBr 1], unreachable_after. split; [reflexivity|]. split; [reflexivity|]. left. split; [reflexivity|]. exists [], (OContinue []). auto.
      + inversion FA as [|? t1 ? ps' Hv FA']; subst. inversion FA'; subst. inversion TL as [|a ? ls' ? Ta TL']; subst. inversion TL'; subst.
        destruct (typed_slot v t1 (IG _ Hv)) as [i [Ei Ti]].
        exists ([IGet i; ISet a] ++ [IBr 1]), unreachable_after. split; [cbn; rewrite Ei; reflexivity|]. split.
        * cbn [app]. rewrite checks_cons. cbn [EmitSpec.check]. rewrite Ti, checks_cons. cbn [EmitSpec.check]. rewrite Ta. cbn. rewrite Nat.eqb_refl. reflexivity.
        * left. split; [reflexivity|]. exists [], (OContinue [v]). auto.
    - cbn [nest_ok labels_ok] in NO, LO. destruct NO as [Ln [rest ->]]. destruct LO as [TL [x [rest' ->]]]. destruct (typed_slot v lt (IG _ I)) as [i [Ei Ti]].
      exists [IGet i; IBr 2], unreachable_after. split; [cbn; rewrite Ei; reflexivity|]. split.
      + rewrite checks_cons. cbn [EmitSpec.check]. rewrite Ti, checks_cons. cbn [EmitSpec.check nth_error]. unfold bt, block_type. destruct (is_nil lt); cbn; [reflexivity|]. rewrite Nat.eqb_refl. reflexivity.
      + left. split; [reflexivity|]. exists [], (OBreak v). auto.
  Qed.
End Valid.
