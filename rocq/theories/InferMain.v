(** Functions and programs. *)
From Verif Require Import TyProofs UnifySpec UnifyComplete SubstProofs InferRun InferSolve InferFo InferPat InferSound InferTyped.

(** * Closing a type *)
Lemma close_plain vs t : first_order t -> (forall v, In v (univars t) -> In v vs) -> plain_sig (List.length vs, close_over vs t).
Proof.
  intros F I. unfold plain_sig. cbn [fst snd]. unfold close_over.
  set (h := fun v => match position vs v with Some i => TBound i | None => TUni v end).
  assert (H : forall v, In v (univars t) -> exists i, h v = TBound i /\ i < List.length vs).
  { intros v Hv. unfold h. destruct (position vs v) as [i|] eqn:E.
    - exists i. split; [reflexivity|]. apply position_nth in E as [_ E]. exact E.
    - exfalso. apply I in Hv. destruct (position_some _ _ Hv) as [i Hi]. congruence. }
  assert (P : first_order (plug (fun _ => TPrim PNil) (fill h t))).
  { apply plug_close; [exact F|]. intros v. unfold h. destruct (position vs v); [discriminate | exact Logic.I]. }
  clearbody h. clear I.
  assert (A : forall l, Forall (fun t => first_order t -> (forall v, In v (univars t) -> exists i, h v = TBound i /\ i < List.length vs) ->
      univars (fill h t) = [] /\ Forall (fun i => i < List.length vs) (bounds (fill h t))) l -> Forall first_order l ->
    (forall v, In v (flat_map univars l) -> exists i, h v = TBound i /\ i < List.length vs) ->
    flat_map univars (List.map (fill h) l) = [] /\ Forall (fun i => i < List.length vs) (flat_map bounds (List.map (fill h) l))).
  { induction 1 as [|x l Hx Fl IH]; intros G HH; cbn; [split; [reflexivity | constructor]|]. inversion G as [|? ? G1 G2]; subst.
    destruct (Hx G1) as [X1 X2]; [intros; apply HH; cbn; apply in_or_app; auto|].
    destruct IH as [Y1 Y2]; [assumption | intros; apply HH; cbn; apply in_or_app; auto|].
    rewrite X1, Y1. split; [reflexivity|]. apply Forall_app. auto. }
  assert (Main : univars (fill h t) = [] /\ Forall (fun i => i < List.length vs) (bounds (fill h t))).
  { clear P. revert F H. induction t as [p|i|s i|v|d m args IH|ps r e c IHps IHr IHe|xs IH|c xs IHc IH|a r e IHa IHr IHe|] using ty_induct; intros F H;
      cbn [first_order] in F; try contradiction.
    - split; [reflexivity | constructor].
    - destruct (H v (or_introl eq_refl)) as [i [E Hi]]. cbn. rewrite E. split; [reflexivity | repeat constructor; exact Hi].
    - cbn in *. rewrite first_order_all in F. apply A; assumption.
    - rewrite first_order_all in F. destruct F as [F1 [F2 ->]]. cbn in *.
      destruct (A ps IHps F1) as [X1 X2]; [intros; apply H; rewrite !in_app_iff; auto|].
      destruct (IHr F2) as [Y1 Y2]; [intros; apply H; rewrite !in_app_iff; auto|].
      rewrite X1, Y1. split; [reflexivity|]. rewrite !Forall_app. auto.
    - cbn in *. rewrite first_order_all in F. apply A; assumption.
    - rewrite first_order_all in F. destruct F as [F1 F2]. cbn in *.
      destruct (IHc F1) as [Y1 Y2]; [intros; apply H; rewrite !in_app_iff; auto|].
      destruct (A xs IH F2) as [X1 X2]; [intros; apply H; rewrite !in_app_iff; auto|].
      rewrite X1, Y1. split; [reflexivity|]. rewrite !Forall_app. auto.
    - destruct F as [F1 [F2 ->]]. cbn in *.
      destruct (IHa F1) as [X1 X2]; [intros; apply H; rewrite !in_app_iff; auto|].
      destruct (IHr F2) as [Y1 Y2]; [intros; apply H; rewrite !in_app_iff; auto|].
      rewrite X1, Y1. split; [reflexivity|]. rewrite !Forall_app. auto. }
  destruct Main as [M1 M2]. split; [exact M1|]. split; [exact M2|]. exact P.
Qed.

Lemma generalize_plain t : first_order t -> plain_sig (generalize_over [] t).
Proof.
  intros F. unfold generalize_over. apply close_plain; [exact F|]. intros v Hv. apply filter_In. split; [apply uniq_In, Hv | reflexivity].
Qed.

Lemma opened_first_order n t : plain_sig (n, t) -> first_order (opened t).
Proof. intros P. apply (proj1 (plain_schematic _ P)). intros. exact I. Qed.

(** * One function *)
Section Fn.
  Variable fns : nat -> option poly.
  Variable cs : list cdecl.
  Variable solver : list (ty * ty) -> option (nat -> ty).
  Variable pure : nat -> bool.
  Hypothesis Hfns : forall f sc, fns f = Some sc -> plain_sig sc.
  Hypothesis Hcs : forall k, In k cs -> plain_sig (ctor_poly k).
  Hypothesis Hsolver : forall cs f, fo_pairs cs -> solver cs = Some f -> answers f cs.
  Variable d : fdecl.
  Hypothesis Hsig : plain_sig (declared d).
  Hypothesis Hlen : List.length (fd_params d) = List.length (fd_types d).
  Hypothesis Hwf : wf (fd_body d).
  Hypothesis Hids : NoDup (ref_ids (fd_body d)).
  Let Hctors := ctors_plain cs Hcs.

  Lemma sig_opened : Forall first_order (List.map opened (fd_types d)) /\ first_order (opened (fd_result d)).
  Proof.
    assert (X := opened_first_order _ _ Hsig). apply (fo_params _ _ _ _ X).
  Qed.
  Lemma start_fo n : st_fo (start n).
  Proof. split; [intros a b []|..]; constructor. Qed.
  Lemma env_start : env_fo (param_env d).
  Proof. apply mono_fo, params_fo, sig_opened. Qed.

  Lemma check_fn_sound sc : check_fn fns (ctor_table cs) solver pure d = Some sc -> guesses fns (ctor_table cs) solver pure d = [] ->
    plain_sig sc /\
    forall t, instance sc t -> exists ts r, t = SFun ts r /\ List.length ts = List.length (fd_params d) /\
      typed (fn_types fns) (ctor_types cs) (extend (fun _ _ => False) (combine (fd_params d) ts)) (fd_body d) r.
  Proof.
    intros E Gs. unfold check_fn in E. destruct (solver (rev (body_constraints fns (ctor_table cs) solver pure d))) as [f|] eqn:Es; [|discriminate].
    assert (X : generalize_over [] (fill f (opened (snd (declared d)))) = sc) by (cbn [option_map] in E; congruence). clear E. subst sc.
    unfold body_constraints in Es.
    destruct (check fns (ctor_table cs) solver pure (param_env d) (Some (opened (fd_result d))) (fd_body d) (start (fd_arity d))) as [t0 st'] eqn:Ec.
    cbn [snd] in Es. destruct sig_opened as [Fts Fr].
    destruct (fom_check fns (ctor_table cs) solver pure Hfns Hctors Hsolver (fd_body d) Hwf (param_env d) (Some (opened (fd_result d))) env_start Fr _ _ _ (start_fo _) Ec)
      as [F' _].
    assert (An : answers f (rev (i_cs st'))).
    { apply Hsolver; [|exact Es]. intros a b X. apply in_rev in X. apply (sf_cs _ F' _ _ X). }
    set (sig := opened (snd (declared d))) in *.
    assert (Fsig : first_order (fill f sig)).
    { apply fill_first_order; [apply (an_first _ _ An)|]. apply (opened_first_order _ _ Hsig). }
    split; [apply generalize_plain, Fsig|]. intros t [be ->]. unfold generalize_over. set (vs := filter _ _). cbn [snd].
    rewrite close_mean by exact Fsig. set (th1 := fun v => match position vs v with Some i => be i | None => none v end).
    rewrite mean_fill. set (th2 := fun v => mean th1 none (f v)).
    assert (S2 : sat th2 (i_cs st')) by (apply sat_rev, (an_solves _ _ An)).
    exists (List.map (mean th2 none) (List.map opened (fd_types d))), (mean th2 none (opened (fd_result d))).
    split; [reflexivity|]. split; [rewrite !map_length; symmetry; exact Hlen|].
    unfold fd_body in Ec. cbn [check] in Ec. apply bnd_inv in Ec as [tb [st1 [E1 Ec]]]. apply bnd_inv in Ec as [u [st2 [E2 Ec]]].
    change (infer fns (ctor_table cs) solver pure (param_env d) (fd_body d) (start (fd_arity d)) = (tb, st1)) in E1.
    unfold guesses in Gs. rewrite E1 in Gs. cbn [snd] in Gs.
    destruct (fom_infer fns (ctor_table cs) solver pure Hfns Hctors Hsolver (fd_body d) Hwf _ env_start _ _ _ (start_fo _) E1) as [F1 [Fb _]].
    destruct (fom_eqn tb (opened (fd_result d)) Fb Fr _ _ _ F1 E2) as [F2 [_ G2]]. destruct (step_eqn _ _ _ _ _ E2) as [C2 _].
    assert (S3 : sat th2 (i_cs st2)).
    { clear An Es F'. revert Ec.
      match goal with |- bnd ?m _ _ = _ -> _ => assert (FM : fom first_order m) end.
      { clear -Hwf Hfns Hctors Hsolver Fts Hsig. unfold fd_body in Hwf. revert Hwf. pose proof env_start as FD. revert FD. generalize (param_env d).
        induction (fd_stmts d) as [|[k e] ss IH]; intros D FD W; cbn [wf] in W.
        - apply (fom_check fns (ctor_table cs) solver pure Hfns Hctors Hsolver (fd_value d) W D None FD I).
        - destruct W as [W1 [W2 W3]]. destruct k as [[p ann]|].
          + destruct W1 as [W1 W1']. eapply fom_bnd; [apply (fom_check fns (ctor_table cs) solver pure Hfns Hctors Hsolver e W2 D ann FD W1')|]. intros te Fte.
            eapply fom_bnd; [apply (fom_pat (ctor_table cs) Hctors)|]. intros u Fu. eapply fom_bnd; [apply fom_eqn; assumption|]. intros _ _.
            eapply fom_bnd; [apply fom_bind_let; assumption|]. intros D' FD'. apply IH; assumption.
          + eapply fom_bnd; [apply (fom_check fns (ctor_table cs) solver pure Hfns Hctors Hsolver e W2 D None FD I)|]. intros _ _. apply IH; assumption. }
      intros Ec. apply bnd_inv in Ec as [z [st3 [E3 Ec]]]. injection Ec as <- <-. destruct (FM _ _ _ F2 E3) as [_ [_ G3]].
      apply (grows_sat _ _ _ G3 S2). }
    rewrite <- (S3 tb (opened (fd_result d))) by (rewrite C2; left; reflexivity).
    eapply typed_mono; [intros g w _ X; exact X | |].
    2: { apply (infer_sound fns cs solver pure Hfns Hcs Hsolver (fd_body d) (param_env d) (start (fd_arity d)) tb st1 th2 env_start (start_fo _) Hwf).
         - split; [exact Hids | reflexivity].
         - exact E1.
         - exact Gs.
         - apply (grows_sat _ _ _ G2 S3). }
    intros x w Hx. unfold param_env in Hx. rewrite <- (app_nil_r (mono _)) in Hx. apply (den_extend th2 _ [] x w (params_fo (fd_params d) _ Fts)) in Hx.
    replace (means th2 (combine (fd_params d) (List.map opened (fd_types d)))) with
      (combine (fd_params d) (List.map (mean th2 none) (List.map opened (fd_types d)))) in Hx.
    - revert Hx. apply extend_mono. intros y u0 [s [Hs _]]. discriminate.
    - unfold means. generalize (List.map opened (fd_types d)). generalize (fd_params d). clear. intros xs.
      induction xs as [|y xs IH]; intros [|t ts]; cbn; try reflexivity. f_equal. apply IH.
  Qed.
End Fn.

(** * Programs *)
Lemma names_combine {A} (xs : list nat) : forall ts : list A, List.length ts = List.length xs -> List.map fst (combine xs ts) = xs.
Proof. induction xs; intros [|t ts] L; cbn in *; try discriminate; [reflexivity|]. f_equal. apply IHxs. congruence. Qed.
Lemma nth_set {A} (l : list A) i a j : i < List.length l -> nth_error (set_nth l i a) j = if Nat.eqb i j then Some a else nth_error l j.
Proof.
  intros L. unfold set_nth. destruct (Nat.eqb_spec i j) as [<-|Dj].
  - rewrite nth_error_app2; rewrite firstn_length_le by lia; [rewrite Nat.sub_diag; reflexivity | lia].
  - destruct (Nat.lt_ge_cases j i).
    + rewrite nth_error_app1 by (rewrite firstn_length_le by lia; lia). rewrite nth_error_firstn by lia. reflexivity.
    + rewrite nth_error_app2; rewrite firstn_length_le by lia; [|lia]. replace (j - i) with (S (j - S i)) by lia. cbn [nth_error].
      rewrite nth_error_skipn. f_equal. lia.
Qed.
Lemma length_set {A} (l : list A) i a : i < List.length l -> List.length (set_nth l i a) = List.length l.
Proof. intros L. unfold set_nth. rewrite app_length, firstn_length_le by lia. cbn [List.length]. rewrite skipn_length. lia. Qed.

Section Program.
  Variable cs : list cdecl.
  Variable ds : list fdecl.
  Variable solver : list (ty * ty) -> option (nat -> ty).
  Variable pure : nat -> bool.
  Hypothesis OK : program_ok cs ds.
  Hypothesis Hsolver : forall cs f, fo_pairs cs -> solver cs = Some f -> answers f cs.

  Lemma check_fns_prefix : forall ds' sigs i final, check_fns cs solver pure sigs i ds' = Some final -> i + List.length ds' <= List.length sigs ->
    List.length final = List.length sigs /\ forall j, j < i -> nth_error final j = nth_error sigs j.
  Proof.
    induction ds' as [|d ds' IH]; intros sigs i final E L; cbn in E; [injection E as <-; auto|]. cbn in L.
    destruct (check_fn _ _ _ _ d) as [sc|]; [|discriminate]. apply IH in E as [E1 E2]; [|rewrite length_set; lia].
    rewrite length_set in E1 by lia. split; [exact E1|]. intros j Hj. rewrite E2 by lia. rewrite nth_set by lia.
    destruct (Nat.eqb_spec i j); [lia | reflexivity].
  Qed.

  Definition fn_ok (sigs : list poly) (d : fdecl) (sc : poly) : Prop :=
    forall t, instance sc t -> exists ts r, t = SFun ts r /\ List.length ts = List.length (fd_params d) /\
      typed (sig_types sigs) (ctor_types cs) (extend (fun _ _ => False) (combine (fd_params d) ts)) (fd_body d) r.

  Lemma check_fns_sound final : forall ds' i, skipn i ds = ds' -> check_fns cs solver pure (sigs_at ds final i) i ds' = Some final ->
    List.length final = List.length ds -> i <= List.length ds ->
    (forall j sc, nth_error (sigs_at ds final i) j = Some sc -> plain_sig sc) ->
    (forall j d, i <= j -> nth_error ds j = Some d -> guesses (nth_error (sigs_at ds final j)) (ctor_table cs) solver pure d = []) ->
    forall j d, i <= j -> nth_error ds j = Some d -> exists sc, nth_error final j = Some sc /\ fn_ok (sigs_at ds final j) d sc.
  Proof.
    assert (LS : forall i, List.length final = List.length ds -> i <= List.length ds -> List.length (sigs_at ds final i) = List.length ds).
    { intros i L Hi. unfold sigs_at. rewrite app_length, firstn_length_le, skipn_length, map_length by lia. lia. }
    assert (NS : forall i j, List.length final = List.length ds -> i <= List.length ds ->
      nth_error (sigs_at ds final i) j = if Nat.ltb j i then nth_error final j else option_map declared (nth_error ds j)).
    { intros i j L Hi. unfold sigs_at. destruct (Nat.ltb_spec j i).
      - rewrite nth_error_app1 by (rewrite firstn_length_le by lia; lia). apply nth_error_firstn. lia.
      - rewrite nth_error_app2; rewrite firstn_length_le by lia; [|lia]. rewrite nth_error_skipn, nth_error_map. f_equal. f_equal. lia. }
    induction ds' as [|d0 ds' IH]; intros i Ds E L Hi Pl Gs j d Hj Hd.
    - exfalso. assert (X : nth_error (skipn i ds) (j - i) = None) by (rewrite Ds; destruct (j - i); reflexivity).
      rewrite nth_error_skipn in X. replace (i + (j - i)) with j in X by lia. congruence.
    - assert (H0 : nth_error ds i = Some d0) by (rewrite <- (Nat.add_0_r i), <- nth_error_skipn, Ds; reflexivity).
      assert (Hi' : i < List.length ds) by (apply nth_error_Some; congruence).
      cbn in E. destruct (check_fn (nth_error (sigs_at ds final i)) (ctor_table cs) solver pure d0) as [sc|] eqn:Ec; [|discriminate].
      assert (In0 : In d0 ds) by (eapply nth_error_In, H0).
      destruct (check_fn_sound (nth_error (sigs_at ds final i)) cs solver pure Pl (po_ctors _ _ OK) Hsolver d0 (po_sigs _ _ OK _ In0) (po_lengths _ _ OK _ In0)
        (proj1 (po_bodies _ _ OK _ In0)) (proj2 (po_bodies _ _ OK _ In0)) sc Ec (Gs i d0 (le_n _) H0)) as [Psc Fsc].
      destruct (check_fns_prefix ds' _ _ _ E) as [P1 P2].
      { rewrite length_set by (rewrite LS; lia). rewrite LS by lia. pose proof (skipn_length i ds) as X. rewrite Ds in X. cbn in X. lia. }
      assert (Fi : nth_error final i = Some sc) by (rewrite P2 by lia; rewrite nth_set by (rewrite LS; lia); rewrite Nat.eqb_refl; reflexivity).
      assert (Next : set_nth (sigs_at ds final i) i sc = sigs_at ds final (S i)).
      { apply list_eq_nth_error. intros k. rewrite nth_set by (rewrite LS; lia). rewrite !NS by lia.
        destruct (Nat.eqb_spec i k) as [<-|Dk]; [destruct (Nat.ltb_spec i (S i)); [symmetry; exact Fi | lia]|].
        destruct (Nat.ltb_spec k i), (Nat.ltb_spec k (S i)); try reflexivity; lia. }
      destruct (Nat.eq_dec i j) as [<-|Dj].
      + exists sc. split; [exact Fi|]. replace d with d0 by congruence. exact Fsc.
      + rewrite Next in E. apply (IH (S i)); try assumption; try lia.
        * replace ds' with (skipn 1 (skipn i ds)) by (rewrite Ds; reflexivity). apply list_eq_nth_error. intros k. rewrite !nth_error_skipn. f_equal. lia.
        * rewrite <- Next. intros k sk. rewrite nth_set by (rewrite LS; lia). destruct (Nat.eqb i k); [intros [= <-]; exact Psc | apply Pl].
        * intros k dk Hk. apply Gs. lia.
  Qed.

  Variable final : list poly.
  Hypothesis Accepted : check_program cs solver pure ds = Some final.
  Hypothesis NoGuess : forall i d, nth_error ds i = Some d -> guesses (nth_error (sigs_at ds final i)) (ctor_table cs) solver pure d = [].
  Hypothesis Early : no_early_promises ds final.

  Lemma final_length : List.length final = List.length ds.
  Proof.
    destruct (check_fns_prefix _ _ _ _ Accepted) as [L _]; [rewrite map_length; lia|]. rewrite map_length in L. exact L.
  Qed.

  Lemma final_bodies j d t : nth_error ds j = Some d -> sig_types final j t -> exists ts r, t = SFun ts r /\ List.length ts = List.length (fd_params d) /\
    typed (sig_types final) (ctor_types cs) (extend (fun _ _ => False) (combine (fd_params d) ts)) (fd_body d) r.
  Proof.
    intros Hd [sc [Hsc Ht]]. pose proof final_length as L.
    destruct (check_fns_sound final ds 0 eq_refl Accepted L ltac:(lia)) with (j := j) (d := d) as [sc' [E1 E2]]; try assumption; try lia.
    - cbn. intros k sc' Hk. rewrite nth_error_map in Hk. destruct (nth_error ds k) as [dk|] eqn:Ek; [|discriminate]. injection Hk as <-.
      apply (po_sigs _ _ OK). eapply nth_error_In, Ek.
    - intros k dk _ Hk. apply NoGuess, Hk.
    - assert (sc' = sc) by congruence. subst sc'. destruct (E2 t Ht) as [ts [r [-> [Lt T]]]]. exists ts, r. split; [reflexivity|]. split; [exact Lt|].
      eapply typed_mono; [|intros x w X; exact X | exact T]. intros f u Mf [s [Hs Hu]].
      destruct (Nat.lt_ge_cases f j) as [Lf|Gf].
      + exists s. split; [|exact Hu]. rewrite <- Hs. unfold sigs_at. symmetry.
        assert (j < List.length ds) by (apply nth_error_Some; congruence).
        rewrite nth_error_app1 by (rewrite firstn_length_le by lia; lia). apply nth_error_firstn. lia.
      + apply (Early j d f u Hd Mf Gf). exists s. split; [|exact Hu]. rewrite <- Hs. unfold sigs_at.
        assert (j < List.length ds) by (apply nth_error_Some; congruence).
        rewrite nth_error_app2; rewrite firstn_length_le by lia; [|lia]. rewrite nth_error_skipn. f_equal. lia.
  Qed.

  Lemma accepted_safe n f d args ts r : nth_error ds f = Some d -> sig_types final f (SFun ts r) ->
    Forall2 (has_type (sig_types final) (ctor_types cs)) args ts ->
    match eval cs ds n (combine (fd_params d) args) (fd_body d) with
    | Val v => has_type (sig_types final) (ctor_types cs) v r
    | Wrong => False
    | NoMatch | Timeout => True
    end.
  Proof.
    intros Hd Hs Ha. destruct (final_bodies f d _ Hd Hs) as [ts' [r' [E [L T]]]]. injection E as <- <-.
    assert (Ind : In d ds) by (eapply nth_error_In, Hd).
    apply (typed_is_safe cs ds (sig_types final) (po_source _ _ OK)) with (g := extend (fun _ _ => False) (combine (fd_params d) ts)).
    - intros k t i Hk Ht Hi. pose proof (po_ctors _ _ OK k Hk) as [_ [B _]]. unfold ctor_poly in B. cbn [fst snd] in B.
      destruct (cd_fields k) as [|t0 fs] eqn:Ef; [destruct Ht|]. rewrite Forall_forall in B. apply B. cbn [bounds func_ty].
      apply in_or_app. apply or_introl. apply in_flat_map. exists t. auto.
    - intros g t Ht. pose proof Ht as [sc [Hsc _]]. assert (X : g < List.length ds) by (rewrite <- final_length; apply nth_error_Some; congruence).
      apply nth_error_Some in X. destruct (nth_error ds g) as [dg|] eqn:Eg; [|congruence]. clear X.
      destruct (final_bodies g dg t Eg Ht) as [us [q [-> [Lu Tu]]]]. exists dg, us, q. repeat split; try assumption.
      apply (po_params _ _ OK). eapply nth_error_In, Eg.
    - rewrite <- (app_nil_r (combine (fd_params d) args)). apply env_extend.
      + intros x t [].
      + apply combine_ok, Ha.
      + rewrite names_combine by exact L. apply (po_params _ _ OK _ Ind).
    - exact T.
  Qed.
End Program.
