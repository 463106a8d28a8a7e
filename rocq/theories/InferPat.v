(** What inference finds out about a pattern. *)
From Verif Require Import TyProofs UnifySpec UnifyComplete SubstProofs InferRun InferSolve InferFo.

Definition is_variant (p : pat) : bool := match p with PVariant _ _ _ => true | _ => false end.

Lemma mmap_inv {A B} (f : A -> M B) a l st bs st' : mmap f (a :: l) st = (bs, st') ->
  exists b st1 bs', bs = b :: bs' /\ f a st = (b, st1) /\ mmap f l st1 = (bs', st').
Proof.
  cbn [mmap]. intros E. apply bnd_inv in E as [b [st1 [E1 E]]]. apply bnd_inv in E as [bs' [st2 [E2 E]]]. injection E as <- <-.
  exists b, st1, bs'. auto.
Qed.
Lemma mzip_inv {A B C} (f : A -> B -> M C) a l b l' st cs st' : mzip f (a :: l) (b :: l') st = (cs, st') ->
  exists c st1 cs', cs = c :: cs' /\ f a b st = (c, st1) /\ mzip f l l' st1 = (cs', st').
Proof.
  cbn [mzip]. intros E. apply bnd_inv in E as [c [st1 [E1 E]]]. apply bnd_inv in E as [cs' [st2 [E2 E]]]. injection E as <- <-.
  exists c, st1, cs'. auto.
Qed.

(** Only the nodes [ids] get a type. *)
Definition frame {A} (ids : list nat) (m : M A) : Prop := forall st a st', m st = (a, st') ->
  forall i, ~ In i ids -> look i (i_nodes st') = look i (i_nodes st).
Lemma frame_ret {A} ids (a : A) : frame ids (ret a).
Proof. intros st b st' [= <- <-] i _. reflexivity. Qed.
Lemma frame_bnd {A B} ids (m : M A) (f : A -> M B) : frame ids m -> (forall a, frame ids (f a)) -> frame ids (bnd m f).
Proof.
  intros H K st b st' E i Hi. apply bnd_inv in E as [a [st1 [E1 E2]]]. rewrite (K a _ _ _ E2 i Hi). apply (H _ _ _ E1 i Hi).
Qed.
Lemma frame_incl {A} ids ids' (m : M A) : incl ids ids' -> frame ids m -> frame ids' m.
Proof. intros H K st a st' E i Hi. apply (K _ _ _ E). auto. Qed.
Lemma frame_fresh ids : frame ids fresh.
Proof. intros st a st' [= <- <-] i _. reflexivity. Qed.
Lemma frame_guessed ids g : frame ids (guessed g).
Proof. intros st a st' [= <- <-] i _. reflexivity. Qed.
Lemma frame_eqn ids a b : frame ids (eqn a b).
Proof. intros st u st' [= <- <-] i _. reflexivity. Qed.
Lemma frame_record ids k t : In k ids -> frame ids (record k t).
Proof.
  intros H st u st' [= <- <-] i Hi. cbn. unfold look. cbn. destruct (Nat.eqb_spec k i) as [->|]; [contradiction | reflexivity].
Qed.
Lemma frame_mmap {A B} ids (f : A -> M B) l : Forall (fun a => frame ids (f a)) l -> frame ids (mmap f l).
Proof.
  induction 1; cbn [mmap]; [apply frame_ret|]. apply frame_bnd; [assumption|]. intros b. apply frame_bnd; [assumption|]. intros; apply frame_ret.
Qed.
Lemma frame_mzip {A B C} ids (f : A -> B -> M C) l : (forall a b, In a l -> frame ids (f a b)) -> forall l', frame ids (mzip f l l').
Proof.
  induction l as [|a l IH]; intros H [|b l']; cbn [mzip]; try apply frame_ret. apply frame_bnd; [apply H; left; reflexivity|]. intros c.
  apply frame_bnd; [apply IH; intros; apply H; right; assumption|]. intros; apply frame_ret.
Qed.
Lemma frame_fresh_for {A} ids (l : list A) : frame ids (fresh_for l).
Proof. apply frame_mmap, Forall_forall. intros. apply frame_fresh. Qed.
Lemma frame_known ids sc : frame ids (known sc).
Proof.
  destruct sc; cbn.
  - unfold instantiate_poly. apply frame_bnd; [apply frame_fresh_for | intros; apply frame_ret].
  - apply frame_bnd; [apply frame_guessed | intros; apply frame_fresh].
Qed.

Lemma known_instance th sc st t st' : (forall s, sc = Some s -> univars (snd s) = []) -> known sc st = (t, st') -> i_log st' = [] ->
  exists s, sc = Some s /\ instance s (mean th none t).
Proof.
  intros U E L. destruct sc as [s|]; cbn [known] in E.
  - exists s. split; [reflexivity|]. unfold instantiate_poly in E. apply bnd_inv in E as [ts [st1 [_ E]]]. injection E as <- <-.
    exists (fun i => mean th none (nth i ts TError)). rewrite mean_plug. apply mean_ext; [|reflexivity].
    rewrite (U _ eq_refl). intros v [].
  - apply bnd_inv in E as [u [st1 [E1 E2]]]. injection E1 as <- <-. injection E2 as <- <-. discriminate.
Qed.

Section Pats.
  Variable cs : list cdecl.
  Hypothesis Hcs : forall k, In k cs -> plain_sig (ctor_poly k).
  Notation ctors := (ctor_table cs).
  Notation K := (ctor_types cs).

  Lemma ctors_plain c sc : ctors c = Some sc -> plain_sig sc.
  Proof. unfold ctor_table. destruct (nth_error cs c) eqn:E; [|discriminate]. intros [= <-]. apply Hcs. eapply nth_error_In, E. Qed.

  Lemma known_ctor_type th c st t st' : known (ctors c) st = (t, st') -> i_log st' = [] -> K c (mean th none t).
  Proof.
    intros E L. destruct (known_instance th _ _ _ _ (fun s Hs => proj1 (ctors_plain c s Hs)) E L) as [s [Es I]].
    unfold ctor_table in Es. destruct (nth_error cs c) as [k|] eqn:Ek; [|discriminate]. injection Es as <-. exists k. auto.
  Qed.

  (** The types [N] has for the nodes of [p] make it a pattern for values of type [T]. *)
  Fixpoint pfacts (N : list (nat * ty)) (th : nat -> styp) (p : pat) (T : styp) {struct p} : Prop :=
    let all := fix all (ps : list pat) (Ts : list styp) : Prop :=
      match ps, Ts with
      | [], [] => True
      | p :: ps, T :: Ts => pfacts N th p T /\ all ps Ts
      | _, _ => False
      end in
    (is_variant p = false -> exists t, look (pat_id p) N = Some t /\ mean th none t = T) /\
    match p with
    | PWild _ | PBind _ _ => True
    | PLit _ l => T = lit_styp l
    | PVariant _ c ps =>
        match ps with
        | [] => K c T /\ (forall ps r, T <> SFun ps r)
        | _ => exists Ts, K c (SFun Ts T) /\ all ps Ts
        end
    | PTuple _ ps => exists Ts, T = STuple Ts /\ all ps Ts
    | PList _ ps | PRest _ ps _ => exists U, T = SList U /\ all ps (repeat U (List.length ps))
    | PAs _ p _ => pfacts N th p T
    end.
  Fixpoint pfacts_all (N : list (nat * ty)) (th : nat -> styp) (ps : list pat) (Ts : list styp) : Prop :=
    match ps, Ts with
    | [], [] => True
    | p :: ps, T :: Ts => pfacts N th p T /\ pfacts_all N th ps Ts
    | _, _ => False
    end.
  Lemma pfacts_eq N th p T : pfacts N th p T <->
    ((is_variant p = false -> exists t, look (pat_id p) N = Some t /\ mean th none t = T) /\
    match p with
    | PWild _ | PBind _ _ => True
    | PLit _ l => T = lit_styp l
    | PVariant _ c ps =>
        match ps with
        | [] => K c T /\ (forall ps r, T <> SFun ps r)
        | _ => exists Ts, K c (SFun Ts T) /\ pfacts_all N th ps Ts
        end
    | PTuple _ ps => exists Ts, T = STuple Ts /\ pfacts_all N th ps Ts
    | PList _ ps | PRest _ ps _ => exists U, T = SList U /\ pfacts_all N th ps (repeat U (List.length ps))
    | PAs _ p _ => pfacts N th p T
    end).
  Proof.
    assert (A : forall ps Ts, (fix all (ps : list pat) (Ts : list styp) : Prop :=
      match ps, Ts with
      | [], [] => True
      | p :: ps, T :: Ts => pfacts N th p T /\ all ps Ts
      | _, _ => False
      end) ps Ts <-> pfacts_all N th ps Ts).
    { induction ps as [|q ps IH]; intros [|U Us]; cbn; try tauto. rewrite IH. tauto. }
    destruct p; cbn [pfacts]; try tauto.
    - destruct ps as [|q qs]; [tauto|]. split; intros [X [Ts [Y Z]]]; (split; [exact X|]; exists Ts; split; [exact Y|]);
        [exact (proj1 (A (q :: qs) Ts) Z) | exact (proj2 (A (q :: qs) Ts) Z)].
    - split; intros [X [Ts [Y Z]]]; (split; [exact X|]; exists Ts; split; [exact Y|]; apply A; exact Z).
    - split; intros [X [Ts [Y Z]]]; (split; [exact X|]; exists Ts; split; [exact Y|]; apply A; exact Z).
    - split; intros [X [Ts [Y Z]]]; (split; [exact X|]; exists Ts; split; [exact Y|]; apply A; exact Z).
  Qed.

  Lemma frame_pat p : frame (pat_ids p) (infer_pat ctors p).
  Proof.
    induction p as [i|i x|i l|i c ps F|i ps F|i ps F|i ps r F|i p x IH] using pat_ind'; cbn [infer_pat pat_ids].
    all: try (assert (F' : Forall (fun p => frame (i :: flat_map pat_ids ps) (infer_pat ctors p)) ps)
      by (rewrite Forall_forall in *; intros q Hq; eapply frame_incl; [|apply F, Hq]; intros j Hj; right; apply in_flat_map; eauto)).
    - apply frame_bnd; [apply frame_fresh|]. intros. apply frame_bnd; [apply frame_record; left; reflexivity|]. intros. apply frame_ret.
    - apply frame_bnd; [apply frame_fresh|]. intros. apply frame_bnd; [apply frame_record; left; reflexivity|]. intros. apply frame_ret.
    - apply frame_bnd; [apply frame_record; left; reflexivity|]. intros. apply frame_ret.
    - apply frame_bnd; [apply frame_known|]. intros t. apply frame_bnd; [apply frame_record; left; reflexivity|]. intros _.
      assert (O : frame (i :: flat_map pat_ids ps) (match ps with [] => ret tt | _ => guessed Arity end ;~ ret t)).
      { apply frame_bnd; [destruct ps; [apply frame_ret | apply frame_guessed]|]. intros. apply frame_ret. }
      destruct t; try exact O. apply frame_bnd; [destruct (Nat.eqb _ _); [apply frame_ret | apply frame_guessed]|]. intros _.
      apply frame_bnd; [|intros; apply frame_ret]. apply frame_mzip. intros p q Hp.
      apply frame_bnd; [apply (proj1 (Forall_forall _ _) F' _ Hp)|]. intros. apply frame_eqn.
    - apply frame_bnd; [apply frame_mmap, F'|]. intros. apply frame_bnd; [apply frame_record; left; reflexivity|]. intros. apply frame_ret.
    - apply frame_bnd; [apply frame_fresh|]. intros a. apply frame_bnd.
      + apply frame_mmap. revert F'. apply Forall_impl. intros p Hp. apply frame_bnd; [exact Hp|]. intros. apply frame_eqn.
      + intros _. apply frame_bnd; [apply frame_record; left; reflexivity|]. intros. apply frame_ret.
    - apply frame_bnd; [apply frame_fresh|]. intros a. apply frame_bnd.
      + apply frame_mmap. revert F'. apply Forall_impl. intros p Hp. apply frame_bnd; [exact Hp|]. intros. apply frame_eqn.
      + intros _. apply frame_bnd; [apply frame_record; left; reflexivity|]. intros. apply frame_ret.
    - apply frame_bnd; [eapply frame_incl; [|exact IH]; apply incl_tl, incl_refl|]. intros.
      apply frame_bnd; [apply frame_record; left; reflexivity|]. intros. apply frame_ret.
  Qed.

  Definition agrees (ids : list nat) (N : list (nat * ty)) (st : ist) : Prop := forall i, In i ids -> look i N = look i (i_nodes st).

  Definition pat_found (p : pat) : Prop := forall st u st' th N, st_fo st -> infer_pat ctors p st = (u, st') -> NoDup (pat_ids p) ->
    i_log st' = [] -> sat th (i_cs st') -> agrees (pat_ids p) N st' -> pfacts N th p (mean th none u).

  Lemma NoDup_app2 {A} (l l' : list A) : NoDup (l ++ l') -> NoDup l /\ NoDup l' /\ (forall x, In x l -> ~ In x l').
  Proof.
    induction l as [|a l IH]; cbn; intros H; [repeat split; [constructor | exact H | intros x []]|].
    inversion H as [|? ? N1 N2]; subst. destruct (IH N2) as [I1 [I2 I3]]. rewrite in_app_iff in N1.
    repeat split; [constructor; tauto | exact I2|]. intros x [<-|Hx]; [tauto | apply I3, Hx].
  Qed.

  (** Lists of patterns, each with its own step [g] after inferring it. *)
  Lemma infer_list_found ps : Forall pat_found ps -> forall st us st' th N, st_fo st -> mmap (infer_pat ctors) ps st = (us, st') ->
    NoDup (flat_map pat_ids ps) -> i_log st' = [] -> sat th (i_cs st') -> agrees (flat_map pat_ids ps) N st' ->
    pfacts_all N th ps (List.map (mean th none) us).
  Proof.
    induction 1 as [|p ps H F IH]; intros st us st' th N Fs E ND L S A; [cbn in E; injection E as <- <-; exact I|].
    apply mmap_inv in E as [u [st1 [us' [-> [E1 E2]]]]]. cbn in ND. apply NoDup_app2 in ND as [N1 [N2 N3]].
    destruct (fom_pat ctors ctors_plain p _ _ _ Fs E1) as [F1 [_ G1]].
    destruct (fom_mmap first_order _ ps (proj2 (Forall_forall _ _) (fun q _ => fom_pat ctors ctors_plain q)) _ _ _ F1 E2) as [F2 [_ G2]].
    cbn [pfacts_all List.map]. split.
    - apply (H st u st1 th N Fs E1 N1 (grows_log _ _ G2 L) (grows_sat _ _ _ G2 S)).
      intros i Hi. rewrite A by (apply in_or_app; auto).
      eapply (frame_mmap (flat_map pat_ids ps) (infer_pat ctors) ps); [|exact E2|apply N3, Hi].
      apply Forall_forall. intros q Hq. apply (frame_incl (pat_ids q)); [|apply frame_pat]. intros j Hj. apply in_flat_map. eauto.
    - apply (IH st1 us' st' th N F1 E2 N2 L S). intros i Hi. apply A, in_or_app. auto.
  Qed.

  Lemma step_eqn t1 t2 st u st' : eqn t1 t2 st = (u, st') -> i_cs st' = (t1, t2) :: i_cs st /\ i_nodes st' = i_nodes st /\ i_log st' = i_log st /\ i_refs st' = i_refs st.
  Proof. intros [= <- <-]. auto. Qed.

  Lemma eqn_list_found ps a : first_order a -> Forall pat_found ps -> forall st us st' th N, st_fo st ->
    mmap (fun p => u <~ infer_pat ctors p ;; eqn u a) ps st = (us, st') ->
    NoDup (flat_map pat_ids ps) -> i_log st' = [] -> sat th (i_cs st') -> agrees (flat_map pat_ids ps) N st' ->
    pfacts_all N th ps (repeat (mean th none a) (List.length ps)).
  Proof.
    intros Fa. induction 1 as [|p ps H F IH]; intros st us st' th N Fs E ND L S A; [exact I|].
    apply mmap_inv in E as [u [st2 [us' [-> [E1 E2]]]]]. apply bnd_inv in E1 as [u1 [st1 [E1 E1']]].
    cbn in ND. apply NoDup_app2 in ND as [N1 [N2 N3]].
    destruct (fom_pat ctors ctors_plain p _ _ _ Fs E1) as [F1 [Fu G1]].
    destruct (fom_eqn u1 a Fu Fa _ _ _ F1 E1') as [F1' [_ G1']].
    destruct (fom_mmap top (fun p => u <~ infer_pat ctors p ;; eqn u a) ps (proj2 (Forall_forall _ _) (fun q _ => fom_bnd _ _ _ _ (fom_pat ctors ctors_plain q) (fun w Hw => fom_eqn w a Hw Fa))) _ _ _ F1' E2) as [F2 [_ G2]].
    destruct (step_eqn _ _ _ _ _ E1') as [C1 [C2 [C3 _]]].
    assert (S1 := grows_sat _ _ _ G2 S). assert (L1 := grows_log _ _ G2 L).
    cbn. split.
    - replace (mean th none a) with (mean th none u1) by (apply S1; rewrite C1; left; reflexivity).
      apply (H st u1 st1 th N Fs E1 N1); [congruence | exact (grows_sat _ _ _ G1' S1)|].
      intros i Hi. rewrite A by (apply in_or_app; auto). rewrite <- C2.
      eapply (frame_mmap (flat_map pat_ids ps) (fun p => u <~ infer_pat ctors p ;; eqn u a) ps); [|exact E2|apply N3, Hi].
      apply Forall_forall. intros q Hq. apply frame_bnd; [|intros; apply frame_eqn].
      apply (frame_incl (pat_ids q)); [|apply frame_pat]. intros j Hj. apply in_flat_map. eauto.
    - apply (IH st2 us' st' th N F1' E2 N2 L S). intros i Hi. apply A, in_or_app. auto.
  Qed.

  Lemma eqn_zip_found ps : Forall pat_found ps -> forall params, Forall first_order params -> List.length ps = List.length params ->
    forall st us st' th N, st_fo st ->
    mzip (fun p param => u <~ infer_pat ctors p ;; eqn u param) ps params st = (us, st') ->
    NoDup (flat_map pat_ids ps) -> i_log st' = [] -> sat th (i_cs st') -> agrees (flat_map pat_ids ps) N st' ->
    pfacts_all N th ps (List.map (mean th none) params).
  Proof.
    induction 1 as [|p ps H F IH]; intros [|a params] Fp Ln st us st' th N Fs E ND L S A; try discriminate; [exact I|].
    inversion Fp as [|? ? Fa Fp']; subst.
    apply mzip_inv in E as [u [st2 [us' [-> [E1 E2]]]]]. apply bnd_inv in E1 as [u1 [st1 [E1 E1']]].
    cbn in ND. apply NoDup_app2 in ND as [N1 [N2 N3]].
    destruct (fom_pat ctors ctors_plain p _ _ _ Fs E1) as [F1 [Fu G1]].
    destruct (fom_eqn u1 a Fu Fa _ _ _ F1 E1') as [F1' [_ G1']].
    assert (Fz : fom (Forall top) (mzip (fun p param => u <~ infer_pat ctors p ;; eqn u param) ps params)).
    { apply fom_mzip. intros q b Hq Hb. eapply fom_bnd; [apply (fom_pat ctors ctors_plain q)|]. intros w Hw. apply fom_eqn; [exact Hw|].
      apply (proj1 (Forall_forall _ _) Fp' _ Hb). }
    destruct (Fz _ _ _ F1' E2) as [F2 [_ G2]].
    destruct (step_eqn _ _ _ _ _ E1') as [C1 [C2 [C3 _]]].
    assert (S1 := grows_sat _ _ _ G2 S). assert (L1 := grows_log _ _ G2 L).
    cbn. split.
    - replace (mean th none a) with (mean th none u1) by (apply S1; rewrite C1; left; reflexivity).
      apply (H st u1 st1 th N Fs E1 N1); [congruence | exact (grows_sat _ _ _ G1' S1)|].
      intros i Hi. rewrite A by (apply in_or_app; auto). rewrite <- C2.
      eapply (frame_mzip (flat_map pat_ids ps) (fun p param => u <~ infer_pat ctors p ;; eqn u param) ps); [|exact E2|apply N3, Hi].
      intros q b Hq. apply frame_bnd; [|intros; apply frame_eqn].
      apply (frame_incl (pat_ids q)); [|apply frame_pat]. intros j Hj. apply in_flat_map. eauto.
    - apply (IH params Fp' ltac:(cbn in Ln; lia) st2 us' st' th N F1' E2 N2 L S). intros i Hi. apply A, in_or_app. auto.
  Qed.

  Lemma record_look i t st u st' : record i t st = (u, st') -> look i (i_nodes st') = Some t /\ i_cs st' = i_cs st /\ i_log st' = i_log st /\
    (forall j, j <> i -> look j (i_nodes st') = look j (i_nodes st)).
  Proof.
    intros [= <- <-]. cbn. unfold look. cbn. rewrite Nat.eqb_refl. repeat split. intros j Hj.
    destruct (Nat.eqb_spec i j); [congruence | reflexivity].
  Qed.

  Lemma pat_found_all : forall p, pat_found p.
  Proof.
    induction p as [i|i x|i l|i c ps F|i ps F|i ps F|i ps r F|i p x IH] using pat_ind'; intros st u st' th N Fs E ND L S A;
      cbn [infer_pat] in E; apply pfacts_eq; cbn [is_variant pat_id].
    - apply bnd_inv in E as [t [st1 [E1 E]]]. apply bnd_inv in E as [w [st2 [E2 E]]]. injection E as <- <-.
      destruct (record_look _ _ _ _ _ E2) as [R _]. split; [|exact I]. intros _. exists t. rewrite A, R by (left; reflexivity). auto.
    - apply bnd_inv in E as [t [st1 [E1 E]]]. apply bnd_inv in E as [w [st2 [E2 E]]]. injection E as <- <-.
      destruct (record_look _ _ _ _ _ E2) as [R _]. split; [|exact I]. intros _. exists t. rewrite A, R by (left; reflexivity). auto.
    - apply bnd_inv in E as [w [st2 [E2 E]]]. injection E as <- <-.
      destruct (record_look _ _ _ _ _ E2) as [R _]. split; [|destruct l; reflexivity]. intros _. exists (lit_ty l). rewrite A, R by (left; reflexivity). auto.
    - split; [discriminate|].
      apply bnd_inv in E as [t [st1 [E1 E]]]. apply bnd_inv in E as [w [st2 [E2 E]]].
      destruct (fom_known _ (fun s Hs => plain_schematic s (ctors_plain c s Hs)) _ _ _ Fs E1) as [F1 [Ft G1]].
      destruct (fom_record _ _ Ft _ _ _ F1 E2) as [F2 [_ G2]].
      destruct (record_look _ _ _ _ _ E2) as [R1 [R2 [R3 R4]]].
      assert (O : (match ps with [] => ret tt | _ => guessed Arity end ;~ ret t) st2 = (u, st') -> (forall a b c d, t <> TFunc a b c d) ->
         match ps with
         | [] => K c (mean th none u) /\ (forall ps r, mean th none u <> SFun ps r)
         | _ => exists Ts, K c (SFun Ts (mean th none u)) /\ pfacts_all N th ps Ts
         end).
      { intros E' NF. apply bnd_inv in E' as [w' [st3 [E3 E4]]]. injection E4 as <- <-. destruct ps as [|q ps].
        - injection E3 as <- <-. assert (KT : K c (mean th none t)) by (eapply known_ctor_type; [exact E1 | congruence]). split; [exact KT|].
          intros qs r X. destruct t; try discriminate; try (eapply NF; reflexivity); try (destruct Ft; fail).
          destruct (known_instance (fun _ => SRigid 0) _ _ _ _ (fun s Hs => proj1 (ctors_plain c s Hs)) E1 ltac:(congruence)) as [s [Es [be I]]].
          unfold ctor_table in Es. destruct (nth_error cs c) as [k|]; [|discriminate]. injection Es as <-.
          unfold ctor_poly in I. cbn in I. destruct (cd_fields k); discriminate.
        - injection E3 as <- <-. discriminate. }
      destruct t as [| | | | |params r0 e0 c0| | | |]; try (apply O; [exact E | intros; discriminate]). clear O.
      apply bnd_inv in E as [w1 [st3 [E3 E]]]. apply bnd_inv in E as [w2 [st4 [E4 E]]]. injection E as <- <-.
      destruct (fo_params _ _ _ _ Ft) as [Fp Fr].
      assert (LE : List.length ps = List.length params /\ st3 = st2).
      { destruct (Nat.eqb_spec (List.length ps) (List.length params)); [injection E3 as <- <-; auto|]. injection E3 as <- <-.
        exfalso. assert (Fz : fom (Forall top) (mzip (fun p param => u <~ infer_pat ctors p ;; eqn u param) ps params)).
        { apply fom_mzip. intros q b Hq Hb. eapply fom_bnd; [apply (fom_pat ctors ctors_plain q)|]. intros y Hy. apply fom_eqn; [exact Hy|].
          apply (proj1 (Forall_forall _ _) Fp _ Hb). }
        match type of E4 with mzip _ _ _ ?s = _ => assert (F3 : st_fo s) by (destruct F2; split; assumption) end.
        destruct (Fz _ _ _ F3 E4) as [_ [_ G4]]. apply (grows_log _ _ G4) in L. discriminate. }
      destruct LE as [LE ->]. inversion ND as [|? ? ND1 ND2]; subst.
      assert (Fz : fom (Forall top) (mzip (fun p param => u <~ infer_pat ctors p ;; eqn u param) ps params)).
      { apply fom_mzip. intros q b Hq Hb. eapply fom_bnd; [apply (fom_pat ctors ctors_plain q)|]. intros y Hy. apply fom_eqn; [exact Hy|].
        apply (proj1 (Forall_forall _ _) Fp _ Hb). }
      destruct (Fz _ _ _ F2 E4) as [_ [_ G4]].
      assert (KT : K c (mean th none (TFunc params r0 e0 c0))) by (eapply known_ctor_type; [exact E1 | rewrite <- R3; apply (grows_log _ _ G4 L)]).
      assert (AP : pfacts_all N th ps (List.map (mean th none) params)).
      { eapply eqn_zip_found; eauto. intros j Hj. apply A. right. exact Hj. }
      cbn [mean] in KT. destruct ps as [|q ps].
      + exfalso. destruct params; [|discriminate]. destruct (ctor_shape _ _ _ KT) as [k [be [_ X]]].
        destruct (cd_fields k); discriminate.
      + exists (List.map (mean th none) params). split; [exact KT | exact AP].
    - apply bnd_inv in E as [ts [st1 [E1 E]]]. apply bnd_inv in E as [w [st2 [E2 E]]]. injection E as <- <-.
      destruct (record_look _ _ _ _ _ E2) as [R1 [R2 [R3 R4]]]. inversion ND as [|? ? ND1 ND2]; subst. split.
      + intros _. exists (TTuple ts). rewrite A, R1 by (left; reflexivity). auto.
      + exists (List.map (mean th none) ts). split; [reflexivity|]. eapply infer_list_found; eauto; [congruence | rewrite <- R2; exact S|].
        intros j Hj. rewrite A by (right; exact Hj). apply R4. intros ->. contradiction.
    - apply bnd_inv in E as [a [st0 [E0 E]]]. apply bnd_inv in E as [ts [st1 [E1 E]]]. apply bnd_inv in E as [w [st2 [E2 E]]]. injection E as <- <-.
      destruct (record_look _ _ _ _ _ E2) as [R1 [R2 [R3 R4]]]. inversion ND as [|? ? ND1 ND2]; subst.
      destruct (fom_fresh _ _ _ Fs E0) as [F0 [Fa _]]. split.
      + intros _. exists (list_ty a). rewrite A, R1 by (left; reflexivity). auto.
      + exists (mean th none a). split; [reflexivity|]. eapply eqn_list_found; eauto; [congruence | rewrite <- R2; exact S|].
        intros j Hj. rewrite A by (right; exact Hj). apply R4. intros ->. contradiction.
    - apply bnd_inv in E as [a [st0 [E0 E]]]. apply bnd_inv in E as [ts [st1 [E1 E]]]. apply bnd_inv in E as [w [st2 [E2 E]]]. injection E as <- <-.
      destruct (record_look _ _ _ _ _ E2) as [R1 [R2 [R3 R4]]]. inversion ND as [|? ? ND1 ND2]; subst.
      destruct (fom_fresh _ _ _ Fs E0) as [F0 [Fa _]]. split.
      + intros _. exists (list_ty a). rewrite A, R1 by (left; reflexivity). auto.
      + exists (mean th none a). split; [reflexivity|]. eapply eqn_list_found; eauto; [congruence | rewrite <- R2; exact S|].
        intros j Hj. rewrite A by (right; exact Hj). apply R4. intros ->. contradiction.
    - apply bnd_inv in E as [t [st1 [E1 E]]]. apply bnd_inv in E as [w [st2 [E2 E]]]. injection E as <- <-.
      destruct (record_look _ _ _ _ _ E2) as [R1 [R2 [R3 R4]]]. inversion ND as [|? ? ND1 ND2]; subst. split.
      + intros _. exists t. rewrite A, R1 by (left; reflexivity). auto.
      + eapply IH; eauto; [congruence | rewrite <- R2; exact S|]. intros j Hj. rewrite A by (right; exact Hj). apply R4. intros ->. contradiction.
  Qed.
End Pats.
