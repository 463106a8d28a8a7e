(** The chains of arms run the arm that the source selects. *)
From Coq Require Import Lia.
From Verif Require Import CaseSpec CaseProofs.
Local Open Scope N_scope.

(** ** Code is made *)
Section Emit.
  Lemma logical_emits exhaustive arms : Forall (fun a => supported (pat a)) arms -> forall next s sc, s < next ->
    exists next' ops r, logical_chain exhaustive next s sc arms = Done (next', ops, r) /\ next <= next' /\ r < next'.
  Proof.
    induction 1 as [|a rest Ha Hrest IH]; intros next s sc L; cbn [logical_chain].
    - do 3 eexists. split; [reflexivity|lia].
    - destruct (match rest, guard a with [], None => exhaustive | _, _ => false end).
      + destruct (pattern_bind_emits (pat a) Ha next s sc L) as (n1 & ops & sc1 & -> & L1 & _). cbn [CaseModel.bind]. do 3 eexists. split; [reflexivity|lia].
      + destruct (check_emits true (pat a) Ha next s) as (n1 & ops & c & -> & L1 & Lc). cbn [CaseModel.bind].
        destruct (pattern_bind_emits (pat a) Ha n1 s sc) as (n2 & bops & sc1 & -> & L2 & _); [lia|]. cbn [CaseModel.bind].
        destruct (guard a) as [g|].
        * destruct (IH (n2 + 2) s sc1) as (n3 & eops & ev & -> & L3 & Lev); [lia|]. cbn [CaseModel.bind].
          destruct (IH (n3 + 1) s sc) as (n4 & eops' & ev' & -> & L4 & Lev'); [lia|]. cbn [CaseModel.bind]. do 3 eexists. split; [reflexivity|lia].
        * cbn [CaseModel.bind]. destruct (IH (n2 + 1) s sc) as (n4 & eops' & ev' & -> & L4 & Lev'); [lia|]. cbn [CaseModel.bind]. do 3 eexists. split; [reflexivity|lia].
  Qed.
  Lemma legacy_emits arms : Forall (fun a => supported (pat a)) arms -> forall ie next s sc, s < next ->
    exists next' ops r, legacy_chain ie next s sc arms = Done (next', ops, r) /\ next <= next' /\ r < next'.
  Proof.
    induction 1 as [|a rest Ha Hrest IH]; intros ie next s sc L; cbn [legacy_chain].
    - do 3 eexists. split; [reflexivity|lia].
    - destruct (match rest, guard a with [], None => ie || is_irrefutable (pat a) | _, _ => false end).
      + destruct (pattern_bind_emits (pat a) Ha next s sc L) as (n1 & ops & sc1 & -> & L1 & _). cbn [CaseModel.bind]. do 3 eexists. split; [reflexivity|lia].
      + destruct (check_emits false (pat a) Ha next s) as (n1 & ops & c & -> & L1 & Lc). cbn [CaseModel.bind].
        destruct (pattern_bind_emits (pat a) Ha n1 s sc) as (n2 & bops & sc1 & -> & L2 & _); [lia|]. cbn [CaseModel.bind].
        destruct (guard a) as [g|].
        * destruct (IH true (n2 + 2) s sc) as (n3 & eops & ev & -> & L3 & Lev); [lia|]. cbn [CaseModel.bind].
          destruct (IH true (n3 + 1) s sc) as (n4 & eops' & ev' & -> & L4 & Lev'); [lia|]. cbn [CaseModel.bind]. do 3 eexists. split; [reflexivity|lia].
        * cbn [CaseModel.bind]. destruct (IH true (n2 + 1) s sc) as (n4 & eops' & ev' & -> & L4 & Lev'); [lia|]. cbn [CaseModel.bind]. do 3 eexists. split; [reflexivity|lia].
  Qed.
  Lemma comp_emits direct arms : Forall (fun a => supported (pat a)) arms -> forall ie next s k sc, s < next ->
    exists next' ops r, comp_chain direct ie next s k sc arms = Done (next', ops, r) /\ next <= next' /\ r < next'.
  Proof.
    induction 1 as [|a rest Ha Hrest IH]; intros ie next s k sc L; cbn [comp_chain].
    - do 3 eexists. split; [reflexivity|lia].
    - destruct (match rest, guard a with [], None => ie || is_irrefutable (pat a) | _, _ => false end).
      + destruct (pattern_bind_emits (pat a) Ha next s sc L) as (n1 & ops & sc1 & -> & L1 & _). cbn [CaseModel.bind]. do 3 eexists. split; [reflexivity|lia].
      + destruct (check_emits false (pat a) Ha next s) as (n1 & ops & c & -> & L1 & Lc). cbn [CaseModel.bind].
        destruct (pattern_bind_emits (pat a) Ha n1 s sc) as (n2 & bops & sc1 & -> & L2 & _); [lia|]. cbn [CaseModel.bind].
        destruct (guard a) as [g|].
        * destruct (IH true (n2 + 2) s k sc1) as (n3 & eops & ev & -> & L3 & Lev); [lia|]. cbn [CaseModel.bind]. destruct (direct g); cbn [CaseModel.bind].
          -- destruct (IH true (n3 + 1) s k sc) as (n4 & eops' & ev' & -> & L4 & Lev'); [lia|]. cbn [CaseModel.bind]. do 3 eexists. split; [reflexivity|lia].
          -- destruct (IH true (n3 + 2) s k sc) as (n4 & eops' & ev' & -> & L4 & Lev'); [lia|]. cbn [CaseModel.bind]. do 3 eexists. split; [reflexivity|lia].
        * cbn [CaseModel.bind]. destruct (IH true (n2 + 1) s k sc) as (n4 & eops' & ev' & -> & L4 & Lev'); [lia|]. cbn [CaseModel.bind]. do 3 eexists. split; [reflexivity|lia].
  Qed.
End Emit.

Section Run.
  Variable eval : N -> (N -> option value) -> option value.
  Variable kont : value -> option value.
  Variable uses : N -> list N.
  Hypothesis eval_uses : depends_on uses eval.
  Variable variants : N -> list (N * list ty).
  Hypothesis distinct : distinct_variants variants.
  Variable t : ty.
  Variable v : value.
  Hypothesis Tv : typed variants v t.
  Notation code := (code_result eval kont).
  Notation pure := (pure eval kont).

  (** ** Results of pieces of code *)
  Lemma code_app e a e1 b r : pure e a e1 -> code e (a ++ b) r = code e1 b r.
  Proof. intros P. unfold code_result. rewrite (pure_app _ _ _ _ _ _ P). reflexivity. Qed.
  Lemma code_expr e r x sc : code e [Expr r x sc] r = ([Eval x], got (eval x (locals e sc))).
  Proof. unfold code_result. cbn [run_list run]. destruct (eval x (locals e sc)); cbn; [rewrite set_same|]; reflexivity. Qed.
  Lemma code_if e r c (b : bool) th ty el ey : e c = Some (VBool b) -> code e [If r c th ty el ey] r = if b then code e th ty else code e el ey.
  Proof.
    intros H. unfold code_result. cbn [run_list run]. rewrite H.
    assert (Hb : forall o, read (let (t, r0) := bring e r o in match r0 with inl e0 => (t ++ [], inl e0) | inr s => (t, inr s) end) r = o).
    { intros [t0 [u|s]]; cbn; rewrite ?app_nil_r, ?set_same; reflexivity. }
    destruct b; apply Hb.
  Qed.
  Lemma code_cons e o l r t0 e1 : run eval kont e o = (t0, inl e1) -> code e (o :: l) r = (t0 ++ fst (code e1 l r), snd (code e1 l r)).
  Proof. intros H. unfold code_result. cbn [run_list]. rewrite H. destruct (run_list (run eval kont) e1 l) as [t1 [e2|s]]; reflexivity. Qed.
  (** A guard, and then the rest. *)
  Definition guarded (g : N) (x : option value) (yes no : list event * (value + stop)) : list event * (value + stop) :=
    match x with
    | Some (VBool true) => (Eval g :: fst yes, snd yes)
    | Some (VBool false) => (Eval g :: fst no, snd no)
    | Some _ => ([Eval g], inr Stuck)
    | None => ([Eval g], inr NoValue)
    end.
  Lemma code_guard e gv g sc r th ty el ey : code e [Expr gv g sc; If r gv th ty el ey] r =
    guarded g (eval g (locals e sc)) (code (set e gv (VBool true)) th ty) (code (set e gv (VBool false)) el ey).
  Proof.
    destruct (eval g (locals e sc)) as [u|] eqn:Eg; [|unfold code_result; cbn [run_list run]; rewrite Eg; reflexivity].
    rewrite (code_cons e (Expr gv g sc) _ r [Eval g] (set e gv u)) by (cbn [run]; rewrite Eg; reflexivity).
    destruct u as [z|b| | | | | |]; try (unfold code_result; cbn [run_list run]; rewrite set_same; reflexivity).
    rewrite (code_if _ _ _ b) by apply set_same. destruct b; reflexivity.
  Qed.
  Lemma select_cons outer a rest : select eval outer v (a :: rest) =
    match matches (pat a) v with
    | None => select eval outer v rest
    | Some b =>
        match guard a with
        | None => ([Eval (body a)], got (eval (body a) (extended outer b)))
        | Some g => guarded g (eval g (extended outer b)) ([Eval (body a)], got (eval (body a) (extended outer b))) (select eval outer v rest)
        end
    end.
  Proof.
    cbn [select]. destruct (matches (pat a) v); [|reflexivity]. destruct (guard a) as [g|]; [|reflexivity]. unfold guarded.
    destruct (eval g _) as [[z|b| | | | | |]|]; try reflexivity. destruct b; [reflexivity|]. destruct (select eval outer v rest); reflexivity.
  Qed.

  (** ** One arm *)
  Definition fine (logical : bool) (a : arm) : Prop := pattern_typed variants (pat a) t /\ ready logical (pat a).
  Lemma arm_code logical a next s e sc n1 ops c n2 bops sc' : fine logical a -> e s = Some v -> s < next -> below next sc ->
    pattern_check logical next s (pat a) = Done (n1, ops, c) -> pattern_bind n1 s (pat a) sc = Done (n2, bops, sc') ->
    next <= n1 /\ n1 <= n2 /\ below n2 sc' /\ placed_in (pattern_locals (pat a)) n2 sc sc' /\
    exists e1, pure e ops e1 /\ agree next e e1 /\ e1 c = Some (VBool (is_some (matches (pat a) v))) /\
      forall b, matches (pat a) v = Some b -> exists e2, pure e1 bops e2 /\ agree next e e2 /\ forall x, locals e2 sc' x = extended (locals e sc) b x.
  Proof.
    intros [Tp R] Hs Ls B E1 E2.
    destruct (check_emits logical (pat a) (proj1 R) next s) as (n1' & ops' & c' & E1' & L1 & Lc). rewrite E1 in E1'. injection E1' as <- <- <-.
    destruct (pattern_bind_emits (pat a) (proj1 R) n1 s sc) as (n2' & bops' & sc1 & E2' & L2 & P2); [lia|]. rewrite E2 in E2'. injection E2' as <- <- <-.
    split; [exact L1|]. split; [exact L2|]. split; [eapply placed_below; [exact P2|eapply below_le; [|exact B]; lia]|]. split; [exact P2|].
    destruct (check_works eval kont variants distinct logical (pat a) t v Tv Tp R _ _ e _ _ _ E1 Hs Ls) as (e1 & P1 & A1 & _ & C1).
    exists e1. split; [exact P1|]. split; [exact A1|]. split; [exact C1|]. intros b M.
    destruct (pattern_bind_works eval kont (pat a) (proj1 R) v _ _ _ e1 _ _ _ _ M E2) as (e2 & new & P3 & A3 & -> & F); [rewrite A1; auto|lia|].
    assert (A : agree next e e2) by (eapply agree_trans; [|exact A1|exact A3]; lia).
    exists e2. split; [exact P3|]. split; [exact A|]. intros x. eapply bound_locals; eauto.
  Qed.
  Lemma bind_code a next s e sc n2 bops sc' b : supported (pat a) -> e s = Some v -> s < next -> below next sc ->
    pattern_bind next s (pat a) sc = Done (n2, bops, sc') -> matches (pat a) v = Some b ->
    exists e2, pure e bops e2 /\ agree next e e2 /\ forall x, locals e2 sc' x = extended (locals e sc) b x.
  Proof.
    intros Sp Hs Ls B E M. destruct (pattern_bind_works eval kont (pat a) Sp v _ _ _ e _ _ _ _ M E) as (e2 & new & P3 & A3 & -> & F); auto.
    exists e2. split; [exact P3|]. split; [exact A3|]. intros x. eapply bound_locals; eauto.
  Qed.
  (** The variables that the remaining arms take from outside have the values they should. *)
  Definition sees (e : env) (sc : scope) (outer : N -> option value) (arms : list arm) : Prop := forall a x, In a arms -> needs uses a x -> locals e sc x = outer x.
  Lemma sees_inner e sc outer a rest b e2 sc' x : sees e sc outer (a :: rest) -> (forall x, locals e2 sc' x = extended (locals e sc) b x) -> matches (pat a) v = Some b ->
    In x (arm_exprs a) -> eval x (locals e2 sc') = eval x (extended outer b).
  Proof.
    intros H Hl M Hx. apply eval_uses. intros y Hy. rewrite Hl. unfold extended. destruct (lookup (rev b) y) eqn:E; [reflexivity|].
    apply (H a); [left; reflexivity|]. split; [|exists x; auto]. intros Hin. pose proof (matches_locals (pat a) v b M y Hin) as Hm.
    apply in_map_iff in Hm. destruct Hm as ([y' u] & Hy' & Hin'). cbn in Hy'. subst y'. apply in_rev in Hin'. unfold lookup in E. destruct (find (fun e0 => fst e0 =? y) (rev b)) eqn:F; [discriminate|].
    pose proof (find_none _ _ F _ Hin') as Hn. cbn in Hn. rewrite N.eqb_refl in Hn. discriminate.
  Qed.
  Lemma sees_rest e sc outer a rest e' n : sees e sc outer (a :: rest) -> below n sc -> agree n e e' -> sees e' sc outer rest.
  Proof. intros H B A c x Hc Hn. rewrite (locals_agree n e e' sc x B A). apply (H c); [right; exact Hc|exact Hn]. Qed.
  Lemma sees_guard e sc outer a rest e' n n' sc' : sees e sc outer (a :: rest) -> below n sc -> agree n e e' -> placed_in (pattern_locals (pat a)) n' sc sc' ->
    well_scoped uses (a :: rest) -> sees e' sc' outer rest.
  Proof.
    intros H B A P W c x Hc Hn. rewrite (placed_locals _ _ _ _ e' x P).
    - eapply sees_rest; eauto.
    - destruct W as [W _]. eapply W; eauto.
  Qed.

  Lemma chosen_next outer a rest : matches (pat a) v = None -> chosen eval v outer (a :: rest) -> chosen eval v outer rest.
  Proof. unfold chosen. rewrite select_cons. intros ->. auto. Qed.
  Lemma chosen_guard outer a rest b g : matches (pat a) v = Some b -> guard a = Some g -> eval g (extended outer b) = Some (VBool false) -> chosen eval v outer (a :: rest) -> chosen eval v outer rest.
  Proof. unfold chosen. rewrite select_cons. intros -> -> ->. cbn. auto. Qed.
  Lemma guarded_ext g x yes yes' no no' : (x = Some (VBool true) -> yes = yes') -> (x = Some (VBool false) -> no = no') -> guarded g x yes no = guarded g x yes' no'.
  Proof. intros H1 H2. unfold guarded. destruct x as [[z|[|]| | | | | |]|]; try reflexivity; [rewrite H1|rewrite H2]; reflexivity. Qed.

  (** ** The logical route *)
  Lemma or_nil_guarded g x yes no : snd yes <> inr NoArm -> or_nil (guarded g x yes no) = guarded g x yes (or_nil no).
  Proof.
    intros H. unfold guarded. destruct x as [[z|[|]| | | | | |]|]; try reflexivity. unfold or_nil. cbn. destruct (snd yes) as [u|[]]; try reflexivity. contradiction.
  Qed.
  Lemma got_arm x : @snd (list event) _ ([], got x) <> inr NoArm.
  Proof. destruct x; discriminate. Qed.
  Lemma logical_code exhaustive arms : Forall (fine true) arms -> well_scoped uses arms -> forall next s sc e outer next' ops r,
    e s = Some v -> s < next -> below next sc -> sees e sc outer arms -> (exhaustive = true -> chosen eval v outer arms) ->
    logical_chain exhaustive next s sc arms = Done (next', ops, r) -> code e ops r = or_nil (select eval outer v arms).
  Proof.
    induction 1 as [|a rest Ha Hrest IH]; intros W next s sc e outer next' ops r Hs Ls B See Ch E; cbn [logical_chain] in E.
    - injection E as <- <- <-. unfold code_result. cbn. rewrite set_same. reflexivity.
    - assert (Hsup : Forall (fun a => supported (pat a)) rest) by (eapply Forall_impl; [|exact Hrest]; intros c Hc; apply Hc).
      destruct (match rest, guard a with [], None => exhaustive | _, _ => false end) eqn:U.
      + destruct rest; [|discriminate]. destruct (guard a) eqn:G; [discriminate|]. subst exhaustive. specialize (Ch eq_refl).
        destruct (pattern_bind_emits (pat a) (proj1 (proj2 Ha)) next s sc Ls) as (n1 & bops & sc' & E1 & L1 & _). rewrite E1 in E. cbn [CaseModel.bind] in E. injection E as <- <- <-.
        unfold chosen in Ch. rewrite select_cons in *. destruct (matches (pat a) v) as [b|] eqn:M; [|exfalso; apply Ch; reflexivity]. rewrite G.
        destruct (bind_code a next s e sc _ _ _ b (proj1 (proj2 Ha)) Hs Ls B E1 M) as (e2 & P2 & A2 & Hl).
        rewrite (code_app _ _ _ _ _ P2), code_expr, (sees_inner e sc outer a [] b e2 sc' (body a) See Hl M) by (left; reflexivity). unfold or_nil. cbn. destruct (eval (body a) _); reflexivity.
      + clear U. destruct (check_emits true (pat a) (proj1 (proj2 Ha)) next s) as (n1 & ops1 & c & E1 & L1 & Lc). rewrite E1 in E. cbn [CaseModel.bind] in E.
        destruct (pattern_bind_emits (pat a) (proj1 (proj2 Ha)) n1 s sc) as (n2 & bops & sc' & E2 & L2 & Pl); [lia|]. rewrite E2 in E. cbn [CaseModel.bind] in E.
        destruct (arm_code true a next s e sc _ _ _ _ _ _ Ha Hs Ls B E1 E2) as (_ & _ & B' & _ & e1 & P1 & A1 & C1 & Hb).
        rewrite select_cons. destruct (guard a) as [g|] eqn:G.
        * destruct (logical_emits exhaustive rest Hsup (n2 + 2) s sc') as (n3 & eops & ev & E3 & L3 & Lev); [lia|]. rewrite E3 in E. cbn [CaseModel.bind] in E.
          destruct (logical_emits exhaustive rest Hsup (n3 + 1) s sc) as (n4 & eops' & ev' & E4 & L4 & Lev'); [lia|]. rewrite E4 in E. cbn [CaseModel.bind] in E. injection E as <- <- <-.
          rewrite (code_app _ _ _ _ _ P1), (code_if _ _ _ _ _ _ _ _ C1). destruct (matches (pat a) v) as [b|] eqn:M; cbn [is_some].
          -- destruct (Hb b eq_refl) as (e2 & P2 & A2 & Hl). rewrite (code_app _ _ _ _ _ P2), code_guard.
             rewrite (sees_inner e sc outer a rest b e2 sc' g See Hl M) by (unfold arm_exprs; rewrite G; right; left; reflexivity).
             rewrite or_nil_guarded by apply got_arm. apply guarded_ext.
             ++ intros _. rewrite code_expr. f_equal. f_equal. transitivity (eval (body a) (locals e2 sc')).
                ** apply eval_uses. intros x _. apply (locals_agree n2); [exact B'|apply agree_set; lia].
                ** apply (sees_inner e sc outer a rest b e2 sc' (body a) See Hl M). left; reflexivity.
             ++ intros Hg. eapply (IH (proj2 W)) with (next := n2 + 2); [| | | | |exact E3].
                ** rewrite set_other by lia. rewrite A2; auto.
                ** lia.
                ** eapply below_le; [|exact B']. lia.
                ** eapply sees_guard; [exact See|exact B| |exact Pl|exact W]. eapply agree_trans with (n' := next); [|exact A2|apply agree_set]; lia.
                ** intros Hx. eapply chosen_guard; eauto.
          -- eapply (IH (proj2 W)) with (next := n3 + 1); [| | | | |exact E4].
             ++ rewrite A1; auto.
             ++ lia.
             ++ eapply below_le; [|exact B]. lia.
             ++ eapply sees_rest; eauto.
             ++ intros Hx. eapply chosen_next; eauto.
        * cbn [CaseModel.bind] in E. destruct (logical_emits exhaustive rest Hsup (n2 + 1) s sc) as (n4 & eops' & ev' & E4 & L4 & Lev'); [lia|]. rewrite E4 in E. cbn [CaseModel.bind] in E. injection E as <- <- <-.
          rewrite (code_app _ _ _ _ _ P1), (code_if _ _ _ _ _ _ _ _ C1). destruct (matches (pat a) v) as [b|] eqn:M; cbn [is_some].
          -- destruct (Hb b eq_refl) as (e2 & P2 & A2 & Hl). rewrite (code_app _ _ _ _ _ P2), code_expr.
             rewrite (sees_inner e sc outer a rest b e2 sc' (body a) See Hl M) by (left; reflexivity). unfold or_nil. cbn. destruct (eval (body a) _); reflexivity.
          -- eapply (IH (proj2 W)) with (next := n2 + 1); [| | | | |exact E4].
             ++ rewrite A1; auto.
             ++ lia.
             ++ eapply below_le; [|exact B]. lia.
             ++ eapply sees_rest; eauto.
             ++ intros Hx. eapply chosen_next; eauto.
  Qed.

  (** ** The compatibility route *)
  Lemma irrefutable_matches p : is_irrefutable p = true -> matches p v <> None.
  Proof. destruct p; cbn; discriminate. Qed.
  Lemma legacy_code arms : Forall (fine false) arms -> forall ie next s sc e outer next' ops r,
    e s = Some v -> s < next -> below next sc -> sees e sc outer arms -> chosen eval v outer arms ->
    legacy_chain ie next s sc arms = Done (next', ops, r) -> code e ops r = select eval outer v arms.
  Proof.
    induction 1 as [|a rest Ha Hrest IH]; intros ie next s sc e outer next' ops r Hs Ls B See Ch E; cbn [legacy_chain] in E.
    - exfalso. apply Ch. reflexivity.
    - assert (Hsup : Forall (fun a => supported (pat a)) rest) by (eapply Forall_impl; [|exact Hrest]; intros c Hc; apply Hc).
      destruct (match rest, guard a with [], None => ie || is_irrefutable (pat a) | _, _ => false end) eqn:U.
      + destruct rest; [|discriminate]. destruct (guard a) eqn:G; [discriminate|].
        destruct (pattern_bind_emits (pat a) (proj1 (proj2 Ha)) next s sc Ls) as (n1 & bops & sc' & E1 & L1 & _). rewrite E1 in E. cbn [CaseModel.bind] in E. injection E as <- <- <-.
        unfold chosen in Ch. rewrite select_cons in *. destruct (matches (pat a) v) as [b|] eqn:M; [|exfalso; apply Ch; reflexivity]. rewrite G.
        destruct (bind_code a next s e sc _ _ _ b (proj1 (proj2 Ha)) Hs Ls B E1 M) as (e2 & P2 & A2 & Hl).
        rewrite (code_app _ _ _ _ _ P2), code_expr, (sees_inner e sc outer a [] b e2 sc' (body a) See Hl M) by (left; reflexivity). reflexivity.
      + clear U. destruct (check_emits false (pat a) (proj1 (proj2 Ha)) next s) as (n1 & ops1 & c & E1 & L1 & Lc). rewrite E1 in E. cbn [CaseModel.bind] in E.
        destruct (pattern_bind_emits (pat a) (proj1 (proj2 Ha)) n1 s sc) as (n2 & bops & sc' & E2 & L2 & Pl); [lia|]. rewrite E2 in E. cbn [CaseModel.bind] in E.
        destruct (arm_code false a next s e sc _ _ _ _ _ _ Ha Hs Ls B E1 E2) as (_ & _ & B' & _ & e1 & P1 & A1 & C1 & Hb).
        rewrite select_cons. destruct (guard a) as [g|] eqn:G.
        * destruct (legacy_emits rest Hsup true (n2 + 2) s sc) as (n3 & eops & ev & E3 & L3 & Lev); [lia|]. rewrite E3 in E. cbn [CaseModel.bind] in E.
          destruct (legacy_emits rest Hsup true (n3 + 1) s sc) as (n4 & eops' & ev' & E4 & L4 & Lev'); [lia|]. rewrite E4 in E. cbn [CaseModel.bind] in E. injection E as <- <- <-.
          rewrite (code_app _ _ _ _ _ P1), (code_if _ _ _ _ _ _ _ _ C1). destruct (matches (pat a) v) as [b|] eqn:M; cbn [is_some].
          -- destruct (Hb b eq_refl) as (e2 & P2 & A2 & Hl). rewrite (code_app _ _ _ _ _ P2), code_guard.
             rewrite (sees_inner e sc outer a rest b e2 sc' g See Hl M) by (unfold arm_exprs; rewrite G; right; left; reflexivity).
             apply guarded_ext.
             ++ intros _. rewrite code_expr. f_equal. f_equal. transitivity (eval (body a) (locals e2 sc')).
                ** apply eval_uses. intros x _. apply (locals_agree n2); [exact B'|apply agree_set; lia].
                ** apply (sees_inner e sc outer a rest b e2 sc' (body a) See Hl M). left; reflexivity.
             ++ intros Hg. eapply IH with (next := n2 + 2); [| | | | |exact E3].
                ** rewrite set_other by lia. rewrite A2; auto.
                ** lia.
                ** eapply below_le; [|exact B]. lia.
                ** eapply sees_rest; [exact See|exact B|]. eapply agree_trans with (n' := next); [|exact A2|apply agree_set]; lia.
                ** eapply chosen_guard; eauto.
          -- eapply IH with (next := n3 + 1); [| | | | |exact E4].
             ++ rewrite A1; auto.
             ++ lia.
             ++ eapply below_le; [|exact B]. lia.
             ++ eapply sees_rest; eauto.
             ++ eapply chosen_next; eauto.
        * cbn [CaseModel.bind] in E. destruct (legacy_emits rest Hsup true (n2 + 1) s sc) as (n4 & eops' & ev' & E4 & L4 & Lev'); [lia|]. rewrite E4 in E. cbn [CaseModel.bind] in E. injection E as <- <- <-.
          rewrite (code_app _ _ _ _ _ P1), (code_if _ _ _ _ _ _ _ _ C1). destruct (matches (pat a) v) as [b|] eqn:M; cbn [is_some].
          -- destruct (Hb b eq_refl) as (e2 & P2 & A2 & Hl). rewrite (code_app _ _ _ _ _ P2), code_expr.
             rewrite (sees_inner e sc outer a rest b e2 sc' (body a) See Hl M) by (left; reflexivity). reflexivity.
          -- eapply IH with (next := n2 + 1); [| | | | |exact E4].
             ++ rewrite A1; auto.
             ++ lia.
             ++ eapply below_le; [|exact B]. lia.
             ++ eapply sees_rest; eauto.
             ++ eapply chosen_next; eauto.
  Qed.

  (** ** With a continuation *)
  Lemma code_comp e r x sc k : e k = Some VCont -> code e [Comp r x sc k] r = continued kont ([Eval x], got (eval x (locals e sc))).
  Proof.
    intros Hk. unfold code_result. cbn [run_list run]. destruct (eval x (locals e sc)) as [u|]; [|reflexivity]. unfold passed. rewrite Hk. cbn. destruct (kont u); cbn; [rewrite set_same|]; reflexivity.
  Qed.
  Lemma continued_guarded g x yes no : continued kont (guarded g x yes no) = guarded g x (continued kont yes) (continued kont no).
  Proof.
    unfold guarded. destruct x as [[z|[|]| | | | | |]|]; try reflexivity; [destruct yes as [t0 [u|s]]|destruct no as [t0 [u|s]]]; reflexivity.
  Qed.
  Lemma code_guarded e r g sc captures gv r0 th ty el ey : code e [Guarded r g sc captures gv [If r0 gv th ty el ey] r0] r =
    guarded g (eval g (locals e sc)) (code (set (only captures e) gv (VBool true)) th ty) (code (set (only captures e) gv (VBool false)) el ey).
  Proof.
    unfold code_result at 1. cbn [run_list]. cbn [run]. destruct (eval g (locals e sc)) as [u|]; [|reflexivity].
    change (read (run_list (run eval kont) (set (only captures e) gv u) [If r0 gv th ty el ey]) r0) with (code (set (only captures e) gv u) [If r0 gv th ty el ey] r0).
    assert (Hb : forall t0 o, read (let (t', r1) := bring e r (Eval g :: t0, o) in match r1 with inl e0 => (t' ++ [], inl e0) | inr s => (t', inr s) end) r = (Eval g :: t0, o)).
    { intros t0 [u0|s]; cbn; rewrite ?app_nil_r, ?set_same; reflexivity. }
    assert (Hsplit : forall o : list event * (value + stop), (let (t0, o0) := o in bring e r (Eval g :: t0, o0)) = bring e r (Eval g :: fst o, snd o)) by (intros []; reflexivity).
    rewrite Hsplit, Hb. destruct u as [z|b| | | | | |]; try (unfold code_result; cbn [run_list run]; rewrite set_same; reflexivity).
    rewrite (code_if _ _ _ b) by apply set_same. destruct b; reflexivity.
  Qed.
  Lemma only_in l e x : In x l -> only l e x = e x.
  Proof. intros H. unfold only. rewrite (proj2 (existsb_exists (N.eqb x) l)); [reflexivity|]. exists x. split; [exact H|apply N.eqb_refl]. Qed.
  Lemma locals_only e sc l gv u n x : below n sc -> n <= gv -> (forall y, In y sc -> In (snd y) l) -> locals (set (only l e) gv u) sc x = locals e sc x.
  Proof.
    intros B L H. unfold locals. destruct (lookup sc x) as [i|] eqn:E; [|reflexivity]. apply lookup_in in E. unfold below in B. rewrite Forall_forall in B. pose proof (B _ E) as Hi. cbn in Hi.
    rewrite set_other by lia. apply only_in. apply (H _ E).
  Qed.
  Lemma comp_code direct arms : Forall (fine false) arms -> well_scoped uses arms -> forall ie next s k sc e outer next' ops r,
    e s = Some v -> e k = Some VCont -> s < next -> k < next -> below next sc -> sees e sc outer arms -> chosen eval v outer arms ->
    comp_chain direct ie next s k sc arms = Done (next', ops, r) -> code e ops r = continued kont (select eval outer v arms).
  Proof.
    induction 1 as [|a rest Ha Hrest IH]; intros W ie next s k sc e outer next' ops r Hs Hk Ls Lk B See Ch E; cbn [comp_chain] in E.
    - exfalso. apply Ch. reflexivity.
    - assert (Hsup : Forall (fun a => supported (pat a)) rest) by (eapply Forall_impl; [|exact Hrest]; intros c Hc; apply Hc).
      destruct (match rest, guard a with [], None => ie || is_irrefutable (pat a) | _, _ => false end) eqn:U.
      + destruct rest; [|discriminate]. destruct (guard a) eqn:G; [discriminate|].
        destruct (pattern_bind_emits (pat a) (proj1 (proj2 Ha)) next s sc Ls) as (n1 & bops & sc' & E1 & L1 & _). rewrite E1 in E. cbn [CaseModel.bind] in E. injection E as <- <- <-.
        unfold chosen in Ch. rewrite select_cons in *. destruct (matches (pat a) v) as [b|] eqn:M; [|exfalso; apply Ch; reflexivity]. rewrite G.
        destruct (bind_code a next s e sc _ _ _ b (proj1 (proj2 Ha)) Hs Ls B E1 M) as (e2 & P2 & A2 & Hl).
        rewrite (code_app _ _ _ _ _ P2), code_comp, (sees_inner e sc outer a [] b e2 sc' (body a) See Hl M) by (try (left; reflexivity); rewrite A2; auto). reflexivity.
      + clear U. destruct (check_emits false (pat a) (proj1 (proj2 Ha)) next s) as (n1 & ops1 & c & E1 & L1 & Lc). rewrite E1 in E. cbn [CaseModel.bind] in E.
        destruct (pattern_bind_emits (pat a) (proj1 (proj2 Ha)) n1 s sc) as (n2 & bops & sc' & E2 & L2 & Pl); [lia|]. rewrite E2 in E. cbn [CaseModel.bind] in E.
        destruct (arm_code false a next s e sc _ _ _ _ _ _ Ha Hs Ls B E1 E2) as (_ & _ & B' & _ & e1 & P1 & A1 & C1 & Hb).
        rewrite select_cons. destruct (guard a) as [g|] eqn:G.
        * destruct (comp_emits direct rest Hsup true (n2 + 2) s k sc') as (n3 & eops & ev & E3 & L3 & Lev); [lia|]. rewrite E3 in E. cbn [CaseModel.bind] in E.
          assert (Hpart : forall b e2 e3 (z : bool), matches (pat a) v = Some b -> agree next e e2 -> (forall x, locals e2 sc' x = extended (locals e sc) b x) ->
                    e3 s = Some v -> e3 k = Some VCont -> (forall x, locals e3 sc' x = locals e2 sc' x) ->
                    (code e3 [Comp (n2 + 1) (body a) sc' k] (n2 + 1) = continued kont ([Eval (body a)], got (eval (body a) (extended outer b)))) /\
                    (eval g (extended outer b) = Some (VBool false) -> code e3 eops ev = continued kont (select eval outer v rest))).
          { intros b e2 e3 z M A2 Hl H1 H2 H3. split.
            - rewrite code_comp by exact H2. do 3 f_equal. transitivity (eval (body a) (locals e2 sc')); [apply eval_uses; auto|].
              apply (sees_inner e sc outer a rest b e2 sc' (body a) See Hl M). left; reflexivity.
            - intros Hg. eapply (IH (proj2 W)) with (next := n2 + 2); [exact H1|exact H2| | | | | |exact E3].
              + lia.
              + lia.
              + eapply below_le; [|exact B']. lia.
              + intros c0 x Hc Hn. rewrite H3. apply (sees_guard e sc outer a rest e2 next n2 sc' See B A2 Pl W c0 x Hc Hn).
              + eapply chosen_guard; eauto. }
          assert (Hout : forall n, n2 <= n -> forall n4 eops' ev', comp_chain direct true n s k sc rest = Done (n4, eops', ev') -> matches (pat a) v = None -> code e1 eops' ev' = continued kont (select eval outer v rest)).
          { intros n Ln n4 eops' ev' E4 M. eapply (IH (proj2 W)) with (next := n); [| | | | | | |exact E4].
            - rewrite A1; auto.
            - rewrite A1; auto.
            - lia.
            - lia.
            - eapply below_le; [|exact B]. lia.
            - eapply sees_rest; eauto.
            - eapply chosen_next; eauto. }
          destruct (direct g); cbn [CaseModel.bind] in E.
          -- destruct (comp_emits direct rest Hsup true (n3 + 1) s k sc) as (n4 & eops' & ev' & E4 & L4 & Lev'); [lia|]. rewrite E4 in E. cbn [CaseModel.bind] in E. injection E as <- <- <-.
             rewrite (code_app _ _ _ _ _ P1), (code_if _ _ _ _ _ _ _ _ C1). destruct (matches (pat a) v) as [b|] eqn:M; cbn [is_some].
             ++ destruct (Hb b eq_refl) as (e2 & P2 & A2 & Hl). rewrite (code_app _ _ _ _ _ P2), code_guard.
                rewrite (sees_inner e sc outer a rest b e2 sc' g See Hl M) by (unfold arm_exprs; rewrite G; right; left; reflexivity).
                rewrite continued_guarded.
                assert (Hin : forall z, (set e2 n2 (VBool z)) s = Some v /\ (set e2 n2 (VBool z)) k = Some VCont /\ forall x, locals (set e2 n2 (VBool z)) sc' x = locals e2 sc' x).
                { intros z. rewrite !set_other by lia. split; [rewrite A2; auto|]. split; [rewrite A2; auto|]. intros x. apply (locals_agree n2); [exact B'|apply agree_set; lia]. }
                apply guarded_ext; intros Hg; [destruct (Hin true) as (H1 & H2 & H3)|destruct (Hin false) as (H1 & H2 & H3)]; eapply (Hpart b e2 _ true eq_refl A2 Hl H1 H2 H3); eauto.
             ++ eapply Hout; [|exact E4|reflexivity]. lia.
          -- destruct (comp_emits direct rest Hsup true (n3 + 2) s k sc) as (n4 & eops' & ev' & E4 & L4 & Lev'); [lia|]. rewrite E4 in E. cbn [CaseModel.bind] in E. injection E as <- <- <-.
             rewrite (code_app _ _ _ _ _ P1), (code_if _ _ _ _ _ _ _ _ C1). destruct (matches (pat a) v) as [b|] eqn:M; cbn [is_some].
             ++ destruct (Hb b eq_refl) as (e2 & P2 & A2 & Hl). rewrite (code_app _ _ _ _ _ P2), code_guarded.
                rewrite (sees_inner e sc outer a rest b e2 sc' g See Hl M) by (unfold arm_exprs; rewrite G; right; left; reflexivity).
                rewrite continued_guarded. set (l := map snd sc' ++ [s; k]).
                assert (Hin : forall z, (set (only l e2) n2 (VBool z)) s = Some v /\ (set (only l e2) n2 (VBool z)) k = Some VCont /\ forall x, locals (set (only l e2) n2 (VBool z)) sc' x = locals e2 sc' x).
                { intros z. rewrite !set_other by lia. rewrite !only_in by (apply in_or_app; right; cbn; auto). split; [rewrite A2; auto|]. split; [rewrite A2; auto|].
                  intros x. apply (locals_only _ _ _ _ _ n2); [exact B'|lia|]. intros y Hy. apply in_or_app. left. apply in_map. exact Hy. }
                apply guarded_ext; intros Hg; [destruct (Hin true) as (H1 & H2 & H3)|destruct (Hin false) as (H1 & H2 & H3)]; eapply (Hpart b e2 _ true eq_refl A2 Hl H1 H2 H3); eauto.
             ++ eapply Hout; [|exact E4|reflexivity]. lia.
        * cbn [CaseModel.bind] in E. destruct (comp_emits direct rest Hsup true (n2 + 1) s k sc) as (n4 & eops' & ev' & E4 & L4 & Lev'); [lia|]. rewrite E4 in E. cbn [CaseModel.bind] in E. injection E as <- <- <-.
          rewrite (code_app _ _ _ _ _ P1), (code_if _ _ _ _ _ _ _ _ C1). destruct (matches (pat a) v) as [b|] eqn:M; cbn [is_some].
          -- destruct (Hb b eq_refl) as (e2 & P2 & A2 & Hl). rewrite (code_app _ _ _ _ _ P2), code_comp by (rewrite A2; auto).
             rewrite (sees_inner e sc outer a rest b e2 sc' (body a) See Hl M) by (left; reflexivity). reflexivity.
          -- eapply (IH (proj2 W)) with (next := n2 + 1); [| | | | | | |exact E4].
             ++ rewrite A1; auto.
             ++ rewrite A1; auto.
             ++ lia.
             ++ lia.
             ++ eapply below_le; [|exact B]. lia.
             ++ eapply sees_rest; eauto.
             ++ eapply chosen_next; eauto.
  Qed.
End Run.
