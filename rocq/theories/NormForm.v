(** The normaliser's output is in normal form, and normal forms are kept. *)
From Coq Require Import List NArith Bool Lia.
From Verif Require Import Base NormModel NormSpec NormDirectModel NormProofs NormMain.
Import ListNotations.
Open Scope N_scope.

Definition steps (ss : list (stmt expr)) : Prop :=
  (forall p e, In (SLet p e) ss -> step e) /\ (forall e, In (SExpr e) ss -> step e).

Lemma steps_nil : steps [].
Proof. split; intros ? []; contradiction. Qed.

Lemma steps_app a b : steps a -> steps b -> steps (a ++ b).
Proof.
  intros [A1 A2] [B1 B2]. split.
  - intros p e I. apply in_app_or in I. destruct I; eauto.
  - intros e I. apply in_app_or in I. destruct I; eauto.
Qed.

Lemma steps_let p e b : step e -> steps b -> steps (SLet p e :: b).
Proof.
  intros A [B1 B2]. split.
  - intros q x [E|I]; eauto. inv E. auto.
  - intros x [E|I]; eauto. discriminate.
Qed.

Lemma steps_expr e b : step e -> steps b -> steps (SExpr e :: b).
Proof.
  intros A [B1 B2]. split.
  - intros q x [E|I]; eauto. discriminate.
  - intros x [E|I]; eauto. inv E. auto.
Qed.

Definition good (e : expr) : Prop :=
  forall ss v, split e = (ss, v) -> steps ss /\ step v.

Lemma good_region e : good e -> region e.
Proof.
  intros G. destruct (split e) as [ss v] eqn:E. destruct (G ss v E) as [A B].
  destruct e; cbn in E; inv E; try (apply region_step; exact B).
  apply region_block; auto; apply A.
Qed.

Lemma step_not_block e : step e -> forall ss v, e <> EBlock ss v.
Proof. intros H ss v ->. inv H. inv H0. Qed.

Lemma good_step e : step e -> good e.
Proof.
  intros H ss v E. pose proof (step_not_block e H) as N.
  destruct e; cbn in E; inv E; try (split; [apply steps_nil|assumption]).
  exfalso. eapply N. reflexivity.
Qed.

Lemma good_prefix ss e : steps ss -> step e -> good (with_prefix ss e).
Proof.
  intros A B s v E. rewrite split_prefix in E by (apply step_not_block; auto).
  inv E. auto.
Qed.

Lemma step_atom_inv e : step e -> is_atom e = true -> atomic e.
Proof. intros H. inv H; auto; discriminate. Qed.

Definition goodn (e : expr) : Prop := forall n e' n', norm e n = (e', n') -> good e'.

Lemma to_atom_good e n ss a n' : goodn e -> to_atom (norm e) n = (ss, a, n') ->
  steps ss /\ atomic a.
Proof.
  intros H E. unfold to_atom in E. destruct (norm e n) as [e' n1] eqn:E1.
  apply H in E1. destruct (split e') as [p v] eqn:E2.
  destruct (E1 p v E2) as [A B].
  destruct (is_atom v) eqn:Ea; inv E.
  - split; auto. apply step_atom_inv; auto.
  - split; [|constructor]. apply steps_app; auto. apply steps_let; auto. apply steps_nil.
Qed.

Lemma to_atoms_good es : Forall goodn es -> forall n ss l n',
  to_atoms (map norm es) n = (ss, l, n') -> steps ss /\ (forall a, In a l -> atomic a).
Proof.
  induction 1 as [|e es He H IH]; cbn; intros n ss l n' E.
  - inv E. split; [apply steps_nil|intros a []].
  - destruct (to_atom (norm e) n) as [[ss1 a] n1] eqn:E1.
    destruct (to_atoms (map norm es) n1) as [[ss2 l2] n2] eqn:E2. inv E.
    apply to_atom_good in E1; auto. apply IH in E2.
    destruct E1, E2. split; [apply steps_app; auto|]. intros x [<-|I]; auto.
Qed.

Ltac stp := first [apply step_error|apply step_call|apply step_cons|apply step_tuple
  |apply step_list|apply step_record|apply step_method|apply step_case
  |apply step_handle|apply step_resume|apply step_binop].

Lemma norm_good e : goodn e.
Proof.
  induction e using expr_ind'; intros n e' n' E; cbn [norm] in E.
  - inv E. apply good_step, step_atom. constructor.
  - inv E. apply good_step, step_atom. constructor.
  - destruct (to_atom (norm e) n) as [[ss1 a] n1] eqn:E1.
    destruct (to_atoms (map norm args) n1) as [[ss2 l] n2] eqn:E2. inv E.
    apply to_atom_good in E1; auto. apply to_atoms_good in E2; auto.
    destruct E1, E2. apply good_prefix; [apply steps_app; auto|]. stp; auto.
  - destruct (to_atoms (map norm args) n) as [[ss2 l] n2] eqn:E2. inv E.
    apply to_atoms_good in E2; auto. destruct E2. apply good_prefix; auto. stp; auto.
  - destruct (to_atoms (map norm args) n) as [[ss2 l] n2] eqn:E2. inv E.
    apply to_atoms_good in E2; auto. destruct E2. apply good_prefix; auto. stp; auto.
  - destruct (to_atoms (map norm args) n) as [[ss2 l] n2] eqn:E2. inv E.
    apply to_atoms_good in E2; auto. destruct E2. apply good_prefix; auto. stp; auto.
  - destruct (to_atom_opt (option_map norm s) n) as [[ss1 a] n1] eqn:E1.
    destruct (to_atoms (map (fun f => norm (snd f)) fs) n1) as [[ss2 l] n2] eqn:E2. inv E.
    rewrite <- (map_map snd norm) in E2. apply to_atoms_good in E2.
    2: { apply Forall_map_iff. auto. }
    destruct E2 as [A2 B2].
    assert (X : steps ss1 /\ forall x, a = Some x -> atomic x).
    { destruct s as [s|]; cbn in E1.
      - destruct (to_atom (norm s) n) as [[ss0 a0] n0] eqn:E0. inv E1.
        apply to_atom_good in E0; auto. destruct E0. split; auto.
        intros x Ex. inv Ex. auto.
      - inv E1. split; [apply steps_nil|discriminate]. }
    destruct X. apply good_prefix; [apply steps_app; auto|]. stp; auto.
    intros f x I. apply in_combine_r in I. auto.
  - destruct (to_atom (norm e) n) as [[ss1 a] n1] eqn:E1.
    destruct (to_atoms (map norm args) n1) as [[ss2 l] n2] eqn:E2. inv E.
    apply to_atom_good in E1; auto. apply to_atoms_good in E2; auto.
    destruct E1, E2. apply good_prefix; [apply steps_app; auto|]. stp; auto.
  - destruct (norm_stmts (map (map_stmt norm) ss) n) as [ss1 n1] eqn:E1.
    destruct (norm e n1) as [v' n2] eqn:E2. destruct (split v') as [ss' w] eqn:E3. inv E.
    destruct (IHe _ _ _ E2 _ _ E3) as [A B].
    intros s v Es. cbn in Es. inv Es. split; auto.
    apply steps_app; auto. clear - H E1. revert n ss1 n1 E1.
    induction H as [|[p x|x] ss Hx H IH]; cbn; intros n ss1 n1 E.
    + inv E. apply steps_nil.
    + destruct (norm x n) as [x' m] eqn:Ex. destruct (split x') as [s1 v1] eqn:Es.
      destruct (norm_stmts (map (map_stmt norm) ss) m) eqn:Er. inv E.
      destruct (Hx _ _ _ Ex _ _ Es). apply steps_app; auto. apply steps_let; eauto.
    + destruct (norm x n) as [x' m] eqn:Ex. destruct (split x') as [s1 v1] eqn:Es.
      destruct (norm_stmts (map (map_stmt norm) ss) m) eqn:Er. inv E.
      destruct (Hx _ _ _ Ex _ _ Es). apply steps_app; auto. apply steps_expr; eauto.
  - destruct (to_atom (norm e) n) as [[ss1 a] n1] eqn:E1.
    destruct (norm_arms (map (map_arm norm) arms) n1) as [l n2] eqn:E2. inv E.
    apply to_atom_good in E1; auto. destruct E1. apply good_prefix; auto.
    assert (X : (forall p g b, In (mkArm p (Some g) b) l -> region g)
                /\ (forall p g b, In (mkArm p g b) l -> region b)).
    { clear - H E2. revert n1 l n' E2.
      induction H as [|[p g b] arms [Hg Hb] H IH]; cbn; intros n l n' E.
      - inv E. split; intros ? ? ? [].
      - lazymatch type of E with
        | (let (_, _) := ?x in _) = _ => destruct x as [g' n1] eqn:Eg
        end.
        destruct (norm b n1) as [b' n2] eqn:Eb.
        destruct (norm_arms (map (map_arm norm) arms) n2) as [l2 n3] eqn:El. inv E.
        apply IH in El. destruct El as [I1 I2]. split.
        + intros q x y [E|I]; eauto. inv E.
          destruct g as [g|]; cbn in Eg; [|discriminate].
          destruct (norm g n) as [e0 n0] eqn:E0. inv Eg.
          apply good_region. eapply Hg; eauto.
        + intros q x y [E|I]; eauto. inv E. apply good_region. eapply Hb; eauto. }
    destruct X. stp; auto.
  - destruct (norm e n) as [b' n1] eqn:E1. inv E.
    apply good_step, step_atom, atomic_lam, good_region. eauto.
  - destruct (norm e n) as [b' n1] eqn:E1.
    destruct (norm_handlers (map (map_harm norm) hs) n1) as [l n2] eqn:E2. inv E.
    apply good_step. stp; [apply good_region; eauto|].
    clear - H E2. revert n1 l n' E2.
    induction H as [|[k b] hs Hb H IH]; cbn; intros n l n' E.
    + inv E. intros ? ? [].
    + destruct (norm b n) as [b' n2] eqn:Eb.
      destruct (norm_handlers (map (map_harm norm) hs) n2) as [l2 n3] eqn:El. inv E.
      intros q x [E|I]; [|eauto]. inv E. apply good_region. eapply Hb; eauto.
  - destruct (to_atom (norm e) n) as [[ss1 a] n1] eqn:E1. inv E.
    apply to_atom_good in E1; auto. destruct E1. apply good_prefix; auto. stp; auto.
  - destruct (to_atom (norm e1) n) as [[ss1 a] n1] eqn:E1.
    destruct (norm e2 n1) as [r' n2] eqn:E2. inv E.
    apply to_atom_good in E1; auto. destruct E1. apply good_prefix; auto.
    stp; auto. apply good_region. eauto.
  - inv E. apply good_step. stp.
Qed.

Lemma norm_region e n : region (fst (norm e n)).
Proof.
  destruct (norm e n) as [e' n'] eqn:E. apply good_region. eapply norm_good; eauto.
Qed.

(** ** The validator accepts normal forms *)

Lemma atomic_is e : atomic e -> is_atom e = true.
Proof. intros H. inv H; reflexivity. Qed.

Lemma atomic_all l : (forall a, In a l -> atomic a) -> forallb is_atom l = true.
Proof. intros H. apply forallb_forall. intros x I. apply atomic_is. auto. Qed.

Lemma region_cases e : region e -> step e \/ exists ss v, e = EBlock ss v /\ steps ss /\ step v.
Proof. intros H. inv H; auto. right. exists ss, v. repeat split; auto. Qed.

Lemma step_lambda ps b : step (ELambda ps b) -> region b.
Proof. intros H. inv H. inv H0. auto. Qed.

Lemma validate_steps e : (region e -> validate true e = true)
  /\ (step e -> validate false e = true).
Proof.
  induction e using expr_ind';
    (match goal with
     | |- (region (EBlock _ _) -> _) /\ _ => idtac
     | |- (region ?e -> _) /\ _ =>
         assert (X : step e -> validate true e = true);
           [|split; [intros R; apply region_cases in R;
                     destruct R as [R|(? & ? & R & _)]; [auto|discriminate]
                    |intros R; apply X in R; exact R]]
     end); try (intros R); cbn [validate].
  - reflexivity.
  - reflexivity.
  - inv R; [inv H0|]. rewrite atomic_is, atomic_all; auto.
  - inv R; [inv H0|]. rewrite atomic_all; auto.
  - inv R; [inv H0|]. rewrite atomic_all; auto.
  - inv R; [inv H0|]. rewrite atomic_all; auto.
  - inv R; [inv H1|]. apply andb_true_intro. split.
    + destruct s; auto. apply atomic_is; auto.
    + apply forallb_forall. intros [f x] I. apply atomic_is. eauto.
  - inv R; [inv H0|]. rewrite atomic_is, atomic_all; auto.
  - split.
    + intros R. apply region_cases in R. destruct R as [R|(s & v & Es & R1 & R2)].
      * exfalso. eapply step_not_block; eauto.
      * inv Es. cbn. apply andb_true_intro. split; [|apply IHe; auto].
        apply forallb_forall. intros x I. rewrite Forall_forall in H.
        specialize (H x I). destruct R1 as [R1 R3].
        destruct x; cbn in H; apply H; eauto.
    + intros R. exfalso. eapply step_not_block; eauto.
  - inv R; [inv H0|]. rewrite atomic_is by auto. cbn.
    apply forallb_forall. intros [p g b] I. rewrite Forall_forall in H.
    specialize (H _ I). destruct H as [Hg Hb].
    apply andb_true_intro. split.
    + destruct g; auto. apply Hg; eauto.
    + apply Hb. eauto.
  - apply IHe. eapply step_lambda; eauto.
  - inv R; [inv H0|]. rewrite (proj1 IHe) by auto. cbn.
    apply forallb_forall. intros [k b] I. rewrite Forall_forall in H.
    specialize (H _ I). cbn in H. apply H. eauto.
  - inv R; [inv H|]. apply atomic_is. auto.
  - inv R; [inv H|]. rewrite atomic_is by auto. cbn. apply IHe2. auto.
  - reflexivity.
Qed.

Lemma norm_validates e n : validate_normal_form (fst (norm e n)) = true.
Proof. apply validate_steps, norm_region. Qed.

(** ** Normal forms are left alone *)

Definition fixed (e : expr) : Prop := forall n, norm e n = (e, n).

Lemma to_atom_fixed a n : fixed a -> atomic a -> to_atom (norm a) n = ([], a, n).
Proof.
  intros F A. unfold to_atom. rewrite F.
  inv A; reflexivity.
Qed.

Lemma to_atoms_fixed l : (forall a, In a l -> fixed a) -> (forall a, In a l -> atomic a) ->
  forall n, to_atoms (map norm l) n = ([], l, n).
Proof.
  induction l as [|a l IH]; intros F A n; cbn; auto.
  rewrite to_atom_fixed by (try apply F; try apply A; left; auto).
  rewrite IH; auto; intros x I; [apply F|apply A]; right; auto.
Qed.

Lemma combine_split (fs : list (N * expr)) : combine (map fst fs) (map snd fs) = fs.
Proof. induction fs as [|[a b] fs IH]; cbn; congruence. Qed.

Lemma normal_fixed e : region e -> fixed e.
Proof.
  assert (St : forall a, atomic a -> region a) by (intros; apply region_step, step_atom; auto).
  assert (Sl : forall args, Forall (fun e => region e -> fixed e) args ->
    (forall a, In a args -> atomic a) -> forall n, to_atoms (map norm args) n = ([], args, n)).
  { intros args F A. apply to_atoms_fixed; auto.
    intros a I. rewrite Forall_forall in F. apply F; auto. }
  induction e using expr_ind'; intros R; apply region_cases in R;
    (match goal with
     | |- fixed (EBlock _ _) => idtac
     | |- _ => destruct R as [R|(? & ? & R & _)]; [|discriminate]
     end); intros n; cbn [norm].
  - reflexivity.
  - reflexivity.
  - inv R; [inv H0|]. rewrite to_atom_fixed by auto. rewrite Sl by auto. reflexivity.
  - inv R; [inv H0|]. rewrite Sl by auto. reflexivity.
  - inv R; [inv H0|]. rewrite Sl by auto. reflexivity.
  - inv R; [inv H0|]. rewrite Sl by auto. reflexivity.
  - inv R; [inv H1|].
    assert (X : to_atom_opt (option_map norm s) n = ([], s, n)).
    { destruct s as [s|]; cbn; auto. rewrite to_atom_fixed; auto. }
    rewrite X. rewrite <- (map_map snd norm).
    rewrite Sl.
    + cbn. rewrite combine_split. reflexivity.
    + apply Forall_map_iff. auto.
    + intros a I. apply in_map_iff in I. destruct I as [[f x] [<- I]]. eauto.
  - inv R; [inv H0|]. rewrite to_atom_fixed by auto. rewrite Sl by auto. reflexivity.
  - destruct R as [R|(s & v & Es & R1 & R2)].
    { exfalso. eapply step_not_block; eauto. }
    inv Es.
    assert (X : norm_stmts (map (map_stmt norm) s) n = (s, n)).
    { clear - H R1. revert n.
      induction H as [|[p x|x] ss Hx H IH]; cbn; intros n; auto.
      - assert (Q : step x) by (apply R1 with (p := p); left; auto).
        rewrite Hx by (apply region_step; auto).
        assert (Z : split x = ([], x)).
        { destruct x; cbn; auto. exfalso. eapply step_not_block; eauto. }
        rewrite Z. rewrite IH; auto.
        destruct R1 as [R1 R2]. split; intros; [eapply R1|eapply R2]; right; eauto.
      - assert (Q : step x) by (apply R1; left; auto).
        rewrite Hx by (apply region_step; auto).
        assert (Z : split x = ([], x)).
        { destruct x; cbn; auto. exfalso. eapply step_not_block; eauto. }
        rewrite Z. rewrite IH; auto.
        destruct R1 as [R1 R2]. split; intros; [eapply R1|eapply R2]; right; eauto. }
    rewrite X. rewrite IHe by (apply region_step; auto).
    assert (Z : split v = ([], v)).
    { destruct v; cbn; auto. exfalso. eapply step_not_block; eauto. }
    rewrite Z. rewrite app_nil_r. reflexivity.
  - inv R; [inv H0|]. rewrite to_atom_fixed by auto.
    assert (X : norm_arms (map (map_arm norm) arms) n = (arms, n)).
    { clear - H H3 H4. revert n.
      induction H as [|[p g b] arms [Hg Hb] H IH]; cbn; intros n; auto.
      assert (Y : match option_map norm g with
                  | None => (None, n)
                  | Some r => let (e, n1) := r n in (Some e, n1)
                  end = (g, n)).
      { destruct g as [g|]; cbn; auto. rewrite Hg; auto. eapply H3. left. reflexivity. }
      unfold run in *. rewrite Y. rewrite Hb by (eapply H4; left; reflexivity).
      rewrite IH; auto; intros; [eapply H3|eapply H4]; right; eauto. }
    rewrite X. reflexivity.
  - rewrite IHe by (eapply step_lambda; eauto). reflexivity.
  - inv R; [inv H0|]. rewrite IHe by auto.
    assert (X : norm_handlers (map (map_harm norm) hs) n = (hs, n)).
    { clear - H H3. revert n.
      induction H as [|[k b] hs Hb H IH]; cbn; intros n; auto.
      cbn in Hb. rewrite Hb by (eapply H3; left; reflexivity).
      rewrite IH; auto; intros. eapply H3; right; eauto. }
    rewrite X. reflexivity.
  - inv R; [inv H|]. rewrite to_atom_fixed by auto. reflexivity.
  - inv R; [inv H|]. rewrite to_atom_fixed by auto. rewrite IHe2 by auto. reflexivity.
  - reflexivity.
Qed.
