(** The lists of the model are what the specification says. *)
From Verif Require Export MonoSyntax.
From Verif Require Import TyProofs SubstProofs PathProofs.

(** ** Node ids and uses *)
Lemma pat_ids_node i p : In i (pat_ids p) <-> pat_node i p.
Proof.
  assert (FL : forall ps, Forall (fun p => In i (pat_ids p) <-> pat_node i p) ps -> In i (flat_map pat_ids ps) <-> exists p, In p ps /\ pat_node i p).
  { intros ps F. rewrite in_flat_map. rewrite Forall_forall in F. split; intros [x [A B]]; exists x; split; auto; apply F; auto. }
  induction p using pat_all; eqs; cbn [pat_ids In];
    try (split; [intros [<-|[]]; constructor|intros X; inversion X; auto]; fail).
  - rewrite FL by auto. split; [intros [<-|[p [A B]]]; [constructor|econstructor 6; eauto]|intros X; inversion X; subst; eauto].
  - split.
    + intros [<-|X]; [constructor|]. apply in_flat_map in X as [[j n p] [A B]]. eqs. destruct B as [<-|B]; [econstructor; eauto|].
      destruct p as [p|]; [|destruct B]. rewrite Forall_forall in H. apply H in A as Q. eqs. apply Q in B. econstructor 9; eauto.
    + intros X; inversion X; subst; auto; right; apply in_flat_map.
      * eexists. split; eauto. eqs. cbn; auto.
      * eexists. split; eauto. eqs. right. rewrite Forall_forall in H. match goal with I : In (Field _ _ (Some _)) fs |- _ => apply H in I as Q end. eqs. apply Q; auto.
  - rewrite FL by auto. split; [intros [<-|[p [A B]]]; [constructor|econstructor 11; eauto]|intros X; inversion X; subst; eauto].
  - rewrite FL by auto. split; [intros [<-|[p [A B]]]; [constructor|econstructor 13; eauto]|intros X; inversion X; subst; eauto].
  - rewrite FL by auto. split; [intros [<-|[p [A B]]]; [constructor|econstructor 15; eauto]|intros X; inversion X; subst; eauto].
  - rewrite IHp. split; [intros [<-|B]; [constructor|econstructor 17; eauto]|intros X; inversion X; subst; auto].
Qed.
Lemma within_trans x y z : within x y -> within y z -> within x z.
Proof. intros A B. induction B; auto. econstructor; eauto. Qed.
Lemma part_within x y : part x y -> within x y.
Proof. intros P. econstructor; [constructor|auto]. Qed.
(** A predicate on the expressions within, and lists that collect from all parts. *)
Lemma within_case e z : within e z <-> e = z \/ exists x, part x z /\ within e x.
Proof.
  split.
  - intros W. inversion W; subst; eauto.
  - intros [->|[x [P W]]]; [constructor|econstructor; eauto].
Qed.

Section Collects.
  Context {A : Type}.
  Variables (own : expr -> A -> Prop) (f : expr -> list A).
  Hypothesis collect_case : forall e a, In a (f e) <-> own e a \/ exists x, part x e /\ In a (f x).
  Lemma collects_in e a : In a (f e) -> exists x, within x e /\ own x a.
  Proof.
    revert e.
    assert (Q : forall e, In a (f e) -> (forall x, part x e -> In a (f x) -> exists y, within y x /\ own y a) -> exists x, within x e /\ own x a).
    { intros e I R. apply collect_case in I as [O|[x [P I]]]; [exists e; split; auto; constructor|]. destruct (R x P I) as [y [W O]]. exists y. split; auto.
      econstructor; eauto. }
    induction e using expr_all; intros I; apply Q; auto; intros x P J; inversion P; subst; auto;
      repeat match goal with H : Forall _ _ |- _ => rewrite Forall_forall in H end; eqs; auto.
    - match goal with K : In (_, x) fs |- _ => apply H in K; cbn in K; auto end.
    - match goal with K : In (Let _ _ _ x) _ |- _ => apply H in K; eqs; auto end.
    - match goal with K : In (Do_ _ x) _ |- _ => apply H in K; eqs; auto end.
    - match goal with K : In (Arm _ _ (Some x) _) _ |- _ => apply H in K; eqs; destruct K; auto end.
    - match goal with K : In (Arm _ _ _ x) _ |- _ => apply H in K; eqs; destruct K; auto end.
    - match goal with K : In (HArm _ _ x) _ |- _ => apply H in K; eqs; auto end.
  Qed.
  Lemma collects e a : In a (f e) <-> exists x, within x e /\ own x a.
  Proof.
    split; [apply collects_in|]. intros [x [W O]]. induction W; apply collect_case; eauto.
  Qed.
End Collects.

Ltac some_part := match goal with H : In ?a (?f ?x) |- exists x, part x _ /\ In ?a (?f x) => exists x; split; [econstructor; eauto; fail|exact H] end.
Lemma visit_case e (v : nid * tref) : In v (visit_expr e) <-> e = Var (fst v) (snd v) \/ exists x, part x e /\ In v (visit_expr x).
Proof.
  split.
  - destruct e; eqs; cbn [visit_expr]; rewrite ?in_app_iff, ?in_flat_map; intros I; try (right; some_part; fail); try destruct I as [I|I];
      try (right; some_part; fail); try (destruct I as [x [J K]]; right; some_part; fail); try (destruct I; fail).
    + left. subst v. auto.
    + destruct I as [[n x] [J K]]. cbn in K. right. some_part.
    + destruct spread; [|destruct I]. right. some_part.
    + destruct I as [[j p a x|j x] [J K]]; eqs; right; some_part.
    + destruct I as [[j p g x] [J K]]. eqs. apply in_app_iff in K as [K|K]; [destruct g; [|destruct K]|]; right; some_part.
    + destruct I as [[j k x] [J K]]. eqs. right; some_part.
  - intros [->|[x [P I]]]; [destruct v; cbn; auto|].
    inversion P; subst; eqs; cbn [visit_expr]; rewrite ?in_app_iff, ?in_flat_map; eauto.
    + right. eexists. split; eauto. eqs. apply in_or_app. auto.
    + right. eexists. split; eauto. eqs. apply in_or_app. auto.
Qed.
Lemma visit_uses e i r : In (i, r) (visit_expr e) <-> uses e i r.
Proof.
  rewrite (collects (fun e v => e = Var (fst v) (snd v)) visit_expr visit_case). unfold uses. split.
  - intros [x [W ->]]; auto.
  - intros W. exists (Var i r). auto.
Qed.
Lemma ids_case e i : In i (expr_ids e) <-> own_node i e \/ exists x, part x e /\ In i (expr_ids x).
Proof.
  assert (KP : forall k, In i (kind_ids k) <-> exists p, In p (kind_pats k) /\ pat_node i p).
  { intros k. assert (Q : kind_ids k = flat_map pat_ids (kind_pats k)) by (destruct k; cbn; rewrite ?app_nil_r; auto).
    rewrite Q, in_flat_map. split; intros [p [A B]]; exists p; split; auto; apply pat_ids_node; auto. }
  split.
  - destruct e; eqs; cbn [expr_ids In]; rewrite ?in_app_iff, ?in_flat_map; intros I;
      (destruct I as [I|I]; [left; apply own_self; auto; fail|]);
      try (right; some_part; fail); try destruct I as [I|I];
      try (right; some_part; fail); try (destruct I as [x [J K]]; right; some_part; fail); try (destruct I; fail).
    + destruct I as [[n x] [J K]]. cbn in K. right. some_part.
    + destruct spread; [|destruct I]. right. some_part.
    + destruct I as [[j p a x|j x] [J K]]; eqs; cbn [In] in K; rewrite ?in_app_iff in K.
      * destruct K as [->|[K|K]]; [left; eapply own_let; eauto|left; eapply own_let_pat; eauto; apply pat_ids_node; auto|right; some_part].
      * destruct K as [->|K]; [left; eapply own_do; eauto|right; some_part].
    + destruct I as [[j p g x] [J K]]. eqs. cbn [In] in K; rewrite ?in_app_iff in K.
      destruct K as [->|[K|[K|K]]]; [left; eapply own_arm; eauto|left; eapply own_arm_pat; eauto; apply pat_ids_node; auto| |right; some_part].
      destruct g; [|destruct K]. right; some_part.
    + destruct I as [[j k x] [J K]]. eqs. cbn [In] in K; rewrite ?in_app_iff in K.
      destruct K as [->|[K|K]]; [left; eapply own_handler; eauto| |right; some_part].
      apply KP in K as [p [A B]]. left. eapply own_handler_pat; eauto.
  - intros [O|[x [P I]]].
    + inversion O; subst.
      * destruct e; cbn; auto.
      * eqs. right. apply in_or_app. left. apply in_flat_map. eexists. split; eauto. eqs. cbn; auto.
      * eqs. right. apply in_or_app. left. apply in_flat_map. eexists. split; eauto. eqs. right. apply in_or_app. left. apply pat_ids_node; auto.
      * eqs. right. apply in_or_app. left. apply in_flat_map. eexists. split; eauto. eqs. cbn; auto.
      * eqs. right. apply in_or_app. right. apply in_flat_map. eexists. split; eauto. eqs. cbn; auto.
      * eqs. right. apply in_or_app. right. apply in_flat_map. eexists. split; eauto. eqs. right. apply in_or_app. left. apply pat_ids_node; auto.
      * eqs. right. apply in_or_app. right. apply in_flat_map. eexists. split; eauto. eqs. cbn; auto.
      * eqs. right. apply in_or_app. right. apply in_flat_map. eexists. split; eauto. eqs. right. apply in_or_app. left. apply KP; eauto.
    + inversion P; subst; eqs; cbn [expr_ids In]; rewrite ?in_app_iff, ?in_flat_map; eauto.
      * right. left. eexists. split; eauto. eqs. right. apply in_or_app; auto.
      * right. left. eexists. split; eauto. eqs. right. auto.
      * right. right. eexists. split; eauto. eqs. right. rewrite !in_app_iff. auto.
      * right. right. eexists. split; eauto. eqs. right. rewrite !in_app_iff. auto.
      * right. right. eexists. split; eauto. eqs. right. rewrite !in_app_iff. auto.
Qed.
Lemma ids_node f i : In i (semantic_node_ids f) <-> func_node i f.
Proof.
  unfold semantic_node_ids, func_node, node_in. cbn [In]. rewrite (collects (fun e i => own_node i e) expr_ids ids_case). split; intros [<-|X]; auto.
Qed.
