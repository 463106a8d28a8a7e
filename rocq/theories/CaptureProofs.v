(** Captures: lemmas. *)
From Coq Require Import List NArith Bool Lia Permutation Sorted.
From Verif Require Export Base NormModel NormSpec CaptureModel CaptureSpec.
From Verif Require Import NormProofs.
Import ListNotations.
Local Open Scope N_scope.

Scheme free_mut := Minimality for free Sort Prop
  with free_in_arm_mut := Minimality for free_in_arm Sort Prop.

Lemma mem_in x l : mem x l = true <-> In x l.
Proof.
  unfold mem. rewrite existsb_exists. split.
  - intros (y & I & E). apply N.eqb_eq in E. congruence.
  - intros I. exists x. split; [exact I | apply N.eqb_refl].
Qed.
Lemma mem_out x l : mem x l = false <-> ~ In x l.
Proof. rewrite <- mem_in. destruct (mem x l); split; congruence. Qed.

(** ** Free variables and mentioned variables *)

Lemma free_mentioned x e : free x e -> In x (collect_free_vars e).
Proof.
  intros F. pattern e. revert e F.
  apply (free_mut x (fun e => In x (collect_free_vars e)) (fun h => match h with mkHarm _ b => In x (collect_free_vars b) end));
    cbn [collect_free_vars flat_map]; intros; rewrite ?in_app_iff; cbn [In]; auto;
    try (rewrite in_flat_map; first [left; eexists; split; [eassumption|]; cbn; auto; fail | right; eexists; split; [eassumption|]; cbn; auto; fail | eexists; split; [eassumption|]; cbn; auto; fail]);
    try (rewrite in_flat_map; right; eexists; split; [eassumption|]; cbn; rewrite in_app_iff; auto).
  - apply in_app_iff in H1. tauto.
  - apply in_app_iff in H0. tauto.
  - right. apply in_flat_map. exists h. split; [exact H|]. destruct h. exact H1.
Qed.

Lemma mentioned_free e : forall G x, scoped G e -> In x G -> In x (collect_free_vars e) -> free x e.
Proof.
  assert (Hl : forall args, Forall (fun e => forall G x, scoped G e -> In x G -> In x (collect_free_vars e) -> free x e) args ->
      forall G x, all (scoped G) args -> In x G -> In x (flat_map collect_free_vars args) -> exists a, In a args /\ free x a).
  { intros args H G x A I M. apply all_Forall in A. apply in_flat_map in M as (a & Ia & Ma). exists a. split; [exact Ia|].
    rewrite Forall_forall in H, A. eauto. }
  induction e using expr_ind'; intros G x Sc I M; try rewrite scoped_block in Sc; cbn [collect_free_vars] in M;
    rewrite ?in_app_iff in M.
  - destruct r; cbn in M; [|destruct M]. destruct M as [<-|[]]. constructor.
  - destruct M.
  - destruct Sc as [Sc Sa]. destruct M as [M|M]; [apply free_callee; eauto|].
    destruct (Hl _ H _ _ Sa I M) as (a & Ia & Fa). eapply free_arg; eauto.
  - destruct (Hl _ H _ _ Sc I M) as (a & Ia & Fa). eapply free_cons; eauto.
  - destruct (Hl _ H _ _ Sc I M) as (a & Ia & Fa). eapply free_tuple; eauto.
  - destruct (Hl _ H _ _ Sc I M) as (a & Ia & Fa). eapply free_list; eauto.
  - destruct Sc as [Ss Sf]. destruct M as [M|M].
    + destruct s as [s|]; [|destruct M]. apply free_spread. eapply H; eauto.
    + apply in_flat_map in M as ([f a] & Ia & Ma). apply all_Forall in Sf. rewrite Forall_forall in H0, Sf.
      eapply free_field; [exact Ia|]. apply (H0 _ Ia G x (Sf _ Ia) I Ma).
  - destruct Sc as [Sc Sa]. destruct M as [M|M]; [apply free_receiver; eauto|].
    destruct (Hl _ H _ _ Sa I M) as (a & Ia & Fa). eapply free_method_arg; eauto.
  - revert G Sc I M. induction H as [|[p w|w] ss Hw H IH]; cbn [scoped_stmts flat_map]; intros G Sc I M; rewrite ?in_app_iff in M.
    + destruct M as [[]|M]. apply free_value. eauto.
    + destruct Sc as (Sw & Fr & Sr). destruct M as [[M|M]|M]; [apply free_let; eapply Hw; eauto| |];
        (apply free_after_let; [intros Ip; exact (Fr x Ip I) | eapply IH; [exact Sr | apply in_app_iff; auto | auto]]).
    + destruct Sc as (Sw & Sr). destruct M as [[M|M]|M]; [apply free_stmt; eapply Hw; eauto| |]; (apply free_after_stmt; eapply IH; eauto).
  - destruct Sc as [Ss Sa]. destruct M as [M|M]; [apply free_scrutinee; eauto|].
    apply in_flat_map in M as ([p g b] & Ia & Ma). apply all_Forall in Sa. rewrite Forall_forall in H, Sa.
    specialize (H _ Ia). specialize (Sa _ Ia). cbn in H, Sa, Ma. destruct H as [Hg Hb]. destruct Sa as (Fr & Sg & Sb).
    assert (Np : ~ In x (pbinders p)) by (intros Ip; exact (Fr x Ip I)).
    assert (I' : In x (pbinders p ++ G)) by (apply in_app_iff; auto).
    apply in_app_iff in Ma as [Ma|Ma].
    + destruct g as [g|]; [|destruct Ma]. eapply free_guard; eauto.
    + eapply free_arm; eauto.
  - destruct Sc as [Fr Sb]. apply free_lambda; [intros Ip; exact (Fr x Ip I)|].
    eapply IHe; [exact Sb | apply in_app_iff; auto | exact M].
  - destruct Sc as [Sb Sh]. destruct M as [M|M]; [apply free_handled; eauto|].
    apply in_flat_map in M as ([k b] & Ia & Ma). apply all_Forall in Sh. rewrite Forall_forall in H, Sh.
    specialize (H _ Ia). specialize (Sh _ Ia). cbn in H, Sh. destruct Sh as (Fr & Sk).
    eapply free_handler; [exact Ia|]. constructor; [intros Ip; exact (Fr x Ip I)|].
    eapply H; [exact Sk | apply in_app_iff; auto | exact Ma].
  - destruct Sc as [Sa Sk]. destruct M as [M|M]; [apply free_resumed; eauto|].
    destruct k as [k|]; [|destruct M]. destruct M as [<-|[]]. apply free_resume.
  - destruct Sc as [Sl Sr]. destruct M as [M|M]; [apply free_left; eauto | apply free_right; eauto].
  - destruct M.
Qed.

Lemma fresh_less xs G G' : (forall x, In x G' -> In x G) -> fresh_in xs G -> fresh_in xs G'.
Proof. intros H F x I J. exact (F x I (H x J)). Qed.

(** Variables that are not mentioned can be taken out of the scope. *)
Lemma scoped_less e : forall G G', scoped G e -> (forall x, In x G' -> In x G) ->
  (forall x, In x G -> In x (collect_free_vars e) -> In x G') -> scoped G' e.
Proof.
  assert (U : forall (xs G G' : list N), (forall x, In x G' -> In x G) -> forall x, In x (xs ++ G') -> In x (xs ++ G)).
  { intros xs G G' A x I. apply in_app_iff in I as [I|I]; apply in_app_iff; auto. }
  assert (D : forall (xs G G' l : list N), (forall x, In x G -> In x l -> In x G') -> forall x, In x (xs ++ G) -> In x l -> In x (xs ++ G')).
  { intros xs G G' l A x I J. apply in_app_iff in I as [I|I]; apply in_app_iff; auto. }
  assert (Hl : forall args, Forall (fun e => forall G G', scoped G e -> (forall x, In x G' -> In x G) ->
        (forall x, In x G -> In x (collect_free_vars e) -> In x G') -> scoped G' e) args ->
      forall G G', all (scoped G) args -> (forall x, In x G' -> In x G) ->
        (forall x, In x G -> In x (flat_map collect_free_vars args) -> In x G') -> all (scoped G') args).
  { intros args H G G' A Lo Up. apply all_Forall. apply all_Forall in A. rewrite Forall_forall in *. intros a Ia.
    apply (H a Ia G); auto. intros x Ix Mx. apply Up; auto. apply in_flat_map. eauto. }
  induction e using expr_ind'; intros G G' Sc Lo Up; try rewrite scoped_block in *; cbn [scoped collect_free_vars] in *.
  - destruct r; [|exact I]. apply Up; [exact Sc | left; reflexivity].
  - exact I.
  - destruct Sc as [Sc Sa]. split; [eapply IHe; eauto | eapply Hl; eauto]; intros; apply Up; auto; apply in_app_iff; auto.
  - eapply Hl; eauto.
  - eapply Hl; eauto.
  - eapply Hl; eauto.
  - destruct Sc as [Ss Sf]. split.
    + destruct s as [s|]; [|exact I]. eapply H; eauto. intros; apply Up; auto; apply in_app_iff; auto.
    + apply all_Forall. apply all_Forall in Sf. rewrite Forall_forall in *. intros a Ia. apply (H0 a Ia G); auto.
      intros x Ix Mx. apply Up; auto. apply in_app_iff. right. apply in_flat_map. eauto.
  - destruct Sc as [Sc Sa]. split; [eapply IHe; eauto | eapply Hl; eauto]; intros; apply Up; auto; apply in_app_iff; auto.
  - revert G G' Sc Lo Up. induction H as [|[p w|w] ss Hw H IH]; cbn [scoped_stmts flat_map]; intros G G' Sc Lo Up.
    + eauto.
    + destruct Sc as (Sw & Fr & Sr). split; [|split].
      * eapply Hw; [exact Sw | exact Lo |]. intros; apply Up; auto. rewrite !in_app_iff. auto.
      * eapply fresh_less; eauto.
      * eapply IH; [exact Sr | apply U; exact Lo | apply D]. intros; apply Up; auto. rewrite <- app_assoc. apply in_app_iff. auto.
    + destruct Sc as (Sw & Sr). split.
      * eapply Hw; [exact Sw | exact Lo |]. intros; apply Up; auto. rewrite !in_app_iff. auto.
      * eapply IH; [exact Sr | exact Lo |]. intros; apply Up; auto. rewrite <- app_assoc. apply in_app_iff. auto.
  - destruct Sc as [Ss Sa]. split.
    + eapply IHe; [exact Ss | exact Lo |]. intros; apply Up; auto. apply in_app_iff; auto.
    + apply all_Forall. apply all_Forall in Sa. rewrite Forall_forall in *. intros [p g b] Ia.
      specialize (H _ Ia). specialize (Sa _ Ia). cbn in H, Sa. destruct H as [Hg Hb]. destruct Sa as (Fr & Sg & Sb).
      assert (Up' : forall x, In x G -> In x (match g with Some g => collect_free_vars g | None => [] end ++ collect_free_vars b) -> In x G').
      { intros x Ix Mx. apply Up; auto. apply in_app_iff. right. apply in_flat_map. exists (mkArm p g b). auto. }
      split; [eapply fresh_less; eauto|]. split.
      * destruct g as [g|]; [|exact I]. eapply Hg; [reflexivity | exact Sg | apply U; exact Lo | apply D].
        intros; apply Up'; auto. apply in_app_iff; auto.
      * eapply Hb; [exact Sb | apply U; exact Lo | apply D]. intros; apply Up'; auto. apply in_app_iff; auto.
  - destruct Sc as [Fr Sb]. split; [eapply fresh_less; eauto|]. eapply IHe; [exact Sb | apply U; exact Lo | apply D; exact Up].
  - destruct Sc as [Sb Sh]. split.
    + eapply IHe; [exact Sb | exact Lo |]. intros; apply Up; auto. apply in_app_iff; auto.
    + apply all_Forall. apply all_Forall in Sh. rewrite Forall_forall in *. intros [k b] Ia.
      specialize (H _ Ia). specialize (Sh _ Ia). cbn in H, Sh. destruct Sh as (Fr & Sk).
      split; [eapply fresh_less; eauto|]. eapply H; [exact Sk | apply U; exact Lo | apply D].
      intros; apply Up; auto. apply in_app_iff. right. apply in_flat_map. exists (mkHarm k b). auto.
  - destruct Sc as [Sa Sk]. split.
    + eapply IHe; [exact Sa | exact Lo |]. intros; apply Up; auto. apply in_app_iff; auto.
    + destruct k as [k|]; [|exact I]. apply Up; auto. apply in_app_iff. right. left. reflexivity.
  - destruct Sc as [Sl Sr]. split.
    + eapply IHe1; [exact Sl | exact Lo |]. intros; apply Up; auto. apply in_app_iff; auto.
    + eapply IHe2; [exact Sr | exact Lo |]. intros; apply Up; auto. apply in_app_iff; auto.
  - exact I.
Qed.
