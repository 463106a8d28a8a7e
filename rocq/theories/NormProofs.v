(** Supporting lemmas about the meaning of expressions. *)
From Coq Require Import List NArith Bool Lia.
From Verif Require Import Base NormModel NormSpec NormDirectModel.
Import ListNotations.
Open Scope N_scope.

(** ** Induction over expressions *)

Section Ind.
Variable P : expr -> Prop.
Hypothesis HVar : forall r, P (EVar r).
Hypothesis HLit : forall l, P (ELit l).
Hypothesis HCall : forall c args, P c -> Forall P args -> P (ECall c args).
Hypothesis HCons : forall c args, Forall P args -> P (ECons c args).
Hypothesis HTuple : forall args, Forall P args -> P (ETuple args).
Hypothesis HList : forall args, Forall P args -> P (EList args).
Hypothesis HRecord : forall t s fs, (forall e, s = Some e -> P e) ->
  Forall (fun f => P (snd f)) fs -> P (ERecord t s fs).
Hypothesis HMethod : forall r m args, P r -> Forall P args -> P (EMethod r m args).
Definition on_stmt (s : stmt expr) : Prop :=
  match s with SLet _ v => P v | SExpr v => P v end.
Definition on_arm (a : arm expr) : Prop :=
  match a with mkArm _ g b => (forall e, g = Some e -> P e) /\ P b end.
Definition on_harm (h : harm expr) : Prop :=
  match h with mkHarm _ b => P b end.
Hypothesis HBlock : forall ss v, Forall on_stmt ss -> P v -> P (EBlock ss v).
Hypothesis HCase : forall s arms, P s -> Forall on_arm arms -> P (ECase s arms).
Hypothesis HLambda : forall ps b, P b -> P (ELambda ps b).
Hypothesis HHandle : forall b hs, P b -> Forall on_harm hs -> P (EHandle b hs).
Hypothesis HResume : forall a k, P a -> P (EResume a k).
Hypothesis HBinOp : forall op l r, P l -> P r -> P (EBinOp op l r).
Hypothesis HError : P EError.

Fixpoint expr_ind' (e : expr) : P e.
Proof.
  destruct e as [r|l|c args|c args|args|args|t s fs|r m args|ss v|s arms
                |ps b|b hs|a k|op l r|].
  - apply HVar.
  - apply HLit.
  - apply HCall; [apply expr_ind'|]. induction args; constructor; [apply expr_ind'|assumption].
  - apply HCons. induction args; constructor; [apply expr_ind'|assumption].
  - apply HTuple. induction args; constructor; [apply expr_ind'|assumption].
  - apply HList. induction args; constructor; [apply expr_ind'|assumption].
  - apply HRecord.
    + intros e He. destruct s as [x|]; [|discriminate].
      injection He as <-. apply expr_ind'.
    + induction fs as [|[f x] fs IH]; constructor; [apply expr_ind'|assumption].
  - apply HMethod; [apply expr_ind'|]. induction args; constructor; [apply expr_ind'|assumption].
  - apply HBlock; [|apply expr_ind'].
    induction ss as [|[p x|x] ss IH]; constructor; try assumption; apply expr_ind'.
  - apply HCase; [apply expr_ind'|].
    induction arms as [|[p g b] arms IH]; constructor; [|assumption].
    split; [|apply expr_ind'].
    intros e He. destruct g as [x|]; [|discriminate].
    injection He as <-. apply expr_ind'.
  - apply HLambda, expr_ind'.
  - apply HHandle; [apply expr_ind'|].
    induction hs as [|[k x] hs IH]; constructor; [apply expr_ind'|assumption].
  - apply HResume, expr_ind'.
  - apply HBinOp; apply expr_ind'.
  - apply HError.
Defined.
End Ind.

(** ** Binders are fresh *)

Lemma all_Forall {A} (P : A -> Prop) l : all P l <-> Forall P l.
Proof.
  induction l; cbn; split; auto.
  - intros [H H1]. constructor; tauto.
  - intros H. inv H. tauto.
Qed.

Lemma fresh_app xs ys G :
  fresh_in (xs ++ ys) G <-> fresh_in xs G /\ fresh_in ys G.
Proof.
  unfold fresh_in. split.
  - intros H. split; intros x I; apply H, in_or_app; auto.
  - intros [H1 H2] x I. apply in_app_or in I. destruct I; auto.
Qed.

Lemma fresh_weak xs ys G : fresh_in xs (ys ++ G) -> fresh_in xs G.
Proof. intros H x I J. apply (H x I). apply in_or_app. auto. Qed.

Fixpoint scoped_stmts (v : expr) (ss : list (stmt expr)) (G : list N) : Prop :=
  match ss with
  | [] => scoped G v
  | SLet p w :: ss =>
      scoped G w /\ fresh_in (pbinders p) G /\ scoped_stmts v ss (pbinders p ++ G)
  | SExpr w :: ss => scoped G w /\ scoped_stmts v ss G
  end.

Lemma scoped_block G ss v : scoped G (EBlock ss v) <-> scoped_stmts v ss G.
Proof.
  cbn [scoped]. revert G.
  induction ss as [|[p w|w] ss IH]; intros G; cbn; [tauto| |].
  - rewrite IH. tauto.
  - rewrite IH. tauto.
Qed.

Lemma scoped_fresh e : forall G, scoped G e -> fresh_in (binders e) G.
Proof.
  assert (Hl : forall args, Forall (fun e => forall G, scoped G e -> fresh_in (binders e) G) args ->
      forall G, all (scoped G) args -> fresh_in (flat_map binders args) G).
  { intros args H G A. apply all_Forall in A. intros x I.
    apply in_flat_map in I. destruct I as [d [I J]].
    rewrite Forall_forall in H, A. apply (H d I G (A d I) x J). }
  induction e using expr_ind'; intros G; try rewrite scoped_block; cbn.
  - intros _ x [].
  - intros _ x [].
  - intros [A B]. apply fresh_app. auto.
  - intros A. auto.
  - intros A. auto.
  - intros A. auto.
  - intros [A B]. apply fresh_app. split.
    + destruct s; [apply H; auto|intros x []].
    + apply all_Forall in B. intros x I.
      apply in_flat_map in I. destruct I as [f [I J]].
      rewrite Forall_forall in H0, B. apply (H0 f I G (B f I) x J).
  - intros [A B]. apply fresh_app. auto.
  - intros A. revert G A. induction H as [|[p w|w] ss Hw H IH]; cbn; intros G A.
    + auto.
    + destruct A as (A & B & C). rewrite <- app_assoc.
      apply fresh_app. split.
      * apply fresh_app. split; [apply Hw; auto|auto].
      * apply fresh_weak with (ys := pbinders p). apply IH. auto.
    + destruct A as (A & C). rewrite <- app_assoc.
      apply fresh_app. split; [apply Hw; auto|auto].
  - intros [A B]. apply fresh_app. split; auto.
    apply all_Forall in B. intros x I.
    apply in_flat_map in I. destruct I as [[p g b] [I J]].
    rewrite Forall_forall in H, B. specialize (B _ I). specialize (H _ I).
    cbn in H, B, J. destruct H as [H1 H2]. destruct B as (B1 & B2 & B3).
    apply in_app_or in J. destruct J as [J|J]; [apply B1; auto|].
    apply in_app_or in J. destruct J as [J|J].
    + destruct g as [g|]; [|destruct J].
      apply (fresh_weak (binders g) (pbinders p) G); auto.
    + apply (fresh_weak (binders b) (pbinders p) G); auto.
  - intros [A B]. apply fresh_app. split; auto.
    apply fresh_weak with (ys := ps). auto.
  - intros [A B]. apply fresh_app. split; auto.
    apply all_Forall in B. intros x I.
    apply in_flat_map in I. destruct I as [[k b] [I J]].
    rewrite Forall_forall in H, B. specialize (B _ I). specialize (H _ I).
    cbn in H, B, J. destruct B as (B1 & B2).
    apply in_app_or in J. destruct J as [J|J]; [apply B1; auto|].
    apply (fresh_weak (binders b) (kbinders k) G); auto.
  - intros [A B]. auto.
  - intros [A B]. apply fresh_app. auto.
  - intros _ x [].
Qed.

(** ** The semantics respects related environments *)

Section Sem.
Variable S : sem.
Hypothesis L : lawful S.

Notation "a ~ b" := (ceq S a b) (at level 70).
Notation "a == b" := (veq S a b) (at level 70).
Notation env := (env S).
Notation Fveq := (Forall2 (veq S)).

Definition agree (G : list N) (r r' : env) : Prop :=
  forall x, In x G -> r x == r' x.

Lemma veq_l a b : a == b -> a == a.
Proof. intros H. eapply veq_trans; eauto. eapply veq_sym; eauto. Qed.
Lemma veq_r a b : a == b -> b == b.
Proof. intros H. eapply veq_trans; eauto. eapply veq_sym; eauto. Qed.
Lemma ceq_l a b : a ~ b -> a ~ a.
Proof. intros H. eapply ceq_trans; eauto. eapply ceq_sym; eauto. Qed.
Lemma ceq_r a b : a ~ b -> b ~ b.
Proof. intros H. eapply ceq_trans; eauto. eapply ceq_sym; eauto. Qed.

Lemma Fveq_l vs ws : Fveq vs ws -> Fveq vs vs.
Proof. induction 1; constructor; auto. eapply veq_l; eauto. Qed.

Lemma agree_l G r r' : agree G r r' -> agree G r r.
Proof. intros H x I. eapply veq_l. apply H, I. Qed.
Lemma agree_sub G G' r r' : (forall x, In x G' -> In x G) -> agree G r r' -> agree G' r r'.
Proof. intros H A x I. apply A, H, I. Qed.

Lemma upd_agree G r r' x v w :
  agree G r r' -> v == w -> agree (x :: G) (upd S r x v) (upd S r' x w).
Proof.
  intros A E y I. unfold upd. destruct (y =? x) eqn:Y; auto.
  apply A. destruct I as [<-|I]; auto. rewrite N.eqb_refl in Y. discriminate.
Qed.

Lemma upds_agree xs : forall G r r' vs ws, agree G r r' -> Fveq vs ws ->
  agree (xs ++ G) (upds S r xs vs) (upds S r' xs ws).
Proof.
  induction xs as [|x xs IH]; intros G r r' vs ws A E; cbn; auto.
  assert (X : forall y, In y (x :: xs ++ G) -> In y (xs ++ x :: G)).
  { intros y I. cbn in I. rewrite in_app_iff in *. cbn. tauto. }
  destruct E as [|v w vs ws E Es].
  - eapply agree_sub; [exact X|]. apply IH; [|constructor].
    apply upd_agree; auto. eapply undef_ok; eauto.
  - eapply agree_sub; [exact X|]. apply IH; auto. apply upd_agree; auto.
Qed.

Lemma upds_other xs : forall r vs y, ~ In y xs -> upds S r xs vs y = r y.
Proof.
  induction xs as [|x xs IH]; intros r vs y N; cbn; auto.
  assert (E : forall v, upd S r x v y = r y).
  { intros v. unfold upd. destruct (y =? x) eqn:Y; auto.
    apply N.eqb_eq in Y. subst. exfalso. apply N. left. auto. }
  destruct vs; rewrite IH; auto; intros I; apply N; right; auto.
Qed.

Lemma bindp_rel p G r r' v w : agree G r r' -> v == w ->
  orel (agree (pbinders p ++ G)) (bindp S p v r) (bindp S p w r').
Proof.
  intros A E. destruct p as [x|s xs]; cbn.
  - constructor. apply upd_agree; auto.
  - destruct (test_ok S L s v w E) as [|vs ws Es]; constructor.
    apply upds_agree; auto.
Qed.

Lemma bindp_other p v r r1 y :
  bindp S p v r = Some r1 -> ~ In y (pbinders p) -> r1 y = r y.
Proof.
  destruct p as [x|s xs]; cbn.
  - intros E N. injection E as <-. unfold upd.
    destruct (y =? x) eqn:Y; auto. apply N.eqb_eq in Y. subst. tauto.
  - destruct (test S s v) as [vs|]; [|discriminate].
    intros E N. injection E as <-. apply upds_other. auto.
Qed.

Lemma bindps_rel ps : forall G r r' vs ws, agree G r r' -> Fveq vs ws ->
  orel (agree (flat_map pbinders ps ++ G)) (bindps S ps vs r) (bindps S ps ws r').
Proof.
  induction ps as [|p ps IH]; intros G r r' vs ws A E; cbn; [constructor; auto|].
  assert (X : match vs with [] => undef S | v :: _ => v end
              == match ws with [] => undef S | v :: _ => v end).
  { destruct E; auto. eapply undef_ok; eauto. }
  destruct (bindp_rel p G r r' _ _ A X) as [|r1 r1' A1]; [constructor|].
  assert (Y : Fveq (tl vs) (tl ws)) by (destruct E; cbn; auto).
  destruct (IH _ _ _ _ _ A1 Y) as [|r2 r2' A2]; constructor.
  eapply agree_sub; [|exact A2].
  intros x I. rewrite <- app_assoc in I. rewrite !in_app_iff in *. tauto.
Qed.

Lemma den_list_rel ds ds' r r' : Forall2 (fun d d' => d r ~ d' r') ds ds' ->
  forall k k', respl S k k' -> den_list S ds r k ~ den_list S ds' r' k'.
Proof.
  induction 1 as [|d d' ds ds' D F IH]; intros k k' K; cbn.
  - apply K. constructor.
  - apply (bind_ok S L); auto. intros v w E. apply IH.
    intros vs ws Es. apply K. constructor; auto.
Qed.

Definition arm_rel (G : list N) (a a' : arm (env -> M S)) : Prop :=
  match a, a' with
  | mkArm p g b, mkArm p' g' b' =>
      p = p'
      /\ (forall r r', agree (pbinders p ++ G) r r' ->
            orel (fun d d' => d r ~ d' r') g g' /\ b r ~ b' r')
  end.

Lemma den_arms_rel G arms arms' r r' v w :
  Forall2 (arm_rel G) arms arms' -> agree G r r' -> v == w ->
  den_arms S arms v r ~ den_arms S arms' w r'.
Proof.
  intros F A E. induction F as [|[p g b] [p' g' b'] arms arms' H F IH]; cbn.
  - apply (failure_ok S L).
  - destruct H as [<- H].
    destruct (bindp_rel p G r r' _ _ A E) as [|r1 r1' A1]; auto.
    destruct (H _ _ A1) as [Hg Hb].
    destruct Hg as [|g g' Hg]; auto.
    apply (bind_ok S L); auto. intros t u T.
    rewrite (truth_ok S L t u T). destruct (truth S u); auto.
Qed.

Definition harm_rel (G : list N) (h h' : harm (env -> M S)) : Prop :=
  match h, h' with
  | mkHarm k b, mkHarm k' b' =>
      k = k' /\ forall r r', agree (kbinders k ++ G) r r' -> b r ~ b' r'
  end.

Lemma den_harm_rel G h h' r r' : harm_rel G h h' -> agree G r r' ->
  fst (den_harm S h r) = fst (den_harm S h' r')
  /\ respl S (snd (den_harm S h r)) (snd (den_harm S h' r')).
Proof.
  destruct h as [k b], h' as [k' b']. intros [<- H] A.
  assert (X : forall ps, (forall x, In x (kbinders k ++ G) -> In x (flat_map pbinders ps ++ G)) ->
    respl S (fun vs => match bindps S ps vs r with Some r1 => b r1 | None => failure S end)
            (fun vs => match bindps S ps vs r' with Some r1 => b' r1 | None => failure S end)).
  { intros ps I vs ws E.
    destruct (bindps_rel ps G r r' vs ws A E) as [|r1 r1' A1].
    - apply (failure_ok S L).
    - apply H. eapply agree_sub; eauto. }
  destruct k as [p|a o ps|a o ps k]; cbn [den_harm fst snd]; (split; [reflexivity|]).
  - apply X. cbn. intros x. rewrite app_nil_r. auto.
  - apply X. cbn. auto.
  - apply X. cbn. intros x. rewrite flat_map_app. rewrite !in_app_iff.
    destruct k; cbn; tauto.
Qed.

(** *** Expressions in related environments *)

Definition self (e : expr) : Prop := forall G r r', scoped G e -> agree G r r' ->
  den S e r ~ den S e r'.

Lemma selfs args G r r' : Forall self args -> all (scoped G) args -> agree G r r' ->
  Forall2 (fun d d' => d r ~ d' r') (map (den S) args) (map (den S) args).
Proof.
  intros H A R. apply all_Forall in A.
  induction H; cbn; constructor; inv A; eauto.
Qed.

Lemma selfs_fields (fs : list (N * expr)) G r r' : Forall (fun f => self (snd f)) fs ->
  all (fun f => scoped G (snd f)) fs -> agree G r r' ->
  Forall2 (fun d d' => d r ~ d' r') (map (fun f => den S (snd f)) fs)
          (map (fun f => den S (snd f)) fs).
Proof.
  intros H A R. apply all_Forall in A.
  induction H; cbn; constructor; inv A; eauto.
Qed.

Lemma record_fields names : forall vs ws, Fveq vs ws ->
  Forall2 (fun f g : N * V S => fst f = fst g /\ snd f == snd g)
          (combine names vs) (combine names ws).
Proof.
  induction names; intros vs ws E; cbn; [constructor|].
  destruct E; constructor; auto.
Qed.

Lemma arms_self arms G :
  Forall (on_arm self) arms ->
  all (fun a => match a with
                | mkArm p g b =>
                    fresh_in (pbinders p) G
                    /\ match g with
                       | Some g => scoped (pbinders p ++ G) g
                       | None => True
                       end
                    /\ scoped (pbinders p ++ G) b
                end) arms ->
  Forall2 (arm_rel G) (map (map_arm (den S)) arms) (map (map_arm (den S)) arms).
Proof.
  intros H A. apply all_Forall in A.
  induction H as [|[p g b] arms [Hg Hb] H IH]; cbn; constructor.
  - inv A. destruct H2 as (_ & Sg & Sb).
    split; [reflexivity|]. intros r r' R. split; [|eapply Hb; eauto].
    destruct g as [g|]; cbn; constructor. eapply Hg; eauto.
  - inv A. auto.
Qed.

Lemma harms_self hs G :
  Forall (on_harm self) hs ->
  all (fun h => match h with
                | mkHarm k b => fresh_in (kbinders k) G /\ scoped (kbinders k ++ G) b
                end) hs ->
  Forall2 (harm_rel G) (map (map_harm (den S)) hs) (map (map_harm (den S)) hs).
Proof.
  intros H A. apply all_Forall in A.
  induction H as [|[k b] hs Hb H IH]; cbn; constructor.
  - inv A. destruct H2 as (_ & Sb).
    split; [reflexivity|]. intros r r' R. eapply Hb; eauto.
  - inv A. auto.
Qed.

Lemma harms_rel G hs hs' r r' : Forall2 (harm_rel G) hs hs' -> agree G r r' ->
  Forall2 (fun h g => fst h = fst g /\ respl S (snd h) (snd g))
    (map (fun h => den_harm S h r) hs) (map (fun h => den_harm S h r') hs').
Proof.
  intros F A. induction F; cbn; constructor; auto. eapply den_harm_rel; eauto.
Qed.

Lemma den_self e : self e.
Proof.
  induction e using expr_ind'; intros G rho rho' Sc A; try rewrite scoped_block in Sc;
    cbn [scoped] in Sc; cbn [den].
  - destruct r; apply (ret_ok S L); auto. apply (global_ok S L).
  - apply (ret_ok S L), (literal_ok S L).
  - destruct Sc as [Sc Sa]. apply (bind_ok S L); [eauto|].
    intros f g E. apply den_list_rel; [eapply selfs; eauto|].
    intros vs ws Es. apply (call_ok S L); auto.
  - apply den_list_rel; [eapply selfs; eauto|]. apply (construct_ok S L).
  - apply den_list_rel; [eapply selfs; eauto|]. apply (tuple_ok S L).
  - apply den_list_rel; [eapply selfs; eauto|]. apply (mklist_ok S L).
  - destruct Sc as [Sc Sa].
    assert (X : forall sp sp', orel (veq S) sp sp' ->
      den_list S (map (fun f => den S (snd f)) fs) rho
        (fun vs => record S t sp (combine (map fst fs) vs))
      ~ den_list S (map (fun f => den S (snd f)) fs) rho'
        (fun vs => record S t sp' (combine (map fst fs) vs))).
    { intros sp sp' E. apply den_list_rel; [eapply selfs_fields; eauto|].
      intros vs ws Es. apply (record_ok S L); auto. apply record_fields; auto. }
    destruct s as [s|]; [|apply X; constructor].
    apply (bind_ok S L); [eapply H; eauto|].
    intros v w E. apply X. constructor. auto.
  - destruct Sc as [Sc Sa]. apply (bind_ok S L); [eauto|].
    intros f g E. apply den_list_rel; [eapply selfs; eauto|].
    intros vs ws Es. apply (method_ok S L); auto.
  - revert G rho rho' Sc A.
    induction H as [|[p w|w] ss Hw H IH]; cbn; intros G rho rho' Sc A; [eauto| |].
    + destruct Sc as (S1 & S2 & S3). apply (bind_ok S L); [eapply Hw; eauto|].
      intros x y E.
      destruct (bindp_rel p G rho rho' _ _ A E) as [|r1 r1' A1]; [apply (failure_ok S L)|].
      eapply IH; eauto.
    + destruct Sc as (S1 & S3). apply (bind_ok S L); [eapply Hw; eauto|].
      intros x y E. eapply IH; eauto.
  - destruct Sc as [Sc Sa]. apply (bind_ok S L); [eauto|].
    intros v w E. eapply den_arms_rel; eauto. apply arms_self; auto.
  - destruct Sc as [Sf Sb]. apply (ret_ok S L), (lam_ok S L).
    intros vs ws E. eapply IHe; eauto. apply upds_agree; auto.
  - destruct Sc as [Sc Sa]. apply (handle_ok S L); [eauto|].
    pose proof (harms_rel G _ _ rho rho' (harms_self hs G H Sa) A) as X.
    rewrite !map_map in X. exact X.
  - destruct Sc as [Sc Sa]. apply (bind_ok S L); [eauto|].
    intros v w E. apply (resume_ok S L); auto.
    destruct k; cbn; constructor. auto.
  - destruct Sc as [S1 S2]. destruct op; (apply (bind_ok S L); [eauto|]);
      intros v w E; rewrite (truth_ok S L v w E); destruct (truth S w); eauto;
      apply (ret_ok S L), (literal_ok S L).
  - apply (failure_ok S L).
Qed.

End Sem.
