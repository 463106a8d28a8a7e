(** When the direct lowering agrees with the source order. *)
From Coq Require Import List NArith Bool Lia.
From Verif Require Import Base NormModel NormSpec NormDirectModel NormProofs NormMain.
Import ListNotations.
Open Scope N_scope.

(** Every call names its callee (or applies a lambda on the spot). *)
Fixpoint plain (e : expr) : bool :=
  match e with
  | ECall c args =>
      match c with EVar _ | ELit _ | ELambda _ _ => true | _ => false end
      && plain c && forallb plain args
  | ECons _ args | ETuple args | EList args => forallb plain args
  | ERecord _ s fs =>
      match s with Some s => plain s | None => true end
      && forallb (fun f => plain (snd f)) fs
  | EMethod r _ args => plain r && forallb plain args
  | EBlock ss v =>
      forallb (fun s => match s with SLet _ w => plain w | SExpr w => plain w end) ss
      && plain v
  | ECase s arms =>
      plain s
      && forallb (fun a => match a with
                           | mkArm _ g b =>
                               match g with Some g => plain g | None => true end
                               && plain b
                           end) arms
  | ELambda _ b => plain b
  | EHandle b hs =>
      plain b && forallb (fun h => match h with mkHarm _ b => plain b end) hs
  | EResume a _ => plain a
  | EBinOp _ l r => plain l && plain r
  | EVar _ | ELit _ | EError => true
  end.

Section Direct.
Variable S : sem.
Hypothesis L : lawful S.

Notation "a ~ b" := (ceq S a b) (at level 70).
Notation "a == b" := (veq S a b) (at level 70).
Notation env := (env S).

Definition same (e : expr) : Prop := forall G r r', scoped G e -> plain e = true ->
  agree S G r r' -> den S e r ~ direct S e r'.
Definition same2 (e : expr) : Prop :=
  same e /\ match e with ELambda _ b => same b | _ => True end.

Lemma sames args G r r' : Forall same2 args -> all (scoped G) args ->
  forallb plain args = true -> agree S G r r' ->
  Forall2 (fun d d' => d r ~ d' r') (map (den S) args) (map (direct S) args).
Proof.
  intros H A P R. apply all_Forall in A.
  induction H as [|e args [He _] H IH]; cbn in *; constructor; inv A;
    apply andb_prop in P; destruct P; eauto.
Qed.

Lemma direct_lambda ps b r r' G : same b -> fresh_in ps G -> scoped (ps ++ G) b ->
  plain b = true -> agree S G r r' ->
  lam S (length ps) (fun vs => den S b (upds S r ps vs))
  == lam S (length ps) (fun vs => direct S b (upds S r' ps vs)).
Proof.
  intros H F Sc P A. apply (lam_ok S L). intros vs ws Ev.
  eapply H; eauto. apply upds_agree; auto.
Qed.

Lemma direct_same2 e : same2 e.
Proof.
  induction e using expr_ind'; (split;
    [|try exact I; try (exact (proj1 IHe))]);
    intros G rho rho' Sc P A; try rewrite scoped_block in Sc;
    cbn [scoped] in Sc; cbn [plain] in P; cbn [den direct].
  - destruct r; apply (ret_ok S L); auto. apply (global_ok S L).
  - apply (ret_ok S L), (literal_ok S L).
  - destruct Sc as [Sc Sa]. apply andb_prop in P. destruct P as [P P3].
    apply andb_prop in P. destruct P as [P1 P2].
    assert (X : exists v w, den S e rho = ret S v /\ direct S e rho' = ret S w /\ v == w).
    { destruct e as [r|l| | | | | | | | |ps b| | | |]; try discriminate.
      - destruct r as [x|g]; cbn; eexists; eexists; (split; [reflexivity|]);
          (split; [reflexivity|]); [apply A; exact Sc|apply (global_ok S L)].
      - cbn; eexists; eexists; (split; [reflexivity|]); (split; [reflexivity|]).
        apply (literal_ok S L).
      - cbn [den direct].
        eexists; eexists; (split; [reflexivity|]); (split; [reflexivity|]).
        cbn in Sc. destruct Sc as [Sf Sb]. destruct IHe as [_ Hb].
        eapply direct_lambda; eauto. }
    destruct X as (v & w & -> & -> & Evw).
    pose proof (sames args G rho rho' H Sa P3 A) as F.
    eapply (ceq_trans S L).
    + refine (bind_ret S L v w _ (fun f => den_list S (map (den S) args) rho (fun vs => call S f vs)) Evw _).
      intros x y Exy. apply den_list_rel; [exact L| |].
      * apply (selfs_den S L args G); auto. eapply agree_self; eauto.
      * intros vs ws Es. apply (call_ok S L); auto.
    + apply den_list_rel; auto.
      intros vs ws Es. apply (ceq_sym S L).
      refine (bind_ret S L w w _ (fun f => call S f vs) _ _).
      * eapply veq_r; eauto.
      * intros x y Exy. apply (call_ok S L); auto.
        clear - Es L. induction Es; constructor; auto. eapply veq_sym; eauto.
  - apply den_list_rel; [exact L|eapply sames; eauto|]. apply (construct_ok S L).
  - apply den_list_rel; [exact L|eapply sames; eauto|]. apply (tuple_ok S L).
  - apply den_list_rel; [exact L|eapply sames; eauto|]. apply (mklist_ok S L).
  - destruct Sc as [Sc Sa]. apply andb_prop in P. destruct P as [P1 P2].
    assert (X : forall sp sp', orel (veq S) sp sp' ->
      den_list S (map (fun f => den S (snd f)) fs) rho
        (fun vs => record S t sp (combine (map fst fs) vs))
      ~ den_list S (map (fun f => direct S (snd f)) fs) rho'
        (fun vs => record S t sp' (combine (map fst fs) vs))).
    { intros sp sp' E. apply den_list_rel; [exact L| |].
      - apply all_Forall in Sa. clear - H0 Sa P2 A.
        induction H0 as [|f fs [Hf _] H IH]; cbn in *; constructor; inv Sa;
          apply andb_prop in P2; destruct P2; eauto.
      - intros vs ws Es. apply (record_ok S L); auto. apply record_fields; auto. }
    destruct s as [s|]; [|apply X; constructor].
    apply (bind_ok S L); [eapply H; eauto|].
    intros v w E. apply X. constructor. auto.
  - destruct Sc as [Sc Sa]. apply andb_prop in P. destruct P as [P1 P2].
    apply (bind_ok S L); [eapply IHe; eauto|].
    intros f g E. apply den_list_rel; [exact L|eapply sames; eauto|].
    intros vs ws Es. apply (method_ok S L); auto.
  - apply andb_prop in P. destruct P as [P1 P2].
    destruct IHe as [He _]. revert G rho rho' Sc A P1.
    induction H as [|[p w|w] ss [Hw _] H IH]; cbn; intros G rho rho' Sc A P1; [eauto| |].
    + destruct Sc as (S1 & S2 & S3). apply andb_prop in P1. destruct P1.
      apply (bind_ok S L); [eapply Hw; eauto|].
      intros x y E.
      destruct (bindp_rel S L p G rho rho' _ _ A E) as [|r1 r1' A1]; [apply (failure_ok S L)|].
      eapply IH; eauto.
    + destruct Sc as (S1 & S3). apply andb_prop in P1. destruct P1.
      apply (bind_ok S L); [eapply Hw; eauto|].
      intros x y E. eapply IH; eauto.
  - destruct Sc as [Sc Sa]. apply andb_prop in P. destruct P as [P1 P2].
    apply (bind_ok S L); [eapply IHe; eauto|].
    intros v w E. eapply den_arms_rel; eauto.
    apply all_Forall in Sa. clear - H Sa P2.
    induction H as [|[p g b] arms [Hg Hb] H IH]; cbn in *; constructor.
    + inv Sa. destruct H2 as (_ & Sg & Sb).
      apply andb_prop in P2. destruct P2 as [P2 _]. apply andb_prop in P2. destruct P2.
      split; [reflexivity|]. intros r r' R. split; [|eapply Hb; eauto].
      destruct g as [g|]; cbn; constructor. eapply Hg; eauto.
    + inv Sa. apply andb_prop in P2. destruct P2. auto.
  - destruct Sc as [Sf Sb]. apply (ret_ok S L).
    eapply direct_lambda; eauto. apply IHe.
  - destruct Sc as [Sc Sa]. apply andb_prop in P. destruct P as [P1 P2].
    apply (handle_ok S L); [eapply IHe; eauto|].
    assert (X : Forall2 (harm_rel S G) (map (map_harm (den S)) hs) (map (map_harm (direct S)) hs)).
    { apply all_Forall in Sa. clear - H Sa P2.
      induction H as [|[k b] hs Hb H IH]; cbn in *; constructor.
      - inv Sa. destruct H2 as (_ & Sb). apply andb_prop in P2. destruct P2.
        split; [reflexivity|]. intros r r' R. eapply Hb; eauto.
      - inv Sa. apply andb_prop in P2. destruct P2. auto. }
    pose proof (harms_rel S L G _ _ rho rho' X A) as Y.
    rewrite !map_map in Y. exact Y.
  - destruct Sc as [Sc Sa]. apply (bind_ok S L); [eapply IHe; eauto|].
    intros v w E. apply (resume_ok S L); auto.
    destruct k; cbn; constructor. auto.
  - destruct Sc as [S1 S2]. apply andb_prop in P. destruct P as [P1 P2].
    destruct IHe1 as [H1 _], IHe2 as [H2 _].
    destruct op; (apply (bind_ok S L); [eapply H1; eauto|]);
      intros v w E; rewrite (truth_ok S L v w E); destruct (truth S w);
      try (eapply H2; eauto); apply (ret_ok S L), (literal_ok S L).
  - apply (failure_ok S L).
Qed.

Lemma direct_same G e r : scoped G e -> plain e = true ->
  (forall x, In x G -> r x == r x) -> den S e r ~ direct S e r.
Proof. intros Sc P A. eapply direct_same2; eauto. Qed.
End Direct.
