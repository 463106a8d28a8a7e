(** C68: administrative normalisation keeps meaning and source order. *)
From Coq Require Import List NArith Bool Lia.
From Verif Require Import Base NormModel NormSpec NormDirectModel NormProofs
  NormMain NormDone NormForm NormTree NormDirectProofs NormCount.
Import ListNotations.
Open Scope N_scope.

Lemma normalized_meaning S : lawful S -> forall G n e e' n' rho,
  resolved_expr G n e -> normalize_for_cps n e = Some (e', n') ->
  (forall x, In x G -> veq S (rho x) (rho x)) ->
  ceq S (den S e rho) (den S e' rho).
Proof.
  intros L G n e e' n' rho R E A. unfold normalize_for_cps in E.
  destruct (norm e n) as [e1 n1] eqn:En. destruct (n1 <=? unresolved_id); inv E.
  eapply norm_same_meaning; eauto.
Qed.

Lemma normalized_form n e e' n' : normalize_for_cps n e = Some (e', n') ->
  region e' /\ validate_normal_form e' = true.
Proof.
  unfold normalize_for_cps. intros E.
  pose proof (norm_region e n) as A. pose proof (norm_validates e n) as B.
  destruct (norm e n) as [e1 n1]. destruct (n1 <=? unresolved_id); inv E. auto.
Qed.

Lemma normalized_again m e : region e -> m <= unresolved_id ->
  normalize_for_cps m e = Some (e, m).
Proof.
  intros R Le. unfold normalize_for_cps. rewrite (normal_fixed e R m).
  apply N.leb_le in Le. rewrite Le. reflexivity.
Qed.

(** The normalised expression behaves exactly like the source expression, in
    every lawful universe of values and effects: nothing is dropped,
    duplicated, reordered, or captured by a temporary. *)
Theorem normalization_keeps_meaning : forall S, lawful S ->
  forall G n e e' n' rho,
  resolved_expr G n e -> normalize_for_cps n e = Some (e', n') ->
  (forall x, In x G -> veq S (rho x) (rho x)) ->
  ceq S (den S e rho) (den S e' rho).
Proof. exact normalized_meaning. Qed.
Print Assumptions normalization_keeps_meaning.

(** The result is in normal form: strict children are atoms, and blocks only
    stand at the root of a region.  The debug assertion never fires. *)
Theorem normalization_reaches_normal_form : forall n e e' n',
  normalize_for_cps n e = Some (e', n') ->
  region e' /\ validate_normal_form e' = true.
Proof. exact normalized_form. Qed.
Print Assumptions normalization_reaches_normal_form.

(** An expression in normal form is left as it is, and uses up no id: the
    second normalisation of an entry changes nothing. *)
Theorem normalization_keeps_normal_forms : forall m e,
  region e -> m <= unresolved_id -> normalize_for_cps m e = Some (e, m).
Proof. exact normalized_again. Qed.
Print Assumptions normalization_keeps_normal_forms.

(** It fails only when ids run out, and it uses fewer than one id per node. *)
Theorem normalization_succeeds : forall n e,
  n + nodes e <= unresolved_id ->
  exists e' n', normalize_for_cps n e = Some (e', n').
Proof. exact normalize_succeeds. Qed.
Print Assumptions normalization_succeeds.

(** *** The hypotheses are met *)

(** [f(g(1), { let x = h(); k(x) })] with globals f=10, g=11, h=12, k=13. *)
Definition ex_expr : expr :=
  ECall (EVar (RGlobal 10))
    [ECall (EVar (RGlobal 11)) [ELit (LNum 1)];
     EBlock [SLet (PBind 0) (ECall (EVar (RGlobal 12)) [])]
            (ECall (EVar (RGlobal 13)) [EVar (RLocal 0)])].

Example ex_resolved : resolved_expr [] first_synthetic ex_expr.
Proof.
  repeat split; cbn; auto.
  - intros x [<-|[]] [].
  - repeat constructor. intros [].
  - intros x [].
  - intros x [<-|[]]. reflexivity.
Qed.

Example ex_normalized : normalize_for_cps first_synthetic ex_expr = Some (
  EBlock
    [SLet (PBind 0x80000000) (ECall (EVar (RGlobal 11)) [ELit (LNum 1)]);
     SLet (PBind 0) (ECall (EVar (RGlobal 12)) []);
     SLet (PBind 0x80000001) (ECall (EVar (RGlobal 13)) [EVar (RLocal 0)])]
    (ECall (EVar (RGlobal 10))
       [EVar (RLocal 0x80000000); EVar (RLocal 0x80000001)]), 0x80000002).
Proof. reflexivity. Qed.

Example ex_lawful : lawful trees.
Proof. exact trees_lawful. Qed.

(** The trace of operations when operation [o] answers [o + number of
    arguments]. *)
Fixpoint trace (t : tree val) : list (N * list N) :=
  match t with
  | TOp o args k => (o, args) :: trace (k (o + N.of_nat (length args)))
  | _ => []
  end.
Definition no_locals : env trees := fun _ => VNum 0.

Example ex_trace : trace (den trees ex_expr no_locals)
  = [(11, [1]); (12, []); (13, [12]); (10, [12; 14])].
Proof. reflexivity. Qed.

(** A handler around the call, with an operation arm that resumes twice. *)
Definition ex_handle : expr :=
  EHandle (ETuple [ECall (EVar (RGlobal 12)) []; ECall (EVar (RGlobal 11)) [ECall (EVar (RGlobal 12)) []]])
    [mkHarm (HOp 0 12 [] (Some 1))
       (ETuple [EResume (ELit (LNum 3)) (Some 1); EResume (ECall (EVar (RGlobal 14)) []) (Some 1)])].

Example ex_handle_resolved : resolved_expr [] first_synthetic ex_handle.
Proof.
  repeat split; cbn; auto.
  - intros x [<-|[]] [].
  - repeat constructor. intros [].
  - intros x [].
  - intros x [<-|[]]. reflexivity.
Qed.

Example ex_handle_same : match normalize_for_cps first_synthetic ex_handle with
  | Some (e', _) => trace (den trees e' no_locals) = trace (den trees ex_handle no_locals)
      /\ length (trace (den trees e' no_locals)) = 7%nat
  | None => False
  end.
Proof. split; reflexivity. Qed.

(** *** The validator *)

(** The validator does not look into a lambda in argument position, so it
    accepts expressions that are not in normal form. *)
Lemma validator_gap : exists e, validate_normal_form e = true /\ ~ region e.
Proof.
  exists (ECall (EVar (RGlobal 1))
            [ELambda [] (ECall (EVar (RGlobal 1)) [ECall (EVar (RGlobal 1)) []])]).
  split; [reflexivity|]. intros R. inv R. inv H; [inv H0|].
  specialize (H3 _ (or_introl eq_refl)). inv H3. inv H0. inv H; [inv H0|].
  specialize (H4 _ (or_introl eq_refl)). inv H4.
Qed.
Theorem validator_exact_refuted :
  exists e, validate_normal_form e = true /\ ~ region e.
Proof. exact validator_gap. Qed.
Print Assumptions validator_exact_refuted.

(** *** Direct code *)

(** In a function that is not compiled in continuation-passing style, a call
    whose callee is itself computed evaluates the arguments before the
    callee; the normalised code evaluates the callee first. *)
Lemma direct_order_differs : exists S e e' n' rho,
  lawful S /\ resolved_expr [] first_synthetic e
  /\ normalize_for_cps first_synthetic e = Some (e', n')
  /\ ~ ceq S (direct S e rho) (den S e' rho).
Proof.
  exists trees,
    (ECall (ECall (EVar (RGlobal 7)) []) [ECall (EVar (RGlobal 8)) []]).
  do 2 eexists. exists no_locals.
  split; [exact trees_lawful|]. split.
  { repeat split; cbn; auto; try (intros x []). constructor. }
  split; [reflexivity|].
  cbn. intros (E & _). discriminate.
Qed.
Theorem direct_code_same_order_refuted : exists S e e' n' rho,
  lawful S /\ resolved_expr [] first_synthetic e
  /\ normalize_for_cps first_synthetic e = Some (e', n')
  /\ ~ ceq S (direct S e rho) (den S e' rho).
Proof. exact direct_order_differs. Qed.
Print Assumptions direct_code_same_order_refuted.

(** When every call names its callee, direct and normalised code agree. *)
Lemma direct_agrees : forall S, lawful S ->
  forall G n e e' n' rho,
  resolved_expr G n e -> plain e = true ->
  normalize_for_cps n e = Some (e', n') ->
  (forall x, In x G -> veq S (rho x) (rho x)) ->
  ceq S (direct S e rho) (den S e' rho).
Proof.
  intros S L G n e e' n' rho R P E A.
  eapply (ceq_trans S L); [|eapply normalized_meaning; eauto].
  apply (ceq_sym S L). eapply direct_same; eauto. apply R.
Qed.
Theorem direct_code_same_order_partial : forall S, lawful S ->
  forall G n e e' n' rho,
  resolved_expr G n e -> plain e = true ->
  normalize_for_cps n e = Some (e', n') ->
  (forall x, In x G -> veq S (rho x) (rho x)) ->
  ceq S (direct S e rho) (den S e' rho).
Proof. exact direct_agrees. Qed.
Print Assumptions direct_code_same_order_partial.

Example ex_plain : plain ex_expr = true /\ plain ex_handle = true.
Proof. split; reflexivity. Qed.
