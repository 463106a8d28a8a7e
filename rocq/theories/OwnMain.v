(** The summaries of a module, runs, contracts (lemmas for C67). *)
From Coq Require Import List Lia PeanoNat Bool.
From Verif Require Import OwnSpec OwnProofs TarjanProofs CallGraphProofs CallGraphProps.
Local Open Scope nat_scope.
Local Open Scope list_scope.
Import ListNotations.

(** ** Names *)
Lemma named_app P Q f : named_fns (P ++ Q) f = named_fns P f ++ named_fns Q f.
Proof. apply filter_app. Qed.
Lemma named_nil P f : named_fns P f = [] <-> forall g, In g P -> n_name g <> f.
Proof.
  split.
  - intros E g I N. assert (In g (named_fns P f)) as H by (apply filter_In; split; [exact I | now apply Nat.eqb_eq]). rewrite E in H. destruct H.
  - intros H. destruct (named_fns P f) as [|g l] eqn:E; [reflexivity|]. assert (In g (named_fns P f)) as I by (rewrite E; now left).
    apply filter_In in I as [I N]. apply Nat.eqb_eq in N. now destruct (H g I).
Qed.
Lemma unique_spec P f fn : unique_fn P f = Some fn <-> only_definition P f fn.
Proof.
  unfold unique_fn, only_definition. split.
  - destruct (named_fns P f) as [|g [|]] eqn:E; try discriminate. intros H. injection H as ->.
    assert (I : In fn (named_fns P f)) by (rewrite E; now left). apply filter_In in I as [I N]. apply Nat.eqb_eq in N. split; [exact N|].
    apply in_split in I as (pre & post & ->). exists pre, post. split; [reflexivity|].
    rewrite named_app in E. cbn in E. rewrite (proj2 (Nat.eqb_eq _ _) N) in E.
    destruct (named_fns pre f) as [|h l] eqn:E1.
    + injection E as E2. change (named_fns post f = []) in E2. intros g [H|H]; [apply (proj1 (named_nil pre f) E1 g H) | apply (proj1 (named_nil post f) E2 g H)].
    + destruct l; discriminate.
  - intros (N & pre & post & -> & H). rewrite named_app. cbn. rewrite (proj2 (Nat.eqb_eq _ _) N).
    rewrite (proj2 (named_nil pre f)) by (intros g I; apply H; now left).
    change (filter (fun fn0 => n_name fn0 =? f) post) with (named_fns post f). rewrite (proj2 (named_nil post f)) by (intros g I; apply H; now right). reflexivity.
Qed.
Lemma unique_in P f fn : unique_fn P f = Some fn -> In fn P /\ n_name fn = f.
Proof. intros H. apply unique_spec in H as (N & pre & post & -> & _). split; [apply in_elt | exact N]. Qed.
Lemma unique_is P f fn g : unique_fn P f = Some fn -> In g P -> n_name g = f -> g = fn.
Proof.
  intros H I N. apply unique_spec in H as (_ & pre & post & -> & H). apply in_app_iff in I as [I|[I|I]]; auto; exfalso; eapply H; eauto.
Qed.

(** ** Eligibility *)
Lemma in_named P f fn : In fn (named_fns P f) <-> In fn P /\ n_name fn = f.
Proof. unfold named_fns. rewrite filter_In, Nat.eqb_eq. reflexivity. Qed.
Lemma op_ref_spec o g : In g (op_ref o) <-> q_kind o = OCall g \/ q_kind o = OTail g \/ q_kind o = OConst g.
Proof.
  unfold op_ref. destruct (q_kind o); cbn; split; intros H; try (destruct H as [<-|[]]); try (destruct H as [H|[H|H]]; try discriminate; injection H as ->); auto.
  all: destruct H.
Qed.
Lemma calls_mentions P f g : calls (graph_of P) f g <-> mentions P f g.
Proof.
  unfold calls, mentions. cbn [keys edges graph_of]. rewrite in_flat_map, nodup_In, in_map_iff. split.
  - intros [(fn & I & H) (fn' & N & I')]. apply in_named in I as [I N']. apply in_flat_map in H as (o & Io & Ho). apply op_ref_spec in Ho.
    split; [exists fn, o; auto | exists fn'; auto].
  - intros [(fn & o & I & N & Io & Ho) (fn' & I' & N')]. split; [|exists fn'; auto]. exists fn. split; [now apply in_named|].
    apply in_flat_map. exists o. split; [exact Io | now apply op_ref_spec].
Qed.
Lemma reach_iff {K} (R S : K -> K -> Prop) x y : (forall a b, R a b <-> S a b) -> reach R x y -> reach S x y.
Proof. intros E H. induction H; [constructor|]. econstructor; [eassumption | now apply E]. Qed.
Lemma reach1_iff {K} (R S : K -> K -> Prop) x y : (forall a b, R a b <-> S a b) -> reach1 R x y <-> reach1 S x y.
Proof.
  intros E. split; intros (z & A & B); exists z; (split; [now apply E|]); eapply reach_iff; try eassumption. intros a b. symmetry. apply E.
Qed.
Lemma recursive_spec P f : In f (recursive_names P) <-> reach1 (mentions P) f f.
Proof.
  unfold recursive_names. destruct (recursive_functions_exact nat Nat.eqb (graph_of P) (S (List.length (keys (graph_of P)))) Nat.eqb_eq) as (s & E & H).
  { apply NoDup_nodup. } { lia. }
  rewrite E, H. rewrite (reach1_iff _ _ f f (calls_mentions P)). split; [tauto|]. intros R. split; [|exact R].
  destruct R as (y & M & _). destruct M as [(fn & _ & I & N & _) _]. cbn. apply nodup_In, in_map_iff. exists fn. auto.
Qed.
Lemma escaping_spec P f : In f (escaping_names P) <-> exists g o, In g P /\ In o (n_ops g) /\ (q_kind o = OConst f \/ q_kind o = OTail f).
Proof.
  unfold escaping_names. rewrite in_flat_map. split.
  - intros (g & I & H). apply in_flat_map in H as (o & Io & Ho). exists g, o. split; [exact I|]. split; [exact Io|].
    unfold escaping in Ho. destruct (q_kind o); try destruct Ho as [<-|[]]; auto; destruct Ho.
  - intros (g & o & I & Io & H). exists g. split; [exact I|]. apply in_flat_map. exists o. split; [exact Io|]. unfold escaping.
    destruct H as [->| ->]; now left.
Qed.
Lemma eligible_spec P f fn : unique_fn P f = Some fn -> (ineligible P f = false <-> only_called P f fn).
Proof.
  intros U. unfold ineligible, only_called. rewrite U, !orb_false_iff, !omem_false, recursive_spec, escaping_spec. split.
  - intros [[A B] C]. split; [exact B|]. split; [exact A|]. intros g o I Io. split; intros K; apply C; exists g, o; auto.
  - intros (B & A & C). repeat split; auto. intros (g & o & I & Io & [K|K]); destruct (C g o I Io); auto.
Qed.

(** ** The loop *)
Definition below (s s' : summary) : Prop := forall f i, s f i = true -> s' f i = true.
Definition above (P : omodule) (s : summary) : Prop := forall f i, lendable P f i -> s f i = true.

Lemma lent_more (T T' : nat -> nat -> Prop) ops v : (forall f i, T f i -> T' f i) -> only_lent T ops v -> only_lent T' ops v.
Proof.
  intros H L x A o i I E. destruct (L x A o i I E) as [N K]. split; [exact N|]. destruct (q_kind o); auto.
Qed.
Lemma lendable_step P f i : lendable P f i -> exists fn v, only_definition P f fn /\ only_called P f fn /\ nth_error (n_params fn) i = Some v /\
  n_anyref fn v = true /\ only_lent (lendable P) (n_ops fn) v.
Proof.
  intros (T & H & R). destruct (R f i H) as (fn & v & A & B & C & D & E). exists fn, v. do 4 (split; [assumption|]).
  eapply lent_more; [|exact E]. intros g j K. exists T. auto.
Qed.
Lemma initial_above P : above P (initial P).
Proof.
  intros f i H. apply lendable_step in H as (fn & v & A & B & C & D & _). apply unique_spec in A. unfold initial. rewrite A, C, D.
  apply (eligible_spec P f fn A) in B. rewrite B. reflexivity.
Qed.

Lemma in_numbered vs i v : In (i, v) (numbered vs) <-> nth_error vs i = Some v.
Proof.
  unfold numbered. enough (G : forall k, In (i, v) (combine (seq k (List.length vs)) vs) <-> k <= i /\ nth_error vs (i - k) = Some v).
  { rewrite G, Nat.sub_0_r. split; [tauto|]. split; [lia | assumption]. }
  induction vs as [|x vs IH]; intros k; cbn.
  - split; [intros [] | intros [_ H]; destruct (i - k); discriminate].
  - rewrite IH. split.
    + intros [H|[L H]]; [injection H as -> ->; rewrite Nat.sub_diag; split; [lia | reflexivity]|]. split; [lia|].
      replace (i - k) with (S (i - S k)) by lia. exact H.
    + intros [L H]. destruct (Nat.eq_dec i k) as [->|N].
      * rewrite Nat.sub_diag in H. injection H as ->. now left.
      * right. split; [lia|]. replace (i - k) with (S (i - S k)) in H by lia. exact H.
Qed.

Definition lent_in (s : summary) (fn : ofunc) (v : nat) : Prop := only_lent (fun g j => s g j = true) (n_ops fn) v.

Lemma lower_param_spec fn s c i v : exists s' c', lower_param fn (s, c) (i, v) = Some (s', c') /\
  ((s' = s /\ c' = c /\ (s (n_name fn) i = true -> lent_in s fn v)) \/
   (s' = lower_entry s (n_name fn) i /\ c' = true /\ s (n_name fn) i = true /\ ~ lent_in s fn v)).
Proof.
  cbn [lower_param]. destruct (s (n_name fn) i) eqn:E.
  - destruct (borrowed_exact (n_ops fn) s v (depth fn)) as (b & sn & -> & H); [unfold depth; lia|]. destruct b.
    + exists s, c. split; [reflexivity|]. left. split; [reflexivity|]. split; [reflexivity|]. intros _. now apply H.
    + exists (lower_entry s (n_name fn) i), true. split; [reflexivity|]. right. repeat split; auto. intros K. apply H in K. discriminate.
  - exists s, c. split; [reflexivity|]. left. repeat split; auto; discriminate.
Qed.

(** What a part of a round does. *)
Record passed (P : omodule) (s : summary) (c : bool) (s' : summary) (c' : bool) (checked : nat -> nat -> nat -> Prop) : Prop := {
  ps_below : below s' s;
  ps_above : above P s -> above P s';
  ps_same : c' = false -> c = false /\ s' = s;
  ps_less : c' = true -> c = true \/ exists f fn i v, unique_fn P f = Some fn /\ nth_error (n_params fn) i = Some v /\ s f i = true /\ s' f i = false;
  ps_ok : c' = false -> forall f i v, checked f i v -> s f i = true -> exists fn, unique_fn P f = Some fn /\ lent_in s fn v
}.

Lemma passed_trans P s c s1 c1 s2 c2 Q1 Q2 : passed P s c s1 c1 Q1 -> passed P s1 c1 s2 c2 Q2 ->
  passed P s c s2 c2 (fun f i v => Q1 f i v \/ Q2 f i v).
Proof.
  intros A B. split.
  - intros f i H. apply (ps_below _ _ _ _ _ _ A), (ps_below _ _ _ _ _ _ B), H.
  - intros H. apply (ps_above _ _ _ _ _ _ B), (ps_above _ _ _ _ _ _ A), H.
  - intros H. apply (ps_same _ _ _ _ _ _ B) in H as [H ->]. now apply (ps_same _ _ _ _ _ _ A) in H.
  - intros H. destruct (ps_less _ _ _ _ _ _ B H) as [K|(f & fn & i & v & U & N & S1 & S2)].
    + destruct (ps_less _ _ _ _ _ _ A K) as [K'|(f & fn & i & v & U & N & S1 & S2)]; [now left|]. right. exists f, fn, i, v.
      repeat split; auto. destruct (s2 f i) eqn:E; [|reflexivity]. apply (ps_below _ _ _ _ _ _ B) in E. congruence.
    + right. exists f, fn, i, v. repeat split; auto. now apply (ps_below _ _ _ _ _ _ A).
  - intros H f i v [K|K] S.
    + destruct (ps_same _ _ _ _ _ _ B H) as [H1 _]. eapply (ps_ok _ _ _ _ _ _ A); eauto.
    + destruct (ps_same _ _ _ _ _ _ B H) as [H1 _]. destruct (ps_same _ _ _ _ _ _ A H1) as [_ ->]. eapply (ps_ok _ _ _ _ _ _ B); eauto.
Qed.
Lemma passed_refl P s c : passed P s c s c (fun _ _ _ => False).
Proof. split; auto. - intros f i H. exact H. - intros _ f i v []. Qed.
Lemma passed_weak P s c s' c' (Q Q' : nat -> nat -> nat -> Prop) : (forall f i v, Q' f i v -> Q f i v) -> passed P s c s' c' Q -> passed P s c s' c' Q'.
Proof. intros H A. destruct A. split; auto. intros K f i v L. apply ps_ok0; auto. Qed.

Lemma lower_param_passed P fn s c i v : unique_fn P (n_name fn) = Some fn -> nth_error (n_params fn) i = Some v ->
  exists s' c', lower_param fn (s, c) (i, v) = Some (s', c') /\ passed P s c s' c' (fun f j w => f = n_name fn /\ j = i /\ w = v).
Proof.
  intros U N. destruct (lower_param_spec fn s c i v) as (s' & c' & E & H). exists s', c'. split; [exact E|].
  destruct H as [(-> & -> & H)|(-> & -> & S & H)].
  - split; auto. + intros f j K. exact K. + intros _ f j w (-> & -> & ->) K. exists fn. auto.
  - split.
    + intros f j K. unfold lower_entry in K. destruct ((f =? n_name fn) && (j =? i)); [discriminate | exact K].
    + intros A f j L. unfold lower_entry. destruct ((f =? n_name fn) && (j =? i)) eqn:Q; [|now apply A].
      apply andb_prop in Q as [Q1 Q2]. apply Nat.eqb_eq in Q1, Q2. subst. destruct H.
      apply lendable_step in L as (fn' & v' & B & _ & C & _ & D). apply unique_spec in B. rewrite U in B. injection B as <-. rewrite N in C. injection C as <-.
      eapply lent_more; [|exact D]. exact A.
    + discriminate.
    + intros _. right. exists (n_name fn), fn, i, v. repeat split; auto. unfold lower_entry. now rewrite !Nat.eqb_refl.
    + discriminate.
Qed.
Lemma lower_params_passed P fn : unique_fn P (n_name fn) = Some fn -> forall ps s c, (forall i v, In (i, v) ps -> nth_error (n_params fn) i = Some v) ->
  exists s' c', lower_params fn ps (s, c) = Some (s', c') /\ passed P s c s' c' (fun f i v => f = n_name fn /\ In (i, v) ps).
Proof.
  intros U. induction ps as [|[i v] ps IH]; intros s c H; cbn [lower_params].
  - exists s, c. split; [reflexivity|]. eapply passed_weak; [|apply passed_refl]. intros f i v [_ []].
  - destruct (lower_param_passed P fn s c i v U) as (s1 & c1 & -> & A); [apply H; now left|].
    destruct (IH s1 c1) as (s2 & c2 & -> & B); [intros j w I; apply H; now right|]. exists s2, c2. split; [reflexivity|].
    eapply passed_weak; [|eapply passed_trans; eassumption]. cbn. intros f j w [-> [I|I]]; [injection I as -> ->; auto | auto].
Qed.
Lemma one_round_passed P order : forall s c, exists s' c', one_round P order (s, c) = Some (s', c') /\
  passed P s c s' c' (fun f i v => In f order /\ ineligible P f = false /\ exists fn, unique_fn P f = Some fn /\ nth_error (n_params fn) i = Some v).
Proof.
  induction order as [|f order IH]; intros s c; cbn [one_round].
  - exists s, c. split; [reflexivity|]. eapply passed_weak; [|apply passed_refl]. intros f i v [[] _].
  - assert (G : exists s1 c1, (if ineligible P f then Some (s, c)
             else match unique_fn P f with Some fn => lower_params fn (numbered (n_params fn)) (s, c) | None => Some (s, c) end) = Some (s1, c1) /\
      passed P s c s1 c1 (fun g i v => g = f /\ ineligible P f = false /\ exists fn, unique_fn P f = Some fn /\ nth_error (n_params fn) i = Some v)).
    { destruct (ineligible P f) eqn:E.
      { exists s, c. split; [reflexivity|]. eapply passed_weak; [|apply passed_refl]. intros g i v (_ & F & _). discriminate. }
      destruct (unique_fn P f) as [fn|] eqn:U.
      - destruct (unique_in _ _ _ U) as [_ N]. subst f. destruct (lower_params_passed P fn U (numbered (n_params fn)) s c) as (s1 & c1 & H & A).
        { intros i v I. now apply in_numbered. }
        exists s1, c1. split; [exact H|]. eapply passed_weak; [|exact A]. intros g i v (-> & _ & fn' & F & N). split; [reflexivity|].
        injection F as <-. now apply in_numbered.
      - exists s, c. split; [reflexivity|]. eapply passed_weak; [|apply passed_refl]. intros g i v (_ & _ & fn & F & _). discriminate. }
    destruct G as (s1 & c1 & -> & A). destruct (IH s1 c1) as (s2 & c2 & -> & B). exists s2, c2. split; [reflexivity|].
    eapply passed_weak; [|eapply passed_trans; eassumption]. cbn. intros g i v ([->|I] & E & fn & U & N).
    + left. split; [reflexivity|]. split; [exact E|]. exists fn. auto.
    + right. split; [exact I|]. split; [exact E|]. exists fn. auto.
Qed.

Definition slots (P : omodule) : list (nat * nat) := flat_map (fun fn => map (fun p => (n_name fn, fst p)) (numbered (n_params fn))) P.
Lemma slots_count P : List.length (slots P) = parameter_count P.
Proof.
  unfold slots, parameter_count. induction P as [|fn P IH]; [reflexivity|]. cbn [flat_map]. rewrite !app_length, IH, map_length.
  f_equal. unfold numbered. rewrite combine_length, seq_length. lia.
Qed.
Definition weight (P : omodule) (s : summary) : nat := List.length (filter (fun p => s (fst p) (snd p)) (slots P)).

Lemma rounds_spec P order : forall fuel s, weight P s < fuel -> above P s -> below s (initial P) ->
  (forall f, unique_fn P f <> None -> In f order) ->
  exists s', rounds fuel P order s = Some s' /\ forall f i, s' f i = true <-> lendable P f i.
Proof.
  induction fuel as [|fuel IH]; intros s W A B O; [lia|]. cbn [rounds].
  destruct (one_round_passed P order s false) as (s1 & c1 & -> & R). destruct c1.
  - destruct (ps_less _ _ _ _ _ _ R eq_refl) as [F|(f & fn & i & v & U & N & S1 & S2)]; [discriminate|]. apply IH; auto.
    + enough (weight P s1 < weight P s) by lia. unfold weight. apply OwnProofs.filter_lt with (a := (f, i)); auto.
      * intros [g j] H. cbn in *. now apply (ps_below _ _ _ _ _ _ R).
      * apply in_flat_map. exists fn. destruct (unique_in _ _ _ U) as [I E]. split; [exact I|]. rewrite E. apply in_map_iff. exists (i, v).
        split; [reflexivity | now apply in_numbered].
    + now apply (ps_above _ _ _ _ _ _ R).
    + intros g j H. apply B. now apply (ps_below _ _ _ _ _ _ R).
  - destruct (ps_same _ _ _ _ _ _ R eq_refl) as [_ ->]. exists s. split; [reflexivity|]. intros f i. split; [|apply A].
    intros S. exists (fun g j => s g j = true). split; [exact S|]. clear f i S. intros g j S. pose proof (B g j S) as K. unfold initial in K.
    destruct (unique_fn P g) as [fn|] eqn:U; [|discriminate]. destruct (nth_error (n_params fn) j) as [v|] eqn:N; [|discriminate].
    apply andb_prop in K as [E AR]. apply negb_true_iff in E. exists fn, v. split; [now apply unique_spec|].
    split; [now apply eligible_spec|]. split; [exact N|]. split; [exact AR|].
    destruct (ps_ok _ _ _ _ _ _ R eq_refl g j v) as (fn' & U' & L); [|exact S|].
    + split; [apply O; congruence|]. split; [exact E|]. exists fn. auto.
    + rewrite U in U'. injection U' as <-. exact L.
Qed.

Lemma summaries_exact P order : (forall f, unique_fn P f <> None -> In f order) ->
  exists s, compute_summaries P order = Some s /\ forall f i, s f i = true <-> lendable P f i.
Proof.
  intros O. apply rounds_spec; auto.
  - unfold weight. rewrite <- slots_count. eapply Nat.le_lt_trans; [apply (OwnProofs.filter_le _ (fun _ => true)); auto|]. rewrite OwnProofs.filter_all. lia.
  - apply initial_above.
  - intros f i H. exact H.
Qed.

(** ** Runs *)
Section Runs.
  Variables (P : omodule) (s : summary).
  Hypothesis S_ok : forall f i, s f i = true -> lendable P f i.
  Hypothesis S_all : forall f i, lendable P f i -> s f i = true.

  Definition frame_ok (fr : frame) : Prop := let (fn, m) := fr in
    forall x, m x = true -> exists i v, nth_error (n_params fn) i = Some v /\ lendable P (n_name fn) i /\ unique_fn P (n_name fn) = Some fn /\ alias (n_ops fn) v x.
  Definition stack_ok (st : stack) : Prop := frame_ok (fst st) /\ Forall (fun p => frame_ok (fst p)) (snd st).

  Lemma frame_use fn m o i x : frame_ok (fn, m) -> In o (n_ops fn) -> nth_error (q_args o) i = Some x -> m x = true -> harmless (lendable P) o i.
  Proof.
    intros F I N M. destruct (F x M) as (j & v & Np & L & U & A). apply lendable_step in L as (fn' & v' & D & _ & N' & _ & O).
    apply unique_spec in D. rewrite U in D. injection D as <-. rewrite Np in N'. injection N' as <-. eapply O; eauto.
  Qed.
  Lemma carried_true m xs : carried m xs = true -> exists i x, nth_error xs i = Some x /\ m x = true.
  Proof. unfold carried. rewrite existsb_exists. intros (x & I & M). apply In_nth_error in I as [i N]. exists i, x. auto. Qed.
  Lemma not_carried fn m o : frame_ok (fn, m) -> In o (n_ops fn) -> (forall i, ~ harmless (lendable P) o i) -> carried m (q_args o) = false.
  Proof.
    intros F I H. destruct (carried m (q_args o)) eqn:E; [|reflexivity]. apply carried_true in E as (i & x & N & M).
    destruct (H i). eapply frame_use; eauto.
  Qed.
  Lemma frame_assign fn m xs : frame_ok (fn, m) -> frame_ok (fn, assign xs false m).
  Proof. intros F x M. unfold assign in M. destruct (in_dec Nat.eq_dec x xs); [discriminate | now apply F]. Qed.
  Lemma entering_true m : forall ps args x, entering m ps args x = true -> exists i a, nth_error ps i = Some x /\ nth_error args i = Some a /\ m a = true.
  Proof.
    induction ps as [|p ps IH]; intros args x H; [discriminate|]. destruct args as [|a args]; [discriminate|]. cbn in H.
    destruct (x =? p) eqn:E; [apply Nat.eqb_eq in E; subst p; exists 0, a; auto|]. destruct (IH args x H) as (i & b & A & B & C). exists (S i), b. auto.
  Qed.
  Lemma lendable_unique f i fn : lendable P f i -> In fn P -> n_name fn = f -> unique_fn P f = Some fn.
  Proof.
    intros L I N. apply lendable_step in L as (fn' & _ & D & _). apply unique_spec in D. rewrite D. f_equal. symmetry. eapply unique_is; eauto.
  Qed.
  Lemma entering_call fn m o g callee : frame_ok (fn, m) -> In o (n_ops fn) -> q_kind o = OCall g -> In callee P -> n_name callee = g ->
    frame_ok (callee, entering m (n_params callee) (q_args o)).
  Proof.
    intros F I K C N x M. apply entering_true in M as (i & a & A & B & D). pose proof (frame_use fn m o i a F I B D) as [_ H]. rewrite K in H.
    exists i, x. split; [exact A|]. subst g. split; [exact H|]. split; [eapply lendable_unique; eauto | apply alias_self].
  Qed.
  Lemma entering_none fn m o callee args : frame_ok (fn, m) -> In o (n_ops fn) -> (forall i, ~ harmless (lendable P) o i) -> incl args (q_args o) ->
    frame_ok (callee, entering m (n_params callee) args).
  Proof.
    intros F I H Inc x M. apply entering_true in M as (i & a & A & B & D). apply nth_error_In, Inc, In_nth_error in B as [j B].
    destruct (H j). eapply frame_use; eauto.
  Qed.
  Lemma incl_tl' {A} (l : list A) : incl (tl l) l.
  Proof. destruct l; [apply incl_refl | apply incl_tl, incl_refl]. Qed.

  Lemma runs_ok st st' : runs P st st' -> stack_ok st -> stack_ok st'.
  Proof.
    intros R [F G]. destruct R; cbn [fst snd] in *.
    - split; [|exact G]. now apply frame_assign.
    - split; [|exact G]. intros x M. cbn in M. unfold assign in M. destruct (in_dec Nat.eq_dec x (q_results o)) as [I|N]; [|now apply F].
      apply carried_true in M as (i & y & Ny & My). pose proof (frame_use fn m o i y F H Ny My) as [_ K]. rewrite H0 in K. destruct K as (-> & LA & LR).
      destruct (q_args o) as [|a [|]] eqn:EA; try discriminate. injection Ny as ->. destruct (q_results o) as [|r [|]] eqn:ER; try discriminate.
      destruct I as [<-|[]]. destruct (F y My) as (j & v & A & B & C & D). exists j, v. repeat split; auto. eapply alias_cast; eauto.
    - split; [|exact G]. rewrite (not_carried fn m o F H); [now apply frame_assign|]. intros i [_ K]. now rewrite H0 in K.
    - split; [eapply entering_call; eauto|]. constructor; [exact F | exact G].
    - split; [|exact G]. rewrite (not_carried fn m o F H); [now apply frame_assign|]. intros i [_ K]. rewrite H0 in K.
      apply lendable_step in K as (fn' & _ & D & _). apply unique_spec, unique_in in D as [D E]. now apply (H1 fn').
    - split; [|constructor; [exact F | exact G]]. eapply entering_none; eauto using incl_tl'. intros i [_ K]. now rewrite H0 in K.
    - split; [|exact G]. eapply entering_none; eauto using incl_refl. intros i [_ K]. now rewrite H0 in K.
    - split; [|exact G]. eapply entering_none; eauto using incl_tl'. intros i [_ K]. now rewrite H0 in K.
    - inversion G as [|p l G1 G2]; subst. split; [|exact G2]. rewrite (not_carried fn m o F H); [|intros i [_ K]; now rewrite H0 in K].
      now apply frame_assign.
  Qed.
  Lemma runs_many_ok st st' : runs_many P st st' -> stack_ok st -> stack_ok st'.
  Proof. induction 1; auto. intros H1. eapply runs_ok; eauto. Qed.

  Lemma ok_no_count st : stack_ok st -> ~ needs_count P st.
  Proof.
    destruct st as [[fn m] rest]. intros [F _] (o & i & x & I & N & M & H). pose proof (frame_use fn m o i x F I N M) as [_ K].
    destruct (q_kind o); auto.
    - apply lendable_step in K as (fn' & _ & D & _). apply unique_spec, unique_in in D as [D E]. now apply (H fn').
    - destruct K as (-> & A & R). destruct (q_args o) as [|a [|]]; try discriminate. injection N as ->. destruct H; congruence.
  Qed.

  Lemma lent_call_ok fn m : In fn P -> lent_call s fn m -> stack_ok (fn, m, []).
  Proof.
    intros I L. split; [|constructor]. intros x M. destruct (L x M) as (i & N & E). apply S_ok in E. exists i, x.
    split; [exact N|]. split; [exact E|]. split; [eapply lendable_unique; eauto | apply alias_self].
  Qed.
End Runs.

Lemma borrowed_never_needed P order s fn m st : compute_summaries P order = Some s -> (forall f, unique_fn P f <> None -> In f order) ->
  In fn P -> lent_call s fn m -> runs_many P (fn, m, []) st -> ~ needs_count P st.
Proof.
  intros E O I L R. destruct (summaries_exact P order O) as (s' & E' & H). rewrite E in E'. injection E' as <-.
  apply ok_no_count. eapply runs_many_ok; [exact R|]. eapply lent_call_ok; eauto. intros f i K. now apply H.
Qed.

Lemma visits_names P order : visits_all P order -> forall f, unique_fn P f <> None -> In f order.
Proof. intros V f N. destruct (unique_fn P f) as [fn|] eqn:E; [|congruence]. apply unique_spec in E. eapply V; eauto. Qed.
Lemma borrowed_exact_all P order : visits_all P order -> exists s, compute_summaries P order = Some s /\ forall f i, s f i = true <-> lendable P f i.
Proof. intros V. apply summaries_exact, visits_names, V. Qed.
Lemma borrowed_never_needed_all P order s fn m st : visits_all P order -> compute_summaries P order = Some s ->
  In fn P -> lent_call s fn m -> runs_many P (fn, m, []) st -> ~ needs_count P st.
Proof. intros V E. apply (borrowed_never_needed P order s fn m st E (visits_names P order V)). Qed.

(** ** Contracts *)
Lemma actions_nth es tail l : actions_for es tail = Some l -> List.length l = List.length es /\
  forall i e, nth_error es i = Some e -> exists a, nth_error l i = Some a /\ action_for_entry e tail = Some a.
Proof.
  revert l. induction es as [|e es IH]; intros l H; cbn in H.
  - injection H as <-. split; [reflexivity|]. intros [|i] e; discriminate.
  - destruct (action_for_entry e tail) as [a|] eqn:A; [|discriminate]. destruct (actions_for es tail) as [l'|]; [|discriminate]. injection H as <-.
    destruct (IH l' eq_refl) as [L K]. split; [cbn; congruence|]. intros [|i] e' N; [injection N as <-; exists a; auto | now apply K].
Qed.
Lemma numbered_nth vs i v : nth_error vs i = Some v -> nth_error (numbered vs) i = Some (i, v).
Proof.
  intros H. unfold numbered. enough (G : forall k, nth_error (combine (seq k (List.length vs)) vs) i = Some (k + i, v)) by (rewrite G; reflexivity).
  revert i H. induction vs as [|x vs IH]; intros i H k; [destruct i; discriminate|]. destruct i as [|i]; cbn.
  - injection H as ->. rewrite Nat.add_0_r. reflexivity.
  - rewrite IH by exact H. do 2 f_equal. lia.
Qed.
Lemma numbered_length vs : List.length (numbered vs) = List.length vs.
Proof. unfold numbered. rewrite combine_length, seq_length. lia. Qed.

Lemma direct_contract P s fn o l g : call_contract P s fn o = Contract l -> q_kind o = OCall g \/ q_kind o = OTail g ->
  exists callee, only_definition P g callee /\ List.length l = List.length (n_params callee) /\ List.length (q_args o) = List.length l /\
  forall i v, nth_error (n_params callee) i = Some v -> exists a, nth_error l i = Some a /\
    caller_gives a = callee_takes callee v /\ (a = Plain <-> n_anyref callee v = false) /\
    (a = Borrowed <-> n_anyref callee v = true /\ n_cps callee = false /\ s g i = true) /\ (q_kind o = OTail g -> a <> Plain -> a = Transfer) /\
    (q_kind o = OCall g -> a <> Transfer).
Proof.
  intros C K. unfold call_contract in C. assert (KT : is_tail_op o = match q_kind o with OTail _ => true | _ => false end) by (unfold is_tail_op; destruct K as [-> | ->]; reflexivity).
  assert (X : match entry_contract P s g with
      | None => if is_tail_op o then Rejected else NoContract
      | Some es => if List.length (q_args o) =? List.length es then match actions_for es (is_tail_op o) with Some l => Contract l | None => Rejected end else Rejected
      end = Contract l).
  { destruct (is_tail_op o && negb (q_cps o)); [destruct (existsb _ _); discriminate|]. destruct K as [K|K]; rewrite K in C; exact C. }
  clear C. unfold entry_contract in X. destruct (unique_fn P g) as [callee|] eqn:U; [|destruct (is_tail_op o); discriminate].
  destruct (Nat.eqb_spec (List.length (q_args o)) (List.length (map (entry_of s callee) (numbered (n_params callee))))) as [L|]; [|discriminate].
  destruct (actions_for _ _) as [l'|] eqn:A; [|discriminate]. injection X as ->. apply actions_nth in A as [LA A].
  rewrite map_length, numbered_length in *. exists callee. split; [now apply unique_spec|]. split; [exact LA|]. split; [congruence|].
  intros i v N. destruct (A i (entry_of s callee (i, v))) as (a & Na & H). { apply map_nth_error, numbered_nth, N. }
  exists a. split; [exact Na|]. destruct (unique_in _ _ _ U) as [_ NG]. unfold entry_of in H. rewrite NG in H. unfold callee_takes.
  rewrite KT in H. destruct (n_anyref callee v); cbn [negb andb] in *.
  - destruct (n_cps callee); [|destruct (s g i)]; destruct K as [K|K]; rewrite K in *; cbn in H; try discriminate; injection H as <-; cbn;
      repeat split; intros; try discriminate; try congruence; try tauto; try (destruct H as (_ & H & _); congruence); try (destruct H as (_ & _ & H); congruence).
  - destruct K as [K|K]; rewrite K in *; cbn in H; injection H as <-; cbn; repeat split; intros; try discriminate; try congruence; destruct H; discriminate.
Qed.
Lemma passed_args o : call_args o = passed_on o.
Proof. unfold call_args, passed_on, is_indirect_op. destruct (q_kind o); try reflexivity; destruct (q_args o); reflexivity. Qed.
Lemma indirect_contract P s fn o callee : is_indirect_op o = true -> q_cps o = is_tail_op o -> is_tail_op o = n_cps callee ->
  q_sig o = Some (map (n_anyref callee) (n_params callee), n_cps callee) -> List.length (passed_on o) = List.length (n_params callee) ->
  (is_tail_op o = false -> call_contract P s fn o = NoContract /\ forall v, callee_takes callee v = 0) /\
  (is_tail_op o = true -> exists l, call_contract P s fn o = Contract l /\ List.length l = List.length (n_params callee) /\
     forall i v, nth_error (n_params callee) i = Some v -> exists a, nth_error l i = Some a /\ caller_gives a = callee_takes callee v).
Proof.
  intros I C T G L. rewrite <- passed_args in L. split; intros K.
  - split.
    + unfold call_contract. rewrite K. cbn. unfold is_indirect_op, is_tail_op in *. destruct (q_kind o); try discriminate; reflexivity.
    + intros v. unfold callee_takes. rewrite <- T, K, andb_false_r. reflexivity.
  - unfold call_contract. rewrite C, K. cbn [negb andb]. unfold is_indirect_op, is_tail_op in I, K. destruct (q_kind o) eqn:E; try discriminate.
    rewrite G, <- T. assert (X : is_tail_op o = true) by (unfold is_tail_op; now rewrite E). rewrite X.
    rewrite map_length, L, Nat.eqb_refl. eexists. split; [reflexivity|]. split; [now rewrite !map_length|]. intros i v N.
    exists (if n_anyref callee v then Transfer else Plain). split.
    + rewrite map_map. erewrite map_nth_error by exact N. reflexivity.
    + unfold callee_takes. rewrite <- T, X. destruct (n_anyref callee v); reflexivity.
Qed.
Lemma tail_calls_covered P s fn o : contracts_ok P s = true -> only_definition P (n_name fn) fn -> In o (n_ops fn) -> is_tail_op o = true ->
  (exists x, In x (passed_on o) /\ n_anyref fn x = true) -> q_cps o = true /\ exists l, call_contract P s fn o = Contract l.
Proof.
  intros C D I T (x & X & A). rewrite <- passed_args in X. apply unique_spec in D. unfold contracts_ok in C. rewrite forallb_forall in C.
  specialize (C fn (proj1 (unique_in _ _ _ D))). rewrite D, forallb_forall in C. specialize (C o I).
  destruct (q_cps o) eqn:Q.
  - split; [reflexivity|]. destruct (call_contract P s fn o) as [|l|] eqn:E; [|exists l; reflexivity | discriminate].
    unfold call_contract in E. rewrite Q, T in E. cbn [negb andb] in E. unfold is_tail_op in T. destruct (q_kind o) eqn:K; try discriminate.
    + assert (is_tail_op o = true) as H by (unfold is_tail_op; now rewrite K). try rewrite H in E. destruct (entry_contract P s callee); [|discriminate].
      destruct (_ =? _); [|discriminate]. destruct (actions_for _ _); discriminate.
    + destruct (q_sig o) as [[ps []]|]; try discriminate. destruct (_ =? _); discriminate.
  - unfold call_contract in C. rewrite T, Q in C. cbn [negb andb] in C.
    assert (existsb (n_anyref fn) (call_args o) = true) as E by (apply existsb_exists; eauto). rewrite E in C. discriminate.
Qed.
