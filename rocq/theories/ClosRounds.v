(** Lemmas: the first pass as a whole. *)
From Verif Require Export ClosTurn.
From Verif Require MangleProofs MangleSpec.
From Coq Require Import Lia Ascii.
Local Open Scope list_scope.

(** ** Names *)

Fixpoint has_colon (s : string) : bool :=
  match s with EmptyString => false | String a s => Ascii.eqb a "_" || has_colon s end.

Lemma append_length (a b : string) : String.length (a ++ b) = String.length a + String.length b.
Proof. induction a; cbn; congruence. Qed.
Lemma append_assoc (a b c : string) : ((a ++ b) ++ c)%string = (a ++ (b ++ c))%string.
Proof. induction a; cbn; congruence. Qed.

Lemma split_last (a b x y : string) : has_colon x = false -> has_colon y = false ->
  (a ++ String "_" x)%string = (b ++ String "_" y)%string -> a = b /\ x = y.
Proof.
  intros Hx Hy. revert b. induction a as [|c a IH]; intros b H; destruct b as [|d b]; cbn in H.
  - assert (x = y) by congruence. auto.
  - assert (x = (b ++ String "_" y)%string) by congruence. subst x. exfalso. clear - Hx.
    induction b as [|c b IH]; cbn in Hx; [discriminate|]. apply orb_false_iff in Hx as [_ Hx]. auto.
  - assert (y = (a ++ String "_" x)%string) by congruence. subst y. exfalso. clear - Hy.
    induction a as [|c b IH]; cbn in Hy; [discriminate|]. apply orb_false_iff in Hy as [_ Hy]. auto.
  - assert (H' : (a ++ String "_" x)%string = (b ++ String "_" y)%string) by congruence.
    destruct (IH b H') as [-> ->]. split; congruence.
Qed.

Lemma append_cancel (a b c : string) : (a ++ c)%string = (b ++ c)%string -> a = b.
Proof.
  revert b. induction a as [|x a IH]; intros [|y b] H; cbn in H.
  - reflexivity.
  - apply (f_equal String.length) in H. cbn in H. rewrite append_length in H. lia.
  - apply (f_equal String.length) in H. cbn in H. rewrite append_length in H. lia.
  - assert (H' : (a ++ c)%string = (b ++ c)%string) by congruence. rewrite (IH b H'). congruence.
Qed.

Lemma digits_no_colon s : MangleSpec.all_digits s = true -> has_colon s = false.
Proof.
  induction s as [|a s IH]; [reflexivity|]. cbn. intros H. apply andb_prop in H as [H1 H2]. rewrite (IH H2), orb_false_r.
  destruct (Ascii.eqb_spec a "_"); [|reflexivity]. subst. vm_compute in H1. discriminate.
Qed.

Lemma lifted_name_inj p q c d : lifted_name p c = lifted_name q d -> p = q /\ c = d.
Proof.
  unfold lifted_name. intros H.
  assert (E : forall r k, (r ++ "::__clam_" ++ MangleModel.decimal k)%string
     = ((r ++ "::__clam") ++ String "_" (MangleModel.decimal k))%string).
  { intros r k. rewrite append_assoc. reflexivity. }
  rewrite !E in H.
  apply split_last in H as [H1 H2]; [|apply digits_no_colon, MangleProofs.decimal_digits..].
  split; [now apply append_cancel in H1|now apply MangleProofs.decimal_inj].
Qed.

(** ** Copies are well formed *)

Lemma below_mono c : forall n n', below n c -> n <= n' -> below n' c.
Proof.
  assert (F : forall n n' l, Forall (fun v => v < n) l -> n <= n' -> Forall (fun v => v < n') l).
  { intros n n' l H Hn. eapply Forall_impl; [|exact H]. cbn. intros. lia. }
  induction c as [v|i r k IH|x t IHt e IHe r k IHk|cv caps ps b IHb r k IHk]; intros n n' H Hn; cbn in *.
  - lia.
  - destruct H as (H1 & H2 & H3). repeat split; [eapply F; eauto|lia|eauto].
  - destruct H as (H1 & H2 & H3 & H4 & H5). repeat split; eauto; lia.
  - destruct H as (H1 & H2 & H3 & H4 & H5). repeat split; eauto; lia.
Qed.

Lemma func_ok_mono f n n' : func_ok n f -> n <= n' -> func_ok n' f.
Proof.
  intros (H1 & H2 & H3 & H4 & H5) Hn. repeat split; auto; [|eapply below_mono; eauto].
  eapply Forall_impl; [|exact H2]. cbn. intros. lia.
Qed.

Lemma reads_rename m i : reads (rename m i) = map (lookup m) (reads i).
Proof. destruct i; reflexivity. Qed.
Lemma shape_rename m i : call_shape i -> call_shape (rename m i).
Proof. destruct i; cbn; auto. destruct c; auto. now rewrite map_length. Qed.

Lemma clone_nesting c : forall m n, nesting (fst (clone m n c)) = nesting c.
Proof.
  induction c as [v|i r k IH|x t IHt e IHe r k IHk|cv caps ps b IHb r k IHk]; intros m n; cbn [clone].
  - reflexivity.
  - specialize (IH ((r, n) :: m) (S n)). destruct (clone _ (S n) k). exact IH.
  - specialize (IHt m n). destruct (clone m n t) as [t' n1]. specialize (IHe m n1). destruct (clone m n1 e) as [e' n2].
    specialize (IHk ((r, n2) :: m) (S n2)). destruct (clone _ (S n2) k). cbn [fst snd nesting] in *. congruence.
  - cbv zeta. specialize (IHb (map_values (combine ps (seq n (List.length ps))) m) (n + List.length ps)).
    destruct (clone _ (n + List.length ps) b) as [b' n1]. specialize (IHk ((r, n1) :: m) (S n1)).
    destruct (clone _ (S n1) k). cbn [fst snd nesting] in *. congruence.
Qed.

Lemma keep_lookup n m (ps sc : list nat) : (forall p, In p ps -> ~ In p sc) ->
  let m1 := map_values (combine ps (seq n (List.length ps))) m in
  (forall v, In v ps -> exists j, nth_error ps j = Some v /\ j < List.length ps /\ lookup m1 v = n + j)
  /\ (forall v, In v sc -> lookup m1 v = lookup m v).
Proof.
  intros Hd m1.
  assert (Hlen : List.length ps = List.length (seq n (List.length ps))) by now rewrite seq_length.
  split.
  - intros v Hv. destruct (lookup_pairs_in ps (seq n (List.length ps)) m v Hlen Hv) as (j & Hj & Hj').
    assert (j < List.length ps) by (apply nth_error_Some; congruence).
    exists j. repeat split; auto. rewrite nth_error_seq in Hj' by assumption. injection Hj' as ->. reflexivity.
  - intros v Hv. apply lookup_pairs_out; auto. intros Hp. now apply (Hd v).
Qed.

Lemma keep_evr c ev ev' sc m n ps : frame ev ev' sc (lookup m) n -> NoDup ps -> (forall p, In p ps -> ~ In p sc) ->
  let ps' := seq n (List.length ps) in
  evr (lam_ev c ev ps) (lam_ev c ev' ps') (ps ++ sc) (lookup (map_values (combine ps ps') m)) (n + List.length ps).
Proof.
  intros (F1 & F2 & F3) Hnd Hd ps'. destruct (keep_lookup n m ps sc Hd) as [In1 Out1]. fold ps' in In1, Out1.
  unfold evr, lam_ev. destruct c as [cv|].
  - destruct (takes_evidence cv) eqn:Et; [|exact I].
    destruct ps as [|p l] eqn:Ep; [exact I|]. split; [now left|].
    change (Some n = Some (lookup (map_values (combine (p :: l) ps') m) p)). f_equal.
    destruct (In1 p) as (j & Hj & _ & Ej); [now left|].
    assert (j = 0). { destruct j as [|j]; [reflexivity|]. cbn in Hj. apply nth_error_In in Hj. inversion Hnd; contradiction. }
    subst j. rewrite Ej. lia.
  - unfold evr in F3. destruct ev as [e|].
    + destruct F3 as [F3 ->]. split; [apply in_or_app; now right|]. now rewrite Out1.
    + destruct ev' as [a|]; [|exact I]. destruct F3 as [F3 F4]. split; [lia|]. rewrite map_app, in_app_iff.
      intros [Hm|Hm]; apply in_map_iff in Hm as (v & Ev & Hi).
      * destruct (In1 v Hi) as (j & _ & _ & Ej). lia.
      * rewrite Out1 in Ev by assumption. apply F4. apply in_map_iff. eauto.
Qed.

Lemma clone_ok c : forall ev ev' sc sc' m n, scoped ev sc c -> frame ev ev' sc (lookup m) n ->
  incl (map (lookup m) sc) sc' -> (forall v, In v sc' -> v < n) ->
  scoped ev' sc' (fst (clone m n c)) /\ below (snd (clone m n c)) (fst (clone m n c)).
Proof.
  induction c as [v|i r k IH|x t IHt e IHe r k IHk|cv caps ps b IHb r k IHk];
    intros ev ev' sc sc' m n Hs Hf Hi Hlt; cbn [clone].
  - cbn. split; [apply Hi; now apply in_map|]. now apply Hf.
  - destruct Hs as (Hr & Hc & Hnr & Hs).
    pose proof (clone_grows k ((r, n) :: m) (S n)) as G.
    destruct (IH ev ev' (r :: sc) (n :: sc') ((r, n) :: m) (S n)) as [I1 I2]; auto.
    + now apply frame_extend.
    + cbn [map]. rewrite lookup_same, map_lookup_diff by assumption. intros v [<-|Hv]; [now left|right; auto].
    + intros v [<-|Hv]; [lia|]. specialize (Hlt v Hv). lia.
    + destruct (clone ((r, n) :: m) (S n) k) as [k' n1]. cbn [fst snd] in *.
      assert (Hrd : incl (reads (rename m i)) sc').
      { rewrite reads_rename. intros v Hv. apply Hi. apply in_map_iff in Hv as (u & <- & Hu). apply in_map. auto. }
      split.
      * cbn. repeat split; auto; [now apply shape_rename|]. intros Hn. apply Hlt in Hn. lia.
      * cbn. repeat split; [|lia|assumption]. apply Forall_forall. intros v Hv. apply Hrd, Hlt in Hv. lia.
  - destruct Hs as (Hx & Ht & He & Hr & Hk).
    pose proof (clone_grows t m n) as G1. destruct (IHt ev ev' sc sc' m n) as [T1 T2]; auto.
    destruct (clone m n t) as [t' n1]. cbn [fst snd] in *.
    pose proof (frame_weaken _ _ _ _ _ n1 Hf G1) as Hf1.
    pose proof (clone_grows e m n1) as G2.
    destruct (IHe ev ev' sc sc' m n1) as [E1 E2]; auto. { intros v Hv. specialize (Hlt v Hv). lia. }
    destruct (clone m n1 e) as [e' n2]. cbn [fst snd] in *.
    pose proof (frame_weaken _ _ _ _ _ n2 Hf1 G2) as Hf2.
    pose proof (clone_grows k ((r, n2) :: m) (S n2)) as G3.
    destruct (IHk ev ev' (r :: sc) (n2 :: sc') ((r, n2) :: m) (S n2)) as [K1 K2]; auto.
    + now apply frame_extend.
    + cbn [map]. rewrite lookup_same, map_lookup_diff by assumption. intros v [<-|Hv]; [now left|right; auto].
    + intros v [<-|Hv]; [lia|]. specialize (Hlt v Hv). lia.
    + destruct (clone ((r, n2) :: m) (S n2) k) as [k' n3]. cbn [fst snd] in *.
      assert (Hx' : In (lookup m x) sc') by (apply Hi; now apply in_map).
      split.
      * cbn. repeat split; auto. intros Hn. apply Hlt in Hn. lia.
      * apply Hlt in Hx'. cbn. repeat split; try lia; auto; (eapply below_mono; [eassumption|lia]).
  - destruct Hs as (Hca & Hnd & Hd & Hh & Hsb & Hr & Hk). cbv zeta.
    destruct (inherited_frame cv caps ev ev' sc (lookup m) n Hf Hca) as [Hi1 Hf1].
    set (ps' := seq n (List.length ps)) in *. set (sc1 := caps ++ olist (inherited cv caps ev)) in *.
    assert (Hd1 : forall p, In p ps -> ~ In p sc1) by (intros p Hp Hq; apply (Hd p Hp); auto).
    destruct (keep_lookup n m ps sc1 Hd1) as [In1 Out1]. fold ps' in In1, Out1.
    set (ev1' := inherited cv (map (lookup m) caps) ev') in *.
    assert (Hev1 : forall a, In a (olist ev1') -> a < n).
    { intros a Ha. destruct ev1' as [z|] eqn:Ez; [|destruct Ha]. destruct Ha as [<-|[]].
      destruct Hf1 as (F1 & _ & F3). unfold evr in F3. destruct (inherited cv caps ev) as [e|].
      - destruct F3 as [F3 E]. injection E as ->. auto.
      - apply F3. }
    pose proof (clone_grows b (map_values (combine ps ps') m) (n + List.length ps)) as G.
    destruct (IHb (lam_ev cv (inherited cv caps ev) ps) (lam_ev cv ev1' ps') (ps ++ sc1)
       (ps' ++ map (lookup m) caps ++ olist ev1') (map_values (combine ps ps') m) (n + List.length ps)) as [B1 B2].
    + exact Hsb.
    + apply (keep_frame (inherited cv caps ev) ev1'); auto. now apply keep_evr.
    + rewrite map_app. intros v Hv. apply in_app_or in Hv as [Hv|Hv]; apply in_map_iff in Hv as (u & <- & Hu).
      * apply in_or_app. left. destruct (In1 u Hu) as (j & _ & Hj & ->). unfold ps'. apply in_seq. lia.
      * apply in_or_app. right. rewrite Out1 by assumption. unfold sc1 in Hu. apply in_app_or in Hu as [Hu|Hu].
        -- apply in_or_app. left. now apply in_map.
        -- apply in_or_app. right. destruct (inherited cv caps ev) as [e|] eqn:Ee; [|destruct Hu]. destruct Hu as [<-|[]].
           destruct Hf1 as (_ & _ & F3). cbn in F3. destruct F3 as [_ E]. rewrite E. now left.
    + intros v Hv. apply in_app_or in Hv as [Hv|Hv]; [unfold ps' in Hv; apply in_seq in Hv; lia|].
      apply in_app_or in Hv as [Hv|Hv]; [|apply Hev1 in Hv; lia].
      assert (v < n); [|lia]. apply Hlt, Hi. apply in_map_iff in Hv as (u & <- & Hu). apply in_map. auto.
    + destruct (clone (map_values (combine ps ps') m) (n + List.length ps) b) as [b' n1]. cbn [fst snd] in *.
      assert (Hf2 : frame ev ev' sc (lookup m) n1) by (apply (frame_weaken _ _ _ _ _ _ Hf); lia).
      pose proof (clone_grows k ((r, n1) :: m) (S n1)) as G3.
      destruct (IHk ev ev' (r :: sc) (n1 :: sc') ((r, n1) :: m) (S n1)) as [K1 K2]; auto.
      * now apply frame_extend.
      * cbn [map]. rewrite lookup_same, map_lookup_diff by assumption. intros v [<-|Hv]; [now left|right; auto].
      * intros v [<-|Hv]; [lia|]. specialize (Hlt v Hv). lia.
      * destruct (clone ((r, n1) :: m) (S n1) k) as [k' n2]. cbn [fst snd] in *.
        assert (Hcaps : incl (map (lookup m) caps) sc').
        { intros v Hv. apply Hi. apply in_map_iff in Hv as (u & <- & Hu). apply in_map. auto. }
        split.
        -- cbn. repeat split; auto.
           ++ apply seq_NoDup.
           ++ intros p Hp Hq. unfold ps' in Hp. apply in_seq in Hp. apply Hlt in Hq. lia.
           ++ destruct cv; [|exact I]. unfold ps'. now rewrite seq_length.
           ++ intros Hn. apply Hlt in Hn. lia.
        -- cbn. repeat split; auto; try lia.
           ++ apply Forall_forall. intros v Hv. apply Hcaps, Hlt in Hv. lia.
           ++ apply Forall_forall. intros v Hv. unfold ps' in Hv. apply in_seq in Hv. lia.
           ++ eapply below_mono; [eassumption|lia].
Qed.

(** ** Lifted functions are well formed *)

Lemma extract_ok env k N ev : forall gets i sc, In env sc -> NoDup gets -> (forall g, In g gets -> ~ In g sc) ->
  env < N -> (forall g, In g gets -> g < N) ->
  scoped ev (rev gets ++ sc) k -> below N k -> scoped ev sc (extract env i gets k) /\ below N (extract env i gets k).
Proof.
  induction gets as [|g gets IH]; intros i sc He Hnd Hd HN Hg Hs Hb; [auto|].
  cbn [extract]. inversion Hnd; subst.
  destruct (IH (S i) (g :: sc)) as [I1 I2]; auto.
  - now right.
  - intros g' Hg' [<-|Hi]; [contradiction|]. apply (Hd g'); auto. now right.
  - intros g' Hg'. apply Hg. now right.
  - cbn in Hs. rewrite <- app_assoc in Hs. exact Hs.
  - split; cbn.
    + repeat split; auto. intros v [<-|[]]. assumption. apply Hd. now left.
    + repeat split; auto. apply Hg. now left.
Qed.

Lemma extract_nesting env k : forall gets i, nesting (extract env i gets k) = nesting k.
Proof. induction gets as [|g gets IH]; intros i; cbn; auto. Qed.

Lemma build_lifted_ok name c ev0 caps ps b n ev : ev = inherited c caps ev0 -> NoDup ps ->
  (forall p, In p ps -> ~ In p (caps ++ olist ev)) -> hid c <= List.length ps ->
  scoped (lam_ev c ev ps) (ps ++ caps ++ olist ev) b ->
  let gn := build_lifted name c ev0 caps ps b n in
  func_ok (snd gn) (fst gn) /\ nesting (f_body (fst gn)) = nesting b.
Proof.
  intros Eev Hnd Hd Hh Hs gn. unfold gn. rewrite build_lifted_eq by assumption. rewrite <- Eev.
  assert (Hev : match ev with Some e => c = None /\ ~ In e caps | None => True end).
  { subst ev. unfold inherited. destruct c; [exact I|]. destruct ev0 as [e|]; [|exact I].
    destruct (existsb (Nat.eqb e) caps) eqn:Ee; [exact I|]. split; [reflexivity|]. intros Hi. apply existsb_mem in Hi. congruence. }
  pose proof (lift_frame c ev caps ps n Hnd Hd Hev Hh) as Hf.
  set (first := match c with None => true | Some c => takes_evidence c end) in *.
  set (n1 := n + (List.length ps + 1 + lg c)).
  set (gets := match caps with [] => [] | _ => n1 :: seq (S n1) (List.length caps) end).
  assert (Hnext : lift_next c caps ps n = n1 + List.length gets).
  { unfold lift_next, gets. fold n1. destruct caps; cbn [List.length]; [lia|]. rewrite seq_length. cbn. lia. }
  assert (Hmap : incl (map (lookup (lift_map c ev caps ps n)) (ps ++ caps ++ olist ev)) (rev gets ++ lift_args c ps n)).
  { intros v Hv. apply in_map_iff in Hv as (u & <- & Hu). apply in_app_or in Hu as [Hu|Hu]; [|apply in_app_or in Hu as [Hu|Hu]].
    - destruct (lift_map_param c ev caps ps n Hd u Hu) as (j & _ & Hj & ->). apply in_or_app. right. unfold lift_args. apply in_seq.
      pose proof (pos_lt c j _ Hj). lia.
    - destruct (lift_map_cap c ev caps ps n u Hu) as (j & _ & Hj & ->). apply in_or_app. left. rewrite <- in_rev. unfold gets.
      fold n1. destruct caps as [|a l]; [destruct Hu|]. right. apply in_seq. lia.
    - destruct ev as [e|]; [|destruct Hu]. destruct Hu as [<-|[]]. rewrite (lift_map_ev c (Some e) caps ps n Hev e eq_refl).
      apply in_or_app. right. unfold lift_args. apply in_seq. lia. }
  assert (Hlt : forall v, In v (rev gets ++ lift_args c ps n) -> v < lift_next c caps ps n).
  { intros v Hv. rewrite Hnext. apply in_app_or in Hv as [Hv|Hv].
    - rewrite <- in_rev in Hv. unfold gets in *. destruct caps as [|a l]; [destruct Hv|]. cbn [List.length]. rewrite seq_length.
      destruct Hv as [<-|Hv]; [lia|]. apply in_seq in Hv. cbn [List.length] in Hv. lia.
    - unfold lift_args in Hv. apply in_seq in Hv. lia. }
  destruct (clone_ok b _ _ _ _ _ _ Hs Hf Hmap Hlt) as [C1 C2].
  pose proof (clone_nesting b (lift_map c ev caps ps n) (lift_next c caps ps n)) as Hn.
  pose proof (clone_grows b (lift_map c ev caps ps n) (lift_next c caps ps n)) as G.
  destruct (clone (lift_map c ev caps ps n) (lift_next c caps ps n) b) as [b' n2]. cbn [fst snd] in *.
  assert (Hbody : scoped (if first then Some n else None) (lift_args c ps n) (lift_head c caps ps n b') /\ below n2 (lift_head c caps ps n b')
     /\ nesting (lift_head c caps ps n b') = nesting b').
  { unfold lift_head. cbv zeta. fold n1. unfold gets in *. destruct caps as [|a l] eqn:Ecaps; [cbn in C1; auto|]. rewrite <- Ecaps in *.
    cbn [List.length] in Hnext. rewrite seq_length in Hnext.
    destruct (extract_ok n1 b' n2 (if first then Some n else None) (seq (S n1) (List.length caps)) 0 (n1 :: lift_args c ps n)) as [X1 X2].
    - now left.
    - apply seq_NoDup.
    - intros g Hg [<-|Hi]; apply in_seq in Hg; [lia|]. unfold lift_args in Hi. apply in_seq in Hi. lia.
    - lia.
    - intros g Hg. apply in_seq in Hg. lia.
    - cbn [rev] in C1. rewrite <- app_assoc in C1. exact C1.
    - assumption.
    - pose proof (env_pos c _ Hh) as He.
      split; [|split; [|cbn; apply extract_nesting]].
      + cbn. repeat split; auto.
        * intros v [<-|[]]. unfold lift_args. apply in_seq. lia.
        * unfold lift_args. rewrite in_seq. lia.
      + cbn. repeat split; auto; [|lia]. constructor; [lia|constructor]. }
  destruct Hbody as (B1 & B2 & B3).
  split; [|cbn; rewrite B3; exact Hn].
  repeat split; cbn [f_params f_ev f_body].
  - apply seq_NoDup.
  - apply Forall_forall. intros v Hv. unfold lift_args in Hv. apply in_seq in Hv. lia.
  - intros _ E. apply (f_equal (@List.length nat)) in E. unfold lift_args in E. rewrite seq_length in E. cbn in E. lia.
  - assumption.
  - replace (evidence_name _) with (if first then Some n else None); [assumption|].
    unfold evidence_name. cbn [f_ev f_params]. destruct first; [|reflexivity]. unfold lift_args.
    replace (List.length ps + 1 + lg c) with (S (List.length ps + lg c)) by lia. reflexivity.
Qed.

(** ** Lifting keeps modules well formed *)

Definition new_ok (B : nat) (st : state) : Prop :=
  Forall (fun h => func_ok (s_next st) h /\ nesting (f_body h) < B) (s_new st).
Definition claims (t : counters) (names : list string) : Prop :=
  forall p c, In (lifted_name p c) names -> c < counter t p.
Definition names_ok (names : list string) (st : state) : Prop :=
  NoDup (names ++ map f_name (s_new st)) /\ claims (s_counters st) (names ++ map f_name (s_new st)).

Lemma new_ok_mono B st n : new_ok B st -> s_next st <= n -> new_ok B (mkState (s_counters st) n (s_new st)).
Proof.
  unfold new_ok. intros H Hn. eapply Forall_impl; [|exact H]. cbn. intros h [H1 H2]. split; [|assumption]. eapply func_ok_mono; eauto.
Qed.

Lemma lift_ok parent B names n0 c : forall ev sc sc' st, scoped ev sc c -> below n0 c -> (forall e, ev = Some e -> In e sc) ->
  incl sc sc' -> (forall v, In v sc' -> In v sc \/ n0 <= v) -> (forall v, In v sc' -> v < s_next st) -> n0 <= s_next st ->
  nesting c <= B -> new_ok B st -> names_ok names st ->
  let r := lift parent ev c st in
  scoped ev sc' (fst r) /\ below (s_next (snd r)) (fst r) /\ lambda_free (fst r) = true /\ new_ok B (snd r) /\ names_ok names (snd r).
Proof.
  induction c as [v|i r k IH|x t IHt e IHe r k IHk|cv caps ps b IHb r k IHk];
    intros ev sc sc' st Hs Hb Hev Hi Hnew Hlt Hn HB Hok Hnm; cbn [lift].
  - cbn in *. repeat split; auto; try apply Hnm.
  - destruct Hs as (Hr & Hc & Hnr & Hs). destruct Hb as (Hbr & Hrn & Hb).
    pose proof (lift_grows parent ev k st) as G.
    destruct (IH ev (r :: sc) (r :: sc') st) as (I1 & I2 & I3 & I4 & I5); auto.
    + intros e E. right. auto.
    + intros v [<-|Hv]; [now left|right; auto].
    + intros v [<-|Hv]; [left; now left|]. destruct (Hnew v Hv); [left; now right|now right].
    + intros v [<-|Hv]; [lia|auto].
    + destruct (lift parent ev k st) as [k' st1]. cbn [fst snd] in *. split; [|split; [|split; [|split]]]; auto.
      * cbn. repeat split; auto; [intros v Hv; auto|]. intros Hin. destruct (Hnew r Hin); [contradiction|lia].
      * cbn. repeat split; auto; [|lia]. eapply Forall_impl; [|exact Hbr]. cbn. intros. lia.
  - destruct Hs as (Hx & Ht & He & Hr & Hk). destruct Hb as (Hbx & Hbt & Hbe & Hrn & Hbk). cbn [nesting] in HB.
    pose proof (lift_grows parent ev t st) as G1.
    destruct (IHt ev sc sc' st) as (T1 & T2 & T3 & T4 & T5); auto; [lia|].
    destruct (lift parent ev t st) as [t' st1]. cbn [fst snd] in *.
    pose proof (lift_grows parent ev e st1) as G2.
    destruct (IHe ev sc sc' st1) as (E1 & E2 & E3 & E4 & E5); auto; [intros v Hv; specialize (Hlt v Hv); lia|lia|lia|].
    destruct (lift parent ev e st1) as [e' st2]. cbn [fst snd] in *.
    pose proof (lift_grows parent ev k st2) as G3.
    destruct (IHk ev (r :: sc) (r :: sc') st2) as (K1 & K2 & K3 & K4 & K5); auto.
    + intros e0 E. right. auto.
    + intros v [<-|Hv]; [now left|right; auto].
    + intros v [<-|Hv]; [left; now left|]. destruct (Hnew v Hv); [left; now right|now right].
    + intros v [<-|Hv]; [lia|]. specialize (Hlt v Hv). lia.
    + lia.
    + lia.
    + destruct (lift parent ev k st2) as [k' st3]. cbn [fst snd] in *. split; [|split; [|split; [|split]]]; auto.
      * cbn. repeat split; auto. intros Hin. destruct (Hnew r Hin); [contradiction|lia].
      * cbn. repeat split; auto; try lia; (eapply below_mono; [eassumption|lia]).
      * cbn. now rewrite T3, E3, K3.
  - destruct Hs as (Hca & Hnd & Hd & Hh & Hsb & Hr & Hk). destruct Hb as (Hbc & Hbp & Hbb & Hrn & Hbk). cbn [nesting] in HB.
    apply scoped_hid in Hh. rewrite (hid_lowerable _ _ Hh). cbv zeta.
    set (name := lifted_name parent (counter (s_counters st) parent)).
    assert (Hd1 : forall p, In p ps -> ~ In p (caps ++ olist (inherited cv caps ev))).
    { intros p Hp Hq. apply in_app_or in Hq as [Hq|Hq]; [apply (Hd p Hp); auto|].
      apply (Hd p Hp). apply Hev. unfold inherited in Hq. destruct cv; [destruct Hq|]. destruct ev as [e|]; [|destruct Hq].
      destruct (existsb (Nat.eqb e) caps); [destruct Hq|]. destruct Hq as [<-|[]]. reflexivity. }
    destruct (build_lifted_ok name cv ev caps ps b (s_next st) _ eq_refl Hnd Hd1 Hh Hsb) as [Hg1 Hg2].
    pose proof (build_lifted_name name cv ev caps ps b (s_next st)) as Hname.
    pose proof (build_lifted_grows name cv ev caps ps b (s_next st)) as G.
    destruct (build_lifted name cv ev caps ps b (s_next st)) as [g n1]. cbn [fst snd] in *.
    match goal with |- context [lift parent ev k ?s] => set (st1 := s) end.
    assert (Hnew1 : new_ok B st1).
    { unfold new_ok, st1. cbn [s_new s_next]. apply Forall_app. split.
      - apply (new_ok_mono B st (S n1) Hok). lia.
      - constructor; [|constructor]. split; [apply (func_ok_mono _ n1); auto|lia]. }
    assert (Hfresh : ~ In name (names ++ map f_name (s_new st))).
    { destruct Hnm as [_ Hcl]. intros Hin. apply Hcl in Hin. lia. }
    assert (Hnm1 : names_ok names st1).
    { destruct Hnm as [N1 N2]. unfold names_ok, st1. cbn [s_new s_counters]. rewrite map_app, app_assoc. cbn [map]. rewrite Hname. split.
      - apply nodup_app_intro; auto; [constructor; [intros []|constructor]|]. intros y Hy [<-|[]]. contradiction.
      - intros p q Hin. cbn [counter]. apply in_app_or in Hin as [Hin|[Hin|[]]].
        + specialize (N2 p q Hin). destruct (String.eqb parent p) eqn:E; [|assumption]. apply String.eqb_eq in E. subst. lia.
        + unfold name in Hin. apply lifted_name_inj in Hin as [-> <-]. rewrite String.eqb_refl. lia. }
    pose proof (lift_grows parent ev k st1) as G3.
    destruct (IHk ev (r :: sc) (r :: n1 :: sc') st1) as (K1 & K2 & K3 & K4 & K5); auto.
    + intros e0 E. right. auto.
    + intros v [<-|Hv]; [now left|right; right; auto].
    + intros v [<-|[<-|Hv]]; [left; now left|right; lia|]. destruct (Hnew v Hv); [left; now right|now right].
    + intros v [<-|[<-|Hv]]; unfold st1; cbn [s_next]; [lia|lia|]. specialize (Hlt v Hv). lia.
    + unfold st1. cbn [s_next]. lia.
    + lia.
    + destruct (lift parent ev k st1) as [k' st2]. cbn [fst snd] in *.
      assert (Hsn : S n1 <= s_next st2) by exact G3.
      split; [|split; [|split; [|split]]]; auto.
      * cbn [scoped].
        assert (Hrd : reads (match caps with [] => INull | _ => IData KEnv caps end) = caps) by (destruct caps; reflexivity).
        rewrite Hrd. repeat split; auto.
        -- intros v Hv. auto.
        -- destruct caps; exact I.
        -- intros Hin. apply Hlt in Hin. lia.
        -- intros v [<-|[]]. now left.
        -- intros [E|Hin]; [lia|]. destruct (Hnew r Hin); [contradiction|lia].
      * cbn [below].
        assert (Hrd : reads (match caps with [] => INull | _ => IData KEnv caps end) = caps) by (destruct caps; reflexivity).
        rewrite Hrd. repeat split; auto; try lia.
        -- eapply Forall_impl; [|exact Hbc]. cbn. intros. lia.
        -- repeat constructor. lia.
Qed.
