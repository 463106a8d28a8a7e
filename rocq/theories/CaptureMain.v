(** Captures: scopes, sorting, and the main lemmas. *)
From Coq Require Import List NArith Bool Lia Permutation Sorted.
From Verif Require Export CaptureProofs.
From Verif Require Import NormProofs.
Import ListNotations.
Local Open Scope N_scope.

(** ** Meaning *)

Lemma den_free S (L : lawful S) e G rho rho' : scoped G e -> (forall x, free x e -> In x G -> veq S (rho x) (rho' x)) ->
  ceq S (den S e rho) (den S e rho').
Proof.
  intros Sc A. set (G' := filter (fun x => mem x (collect_free_vars e)) G).
  apply (den_self S L e G').
  - apply (scoped_less e G G' Sc).
    + intros x I. apply filter_In in I. tauto.
    + intros x I M. apply filter_In. split; [exact I | now apply mem_in].
  - intros x I. apply filter_In in I as [I M]. apply mem_in in M. apply A; [|exact I]. eapply mentioned_free; eauto.
Qed.

Section Values.
  Context {W : Type}.
  Implicit Types (l : list (N * W)) (ss : list (list (N * W))).
  Let below (a b : N * W) := fst a <= fst b.

  Lemma put_perm e l : Permutation (put W e l) (e :: l).
  Proof.
    induction l as [|d l IH]; cbn; [reflexivity|]. destruct (fst e <=? fst d); [reflexivity|].
    rewrite IH. apply perm_swap.
  Qed.
  Lemma sort_perm l : Permutation (sort_by_id W l) l.
  Proof. induction l as [|e l IH]; cbn; [reflexivity|]. rewrite put_perm. now constructor. Qed.
  Lemma put_sorted e l : StronglySorted below l -> StronglySorted below (put W e l).
  Proof.
    induction 1 as [|d l H IH F]; cbn; [repeat constructor|]. destruct (N.leb_spec (fst e) (fst d)) as [E|E].
    - constructor; [now constructor|]. constructor; [exact E|]. eapply Forall_impl; [|exact F]. unfold below. intros a. lia.
    - constructor; [exact IH|]. rewrite Forall_forall in *. intros a I. apply (Permutation_in _ (put_perm e l)) in I.
      destruct I as [<-|I]; [unfold below; lia | auto].
  Qed.
  Lemma sort_sorted l : StronglySorted below (sort_by_id W l).
  Proof. induction l; cbn; [constructor | now apply put_sorted]. Qed.

  Lemma sorted_same l l' : StronglySorted below l -> StronglySorted below l' -> NoDup (map fst l) -> Permutation l l' -> l = l'.
  Proof.
    intros H. revert l'. induction H as [|a l H IH F]; intros l' H' D P.
    - apply Permutation_nil in P. congruence.
    - destruct H' as [|b l' H' F']; [apply Permutation_sym, Permutation_nil in P; discriminate|].
      cbn in D. inversion D as [|? ? Na D']; subst.
      assert (a = b) as ->.
      { assert (Ia : In a (b :: l')) by (eapply Permutation_in; [exact P | left; reflexivity]).
        assert (Ib : In b (a :: l)) by (eapply Permutation_in; [apply Permutation_sym, P | left; reflexivity]).
        destruct Ia as [->|Ia]; [reflexivity|]. destruct Ib as [->|Ib]; [reflexivity|]. exfalso. apply Na.
        rewrite Forall_forall in F, F'. specialize (F _ Ib). specialize (F' _ Ia). unfold below in F, F'.
        replace (fst a) with (fst b) by lia. now apply in_map. }
      f_equal. apply IH; auto. eapply Permutation_cons_inv; eauto.
  Qed.

  Lemma all_bindings_in ss e : In e (all_bindings W ss) <-> In e (concat ss).
  Proof. unfold all_bindings. split; apply Permutation_in; [|apply Permutation_sym]; apply sort_perm. Qed.

  Lemma concat_perm ss ss' : Forall2 (@Permutation (N * W)) ss ss' -> Permutation (concat ss) (concat ss').
  Proof. induction 1; cbn; [reflexivity|]. now apply Permutation_app. Qed.
  Lemma all_bindings_perm ss ss' : Forall2 (@Permutation (N * W)) ss ss' -> NoDup (ids W ss) -> all_bindings W ss = all_bindings W ss'.
  Proof.
    intros P D. unfold all_bindings. apply sorted_same; try apply sort_sorted.
    - eapply Permutation_NoDup; [|exact D]. unfold ids. apply Permutation_map, Permutation_sym, sort_perm.
    - rewrite !sort_perm. now apply concat_perm.
  Qed.

  Lemma below_strict l : StronglySorted below l -> NoDup (map fst l) -> StronglySorted (fun a b : N * W => fst a < fst b) l.
  Proof.
    induction 1 as [|a l H IH F]; cbn; intros D; [constructor|]. inversion D as [|? ? Na D']; subst. constructor; [auto|].
    rewrite Forall_forall in *. intros b I. specialize (F b I). unfold below in F.
    assert (fst b <> fst a) by (intros E; apply Na; rewrite <- E; now apply in_map). lia.
  Qed.
  Lemma filter_sorted f l : StronglySorted (fun a b : N * W => fst a < fst b) l -> StronglySorted (fun a b : N * W => fst a < fst b) (filter f l).
  Proof.
    induction 1 as [|a l H IH F]; cbn; [constructor|]. destruct (f a); [|exact IH]. constructor; [exact IH|].
    rewrite Forall_forall in *. intros b I. apply filter_In in I. apply F. tauto.
  Qed.
  Lemma all_bindings_sorted f ss : NoDup (ids W ss) -> StronglySorted (fun a b : N * W => fst a < fst b) (filter f (all_bindings W ss)).
  Proof.
    intros D. apply filter_sorted, below_strict; [apply sort_sorted|].
    eapply Permutation_NoDup; [|exact D]. unfold ids. apply Permutation_map, Permutation_sym, sort_perm.
  Qed.

  (** *** Scopes *)

  Lemma entry_in (sc : list (N * W)) x : NoDup (map fst sc) -> forall v, entry W sc x = Some v <-> In (x, v) sc.
  Proof.
    unfold entry. induction sc as [|[y w] sc IH]; cbn; intros D v; [split; [discriminate | tauto]|].
    inversion D as [|? ? Ny D']; subst. destruct (N.eqb_spec y x) as [->|E].
    - cbn. split; [intros H; left; congruence|]. intros [H|H]; [congruence|]. destruct Ny. now apply (in_map fst) in H.
    - rewrite IH by exact D'. split; [auto|]. intros [H|H]; [congruence | auto].
  Qed.
  Lemma entry_out (sc : list (N * W)) x : entry W sc x = None <-> ~ In x (map fst sc).
  Proof.
    unfold entry. induction sc as [|[y w] sc IH]; cbn; [tauto|]. destruct (N.eqb_spec y x) as [->|E]; [split; [discriminate | tauto]|].
    rewrite IH. tauto.
  Qed.
  Lemma lookup_means ss x v : Forall (fun sc => NoDup (map fst sc)) ss -> lookup W ss x = Some v <-> means W ss x v.
  Proof.
    induction 1 as [|sc ss D F IH]; cbn; [split; [discriminate | intros H; inversion H]|].
    destruct (entry W sc x) as [w|] eqn:E.
    - assert (I : In (x, w) sc) by (now apply entry_in). split.
      + intros [= <-]. now constructor.
      + intros H. inversion H as [? ? ? ? J|? ? ? ? N J]; subst; [|destruct N; now apply (in_map fst) in I].
        f_equal. apply (entry_in sc x D) in J. congruence.
    - assert (N : ~ In x (map fst sc)) by (now apply entry_out). rewrite IH. split.
      + intros H. now apply means_outer.
      + intros H. inversion H as [? ? ? ? J|? ? ? ? N' J]; subst; [destruct N; now apply (in_map fst) in J | exact J].
  Qed.
  Lemma means_in ss x v : means W ss x v -> In (x, v) (concat ss).
  Proof. induction 1; cbn; apply in_app_iff; auto. Qed.
  Lemma means_some ss x : In x (ids W ss) -> exists v, means W ss x v.
  Proof.
    unfold ids. induction ss as [|sc ss IH]; cbn; [tauto|]. rewrite map_app, in_app_iff. intros I.
    destruct (in_dec N.eq_dec x (map fst sc)) as [J|J].
    - apply in_map_iff in J as ([y v] & <- & J). exists v. now constructor.
    - destruct I as [I|I]; [tauto|]. destruct (IH I) as [v H]. exists v. now apply means_outer.
  Qed.

  Lemma insert_keys (sc : list (N * W)) x v : NoDup (map fst sc) -> NoDup (map fst (insert W sc x v)).
  Proof.
    intros D. cbn. constructor.
    - intros I. apply in_map_iff in I as ([y w] & E & I). apply filter_In in I as [_ I]. cbn in E, I. subst. now rewrite N.eqb_refl in I.
    - induction sc as [|[y w] sc IH]; cbn in *; [constructor|]. inversion D as [|? ? Ny D']; subst.
      destruct (y =? x); cbn; auto. constructor; auto. intros I. apply Ny. apply in_map_iff in I as (e & E & I).
      apply filter_In in I as [I _]. rewrite <- E. now apply in_map.
  Qed.
  Lemma bind_keys ss x v : Forall (fun sc => NoDup (map fst sc)) ss -> Forall (fun sc => NoDup (map fst sc)) (bind_local W ss x v).
  Proof. destruct 1; cbn [bind_local]; constructor; auto. now apply insert_keys. Qed.
  Lemma bind_means ss x v y w : ss <> [] -> means W (bind_local W ss x v) y w <-> (y = x /\ w = v) \/ (y <> x /\ means W ss y w).
  Proof.
    destruct ss as [|sc ss]; [congruence|]. intros _. cbn [bind_local].
    assert (K : forall z u, In (z, u) (filter (fun e => negb (fst e =? x)) sc) <-> In (z, u) sc /\ z <> x).
    { intros z u. rewrite filter_In. cbn. rewrite negb_true_iff, N.eqb_neq. tauto. }
    split.
    - intros H. inversion H as [? ? ? ? I|? ? ? ? N I]; subst; unfold insert in *.
      + destruct I as [I|I]; [left; split; congruence|]. apply K in I as [I E]. right. split; [exact E|]. now constructor.
      + right. cbn in N. split; [intros ->; tauto|]. apply means_outer; [|exact I]. intros J. apply N. right.
        apply in_map_iff in J as ([z u] & <- & J). apply in_map_iff. exists (z, u). split; [reflexivity|]. apply K. split; [exact J|].
        intros ->. apply N. left. reflexivity.
    - intros [[-> ->]|[E H]]; [constructor; left; reflexivity|]. inversion H as [? ? ? ? I|? ? ? ? N I]; subst.
      + constructor. right. now apply K.
      + apply means_outer; [|exact I]. unfold insert. cbn. intros [J|J]; [congruence|]. apply N.
        apply in_map_iff in J as ([z u] & <- & J). apply K in J as [J _]. now apply (in_map fst) in J.
  Qed.
End Values.

Section Captures.
  Context {W : Type}.
  Variable same : W -> W -> bool.
  Hypothesis same_ok : forall a b, same a b = true <-> a = b.
  Implicit Types (ss : list (list (N * W))).

  Lemma filter_exactly ss f uses : (forall x, In x (ids W ss) -> f x = true <-> uses x) ->
    exactly ss uses [] (filter (fun e => f (fst e)) (all_bindings W ss)).
  Proof.
    intros H. split; [|split].
    - intros x v I. apply filter_In in I as [I F]. apply all_bindings_in in I. left. split; [exact I|].
      apply H; [|exact F]. unfold ids. apply (in_map fst) in I. exact I.
    - intros x v I U. apply filter_In. split; [now apply all_bindings_in|]. apply H; [|exact U]. unfold ids. apply (in_map fst) in I. exact I.
    - intros v [].
  Qed.
  Lemma ctx_exactly ss uses extra caps v : exactly ss uses extra caps -> exactly ss uses (extra ++ optional v) (capture_ctx_value W same caps v).
  Proof.
    intros (A & B & C). destruct v as [v|]; cbn [capture_ctx_value optional]; [|rewrite app_nil_r; split; auto].
    destruct (existsb (fun c => same (snd c) v) caps) eqn:E.
    - split; [|split]; auto.
      + intros x w I. destruct (A x w I); auto. right. apply in_app_iff; auto.
      + intros w I. apply in_app_iff in I as [I|[<-|[]]]; auto. apply existsb_exists in E as ([x w] & I & E). apply same_ok in E. cbn in E. subst.
        now apply (in_map snd) in I.
    - split; [|split].
      + intros x w I. apply in_app_iff in I as [I|[I|[]]].
        * destruct (A x w I); auto. right. apply in_app_iff; auto.
        * right. apply in_app_iff. right. left. congruence.
      + intros x w I U. apply in_app_iff. auto.
      + intros w I. rewrite map_app. apply in_app_iff in I as [I|[<-|[]]]; apply in_app_iff; [left; auto | right; left; reflexivity].
  Qed.

  Lemma lambda_exactly ss owner ps b : scoped (ids W ss) (ELambda ps b) ->
    exactly ss (fun x => free x (ELambda ps b)) (optional owner) (lambda_captures W same ss owner ps b).
  Proof.
    intros Sc. unfold lambda_captures. apply (ctx_exactly ss _ []). unfold analyze_captures.
    apply (filter_exactly ss (fun x => mem x (collect_free_vars b) && negb (mem x ps))). intros x I.
    rewrite andb_true_iff, negb_true_iff, mem_in, mem_out. split.
    - intros [M N]. eapply mentioned_free; eauto.
    - intros F. inversion F; subst. split; [now apply free_mentioned | assumption].
  Qed.
  Lemma continuation_exactly ss xs outer_k owner rest v : fresh_in xs (ids W ss) -> scoped (xs ++ ids W ss) (EBlock rest v) ->
    exactly ss (fun x => free x (EBlock rest v)) (outer_k :: optional owner) (continuation_captures W same ss outer_k owner rest v).
  Proof.
    intros Fr Sc. unfold continuation_captures.
    apply (ctx_exactly ss _ [outer_k]), (ctx_exactly ss _ [] _ (Some outer_k)). unfold analyze_continuation_captures.
    apply (filter_exactly ss (fun x => mem x (collect_free_vars_in_block rest v) && negb (mem x []))). intros x I.
    rewrite andb_true_iff, mem_in. cbn [mem existsb negb]. split.
    - intros [M _]. eapply mentioned_free; [exact Sc | apply in_app_iff; auto | exact M].
    - intros F. split; [|reflexivity]. apply free_mentioned in F. exact F.
  Qed.
  Lemma handle_body_exactly ss owner b : scoped (ids W ss) b ->
    exactly ss (fun x => free x b) (optional owner) (handle_body_captures W same ss owner b).
  Proof.
    intros Sc. unfold handle_body_captures. apply (ctx_exactly ss _ []).
    apply (filter_exactly ss (fun x => mem x (collect_free_vars b))). intros x I. rewrite mem_in. split.
    - intros M. eapply mentioned_free; eauto.
    - apply free_mentioned.
  Qed.
  Lemma arms_exactly ss b hs (sel : harm expr -> bool) (P : harm expr -> Prop) : (forall h, sel h = true <-> P h) -> scoped (ids W ss) (EHandle b hs) ->
    exactly ss (fun x => exists h, In h hs /\ P h /\ free_in_arm x h) [] (filter (fun e => mem (fst e) (arm_vars (filter sel hs))) (all_bindings W ss)).
  Proof.
    intros HP Sc. apply (filter_exactly ss (fun x => mem x (arm_vars (filter sel hs)))). intros x I. rewrite mem_in. unfold arm_vars. rewrite in_flat_map.
    cbn [scoped] in Sc. destruct Sc as [_ Sh]. apply all_Forall in Sh. rewrite Forall_forall in Sh. split.
    - intros ([k e] & J & M). apply filter_In in J as [J T]. exists (mkHarm k e). split; [exact J|]. split; [now apply HP|].
      specialize (Sh _ J). cbn in Sh. destruct Sh as [Fr Se]. constructor; [intros K; exact (Fr x K I)|].
      eapply mentioned_free; [exact Se | apply in_app_iff; auto | exact M].
    - intros (h & J & T & F). destruct F as [k e N F]. exists (mkHarm k e). split; [apply filter_In; split; [exact J | now apply HP]|].
      now apply free_mentioned.
  Qed.
  Lemma effect_arm_spec h : is_effect_arm h = true <-> handles_operation h.
  Proof.
    unfold handles_operation. destruct h as [k b]. destruct k; cbn; split; try discriminate; try congruence.
    intros H. exfalso. eapply H. reflexivity.
  Qed.
  Lemma fn_arm_spec h : is_fn_arm h = true <-> handles_fn h.
  Proof.
    unfold handles_fn. destruct h as [k b]. destruct k; cbn; split; try discriminate; try (intros (? & ? & ? & ? & ?); congruence).
    intros _. repeat eexists.
  Qed.

  Lemma add_new_in caps vs : forall v, In v (add_new W same caps vs) <-> In v caps \/ In v vs.
  Proof.
    revert caps. induction vs as [|w vs IH]; cbn; intros caps v; [tauto|]. destruct (existsb (same w) caps) eqn:E; rewrite IH.
    - apply existsb_exists in E as (u & I & E). apply same_ok in E. subst u. split; [tauto|]. intros [H|[<-|H]]; auto.
    - rewrite in_app_iff. cbn. tauto.
  Qed.
  Lemma snoc_nodup (caps : list W) v : existsb (same v) caps = false -> NoDup caps -> NoDup (caps ++ [v]).
  Proof.
    intros E D. apply (Permutation_NoDup (l := v :: caps)); [apply Permutation_cons_append|]. constructor; [|exact D].
    intros I. assert (existsb (same v) caps = true) by (apply existsb_exists; exists v; split; [exact I | now apply same_ok]). congruence.
  Qed.
  Lemma add_new_nodup vs : forall caps, NoDup caps -> NoDup (add_new W same caps vs).
  Proof.
    induction vs as [|w vs IH]; cbn; intros caps D; [exact D|]. destruct (existsb (same w) caps) eqn:E; [auto|]. apply IH. now apply snoc_nodup.
  Qed.
  Lemma guard_exactly ss scrutinee k owner : NoDup (guard_captures W same ss scrutinee k owner) /\
    forall v, In v (guard_captures W same ss scrutinee k owner) <->
      (exists x, In (x, v) (concat ss)) \/ v = scrutinee \/ v = k \/ owner = Some v.
  Proof.
    unfold guard_captures. set (caps := add_new _ _ _ _).
    assert (D : NoDup caps) by (apply add_new_nodup; constructor).
    assert (I : forall v, In v caps <-> (exists x, In (x, v) (concat ss)) \/ v = scrutinee \/ v = k).
    { intros v. unfold caps. rewrite add_new_in, in_app_iff, in_map_iff. cbn. split.
      - intros [[]|[([x w] & <- & I)|[<-|[<-|[]]]]]; auto. left. exists x. now apply all_bindings_in.
      - intros [[x I]|[-> | ->]]; auto. right. left. exists (x, v). split; [reflexivity | now apply all_bindings_in]. }
    destruct owner as [o|].
    - destruct (existsb (same o) caps) eqn:E.
      + split; [exact D|]. intros v. rewrite I. split; [tauto|]. intros [H|[H|[H|H]]]; auto. injection H as ->.
        apply existsb_exists in E as (u & J & E). apply same_ok in E. subst u. now apply I.
      + split; [now apply snoc_nodup|]. intros v. rewrite in_app_iff, I. cbn. split.
        * intros [H|[H|[]]]; [tauto|]. subst. tauto.
        * intros [H|[H|[H|H]]]; auto. injection H as ->. auto.
    - split; [exact D|]. intros v. rewrite I. split; [tauto|]. intros [H|[H|[H|H]]]; auto. discriminate.
  Qed.
End Captures.

(** ** Running with nothing but the captures *)

Lemma lambda_enough S (L : lawful S) (same : V S -> V S -> bool) (ss : list (list (N * V S))) owner ps b rho rho' :
  (forall a b, same a b = true <-> a = b) ->
  scoped (ids _ ss) (ELambda ps b) -> (forall x v, In (x, v) (concat ss) -> veq S v v) ->
  (forall x v, means _ ss x v -> rho x = v) ->
  (forall x v, In (x, v) (lambda_captures _ same ss owner ps b) -> means _ ss x v -> rho' x = v) ->
  ceq S (den S (ELambda ps b) rho) (den S (ELambda ps b) rho').
Proof.
  intros Sm Sc R M M'. apply (den_free S L _ (ids _ ss)); [exact Sc|]. intros x F I.
  destruct (means_some ss x I) as [v H]. rewrite (M x v H). rewrite (M' x v); [eapply R, means_in, H | | exact H].
  apply (lambda_exactly same Sm ss owner ps b Sc); [eapply means_in, H | exact F].
Qed.
Lemma continuation_enough S (L : lawful S) (same : V S -> V S -> bool) (ss : list (list (N * V S))) xs k owner rest v rho rho' :
  (forall a b, same a b = true <-> a = b) ->
  fresh_in xs (ids _ ss) -> scoped (xs ++ ids _ ss) (EBlock rest v) -> (forall x v, In (x, v) (concat ss) -> veq S v v) ->
  (forall x, In x xs -> veq S (rho x) (rho' x)) ->
  (forall x v, means _ ss x v -> rho x = v) ->
  (forall x w, In (x, w) (continuation_captures _ same ss k owner rest v) -> means _ ss x w -> rho' x = w) ->
  ceq S (den S (EBlock rest v) rho) (den S (EBlock rest v) rho').
Proof.
  intros Sm Fr Sc R X M M'. apply (den_free S L _ (xs ++ ids _ ss)); [exact Sc|]. intros x F I.
  apply in_app_iff in I as [I|I]; [auto|].
  destruct (means_some ss x I) as [w H]. rewrite (M x w H). rewrite (M' x w); [eapply R, means_in, H | | exact H].
  apply (continuation_exactly same Sm ss xs k owner rest v Fr Sc); [eapply means_in, H | exact F].
Qed.
