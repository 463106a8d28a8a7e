(** Proofs for C56: whole files. *)
From Verif Require Export ResolveDecls.
From Coq Require Import Lia.
Local Open Scope N_scope.
Open Scope list_scope.

Section Files.
  Variables (shuffle : forall A, map_of A -> map_of A) (e : env).
  Hypothesis (AO : any_order shuffle) (EO : env_ok e).
  Lemma annotation_ok a : ann_ok e a (resolve_annotation e a).
  Proof.
    induction a as [s|segs|c IH args|]; cbn; try constructor; auto.
    destruct (upper_start s) eqn:U.
    - destruct (at_key (definitions e) s) eqn:D.
      + apply ann_named. intros _ D'. congruence.
      + destruct (at_key (use_paths e) s) as [[|a [|b path]]|] eqn:P;
          try (apply ann_named; intros _ _ path' P'; rewrite P in P'; try discriminate; injection P'; intros <-; cbn; lia).
        apply ann_imported; [apply upper_spec; exact U|exact D|exact P|cbn; lia].
    - apply ann_named. intros U'. apply upper_spec in U'. congruence.
  Qed.
  Definition decl_good (d : decl string) : Prop :=
    forall s s' y, resolve_decl shuffle e s d = (s', y) -> scopes s = [[]] -> ops s = [] -> resumes s = [] ->
    scopes s' = [[]] /\ same s s' /\ decl_binders y = range (gen s) (gen s') /\ (forall rep, incl (diags s') rep -> decl_ok e rep (mpath s) d y).
  Lemma decls_good l : Forall decl_good l ->
    forall s s' y, each (resolve_decl shuffle e) s l = (s', y) -> scopes s = [[]] -> ops s = [] -> resumes s = [] ->
    scopes s' = [[]] /\ same s s' /\ flat_map decl_binders y = range (gen s) (gen s') /\
    (forall rep, incl (diags s') rep -> Forall2 (decl_ok e rep (mpath s)) l y).
  Proof.
    induction 1 as [|x l X L IH]; intros s s' y E S O R; cbn in E.
    - injection E; intros; subst. split; [exact S|]. split; [apply same_refl|]. split; [symmetry; apply range_nil|]. intros. constructor.
    - destruct (resolve_decl shuffle e s x) as [s1 x1] eqn:E1. destruct (each (resolve_decl shuffle e) s1 l) as [s2 l1] eqn:E2. injection E; intros; subst s' y; clear E.
      destruct (X _ _ _ E1 S O R) as (S1 & F1 & B1 & K1). pose proof F1 as (R1 & O1 & M1 & L1 & _).
      destruct (IH _ _ _ E2 S1 ltac:(congruence) ltac:(congruence)) as (S2 & F2 & B2 & K2).
      split; [exact S2|]. split; [exact (same_trans _ _ _ F1 F2)|]. split.
      + cbn. rewrite B1, B2. apply range_app; [apply F1|apply F2].
      + intros rep I. constructor; [exact (K1 rep (same_incl _ _ _ F2 I))|]. rewrite <- M1. exact (K2 rep I).
  Qed.
  Lemma declarations d : decl_good d.
  Proof.
    assert (Z : forall (x : decl string) (y : decl ref), (forall s, resolve_decl shuffle e s x = (s, y)) -> decl_binders y = [] ->
      (forall rep p, decl_ok e rep p x y) -> decl_good x).
    { intros q q' E B K s s' y E' S O R. rewrite E in E'. injection E'; intros; subst.
      split; [exact S|]. split; [apply same_refl|]. split; [rewrite B; symmetry; apply range_nil|]. intros. apply K. }
    revert d. apply (decl_all decl_good).
    - intros n ps ef b s s' y E S O R. cbn [resolve_decl] in E. destruct (each bind_param (push_scope s) ps) as [s1 ps1] eqn:E1.
      set (s2 := match ef with Some l => with_ops s1 (fold_left (inject_ability shuffle e) l []) | None => s1 end) in E.
      destruct (resolve_expr e s2 b) as [s3 b1] eqn:E2. injection E; intros; subst s' y.
      assert (A0 : agree (scopes (push_scope s)) []). { intros x. cbn. rewrite S. reflexivity. }
      destruct (all_params (mpath s) [] ps _ _ _ [] (scopes s) [] E1 ltac:(split; [reflexivity|exact O]) eq_refl A0) as (top1 & sc1 & T1 & G1 & F1 & B1 & K1).
      pose proof (same_trans _ _ _ (same_push s) F1) as (R1 & O1 & M1 & L1 & d1 & D1).
      assert (H2 : here (mpath s) (injected shuffle e ef) s2). { unfold s2. destruct ef; split; cbn; congruence. }
      assert (G2 : agree (scopes s2) sc1). { unfold s2. destruct ef; exact G1. }
      assert (X2 : scopes s2 = scopes s1 /\ gen s2 = gen s1 /\ diags s2 = diags s1 /\ resumes s2 = resumes s1). { unfold s2. destruct ef; repeat split. }
      destruct X2 as (X2 & X3 & X4 & X5).
      destruct (expressions e _ _ b _ _ _ _ E2 H2 G2) as (T2 & F2 & B2 & K2). destruct F2 as (R2 & O2 & M2 & L2 & d2 & D2). destruct H2 as [H2 H2'].
      split; [cbn; rewrite T2, X2, T1; exact S|]. split.
      + unfold same. cbn. split; [congruence|]. split; [congruence|]. split; [congruence|]. split; [cbn in L1; lia|].
        exists (d1 ++ d2). rewrite D2, X4, D1. symmetry. apply app_assoc.
      + cbn. rewrite B1, B2, X3. split; [apply range_app; cbn in L1; lia|]. intros rep I.
        apply (function_ok e rep _ _ _ _ sc1 _ _ _ _ (meaning e (mpath s) (injected shuffle e ef))).
        * apply (K1 rep). intros z Zz. apply I. rewrite D2, X4. apply in_or_app. left. exact Zz.
        * apply global_means; assumption.
        * assert (hd_error (resumes s2) = None) as HN by (rewrite X5, R1, R; reflexivity). rewrite <- HN. exact (K2 rep I).
        * destruct ef as [l|]; constructor. clear. induction l as [|a l IH]; constructor; [apply annotation_ok|exact IH].
    - intros n. apply (Z _ (DExtern n)); [reflexivity..|]. constructor.
    - intros n i fs. apply (Z _ (DStruct n i fs)); [reflexivity..|]. constructor.
    - intros n i vs. apply (Z _ (DEnum n i vs)); [reflexivity..|]. constructor.
    - intros n os. apply (Z _ (DAbility n os)); [reflexivity..|]. constructor.
    - intros p a. apply (Z _ (DUse p a)); [reflexivity..|]. constructor.
    - intros n [l|] H s s' y E S O R; cbn [resolve_decl maybe] in E.
      + destruct (each (resolve_decl shuffle e) (with_path s (mpath s ++ [n])) l) as [s1 l1] eqn:E1. injection E; intros; subst s' y.
        destruct (decls_good _ H _ _ _ E1 S O R) as (S1 & (R1 & O1 & M1 & L1 & d1 & D1) & B1 & K1).
        split; [exact S1|]. split.
        * unfold same. cbn. split; [exact R1|]. split; [exact O1|]. split; [rewrite M1; cbn; apply removelast_last|]. split; [exact L1|]. exists d1. exact D1.
        * split; [exact B1|]. intros rep I. constructor. constructor. exact (K1 rep I).
      + injection E; intros; subst s' y. split; [exact S|]. split.
        * unfold same. cbn. repeat split; try lia; [apply removelast_last|]. exists []. symmetry. apply app_nil_r.
        * split; [symmetry; apply range_nil|]. intros. constructor. constructor.
  Qed.
  (** Names that are reported mean nothing. *)
  Theorem file_resolved decls out reported : resolve_with_env shuffle e decls = Some (out, reported) ->
    Forall2 (decl_ok e reported []) decls out /\
    NoDup (flat_map decl_binders out) /\ ~ In unresolved (flat_map decl_binders out).
  Proof.
    unfold resolve_with_env. destruct (each (resolve_decl shuffle e) start decls) as [s y] eqn:E.
    destruct (gen s <=? unresolved) eqn:G; [|discriminate]. intros [= -> <-]. apply N.leb_le in G.
    destruct (decls_good _ (proj2 (Forall_forall _ _) (fun d _ => declarations d)) _ _ _ E eq_refl eq_refl eq_refl) as (_ & _ & B & K).
    split; [exact (K _ (incl_refl _))|]. rewrite B. split; [apply range_nodup|]. rewrite range_in. lia.
  Qed.
End Files.

(** ** Environments have different keys *)
Lemma empty_ok : env_ok empty_env.
Proof. constructor; try constructor. intros n m []. Qed.
Lemma insert_in {A} (m : map_of A) k v : forall j w, In (j, w) (insert m k v) -> (j = k /\ w = v) \/ In (j, w) m.
Proof.
  induction m as [|[i u] m IH]; intros j w; cbn; [intros [[= <- <-]|[]]; auto|]. destruct (String.eqb_spec i k) as [->|E]; cbn.
  - intros [[= <- <-]|H]; auto.
  - intros [[= <- <-]|H]; [auto|]. destruct (IH _ _ H); auto.
Qed.
Lemma members_ok e n : env_ok e -> keys_distinct (members e n).
Proof. intros H. exact (members_distinct e H n). Qed.
Lemma set_ns_ok e ns m : env_ok e -> keys_distinct m ->
  env_ok {| definitions := definitions e; imports := imports e; namespaces := insert (namespaces e) ns m; use_paths := use_paths e |}.
Proof.
  intros [A B C D F] K. constructor; cbn; auto; [apply insert_distinct; exact C|]. intros n m' H. apply insert_in in H. destruct H as [[-> ->]|H]; eauto.
Qed.
Lemma define_ok e n b : env_ok e -> env_ok (define e n b).
Proof. intros [A B C D F]. constructor; cbn; auto. apply insert_distinct. exact A. Qed.
Lemma add_ns_ok e ns n b : env_ok e -> env_ok (add_to_namespace e ns n b).
Proof. intros H. apply set_ns_ok; [exact H|]. apply insert_distinct, members_ok, H. Qed.
Lemma add_ns_absent_ok e ns n b : env_ok e -> env_ok (add_to_namespace_if_absent e ns n b).
Proof. intros H. apply set_ns_ok; [exact H|]. apply absent_distinct, members_ok, H. Qed.
Lemma add_import_ok e n b : env_ok e -> env_ok (add_import e n b).
Proof. intros [A B C D F]. constructor; cbn; auto. apply insert_distinct. exact B. Qed.
Lemma add_import_absent_ok e n b : env_ok e -> env_ok (add_import_if_absent e n b).
Proof. intros H. unfold add_import_if_absent. destruct (at_key (definitions e) n), (at_key (imports e) n); auto. apply add_import_ok. exact H. Qed.
Lemma replace_ok e n b p : env_ok e -> env_ok (replace_import e n b p).
Proof. intros [A B C D F]. constructor; cbn; auto; apply insert_distinct; assumption. Qed.
Lemma fold_keeps {A B} (P : A -> Prop) (f : A -> B -> A) l : (forall a b, P a -> P (f a b)) -> forall a, P a -> P (fold_left f l a).
Proof. intros H. induction l as [|b l IH]; cbn; auto. Qed.
Section Built.
  Variable shuffle : forall A, map_of A -> map_of A.
  Lemma members_keep ns e m : env_ok e -> env_ok (add_members shuffle ns e m).
  Proof. intros H. apply (fold_keeps env_ok); [|exact H]. intros a b Ha. apply add_ns_ok. exact Ha. Qed.
  Lemma collect_ok {R} (d : decl R) : forall prefix e, env_ok e -> env_ok (collect_definition shuffle prefix e d).
  Proof.
    induction d as [n ps ef b|n|n i fs|n i vs|n os|p a|n b IH] using decl_all; intros prefix e H; cbn.
    - apply define_ok, H.
    - apply define_ok, H.
    - apply (fold_keeps env_ok); [|apply define_ok, define_ok, H]. intros a [f|] Ha; cbn; [apply add_ns_ok, Ha|exact Ha].
    - apply (fold_keeps env_ok); [|apply define_ok, H]. intros a v Ha. apply define_ok, add_ns_ok, Ha.
    - apply (fold_keeps env_ok); [|apply define_ok, H]. intros a v Ha. apply add_ns_ok, Ha.
    - destruct (split_last p) as [[x y]|]; [apply add_import_ok|]; exact H.
    - destruct b as [l|]; [|exact H]. apply add_import_ok. apply (fold_keeps env_ok); [|apply members_keep, H].
      intros a m Ha. apply add_ns_absent_ok, members_keep, Ha.
  Qed.
  Lemma build_ok {R} (decls : list (decl R)) : env_ok (build_env shuffle decls).
  Proof.
    unfold build_env, inject_builtin_bindings. apply add_ns_ok, add_ns_absent_ok, add_import_absent_ok. apply (fold_keeps env_ok); [|apply empty_ok].
    intros a d. apply collect_ok.
  Qed.
  Lemma merge_ok e p : env_ok e -> env_ok (merge shuffle e p).
  Proof.
    intros H. unfold merge. apply (fold_keeps env_ok).
    - intros a m Ha. apply (fold_keeps env_ok); [|exact Ha]. intros a' d Ha'. apply add_ns_absent_ok, Ha'.
    - apply (fold_keeps env_ok); [|exact H]. intros a d. apply add_import_absent_ok.
  Qed.
  Lemma uses_keep e : env_ok e -> env_ok (resolve_use_imports shuffle e).
  Proof.
    intros H. unfold resolve_use_imports. apply (fold_keeps env_ok); [|exact H]. intros a [n p] Ha. unfold resolve_use.
    destruct (split_last (snd (n, p))) as [[t f]|]; [|exact Ha]. destruct (lookup_qualified a (join f) t); [|exact Ha]. apply replace_ok.
    apply (fold_keeps env_ok); [|exact Ha]. intros a' d Ha'. apply add_ns_absent_ok, Ha'.
  Qed.
  Lemma module_env_ok prelude decls : env_ok (module_env shuffle prelude decls).
  Proof. unfold module_env. apply uses_keep. destruct prelude; [apply merge_ok|]; apply build_ok. Qed.
End Built.
Theorem module_resolved shuffle prelude decls out reported : any_order shuffle -> resolve_module shuffle prelude decls = Some (out, reported) ->
  Forall2 (decl_ok (module_env shuffle prelude decls) reported []) decls out /\
  NoDup (flat_map decl_binders out) /\ ~ In unresolved (flat_map decl_binders out).
Proof. intros AO. apply file_resolved; [exact AO|apply module_env_ok]. Qed.
