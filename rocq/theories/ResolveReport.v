(** Proofs for C56: what is reported does not resolve. *)
From Verif Require Export ResolveDone.
Open Scope list_scope.

Definition missing (d : string) : ref := RLocal unresolved (last_segment_of d).
Definition honest {A B} (f : st -> A -> st * B) (rf : B -> list ref) (x : A) : Prop :=
  forall s s' y, f s x = (s', y) -> forall d, In d (diags s') -> In d (diags s) \/ In (missing d) (rf y).
Lemma each_honest {A B} (f : st -> A -> st * B) rf l : Forall (honest f rf) l -> honest (each f) (flat_map rf) l.
Proof.
  induction 1 as [|x l X L IH]; intros s s' y E d I; cbn in E; [injection E; intros; subst; auto|].
  destruct (f s x) as [s1 x1] eqn:E1. destruct (each f s1 l) as [s2 l1] eqn:E2. injection E; intros; subst s' y; clear E. cbn. rewrite in_app_iff.
  destruct (IH _ _ _ E2 _ I) as [J|J]; [destruct (X _ _ _ E1 _ J)|]; auto.
Qed.
Lemma maybe_honest {A B} (f : st -> A -> st * B) rf o : opt_all (honest f rf) o -> honest (maybe f) (of_option rf) o.
Proof.
  destruct o as [x|]; intros X s s' y E d I; cbn in E; [|injection E; intros; subst; auto].
  destruct (f s x) as [s1 x1] eqn:E1. injection E; intros; subst s' y. exact (X _ _ _ E1 _ I).
Qed.
Lemma bind_diags s x s' id : bind_local s x = (s', id) -> diags s' = diags s.
Proof. unfold bind_local, fresh. intros E. injection E; intros _ <-. reflexivity. Qed.
Lemma params_diags ps : forall s s' y, each bind_param s ps = (s', y) -> diags s' = diags s.
Proof.
  induction ps as [|p ps IH]; intros s s' y E; cbn [each] in E; [injection E; intros; subst; reflexivity|].
  destruct (bind_param s p) as [s1 p1] eqn:E1. destruct (each bind_param s1 ps) as [s2 l1] eqn:E2. injection E; intros; subst s' y.
  rewrite (IH _ _ _ E2). unfold bind_param in E1. destruct (bind_local s (fst p)) as [s3 i] eqn:E3. injection E1; intros; subst. exact (bind_diags _ _ _ _ E3).
Qed.
Section Honest.
  Variables (shuffle : forall A, map_of A -> map_of A) (e : env).
  Lemma name_honest x : honest (resolve_name e) (fun r => [r]) x.
  Proof.
    intros s s' y E d I. unfold resolve_name in E.
    match type of E with match ?m with _ => _ end = _ => destruct m end; injection E; intros; subst; [auto|].
    cbn in I. apply in_app_or in I. destruct I as [I|[<-|[]]]; [auto|]. right. left. reflexivity.
  Qed.
  Lemma ability_honest x : honest (resolve_handler_ability e) (fun r => [r]) x.
  Proof.
    intros s s' y E d I. unfold resolve_handler_ability in E. destruct (String.eqb x "_"); [injection E; intros; subst; auto|]. exact (name_honest x _ _ _ E _ I).
  Qed.
  Lemma pattern_honest p : honest (resolve_pattern e) pat_refs p.
  Proof.
    revert p. apply (pat_all _ (honest (resolve_field e) field_refs)).
    - intros s s' y E d I. rewrite pattern_eq in E. injection E; intros; subst; auto.
    - intros x i s s' y E d I. rewrite pattern_eq in E. destruct (bind_local s x) as [s1 id] eqn:B. injection E; intros; subst. rewrite (bind_diags _ _ _ _ B) in I. auto.
    - intros l s s' y E d I. rewrite pattern_eq in E. injection E; intros; subst; auto.
    - intros c ps H s s' y E d I. rewrite pattern_eq in E. destruct (resolve_name e s c) as [s1 c1] eqn:E1. destruct (each (resolve_pattern e) s1 ps) as [s2 ps1] eqn:E2.
      injection E; intros; subst s' y. destruct (each_honest _ _ _ H _ _ _ E2 _ I) as [J|J]; [destruct (name_honest c _ _ _ E1 _ J) as [K|[K|[]]]|]; cbn; auto.
    - intros t fs b H s s' y E d I. rewrite pattern_eq in E. destruct (maybe (resolve_name e) s t) as [s1 t1] eqn:E1. destruct (each (resolve_field e) s1 fs) as [s2 fs1] eqn:E2.
      injection E; intros; subst s' y. cbn. rewrite in_app_iff. destruct (each_honest _ _ _ H _ _ _ E2 _ I) as [J|J]; [|auto].
      destruct (maybe_honest _ _ t ltac:(destruct t; cbn; [apply name_honest|exact Logic.I]) _ _ _ E1 _ J); auto.
    - intros ps H s s' y E d I. rewrite pattern_eq in E. destruct (each (resolve_pattern e) s ps) as [s1 ps1] eqn:E1. injection E; intros; subst s' y.
      exact (each_honest _ _ _ H _ _ _ E1 _ I).
    - intros ps H s s' y E d I. rewrite pattern_eq in E. destruct (each (resolve_pattern e) s ps) as [s1 ps1] eqn:E1. injection E; intros; subst s' y.
      exact (each_honest _ _ _ H _ _ _ E1 _ I).
    - intros ps r i H s s' y E d I. rewrite pattern_eq in E. destruct (each (resolve_pattern e) s ps) as [s1 ps1] eqn:E1.
      assert (N : diags s' = diags s1 /\ pat_refs y = flat_map pat_refs ps1).
      { destruct r as [x|]; [destruct (String.eqb x "_")|]; try (injection E; intros; subst; split; reflexivity). }
      destruct N as [N ->]. rewrite N in I. exact (each_honest _ _ _ H _ _ _ E1 _ I).
    - intros p x i H s s' y E d I. rewrite pattern_eq in E. destruct (resolve_pattern e s p) as [s1 p1] eqn:E1. destruct (bind_local s1 x) as [s2 id] eqn:B.
      injection E; intros; subst. rewrite (bind_diags _ _ _ _ B) in I. exact (H _ _ _ E1 _ I).
    - intros s s' y E d I. rewrite pattern_eq in E. injection E; intros; subst; auto.
    - intros x s s' y E d I. rewrite field_eq in E. destruct (bind_local s x) as [s1 id] eqn:B. injection E; intros; subst. rewrite (bind_diags _ _ _ _ B) in I. auto.
    - intros x p H s s' y E d I. rewrite field_eq in E. destruct (resolve_pattern e s p) as [s1 p1] eqn:E1. injection E; intros; subst s' y. exact (H _ _ _ E1 _ I).
  Qed.
  Lemma patterns_honest ps : honest (each (resolve_pattern e)) (flat_map pat_refs) ps.
  Proof. apply each_honest. apply Forall_forall. intros p _. apply pattern_honest. Qed.
  Lemma kind_honest k : honest (resolve_kind e) kind_refs k.
  Proof.
    intros s s' y E d I. destruct k as [p|a op ps|a op ps i]; cbn [resolve_kind] in E.
    - destruct (resolve_pattern e s p) as [s1 p1] eqn:E1. injection E; intros; subst s' y. exact (pattern_honest p _ _ _ E1 _ I).
    - destruct (resolve_handler_ability e s a) as [s1 a1] eqn:E1. destruct (each (resolve_pattern e) s1 ps) as [s2 ps1] eqn:E2. injection E; intros; subst s' y. cbn.
      destruct (patterns_honest ps _ _ _ E2 _ I) as [J|J]; [|auto]. destruct (ability_honest a _ _ _ E1 _ J) as [K|[K|[]]]; auto.
    - destruct (resolve_handler_ability e s a) as [s1 a1] eqn:E1. destruct (each (resolve_pattern e) s1 ps) as [s2 ps1] eqn:E2.
      unfold fresh in E. injection E; intros; subst s' y. cbn in *.
      destruct (patterns_honest ps _ _ _ E2 _ I) as [J|J]; [|auto]. destruct (ability_honest a _ _ _ E1 _ J) as [K|[K|[]]]; auto.
  Qed.
  Lemma expr_honest x : honest (resolve_expr e) expr_refs x.
  Proof.
    revert x. apply (expr_all _ (honest (resolve_stmt e) stmt_refs) (honest (resolve_arm e) arm_refs) (honest (resolve_handler e) handler_refs)).
    - intros r s s' y E d I. rewrite expr_eq in E. destruct (resolve_name e s r) as [s1 r1] eqn:E1. injection E; intros; subst s' y. exact (name_honest r _ _ _ E1 _ I).
    - intros l s s' y E d I. rewrite expr_eq in E. injection E; intros; subst; auto.
    - intros f es Hf Hes s s' y E d I. rewrite expr_eq in E. destruct (resolve_expr e s f) as [s1 f1] eqn:E1. destruct (each (resolve_expr e) s1 es) as [s2 es1] eqn:E2.
      injection E; intros; subst s' y. cbn. rewrite in_app_iff. destruct (each_honest _ _ _ Hes _ _ _ E2 _ I) as [J|J]; [destruct (Hf _ _ _ E1 _ J)|]; auto.
    - intros c es Hes s s' y E d I. rewrite expr_eq in E. destruct (resolve_name e s c) as [s1 f1] eqn:E1. destruct (each (resolve_expr e) s1 es) as [s2 es1] eqn:E2.
      injection E; intros; subst s' y. cbn. destruct (each_honest _ _ _ Hes _ _ _ E2 _ I) as [J|J]; [destruct (name_honest c _ _ _ E1 _ J) as [K|[K|[]]]|]; auto.
    - intros t fs sp Hfs Hsp s s' y E d I. rewrite expr_eq in E. destruct (resolve_name e s t) as [s1 t1] eqn:E1.
      destruct (each (fun s f => let '(s, x) := resolve_expr e s (snd f) in (s, (fst f, x))) s1 fs) as [s2 fs1] eqn:E2.
      destruct (maybe (resolve_expr e) s2 sp) as [s3 sp1] eqn:E3. injection E; intros; subst s' y. cbn. rewrite in_app_iff.
      destruct (maybe_honest _ _ sp Hsp _ _ _ E3 _ I) as [J|J]; [|auto].
      assert (HF : honest (each (fun s (f : string * expr string) => let '(s, x) := resolve_expr e s (snd f) in (s, (fst f, x)))) (flat_map (fun f => expr_refs (snd f))) fs).
      { apply each_honest. clear - Hfs. induction Hfs as [|f l X L IH]; constructor; [|exact IH]. intros s s' y E d I.
        destruct (resolve_expr e s (snd f)) as [s1 x1] eqn:E1. injection E; intros; subst s' y. exact (X _ _ _ E1 _ I). }
      destruct (HF _ _ _ E2 _ J) as [K|K]; [|auto]. destruct (name_honest t _ _ _ E1 _ K) as [Q|[Q|[]]]; auto.
    - intros f m es Hf Hes s s' y E d I. rewrite expr_eq in E. destruct (resolve_expr e s f) as [s1 f1] eqn:E1. destruct (each (resolve_expr e) s1 es) as [s2 es1] eqn:E2.
      injection E; intros; subst s' y. cbn. rewrite in_app_iff. destruct (each_honest _ _ _ Hes _ _ _ E2 _ I) as [J|J]; [destruct (Hf _ _ _ E1 _ J)|]; auto.
    - intros ss v Hss Hv s s' y E d I. rewrite expr_eq in E. cbv zeta in E. destruct (each (resolve_stmt e) (push_scope s) ss) as [s1 ss1] eqn:E1.
      destruct (resolve_expr e s1 v) as [s2 v1] eqn:E2. injection E; intros; subst s' y. cbn in *. rewrite in_app_iff.
      destruct (Hv _ _ _ E2 _ I) as [J|J]; [destruct (each_honest _ _ _ Hss _ _ _ E1 _ J)|]; auto.
    - intros f es Hf Hes s s' y E d I. rewrite expr_eq in E. destruct (resolve_expr e s f) as [s1 f1] eqn:E1. destruct (each (resolve_arm e) s1 es) as [s2 es1] eqn:E2.
      injection E; intros; subst s' y. cbn. rewrite in_app_iff. destruct (each_honest _ _ _ Hes _ _ _ E2 _ I) as [J|J]; [destruct (Hf _ _ _ E1 _ J)|]; auto.
    - intros ps b Hb s s' y E d I. rewrite expr_eq in E. cbv zeta in E. destruct (each bind_param (push_scope s) ps) as [s1 ps1] eqn:E1.
      destruct (resolve_expr e s1 b) as [s2 b1] eqn:E2. injection E; intros; subst s' y. cbn in *.
      destruct (Hb _ _ _ E2 _ I) as [J|J]; [|auto]. rewrite (params_diags _ _ _ _ E1) in J. auto.
    - intros f es Hf Hes s s' y E d I. rewrite expr_eq in E. destruct (resolve_expr e s f) as [s1 f1] eqn:E1. destruct (each (resolve_handler e) s1 es) as [s2 es1] eqn:E2.
      injection E; intros; subst s' y. cbn. rewrite in_app_iff. destruct (each_honest _ _ _ Hes _ _ _ E2 _ I) as [J|J]; [destruct (Hf _ _ _ E1 _ J)|]; auto.
    - intros x i Hx s s' y E d I. rewrite expr_eq in E. destruct (resolve_expr e s x) as [s1 x1] eqn:E1. injection E; intros; subst s' y. exact (Hx _ _ _ E1 _ I).
    - intros es Hes s s' y E d I. rewrite expr_eq in E. destruct (each (resolve_expr e) s es) as [s1 x1] eqn:E1. injection E; intros; subst s' y. exact (each_honest _ _ _ Hes _ _ _ E1 _ I).
    - intros es Hes s s' y E d I. rewrite expr_eq in E. destruct (each (resolve_expr e) s es) as [s1 x1] eqn:E1. injection E; intros; subst s' y. exact (each_honest _ _ _ Hes _ _ _ E1 _ I).
    - intros o a b Ha Hb s s' y E d I. rewrite expr_eq in E. destruct (resolve_expr e s a) as [s1 a1] eqn:E1. destruct (resolve_expr e s1 b) as [s2 b1] eqn:E2.
      injection E; intros; subst s' y. cbn. rewrite in_app_iff. destruct (Hb _ _ _ E2 _ I) as [J|J]; [destruct (Ha _ _ _ E1 _ J)|]; auto.
    - intros s s' y E d I. rewrite expr_eq in E. injection E; intros; subst; auto.
    - intros p v Hv s s' y E d I. rewrite stmt_eq in E. destruct (resolve_expr e s v) as [s1 v1] eqn:E1. destruct (resolve_pattern e s1 p) as [s2 p1] eqn:E2.
      injection E; intros; subst s' y. cbn. rewrite in_app_iff. destruct (pattern_honest p _ _ _ E2 _ I) as [J|J]; [destruct (Hv _ _ _ E1 _ J)|]; auto.
    - intros x Hx s s' y E d I. rewrite stmt_eq in E. destruct (resolve_expr e s x) as [s1 x1] eqn:E1. injection E; intros; subst s' y. exact (Hx _ _ _ E1 _ I).
    - intros p gd b Hg Hb s s' y E d I. rewrite arm_eq in E. cbv zeta in E. destruct (resolve_pattern e (push_scope s) p) as [s1 p1] eqn:E1.
      destruct (maybe (resolve_expr e) s1 gd) as [s2 g1] eqn:E2. destruct (resolve_expr e s2 b) as [s3 b1] eqn:E3. injection E; intros; subst s' y. cbn in *. rewrite !in_app_iff.
      destruct (Hb _ _ _ E3 _ I) as [J|J]; [|auto]. destruct (maybe_honest _ _ gd Hg _ _ _ E2 _ J) as [K|K]; [|auto]. destruct (pattern_honest p _ _ _ E1 _ K); auto.
    - intros k b Hb s s' y E d I. rewrite handler_eq in E. cbv zeta in E. destruct (resolve_kind e (push_scope s) k) as [s1 k1] eqn:E1.
      destruct (resolve_expr e s1 b) as [s2 b1] eqn:E2. injection E; intros; subst s' y. cbn [handler_refs]. rewrite in_app_iff.
      assert (J : In d (diags s2)). { destruct k1; exact I. }
      destruct (Hb _ _ _ E2 _ J) as [K|K]; [|auto]. destruct (kind_honest k _ _ _ E1 _ K); auto.
  Qed.
  Lemma decl_honest d : honest (resolve_decl shuffle e) decl_refs d.
  Proof.
    assert (Z : forall (x : decl string) (y : decl ref), (forall s, resolve_decl shuffle e s x = (s, y)) -> honest (resolve_decl shuffle e) decl_refs x).
    { intros x y H s s' z E d' I. rewrite H in E. injection E; intros; subst. auto. }
    revert d. apply decl_all.
    - intros n ps ef b s s' y E d I. cbn [resolve_decl] in E. destruct (each bind_param (push_scope s) ps) as [s1 ps1] eqn:E1.
      destruct (resolve_expr e _ b) as [s3 b1] eqn:E2 in E. injection E; intros; subst s' y. cbn in *.
      destruct (expr_honest b _ _ _ E2 _ I) as [J|J]; [|auto]. left. apply params_diags in E1. cbn in E1. rewrite <- E1. destruct ef; exact J.
    - intros n. apply (Z _ (DExtern n)). reflexivity.
    - intros n i fs. apply (Z _ (DStruct n i fs)). reflexivity.
    - intros n i vs. apply (Z _ (DEnum n i vs)). reflexivity.
    - intros n os. apply (Z _ (DAbility n os)). reflexivity.
    - intros p a. apply (Z _ (DUse p a)). reflexivity.
    - intros n [l|] H s s' y E d I; cbn [resolve_decl maybe] in E.
      + destruct (each (resolve_decl shuffle e) (with_path s (mpath s ++ [n])) l) as [s1 l1] eqn:E1. injection E; intros; subst s' y.
        exact (each_honest _ _ _ H _ _ _ E1 _ I).
      + injection E; intros; subst. auto.
  Qed.
  Theorem reports_honest decls out reported : resolve_with_env shuffle e decls = Some (out, reported) ->
    forall d, In d reported -> In (RLocal unresolved (last_segment_of d)) (flat_map decl_refs out).
  Proof.
    unfold resolve_with_env. destruct (each (resolve_decl shuffle e) start decls) as [s y] eqn:E.
    destruct (gen s <=? unresolved)%N eqn:G; [|discriminate]. intros [= -> <-] d I.
    destruct (each_honest _ _ _ (proj2 (Forall_forall _ _) (fun d _ => decl_honest d)) _ _ _ E _ I) as [[]|J]. exact J.
  Qed.
End Honest.
