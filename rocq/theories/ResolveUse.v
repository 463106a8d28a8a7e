(** Proofs for C57: which names the declarations of a file import. *)
From Verif Require Export ResolveItems.
Open Scope string_scope. Open Scope list_scope.

Section Uses.
  Variable shuffle : forall A, map_of A -> map_of A.
  Context {R : Type}.
  Lemma fold_imports_same {A} (f : env -> A -> env) l : (forall e x, imports (f e x) = imports e) -> forall e, imports (fold_left f l e) = imports e.
  Proof. intros H. induction l as [|x l IH]; intros e; [reflexivity|]. cbn. rewrite IH. apply H. Qed.
  Lemma members_imports ns m e : imports (add_members shuffle ns e m) = imports e.
  Proof. unfold add_members. apply fold_imports_same. reflexivity. Qed.
  Definition brings (d : decl R) : option (string * list string) :=
    match d with
    | DUse path alias => match split_last path with Some (n, _) => Some (match alias with Some a => a | None => n end, path) | None => None end
    | DModule n (Some _) => Some (n, [n])
    | _ => None
    end.
  Lemma brings_ok d a p : brings d = Some (a, p) <-> introduces d a p.
  Proof.
    split.
    - destruct d as [| | | | |path alias|n [body|]]; try discriminate; cbn.
      + unfold split_last. destruct (rev path) as [|n r] eqn:E; [discriminate|].
        assert (P : path = rev r ++ [n]) by (rewrite <- (rev_involutive path), E; reflexivity).
        intros H. destruct alias as [x|]; injection H; intros <- <-; subst path; constructor.
      + intros [= <- <-]. constructor.
    - intros []; cbn; try reflexivity; unfold split_last; rewrite rev_app_distr; reflexivity.
  Qed.
  Lemma collect_imports prefix e d : imports (collect_definition shuffle prefix e d) =
    match brings d with Some (a, p) => insert (imports e) a (Module p) | None => imports e end.
  Proof.
    destruct d as [| |n i fs|n i vs|n os|path alias|n [body|]]; try reflexivity.
    - cbn. rewrite fold_imports_same; [reflexivity|]. intros e' [f|]; reflexivity.
    - cbn. rewrite fold_imports_same; [reflexivity|]. reflexivity.
    - cbn. rewrite fold_imports_same; [reflexivity|]. reflexivity.
    - cbn. destruct (split_last path) as [[n q]|]; reflexivity.
    - cbn. f_equal. rewrite fold_imports_same; [apply members_imports|]. intros e' x. unfold add_nested. cbn. apply members_imports.
  Qed.
  Lemma last_import (ds : list (decl R)) a : forall e,
    (exists p, introduced ds a p /\ at_key (imports (fold_left (collect_definition shuffle "") ds e)) a = Some (Module p)) \/
    ((forall p, ~ introduced ds a p) /\ at_key (imports (fold_left (collect_definition shuffle "") ds e)) a = at_key (imports e) a).
  Proof.
    induction ds as [|d ds IH]; intros e.
    - right. split; [|reflexivity]. intros p (b & d & c & E & _). destruct b; discriminate.
    - cbn [fold_left]. destruct (IH (collect_definition shuffle "" e d)) as [(p & (b & x & c & -> & I & N) & K)|[N K]].
      + left. exists p. split; [|exact K]. exists (d :: b), x, c. auto.
      + assert (NI : forall d' p, In d' ds -> ~ introduces d' a p).
        { assert (H : forall l, (exists b, ds = b ++ l) -> forall d' p, In d' l -> ~ introduces d' a p).
          { induction l as [|y l IHl]; intros [b E] d' p; [intros []|].
            assert (IHl' : forall d' p, In d' l -> ~ introduces d' a p) by (apply IHl; exists (b ++ [y]); rewrite <- app_assoc; exact E).
            intros [<-|H]; [|apply IHl', H]. intros J. apply (N p). exists b, y, l. auto. }
          intros d' p. apply H. exists []. reflexivity. }
        rewrite collect_imports in K. destruct (brings d) as [[a' p]|] eqn:B.
        * rewrite at_insert in K. destruct (String.eqb_spec a' a) as [->|NE].
          -- left. exists p. split; [|exact K]. exists [], d, ds. split; [reflexivity|]. split; [apply brings_ok; exact B|exact NI].
          -- right. split; [|exact K]. intros q (b & x & c & E & I & M). destruct b as [|y b]; injection E; intros; subst.
             ++ apply brings_ok in I. congruence.
             ++ apply (NI x q); [apply in_or_app; right; left; reflexivity|exact I].
        * right. split; [|exact K]. intros q (b & x & c & E & I & M). destruct b as [|y b]; injection E; intros; subst.
          -- apply brings_ok in I. congruence.
          -- apply (NI x q); [apply in_or_app; right; left; reflexivity|exact I].
  Qed.
  Lemma introduced_fun (ds : list (decl R)) a p q : introduced ds a p -> introduced ds a q -> p = q.
  Proof.
    intros (b & x & c & -> & I & N) (b' & x' & c' & E & I' & N').
    assert (H : b = b' /\ x = x' /\ c = c' \/ In x' c \/ In x c').
    { clear I I' N N'. revert b' E. induction b as [|y b IH]; intros [|y' b'] E; cbn in E; injection E; intros E1 E2; subst.
      - left. auto.
      - right. left. apply in_or_app. right. left. reflexivity.
      - right. right. apply in_or_app. right. left. reflexivity.
      - destruct (IH _ E1) as [(-> & -> & ->)|H]; [left; auto|right; exact H]. }
    destruct H as [(-> & -> & ->)|[H|H]].
    - apply brings_ok in I, I'. congruence.
    - destruct (N _ _ H I').
    - destruct (N' _ _ H I).
  Qed.
  Lemma imports_exact (ds : list (decl R)) a p : at_key (imports (build_env shuffle ds)) a = Some (Module p) <-> introduced ds a p.
  Proof.
    unfold build_env, inject_builtin_bindings. cbn [imports add_to_namespace add_to_namespace_if_absent]. rewrite import_absent_at.
    destruct (last_import ds a empty_env) as [(q & I & K)|[N K]]; rewrite K.
    - split; [intros [= <-]; exact I|]. intros J. rewrite (introduced_fun _ _ _ _ I J). reflexivity.
    - cbn [imports empty_env at_key]. split; [|intros H; destruct (N _ H)]. intros H. exfalso.
      destruct (String.eqb "List" a); [|discriminate H].
      match type of H with match ?m with _ => _ end = _ => destruct m; discriminate H end.
  Qed.
End Uses.
