(** Proofs for C57: builtin items, the prelude and [use]. *)
From Verif Require Export ResolveEnvProofs.
From Coq Require Import Lia.
Open Scope list_scope.

(** ** Builtins and the prelude *)
Definition is_io (ns n : string) : bool := String.eqb "std::io" ns && String.eqb "Io" n.
Definition is_list (ns n : string) : bool := String.eqb "std::collections" ns && String.eqb "List" n.
Lemma inject_defs e : definitions (inject_builtin_bindings e) = definitions e.
Proof. unfold inject_builtin_bindings, add_import_if_absent. cbn. destruct (at_key (definitions e) "List"); [reflexivity|]. destruct (at_key (imports e) "List"); reflexivity. Qed.
Lemma import_absent_lq e k b ns n : lookup_qualified (add_import_if_absent e k b) ns n = lookup_qualified e ns n.
Proof. unfold add_import_if_absent. destruct (at_key (definitions e) k); [reflexivity|]. destruct (at_key (imports e) k); reflexivity. Qed.
Lemma import_absent_defs e k b : definitions (add_import_if_absent e k b) = definitions e.
Proof. unfold add_import_if_absent. destruct (at_key (definitions e) k) eqn:E; [reflexivity|]. destruct (at_key (imports e) k); reflexivity. Qed.
Lemma import_absent_at e k b n : at_key (imports (add_import_if_absent e k b)) n =
  match at_key (imports e) n with Some c => Some c | None => if String.eqb k n then match at_key (definitions e) n with Some _ => None | None => Some b end else None end.
Proof.
  unfold add_import_if_absent. destruct (String.eqb_spec k n) as [->|N].
  - destruct (at_key (definitions e) n) eqn:D; [destruct (at_key (imports e) n); reflexivity|]. destruct (at_key (imports e) n) eqn:I; [rewrite I; reflexivity|].
    cbn. rewrite at_insert, String.eqb_refl. reflexivity.
  - assert (X : at_key (imports match at_key (definitions e) k with Some _ => e | None => match at_key (imports e) k with Some _ => e | None => add_import e k b end end) n = at_key (imports e) n).
    { destruct (at_key (definitions e) k); [reflexivity|]. destruct (at_key (imports e) k); [reflexivity|]. cbn. rewrite at_insert. destruct (String.eqb_spec k n); congruence. }
    rewrite X. destruct (at_key (imports e) n); reflexivity.
Qed.
Lemma inject_lq e ns n : lookup_qualified (inject_builtin_bindings e) ns n =
  if is_io ns n then Some (Ability BuiltinIo) else match lookup_qualified e ns n with Some b => Some b | None => if is_list ns n then Some (TypeDef BuiltinList) else None end.
Proof.
  unfold inject_builtin_bindings. rewrite lq_add, lq_absent, import_absent_lq. unfold is_io, is_list. destruct (String.eqb "std::io" ns); [|reflexivity]. destruct (String.eqb "Io" n); reflexivity.
Qed.

Section Merge.
  Variable shuffle : forall A, map_of A -> map_of A.
  Hypothesis AO : any_order shuffle.
  Definition add_all (ns : string) (m : map_of binding) (e : env) : env := fold_left (fun e d => add_to_namespace_if_absent e ns (fst d) (snd d)) m e.
  Lemma add_all_rest ns m : forall e, definitions (add_all ns m e) = definitions e /\ imports (add_all ns m e) = imports e /\ use_paths (add_all ns m e) = use_paths e.
  Proof. unfold add_all. induction m as [|d m IH]; intros e; cbn; [auto|]. destruct (IH (add_to_namespace_if_absent e ns (fst d) (snd d))) as (A & B & C). rewrite A, B, C. auto. Qed.
  Lemma add_all_lq ns m : forall e ns' n, lookup_qualified (add_all ns m e) ns' n =
    match lookup_qualified e ns' n with Some b => Some b | None => if String.eqb ns ns' then at_key m n else None end.
  Proof.
    unfold add_all. induction m as [|[k b] m IH]; intros e ns' n; cbn [fold_left at_key].
    - destruct (lookup_qualified e ns' n); [reflexivity|]. destruct (String.eqb ns ns'); reflexivity.
    - rewrite IH. cbn [fst snd]. rewrite lq_absent. destruct (lookup_qualified e ns' n); [reflexivity|].
      destruct (String.eqb ns ns'); cbn [andb]; [|reflexivity]. destruct (String.eqb k n); reflexivity.
  Qed.
  Lemma fold_imports l : forall e, let e' := fold_left (fun e d => add_import_if_absent e (fst d) (snd d)) l e in
    definitions e' = definitions e /\ (forall ns n, lookup_qualified e' ns n = lookup_qualified e ns n) /\
    forall n, at_key (imports e') n = match at_key (imports e) n with Some b => Some b | None => match at_key (definitions e) n with Some _ => None | None => at_key l n end end.
  Proof.
    induction l as [|[k b] l IH]; intros e e'.
    - subst e'. cbn. split; [reflexivity|]. split; [reflexivity|]. intros n. destruct (at_key (imports e) n); [reflexivity|]. destruct (at_key (definitions e) n); reflexivity.
    - destruct (IH (add_import_if_absent e k b)) as (D & Q & I). subst e'. cbn [fold_left fst snd at_key]. rewrite D, import_absent_defs. split; [reflexivity|]. split.
      + intros ns n. rewrite Q. apply import_absent_lq.
      + intros n. rewrite I, import_absent_at, import_absent_defs. destruct (at_key (imports e) n); [reflexivity|]. destruct (String.eqb k n); [|reflexivity].
        destruct (at_key (definitions e) n); reflexivity.
  Qed.
  Lemma fold_spaces l : keys_distinct l -> (forall k m, In (k, m) l -> keys_distinct m) -> forall e,
    let e' := fold_left (fun e n => fold_left (fun e d => add_to_namespace_if_absent e (fst n) (fst d) (snd d)) (shuffle _ (snd n)) e) l e in
    definitions e' = definitions e /\ imports e' = imports e /\
    forall ns n, lookup_qualified e' ns n = match lookup_qualified e ns n with Some b => Some b | None => match at_key l ns with Some m => at_key m n | None => None end end.
  Proof.
    induction l as [|[k m] l IH]; intros KD ME e e'.
    - subst e'. cbn. split; [reflexivity|]. split; [reflexivity|]. intros ns n. destruct (lookup_qualified e ns n); reflexivity.
    - unfold keys_distinct in KD. cbn in KD. apply NoDup_cons_iff in KD. destruct KD as [NI KD].
      assert (MD : keys_distinct m) by (eapply ME; left; reflexivity).
      destruct (IH KD ltac:(intros; eapply ME; right; eassumption) (add_all k (shuffle _ m) e)) as (D & I & Q).
      destruct (add_all_rest k (shuffle _ m) e) as (A & B & _).
      subst e'. cbn [fold_left fst snd at_key]. change (fold_left (fun e d => add_to_namespace_if_absent e k (fst d) (snd d)) (shuffle _ m) e) with (add_all k (shuffle _ m) e).
      rewrite D, I, A, B. split; [reflexivity|]. split; [reflexivity|]. intros ns n. rewrite Q, add_all_lq. destruct (lookup_qualified e ns n); [reflexivity|].
      destruct (String.eqb_spec k ns) as [->|N]; [|reflexivity]. rewrite (at_shuffled shuffle AO m n MD). apply at_none in NI. rewrite NI. destruct (at_key m n); reflexivity.
  Qed.
  (** The prelude fills the gaps. *)
  Lemma merge_is e o : env_ok o ->
    definitions (merge shuffle e o) = definitions e /\
    (forall ns n, lookup_qualified (merge shuffle e o) ns n = match lookup_qualified e ns n with Some b => Some b | None => lookup_qualified o ns n end) /\
    (forall n, at_key (imports (merge shuffle e o)) n = match at_key (imports e) n with Some b => Some b | None => match at_key (definitions e) n with Some _ => None | None => at_key (definitions o) n end end).
  Proof.
    intros [D1 D2 D3 D4 D5]. unfold merge. destruct (fold_imports (shuffle _ (definitions o)) e) as (D & Q & I).
    set (e1 := fold_left _ (shuffle _ (definitions o)) e) in *.
    destruct (fold_spaces (shuffle _ (namespaces o)) (shuffled shuffle AO _ D3)) with (e := e1) as (D' & I' & Q').
    { intros k m H. eapply D4. eapply Permutation_in; [apply Permutation_sym; exact (AO _ (namespaces o))|exact H]. }
    split; [rewrite D'; exact D|]. split.
    - intros ns n. rewrite Q', Q. destruct (lookup_qualified e ns n); [reflexivity|]. unfold lookup_qualified. rewrite (at_shuffled shuffle AO _ ns D3). reflexivity.
    - intros n. rewrite I', I. rewrite (at_shuffled shuffle AO _ n D1). reflexivity.
  Qed.

  (** ** [use] *)
  Lemma split_last_is (l : list string) x f : split_last l = Some (x, f) <-> l = f ++ [x].
  Proof.
    unfold split_last. split.
    - destruct (rev l) as [|y r] eqn:E; [discriminate|]. intros [= <- <-]. rewrite <- (rev_involutive l), E. reflexivity.
    - intros ->. rewrite rev_app_distr. cbn. rewrite rev_involutive. reflexivity.
  Qed.
  (** The item [use path] finds in [e]. *)
  Definition found (e : env) (path : list string) : option binding :=
    match split_last path with Some (x, front) => lookup_qualified e (path_text front) x | None => None end.
  Lemma found_is e path b : found e path = Some b <-> import_target e path b.
  Proof.
    unfold found, import_target. split.
    - destruct (split_last path) as [[x f]|] eqn:E; [|discriminate]. apply split_last_is in E. intros L. exists f, x. auto.
    - intros (f & x & E & L). apply split_last_is in E. rewrite E. exact L.
  Qed.
  Lemma use_keeps e i : definitions (resolve_use shuffle e i) = definitions e /\
    forall ns n b, lookup_qualified e ns n = Some b -> lookup_qualified (resolve_use shuffle e i) ns n = Some b.
  Proof.
    unfold resolve_use. destruct (split_last (snd i)) as [[x f]|]; [|auto]. destruct (lookup_qualified e (join f) x); [|auto].
    change (fold_left _ ?l e) with (add_all (fst i) l e). destruct (add_all_rest (fst i) (shuffle _ (members e (join (snd i)))) e) as (A & _). cbn [replace_import definitions]. split; [exact A|].
    intros ns n b' L. change (lookup_qualified (replace_import ?e _ _ _) ns n) with (lookup_qualified e ns n). rewrite add_all_lq, L. reflexivity.
  Qed.
  Lemma uses_defs e : definitions (resolve_use_imports shuffle e) = definitions e.
  Proof. unfold resolve_use_imports. generalize (flat_map pending (shuffle _ (imports e))). intros l. revert e. induction l as [|i l IH]; intros e; [reflexivity|]. cbn. rewrite IH. apply use_keeps. Qed.
  Lemma uses_lq_kept e ns n b : lookup_qualified e ns n = Some b -> lookup_qualified (resolve_use_imports shuffle e) ns n = Some b.
  Proof. unfold resolve_use_imports. generalize (flat_map pending (shuffle _ (imports e))). intros l. revert e. induction l as [|i l IH]; intros e L; [exact L|]. cbn. apply IH. apply use_keeps. exact L. Qed.

  (** One step, as lookups. *)
  Lemma use_step e a p : env_ok e -> (2 <= List.length p)%nat ->
    let e' := resolve_use shuffle e (a, p) in
    (forall n, at_key (imports e') n = if String.eqb a n then match found e p with Some b => Some b | None => at_key (imports e) n end else at_key (imports e) n) /\
    (forall n, at_key (use_paths e') n = if String.eqb a n then match found e p with Some _ => Some p | None => at_key (use_paths e) n end else at_key (use_paths e) n) /\
    (forall ns n, lookup_qualified e' ns n = match lookup_qualified e ns n with Some b => Some b | None =>
       if String.eqb a ns then match found e p with Some _ => lookup_qualified e (path_text p) n | None => None end else None end).
  Proof.
    intros OK LP e'. subst e'. unfold resolve_use, found. cbn [fst snd]. destruct (split_last p) as [[x f]|] eqn:E.
    2: { exfalso. destruct p as [|u p]; [cbn in LP; lia|]. assert (H : u :: p = removelast (u :: p) ++ [last (u :: p) u]) by (apply app_removelast_last; discriminate).
         apply split_last_is in H. congruence. }
    rewrite !join_text. destruct (lookup_qualified e (path_text f) x) as [b|].
    - change (fold_left _ ?l e) with (add_all a l e). destruct (add_all_rest a (shuffle _ (members e (path_text p))) e) as (_ & B & C).
      cbn [replace_import imports use_paths]. rewrite B, C. split; [|split].
      + intros n. rewrite at_insert. reflexivity.
      + intros n. rewrite at_insert. reflexivity.
      + intros ns n. change (lookup_qualified (replace_import ?e _ _ _) ns n) with (lookup_qualified e ns n). rewrite add_all_lq.
        rewrite (at_shuffled shuffle AO _ n (members_ok _ _ OK)), members_at. reflexivity.
    - split; [|split].
      + intros n. destruct (String.eqb a n); reflexivity.
      + intros n. destruct (String.eqb a n); reflexivity.
      + intros ns n. destruct (lookup_qualified e ns n); [reflexivity|]. destruct (String.eqb a ns); reflexivity.
  Qed.
  Lemma use_ok1 e i : env_ok e -> env_ok (resolve_use shuffle e i).
  Proof.
    intros OK. unfold resolve_use. destruct (split_last (snd i)) as [[x f]|]; [|exact OK]. destruct (lookup_qualified e (join f) x); [|exact OK].
    apply replace_ok. apply fold_keeps; [|exact OK]. intros. apply add_ns_absent_ok. assumption.
  Qed.
  Lemma pending_at e a p : env_ok e -> In (a, p) (flat_map pending (shuffle _ (imports e))) <-> waiting e a p.
  Proof.
    intros OK. unfold waiting. rewrite <- (at_shuffled shuffle AO _ a (imports_ok _ OK)), (at_in _ _ _ (shuffled shuffle AO _ (imports_ok _ OK))).
    rewrite in_flat_map. split.
    - intros ([k b] & I & H). unfold pending in H. cbn in H. destruct b; try destruct H. destruct path as [|u [|v q]]; try destruct H as [[= <- <-]|[]]; try destruct H. split; [exact I|cbn; lia].
    - intros [I L]. exists (a, Module p). split; [exact I|]. unfold pending. cbn. destruct p as [|u [|v q]]; cbn in L; try lia. left. reflexivity.
  Qed.
  Lemma pending_keys e : env_ok e -> NoDup (map fst (flat_map pending (shuffle _ (imports e)))).
  Proof.
    intros OK. pose proof (shuffled shuffle AO _ (imports_ok _ OK)) as D. unfold keys_distinct in D. revert D. generalize (shuffle _ (imports e)). intros l.
    induction l as [|[k b] l IH]; cbn; intros D; [constructor|]. apply NoDup_cons_iff in D. destruct D as [N D]. rewrite map_app.
    assert (In_ : In k (map fst (flat_map pending l)) -> In k (map fst l)).
    { rewrite !in_map_iff. intros ([k' p] & E & I). cbn in E. subst k'. apply in_flat_map in I. destruct I as ([k' b'] & I & H). exists (k', b'). split; [|exact I].
      unfold pending in H. cbn in *. destruct b'; try destruct H. destruct path as [|u [|v q]]; try destruct H as [[= <- <-]|[]]; try destruct H. reflexivity. }
    unfold pending at 1. cbn [fst snd]. destruct b; cbn; auto. destruct path as [|u [|v q]]; cbn; auto. constructor; auto.
  Qed.

  Lemma uses_fold : forall l e0 e, env_ok e -> NoDup (map fst l) -> (forall a p, In (a, p) l -> (2 <= List.length p)%nat) ->
    (forall a p b q, In (a, p) l -> In (b, q) l -> a <> b -> a <> path_text q /\ a <> path_text (removelast q)) ->
    (* what the rest looks up has not changed *)
    (forall a p, In (a, p) l -> forall n, lookup_qualified e (path_text (removelast p)) n = lookup_qualified e0 (path_text (removelast p)) n /\
                                          lookup_qualified e (path_text p) n = lookup_qualified e0 (path_text p) n) ->
    let e' := fold_left (resolve_use shuffle) l e in
    (forall n, at_key (imports e') n = match at_key l n with Some p => match found e0 p with Some b => Some b | None => at_key (imports e) n end | None => at_key (imports e) n end) /\
    (forall n, at_key (use_paths e') n = match at_key l n with Some p => match found e0 p with Some _ => Some p | None => at_key (use_paths e) n end | None => at_key (use_paths e) n end) /\
    (forall ns n, lookup_qualified e' ns n = match lookup_qualified e ns n with Some b => Some b | None =>
       match at_key l ns with Some p => match found e0 p with Some _ => lookup_qualified e0 (path_text p) n | None => None end | None => None end end).
  Proof.
    induction l as [|[a p] l IH]; intros e0 e OK ND LP IND SAME e'.
    - subst e'. cbn. split; [reflexivity|]. split; [reflexivity|]. intros ns n. destruct (lookup_qualified e ns n); reflexivity.
    - cbn in ND. apply NoDup_cons_iff in ND. destruct ND as [NI ND]. assert (L2 : (2 <= List.length p)%nat) by (apply (LP a); left; reflexivity).
      destruct (use_step e a p OK L2) as (I & U & Q).
      assert (FE : found e p = found e0 p).
      { unfold found. destruct (split_last p) as [[x f]|] eqn:E; [|reflexivity]. apply split_last_is in E. destruct (SAME a p (or_introl eq_refl) x) as [S _].
        rewrite E, removelast_last in S. exact S. }
      assert (PE : forall n, lookup_qualified e (path_text p) n = lookup_qualified e0 (path_text p) n) by (intros n; apply (SAME a p (or_introl eq_refl) n)).
      destruct (IH e0 (resolve_use shuffle e (a, p))) as (I' & U' & Q').
      + apply use_ok1. exact OK.
      + exact ND.
      + intros b q B. apply (LP b). right. exact B.
      + intros b q c r B C AB. exact (IND b q c r (or_intror B) (or_intror C) AB).
      + intros b q B n. assert (AB : a <> b). { intros ->. apply NI. apply in_map_iff. exists (b, q). auto. }
        destruct (IND a p b q (or_introl eq_refl) (or_intror B) AB) as [X1 X2]. apply String.eqb_neq in X1. apply String.eqb_neq in X2.
        rewrite !Q, X1, X2. destruct (SAME b q (or_intror B) n) as [Y1 Y2]. rewrite <- Y1, <- Y2.
        split; [destruct (lookup_qualified e (path_text (removelast q)) n)|destruct (lookup_qualified e (path_text q) n)]; reflexivity.
      + subst e'. cbn [fold_left at_key]. apply at_none in NI. split; [|split].
        * intros n. rewrite I', I. destruct (String.eqb_spec a n) as [->|N]; [|reflexivity]. rewrite NI, FE. reflexivity.
        * intros n. rewrite U', U. destruct (String.eqb_spec a n) as [->|N]; [|reflexivity]. rewrite NI, FE. reflexivity.
        * intros ns n. rewrite Q', Q. destruct (lookup_qualified e ns n); [reflexivity|]. destruct (String.eqb_spec a ns) as [->|N]; [|reflexivity].
          rewrite NI, FE. destruct (found e0 p); [|reflexivity]. rewrite PE. destruct (lookup_qualified e0 (path_text p) n); reflexivity.
  Qed.
  Definition target (e : env) (name : string) : option (list string * binding) :=
    match at_key (imports e) name with
    | Some (Module path) => match path with _ :: _ :: _ => match found e path with Some b => Some (path, b) | None => None end | _ => None end
    | _ => None
    end.
  Theorem uses_are e : env_ok e -> independent e ->
    let e' := resolve_use_imports shuffle e in
    definitions e' = definitions e /\
    (forall n, at_key (imports e') n = match target e n with Some (_, b) => Some b | None => at_key (imports e) n end) /\
    (forall n, at_key (use_paths e') n = match target e n with Some (p, _) => Some p | None => at_key (use_paths e) n end) /\
    (forall ns n, lookup_qualified e' ns n = match lookup_qualified e ns n with Some b => Some b | None => match target e ns with Some (p, _) => lookup_qualified e (path_text p) n | None => None end end).
  Proof.
    intros OK IND e'. split; [apply uses_defs|]. subst e'. unfold resolve_use_imports. set (l := flat_map pending (shuffle _ (imports e))).
    assert (W : forall a p, In (a, p) l <-> waiting e a p) by (intros; apply pending_at; exact OK).
    assert (KD : NoDup (map fst l)) by (apply pending_keys; exact OK).
    destruct (uses_fold l e e OK KD) as (I & U & Q).
    - intros a p H. apply W in H. apply H.
    - intros a p b q A B N. exact (IND a p b q (proj1 (W _ _) A) (proj1 (W _ _) B) N).
    - auto.
    - assert (T : forall n, match target e n with Some (p, b) => at_key l n = Some p /\ found e p = Some b | None => match at_key l n with Some p => found e p = None | None => True end end).
      { assert (X : forall n p, at_key l n = Some p <-> waiting e n p) by (intros n p; rewrite (at_in l n p KD); apply W). intros n.
        unfold target. destruct (at_key (imports e) n) as [b|] eqn:E.
        2: { destruct (at_key l n) eqn:A; [|exact Logic.I]. apply X in A. destruct A as [A _]. congruence. }
        destruct b; try (destruct (at_key l n) eqn:A; [|exact Logic.I]; apply X in A; destruct A as [A _]; congruence).
        destruct path as [|u [|v q]]; try (destruct (at_key l n) eqn:A; [|exact Logic.I]; apply X in A; destruct A as [A A']; assert (B := eq_trans (eq_sym E) A); injection B; intros <-; cbn in A'; lia).
        assert (A : at_key l n = Some (u :: v :: q)). { apply X. split; [exact E|cbn; lia]. } rewrite A. destruct (found e (u :: v :: q)) eqn:F; auto. }
      split; [|split].
      + intros n. rewrite I. specialize (T n). destruct (target e n) as [[p b]|]; [destruct T as [-> ->]; reflexivity|]. destruct (at_key l n); [rewrite T|]; reflexivity.
      + intros n. rewrite U. specialize (T n). destruct (target e n) as [[p b]|]; [destruct T as [-> ->]; reflexivity|]. destruct (at_key l n); [rewrite T|]; reflexivity.
      + intros ns n. rewrite Q. specialize (T ns). destruct (target e ns) as [[p b]|]; [destruct T as [-> ->]; reflexivity|]. destruct (at_key l ns); [rewrite T|]; reflexivity.
  Qed.
End Merge.
