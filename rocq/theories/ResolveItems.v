(** Proofs for C57: what paths mean in the finished environment. *)
From Verif Require Export ResolveOrder.
From Coq Require Import Lia.
Open Scope list_scope.

Lemma rsplit_simple p n : simple_text (":" ++ n) -> rsplit_once (join_path p n) = Some (p, n).
Proof.
  intros S. unfold rsplit_once, join_path. rewrite !las_app. cbn [list_ascii_of_string]. rewrite rev_app_distr. cbn [List.app rev]. rewrite <- !app_assoc.
  change ([":"%char] ++ [":"%char] ++ rev (list_ascii_of_string p)) with (sep ++ rev (list_ascii_of_string p)).
  rewrite rsplit_exact; [rewrite !rev_involutive, app_nil_r, !string_of_list_ascii_of_string; reflexivity| |].
  - intros a b E. apply (f_equal (@rev ascii)) in E. rewrite rev_involutive, !rev_app_distr in E. cbn in E.
    apply (S (":" ++ string_of_list_ascii (rev b)) (string_of_list_ascii (rev a)))%string. apply las_inj. rewrite !las_app. cbn. rewrite !list_ascii_of_string_of_list_ascii, E, <- app_assoc. reflexivity.
  - intros a E. apply (f_equal (@rev ascii)) in E. rewrite rev_involutive, rev_app_distr in E. cbn in E.
    apply (S EmptyString (string_of_list_ascii (rev a))). apply las_inj. cbn. rewrite E, list_ascii_of_string_of_list_ascii. reflexivity.
Qed.
Lemma name_simple n : name_ok n -> simple_text n.
Proof. intros [_ H] a b E. apply H. rewrite E, las_app. apply in_or_app. right. left. reflexivity. Qed.
Lemma names_of {R} (ds : list (decl R)) pre path b : names_ok ds -> declared pre ds path b -> forall n, In n path -> name_ok n.
Proof. intros N (d & I & D) n J. apply N. apply in_flat_map. exists d. split; [exact I|]. exact (declares_names _ _ _ _ D n J). Qed.
Lemma snoc {A} (l : list A) : l <> [] -> exists f x, l = f ++ [x].
Proof. intros H. destruct (exists_last H) as (f & x & E). eauto. Qed.

(** The file's own environment. *)
Lemma build_sound shuffle (ds : list (decl string)) ns n b : any_order shuffle -> names_ok ds -> modules_once ds -> lookup_qualified (build_env shuffle ds) ns n = Some b ->
  (exists p, p <> [] /\ ns = path_text p /\ declared [] ds (p ++ [n]) b) \/ (exists q, b = Module q) \/
  (ns = "std::io" /\ n = "Io" /\ b = Ability BuiltinIo) \/ (ns = "std::collections" /\ n = "List" /\ b = TypeDef BuiltinList).
Proof.
  intros AO N O. unfold build_env. rewrite inject_lq. destruct (is_io ns n) eqn:E1.
  { unfold is_io in E1. apply andb_prop in E1 as [E1 E2]. apply String.eqb_eq in E1, E2. intros [= <-]. subst. right. right. left. auto. }
  destruct (file_represented shuffle AO ds N O) as (_ & _ & NS & _). destruct (lookup_qualified _ ns n) as [c|] eqn:L.
  - intros [= ->]. destruct (NS _ _ _ L) as (p & P & _ & T & [D|D]); [left; exists p; auto|auto].
  - destruct (is_list ns n) eqn:E2; [|discriminate]. unfold is_list in E2. apply andb_prop in E2 as [E2 E3]. apply String.eqb_eq in E2, E3. intros [= <-]. subst. right. right. right. auto.
Qed.
Lemma build_defs shuffle (ds : list (decl string)) n b : any_order shuffle -> names_ok ds -> modules_once ds -> at_key (definitions (build_env shuffle ds)) n = Some b -> declared [] ds [n] b.
Proof. intros AO N O. unfold build_env. rewrite inject_defs. destruct (file_represented shuffle AO ds N O) as (D & _). apply D. Qed.
Lemma build_complete shuffle (ds : list (decl string)) p n b : any_order shuffle -> names_ok ds -> modules_once ds -> declared [] ds (p ++ [n]) b ->
  (p = [] -> exists b', at_key (definitions (build_env shuffle ds)) n = Some b' /\ declared [] ds [n] b') /\
  (p <> [] -> p ++ [n] <> ["std"; "io"; "Io"] -> exists b', lookup_qualified (build_env shuffle ds) (path_text p) n = Some b' /\ declared [] ds (p ++ [n]) b').
Proof.
  intros AO N O D. destruct (file_represented shuffle AO ds N O) as (DS & DC & NS & NC). unfold build_env. rewrite inject_defs. split.
  - intros ->. pose proof (DC _ _ D) as X. destruct (at_key _ n) as [c|] eqn:E; [|congruence]. exists c. split; [reflexivity|]. apply DS. exact E.
  - intros P IO. destruct (NC _ _ _ P D) as (c & L & M). exists c.
    assert (NP : forall s, In s (p ++ [n]) -> name_ok s) by (exact (names_of _ _ _ _ N D)).
    assert (NP' : forall s, In s p -> name_ok s) by (intros s I; apply NP; apply in_or_app; auto).
    assert (F : is_io (path_text p) n = false).
    { destruct (is_io (path_text p) n) eqn:E; [|reflexivity]. unfold is_io in E. apply andb_prop in E as [E1 E2]. apply String.eqb_eq in E1, E2. subst n. destruct IO.
      assert (X : p = ["std"; "io"]); [|rewrite X; reflexivity]. apply path_las; [exact P|discriminate|exact NP'| |rewrite <- E1; reflexivity].
      intros s [<-|[<-|[]]]; (split; [discriminate|]; cbn; intuition discriminate). }
    rewrite inject_lq, F, L. split; [reflexivity|].
    destruct (NS _ _ _ L) as (q & Q & NQ & T & [D'|D']); [|contradiction]. assert (X : p = q); [|rewrite X; exact D'].
    apply path_las; [exact P|exact Q|exact NP'|apply Forall_forall; exact NQ|rewrite T; reflexivity].
Qed.

(** The finished environment. *)
Lemma finished_defs shuffle prelude ds : any_order shuffle -> opt_all env_ok prelude -> definitions (module_env shuffle prelude ds) = definitions (build_env shuffle ds).
Proof. intros AO K. unfold module_env. rewrite uses_defs. destruct prelude as [p|]; [|reflexivity]. apply (merge_is shuffle AO _ p K). Qed.
Lemma finished_names shuffle prelude ds ns n b : any_order shuffle -> opt_all env_ok prelude -> lookup_qualified (build_env shuffle ds) ns n = Some b ->
  lookup_qualified (module_env shuffle prelude ds) ns n = Some b.
Proof.
  intros AO K L. unfold module_env. apply uses_lq_kept. destruct prelude as [p|]; [|exact L]. destruct (merge_is shuffle AO (build_env shuffle ds) p K) as (_ & -> & _). rewrite L. reflexivity.
Qed.
Theorem items_reached shuffle prelude ds p n b : any_order shuffle -> opt_all env_ok prelude -> names_ok ds -> modules_once ds -> unambiguous ds ->
  declared [] ds (p ++ [n]) b -> p ++ [n] <> ["std"; "io"; "Io"] ->
  forall path effects global, global_ok (module_env shuffle prelude ds) path effects global ->
  (p <> [] -> global (path_text (p ++ [n])) = Some (as_ref b n)) /\ (path = p -> global n = Some (as_ref b n)).
Proof.
  intros AO K N O U D IO path effects global G.
  assert (NP : forall s, In s (p ++ [n]) -> name_ok s) by (exact (names_of _ _ _ _ N D)).
  assert (NN : name_ok n) by (apply NP; apply in_or_app; right; left; reflexivity).
  destruct (build_complete shuffle ds p n b AO N O D) as [C1 C2].
  assert (L : p <> [] -> lookup_qualified (module_env shuffle prelude ds) (path_text p) n = Some b).
  { intros P. destruct (C2 P IO) as (b' & L & D'). rewrite (U _ _ _ D D'). apply finished_names; assumption. }
  split.
  - intros P. rewrite path_text_app by exact P. change (path_text p ++ "::" ++ n)%string with (join_path (path_text p) n).
    destruct (G (join_path (path_text p) n)) as [_ X]. destruct X as (ns & m & E & S & Q).
    { intros S. exact (S (path_text p) n eq_refl). }
    rewrite Q. apply (f_equal rsplit_once) in E. rewrite (rsplit_once_join _ _ NN), (rsplit_simple _ _ S) in E. injection E; intros <- <-. rewrite (L P). reflexivity.
  - intros ->. destruct (G n) as [X _]. destruct (X (name_simple n NN)) as [(c & I & Q)|[I _]].
    + rewrite Q. f_equal. f_equal. destruct p as [|x p].
      * destruct (C1 eq_refl) as (b' & L' & D'). rewrite <- (finished_defs shuffle prelude ds AO K) in L'. rewrite (U _ _ _ D D'). destruct I; congruence.
      * assert (P : x :: p <> []) by discriminate. specialize (L P). destruct I as [? _ M|? M|? M|? M]; try specialize (M P); congruence.
    + exfalso. destruct p as [|x p].
      * destruct (C1 eq_refl) as (b' & L' & D'). rewrite <- (finished_defs shuffle prelude ds AO K) in L'. apply (I b'). apply of_file; [congruence|exact L'].
      * apply (I b). apply of_module; [discriminate|]. apply L. discriminate.
Qed.
Theorem uses_spec shuffle e : any_order shuffle -> env_ok e -> independent e ->
  (forall a p b, waiting e a p -> import_target e p b ->
     at_key (imports (resolve_use_imports shuffle e)) a = Some b /\ at_key (use_paths (resolve_use_imports shuffle e)) a = Some p /\
     forall n, lookup_qualified e a n = None -> lookup_qualified (resolve_use_imports shuffle e) a n = lookup_qualified e (path_text p) n) /\
  (forall a, (forall p b, waiting e a p -> ~ import_target e p b) -> at_key (imports (resolve_use_imports shuffle e)) a = at_key (imports e) a /\
     forall n, lookup_qualified (resolve_use_imports shuffle e) a n = lookup_qualified e a n) /\
  (forall ns n b, lookup_qualified e ns n = Some b -> lookup_qualified (resolve_use_imports shuffle e) ns n = Some b) /\
  definitions (resolve_use_imports shuffle e) = definitions e.
Proof.
  intros AO K IND. destruct (uses_are shuffle AO e K IND) as (D & I & U & Q).
  assert (T : forall a p b, waiting e a p -> import_target e p b -> target e a = Some (p, b)).
  { intros a p b [W L] X. unfold target. rewrite W. apply found_is in X. destruct p as [|u [|v q]]; cbn in L; try lia. rewrite X. reflexivity. }
  assert (T' : forall a p b, target e a = Some (p, b) -> waiting e a p /\ import_target e p b).
  { intros a p b H. unfold target in H. destruct (at_key (imports e) a) as [[]|] eqn:E; try discriminate. destruct path as [|u [|v q]]; try discriminate.
    destruct (found e (u :: v :: q)) eqn:F; [|discriminate]. injection H; intros <- <-. split; [split; [exact E|cbn; lia]|]. apply found_is. exact F. }
  split; [|split; [|split; [|exact D]]].
  - intros a p b W X. pose proof (T a p b W X) as H. split; [rewrite I, H; reflexivity|]. split; [rewrite U, H; reflexivity|]. intros n Z. rewrite Q, Z, H. reflexivity.
  - intros a X. assert (H : target e a = None). { destruct (target e a) as [[p b]|] eqn:E; [|reflexivity]. apply T' in E. destruct E as [E1 E2]. destruct (X p b E1 E2). }
    split; [rewrite I, H; reflexivity|]. intros n. rewrite Q, H. destruct (lookup_qualified e a n); reflexivity.
  - intros ns n b L. rewrite Q, L. reflexivity.
Qed.
