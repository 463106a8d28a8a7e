(** Names, references and tables during specialization. *)
From Verif Require Export MonoArgs.
From Verif Require Import TyProofs SubstProofs PathProofs MangleProofs.
From Coq Require Import Lia.
Local Open Scope list_scope.

(** ** Declarations *)
Lemma path_snoc (path : list string) n : (forall x, In x path -> x <> "") ->
  fst (qualified_symbol (path_text path) n) = path_text (path ++ [n]) /\ fst (push_prefix (path_text path) n) = path_text (path ++ [n]).
Proof.
  intros N. destruct path as [|p path]; [cbn; auto|].
  assert (E : path_text (p :: path) <> "").
  { cbn. destruct path; [apply N; cbn; auto|]. intros Q. destruct p; [apply (N ""); cbn; auto|discriminate]. }
  rewrite push_text, path_text_app by (auto; discriminate). unfold qualified_symbol. destruct (path_text (p :: path)) eqn:Q; [congruence|].
  cbn [fst]. rewrite PathProofs.append_assoc. auto.
Qed.
Lemma functions_paths d : forall path, (forall x, In x path -> x <> "") -> (forall n, In n (names_of d) -> n <> "") ->
  functions (path_text path) d = List.map (fun pf => (path_text (fst pf), snd pf)) (all_functions path d).
Proof.
  induction d using decl_all; intros path P N; cbn [functions all_functions List.map]; auto.
  - destruct (path_snoc path (f_name f) P) as [-> _]. auto.
  - destruct b as [b|]; auto. destruct (path_snoc path n P) as [_ ->]. cbn [opt_all] in H. rewrite <- flat_map_flat. apply flat_eq. each H. apply H1.
    + intros x I. apply in_app_iff in I as [I|[<-|[]]]; auto. apply N. cbn; auto.
    + intros x I. apply N. cbn. right. apply in_flat_map. eauto.
Qed.
Lemma externs_paths d : forall path, (forall x, In x path -> x <> "") -> (forall n, In n (names_of d) -> n <> "") ->
  externs (path_text path) d = List.map path_text (all_externs path d).
Proof.
  induction d using decl_all; intros path P N; cbn [externs all_externs List.map]; auto.
  - destruct (path_snoc path n P) as [-> _]. auto.
  - destruct b as [b|]; auto. destruct (path_snoc path n P) as [_ ->]. cbn [opt_all] in H. rewrite <- flat_map_flat. apply flat_eq. each H. apply H1.
    + intros x I. apply in_app_iff in I as [I|[<-|[]]]; auto. apply N. cbn; auto.
    + intros x I. apply N. cbn. right. apply in_flat_map. eauto.
Qed.
Lemma all_functions_map fi fv fr d : forall path, all_functions path (map_decl fi fv fr d) = List.map (fun pf => (fst pf, map_func fi fv fr (snd pf))) (all_functions path d).
Proof.
  induction d using decl_all; intros path; cbn [all_functions map_decl List.map]; auto.
  destruct b as [b|]; cbn [option_map]; auto. apply flat_mapped. each H. apply H1.
Qed.
Lemma all_externs_map fi fv fr d : forall path, all_externs path (map_decl fi fv fr d) = all_externs path d.
Proof.
  induction d using decl_all; intros path; cbn [all_externs map_decl]; auto.
  destruct b as [b|]; cbn [option_map]; auto. rewrite flat_map_map. apply flat_eq. each H. apply H1.
Qed.
Lemma names_map fi fv fr d : names_of (map_decl fi fv fr d) = names_of d.
Proof.
  induction d using decl_all; cbn [names_of map_decl]; auto. destruct b as [b|]; cbn [option_map]; auto. f_equal. rewrite flat_map_map. apply flat_eq. auto.
Qed.
Lemma visit_functions d path : visit_decl d = flat_map (fun pf => visit_expr (f_body (snd pf))) (all_functions path d).
Proof.
  revert path. induction d using decl_all; intros path; cbn [visit_decl all_functions flat_map]; auto.
  - cbn. rewrite app_nil_r. auto.
  - destruct b as [b|]; auto. rewrite flat_map_concat_map, concat_map_flat || idtac.
    cbn [opt_all] in H. induction H; cbn [flat_map]; auto. rewrite flat_map_app. f_equal; auto.
Qed.
Lemma path_no_dollar path : (forall x, In x path -> no_dollar x) -> no_dollar (path_text path).
Proof.
  assert (A : forall a b, no_dollar a -> no_dollar b -> no_dollar (a ++ b)%string).
  { unfold no_dollar. induction a as [|c a IH]; intros b; cbn [mentions String.append]; auto. rewrite !orb_false_iff. intros [H1 H2] H3. auto. }
  induction path as [|p path IH]; intros N; [reflexivity|]. cbn [path_text]. destruct path; [apply N; cbn; auto|].
  apply A; [apply N; cbn; auto|]. apply A; [reflexivity|]. apply IH. intros x I. apply N. right; auto.
Qed.
Lemma function_names d path p f : In (p, f) (all_functions path d) -> forall x, In x p -> In x path \/ In x (names_of d).
Proof.
  revert path. induction d using decl_all; intros path I x J; cbn [all_functions names_of] in *; try (destruct I; fail).
  - destruct I as [[= <- <-]|[]]. apply in_app_iff in J as [J|J]; auto.
  - destruct b as [b|]; [|destruct I]. apply in_flat_map in I as [d [K I]]. cbn [opt_all] in H. rewrite Forall_forall in H.
    destruct (H d K _ I x J) as [Q|Q]; [apply in_app_iff in Q as [Q|[<-|[]]]; auto; right; cbn; auto|]. right. right. apply in_flat_map. eauto.
Qed.
Lemma at_name_last_app {A} (a b : list (string * A)) q : at_name_last (a ++ b) q = match at_name_last b q with Some x => Some x | None => at_name_last a q end.
Proof. induction a as [|[p x] a IH]; cbn; [destruct (at_name_last b q); auto|]. rewrite IH. destruct (at_name_last b q); auto. Qed.
Lemma at_name_last_none {A} (a : list (string * A)) q : (forall p x, In (p, x) a -> p <> q) -> at_name_last a q = None.
Proof.
  induction a as [|[p x] a IH]; intros H; cbn; auto. rewrite IH by (intros; eapply H; right; eauto).
  destruct (String.eqb_spec p q); auto. destruct (H p x); cbn; auto.
Qed.
Lemma at_name_last_some {A} (a : list (string * A)) q x :
  at_name_last a q = Some x <-> exists l1 l2, a = l1 ++ (q, x) :: l2 /\ forall p y, In (p, y) l2 -> p <> q.
Proof.
  split.
  - induction a as [|[p y] a IH]; cbn; [discriminate|]. destruct (at_name_last a q) as [z|] eqn:E.
    + intros [= ->]. destruct IH as [l1 [l2 [-> N]]]; auto. exists ((p, y) :: l1), l2. auto.
    + destruct (String.eqb_spec p q) as [->|]; [|discriminate]. intros [= ->]. exists [], a. split; auto.
      intros p z I ->. clear IH. induction a as [|[p w] a IHa]; [destruct I|]. cbn in E. destruct (at_name_last a q) eqn:E2; [discriminate|].
      destruct I as [[= -> ->]|I]; [rewrite String.eqb_refl in E; discriminate|auto].
  - intros [l1 [l2 [-> N]]]. rewrite at_name_last_app. cbn. rewrite (at_name_last_none l2 q N), String.eqb_refl. auto.
Qed.
Lemma at_name_iff {A} (t : list (string * A)) q a : NoDup (List.map fst t) -> (at_name t q = Some a <-> In (q, a) t).
Proof.
  induction t as [|[p b] t IH]; cbn; intros N; [split; [discriminate|intros []]|]. inversion N; subst. destruct (String.eqb_spec p q) as [->|D].
  - split; [intros [= ->]; auto|]. intros [[= ->]|I]; auto. destruct H1. apply in_map_iff. exists (q, a). auto.
  - rewrite IH by auto. split; auto. intros [[= -> _]|I]; [congruence|auto].
Qed.

(** ** What a reference asks for *)
Definition wanted (types : list (string * scheme)) (r : tref) : option inst :=
  match target r with
  | RFunction q =>
      match at_name types q with
      | Some sc => match extract_type_args sc (rty r) with Some args => if forallb is_concrete args then Some (q, args) else None | None => None end
      | None => None
      end
  | _ => None
  end.
Lemma ground_all args : forallb is_concrete args = true <-> Forall ground args.
Proof. rewrite forallb_forall, Forall_forall. split; intros H x I; apply concrete_ground; auto. Qed.
Section Types.
  Variable types : list (string * scheme).
  Hypothesis keys : NoDup (List.map fst types).
  Lemma wanted_asks r i : wanted types r = Some i <-> asks types r i.
  Proof.
    unfold wanted, asks. destruct i as [q args]. cbn [fst snd]. split.
    - destruct (target r) as [q'| | |]; try discriminate. destruct (at_name types q') as [sc|] eqn:E; [|discriminate].
      destruct (extract_type_args sc (rty r)) as [args'|] eqn:X; [|discriminate]. destruct (forallb is_concrete args') eqn:C; [|discriminate].
      intros [= -> ->]. split; auto. exists sc. split; [apply at_name_iff; auto|]. split; [apply extract_iff; auto|apply ground_all; auto].
    - intros [-> [sc [I [A G]]]]. apply at_name_iff in I as ->; auto. apply extract_iff in A as ->. apply ground_all in G as ->. auto.
  Qed.
  Lemma wanted_none r : wanted types r = None <-> forall i, ~ asks types r i.
  Proof.
    split.
    - intros E i A. apply wanted_asks in A. congruence.
    - intros N. destruct (wanted types r) as [i|] eqn:E; auto. apply wanted_asks in E. destruct (N i E).
  Qed.
  Lemma asks_same r i j : asks types r i -> asks types r j -> i = j.
  Proof. intros A B. apply wanted_asks in A, B. congruence. Qed.
  (** Collecting sees what is asked for, if the tables agree. *)
  Lemma try_record_wanted callees n r : (forall t, lookup callees n = Some t -> t = rty r) ->
    try_record types callees (n, r) = match wanted types r with Some i => [i] | None => [] end.
  Proof.
    intros A. unfold try_record, wanted. cbn [fst snd]. destruct (target r) as [q| | |]; auto.
    assert (C : match lookup callees n with Some t => t | None => rty r end = rty r) by (destruct (lookup callees n); auto).
    rewrite C. clear A C.
    assert (F : at_name (filter (fun p : string * scheme => negb (is_mono (snd p))) types) q = match at_name types q with Some sc => if is_mono sc then None else Some sc | None => None end).
    { clear r. induction types as [|[p sc] ts IH]; auto. inversion keys; subst. cbn [filter snd at_name]. destruct (String.eqb_spec p q) as [->|D].
      - destruct (is_mono sc) eqn:M; cbn [negb at_name].
        + rewrite IH by auto. destruct (at_name ts q) as [sc'|] eqn:E; auto. apply at_name_iff in E; auto. destruct H1. apply in_map_iff. exists (q, sc'). auto.
        + cbn [at_name]. rewrite String.eqb_refl. auto.
      - destruct (negb (is_mono sc)); cbn [at_name]; auto. destruct (String.eqb_spec p q); [congruence|auto]. }
    rewrite F. destruct (at_name types q) as [sc|]; auto. destruct (is_mono sc) eqn:M.
    - unfold is_mono in M. apply andb_true_iff in M as [M _]. apply Nat.eqb_eq in M. unfold extract_type_args. rewrite M. auto.
    - destruct (extract_type_args sc (rty r)) as [args|]; auto. destruct (forallb is_concrete args); auto.
  Qed.
  (** Arguments stay when more is known about the types. *)
  Lemma asks_stable r i args : (forall q sc, In (q, sc) types -> first_order (sc_body sc)) -> asks types r i -> asks types (at_args args r) i.
  Proof.
    intros FO [T [sc [I [[P [L [F S]]] G]]]]. split; auto. exists sc. repeat split; auto; try (apply S; auto; fail).
    cbn [rty at_args]. unfold fill_in. apply fits_stable; auto; [eapply FO; eauto|]. intros j V. apply S in V. rewrite Forall_forall in G. apply G, nth_In. lia.
  Qed.
End Types.

(** ** Redirection to the copies of known instances *)
Lemma args_eqb_eq a b : args_eqb a b = true <-> a = b.
Proof. unfold args_eqb. apply all2_eq. apply Forall_forall. intros. apply ty_eqb_eq. Qed.
Lemma inst_eqb_eq a b : inst_eqb a b = true <-> a = b.
Proof.
  destruct a as [p a], b as [q b]. unfold inst_eqb. cbn [fst snd]. rewrite andb_true_iff, args_eqb_eq. split.
  - intros [E ->]. apply String.eqb_eq in E as ->. auto.
  - intros [= -> ->]. rewrite String.eqb_refl. auto.
Qed.
Definition knows (K : list inst) (i : inst) : bool := existsb (inst_eqb i) K.
Lemma knows_in K i : knows K i = true <-> In i K.
Proof. unfold knows. rewrite existsb_exists. split; [intros [j [I E]]; apply inst_eqb_eq in E as ->; auto|intros I; exists i; split; auto; apply inst_eqb_eq; auto]. Qed.
Definition redir (types : list (string * scheme)) (K : list inst) (r : tref) : tref :=
  match wanted types r with
  | Some i => if knows K i then match mangle_name (fst i) (snd i) with Some m => {| target := RFunction m; rty := rty r |} | None => r end else r
  | None => r
  end.
Definition redirect (types : list (string * scheme)) (r : tref) : tref :=
  match wanted types r with
  | Some i => match mangle_name (fst i) (snd i) with Some m => {| target := RFunction m; rty := rty r |} | None => r end
  | None => r
  end.
Lemma redir_rty types K r : rty (redir types K r) = rty r.
Proof. unfold redir. destruct (wanted types r) as [i|]; auto. destruct (knows K i); auto. destruct (mangle_name (fst i) (snd i)); auto. Qed.
Lemma mangled_dollar q args m : args <> [] -> mangle_name q args = Some m -> ~ no_dollar m.
Proof.
  intros N E D. unfold mangle_name in E. destruct (sequence (List.map mangle args)) as [ss|] eqn:S; [|discriminate]. injection E as <-.
  destruct args as [|a args]; [congruence|]. cbn in S. destruct (mangle a) as [s|]; [|discriminate].
  destruct ss as [|s0 ss]; [destruct (sequence (List.map mangle args)); discriminate|].
  assert (Q : forall a b, mentions "$" (a ++ String "$" b)%string = true).
  { clear. induction a as [|c a IH]; intros b; cbn; auto. rewrite IH. apply orb_true_r. }
  unfold no_dollar in D. rewrite concat_map_dollar in D. cbn [dollar] in D.
  change (mentions "$" (q ++ String "$" (s0 ++ dollar ss)) = false) in D. rewrite Q in D. discriminate.
Qed.
Section Known.
  Variable types : list (string * scheme).
  Hypothesis keys : NoDup (List.map fst types).
  Hypothesis plain_keys : forall q sc, In (q, sc) types -> no_dollar q.
  Lemma asks_args r i : asks types r i -> snd i <> [].
  Proof. intros [_ [sc [_ [[P [L _]] _]]]] E. rewrite E in L. cbn in L. congruence. Qed.
  Lemma wanted_copy m t : ~ no_dollar m -> wanted types {| target := RFunction m; rty := t |} = None.
  Proof.
    intros D. unfold wanted. cbn [target]. destruct (at_name types m) as [sc|] eqn:E; auto. apply at_name_iff in E; auto. destruct D. eapply plain_keys; eauto.
  Qed.
  Lemma redir_again K K' r : (forall i, In i K -> In i K' /\ mangle_name (fst i) (snd i) <> None) -> redir types K' (redir types K r) = redir types K' r.
  Proof.
    intros S. unfold redir at 2. destruct (wanted types r) as [i|] eqn:W; auto. destruct (knows K i) eqn:N; auto. apply knows_in in N. destruct (S i N) as [N' M].
    destruct (mangle_name (fst i) (snd i)) as [m|] eqn:E; [|congruence].
    assert (A := proj1 (wanted_asks types keys r i) W). unfold redir. rewrite wanted_copy by (eapply mangled_dollar; eauto using asks_args).
    rewrite W, (proj2 (knows_in K' i) N'), E. auto.
  Qed.
  (** After substitution. *)
  Lemma redir_subst K K' args r : (forall q sc, In (q, sc) types -> first_order (sc_body sc)) -> (forall i, In i K -> In i K' /\ mangle_name (fst i) (snd i) <> None) ->
    redir types K' (at_args args (redir types K r)) = redir types K' (at_args args r).
  Proof.
    intros FO S. unfold redir at 2. destruct (wanted types r) as [i|] eqn:W; auto. destruct (knows K i) eqn:N; auto. apply knows_in in N. destruct (S i N) as [N' M].
    destruct (mangle_name (fst i) (snd i)) as [m|] eqn:E; [|congruence].
    assert (A := proj1 (wanted_asks types keys r i) W). unfold at_args at 1. cbn [target rty]. unfold redir.
    rewrite wanted_copy by (eapply mangled_dollar; eauto using asks_args).
    apply (asks_stable types r i args FO) in A. apply (wanted_asks types keys) in A. rewrite A, (proj2 (knows_in K' i) N'), E. auto.
  Qed.
  (** The rewrite map. *)
  Lemma insert_sorted_perm {A} (key : A -> string) a l : Permutation (a :: l) (insert_sorted key a l).
  Proof. induction l as [|b l IH]; cbn; auto. destruct (String.ltb (key a) (key b)); auto. rewrite perm_swap. auto. Qed.
  Lemma sort_perm {A} (key : A -> string) l : Permutation l (sort_by_key key l).
  Proof.
    unfold sort_by_key. enough (Q : forall acc, Permutation (l ++ acc) (fold_left (fun l a => insert_sorted key a l) l acc)) by (specialize (Q []); rewrite app_nil_r in Q; auto).
    induction l as [|a l IH]; intros acc; cbn; auto. rewrite <- IH, <- insert_sorted_perm. rewrite Permutation_middle. auto.
  Qed.
  Lemma rewrite_map_at K rm q : build_rewrite_map types K = Some rm ->
    (at_name rm q = None /\ (at_name types q = None \/ ~ In q (List.map fst K))) \/
    (exists es es', at_name rm q = Some es' /\ Permutation es es' /\ otraverse (build_entry q) (args_of K q) = Some es).
  Proof.
    unfold build_rewrite_map. intros B.
    assert (NQ : In q (filter (fun q => match at_name types q with Some _ => true | None => false end) (nodup string_dec (List.map fst K))) <->
      at_name types q <> None /\ In q (List.map fst K)).
    { rewrite filter_In, nodup_In. destruct (at_name types q); split; intros [X Y]; split; auto; congruence. }
    revert rm B NQ. generalize (filter (fun q => match at_name types q with Some _ => true | None => false end) (nodup string_dec (List.map fst K))) as qs.
    intros qs rm B NQ.
    assert (Q : (at_name rm q = None /\ ~ In q qs) \/ (exists es es', at_name rm q = Some es' /\ Permutation es es' /\ otraverse (build_entry q) (args_of K q) = Some es)).
    { clear NQ. revert rm B. induction qs as [|p qs IH]; intros rm B; cbn [otraverse] in B.
      - injection B as <-. left. cbn. auto.
      - destruct (otraverse (build_entry p) (args_of K p)) as [es|] eqn:E; [|discriminate]. cbn [obind] in B.
        destruct (otraverse _ qs) as [rm'|]; [|discriminate]. cbn [obind] in B. injection B as <-. cbn [at_name]. destruct (String.eqb_spec p q) as [->|D].
        + right. exists es. eexists. split; eauto. split; auto. apply sort_perm.
        + destruct (IH rm' eq_refl) as [[N I]|R]; [left|right; auto]. split; auto. intros [->|J]; auto. }
    destruct Q as [[N I]|R]; [left|right; auto]. split; auto. destruct (at_name types q) eqn:T; [right|left; auto]. intros J. apply I, NQ. split; [congruence|auto].
  Qed.
  Lemma in_args_of K q a : In a (args_of K q) <-> In (q, a) K.
  Proof.
    unfold args_of. rewrite in_map_iff. split.
    - intros [[p b] [<- I]]. apply filter_In in I as [I E]. apply String.eqb_eq in E. cbn in E. subst. auto.
    - intros I. exists (q, a). split; auto. apply filter_In. split; auto. cbn. apply String.eqb_refl.
  Qed.
  Lemma find_perm {A} (p : A -> bool) l l' a : Permutation l l' -> find p l' = Some a -> In a l /\ p a = true.
  Proof. intros P F. apply find_some in F as [I H]. split; auto. eapply Permutation_in; [symmetry|]; eauto. Qed.
  Lemma rewrite_known K rm r : build_rewrite_map types K = Some rm -> (forall i, In i K -> exists r, asks types r i) ->
    rewrite_ref types rm r = redir types K r /\ (forall i, In i K -> mangle_name (fst i) (snd i) <> None).
  Proof.
    intros B S.
    assert (M : forall i, In i K -> mangle_name (fst i) (snd i) <> None).
    { intros [q args] I. destruct (rewrite_map_at K rm q B) as [[_ [T|T]]|[es [es' [_ [_ E]]]]].
      - destruct (S _ I) as [r0 [_ [sc [J _]]]]. apply at_name_iff in J; auto. cbn [fst] in J. congruence.
      - destruct T. apply in_map_iff. exists (q, args). auto.
      - apply otraverse_some in E. apply in_args_of in I. apply (Forall2_in_l _ _ _ _ E) in I as [e [_ E']] || idtac.
        clear - E I. revert es E. induction (args_of K q) as [|a l IH]; intros es E; [destruct I|]. inversion E; subst. destruct I as [->|I]; [|eapply IH; eauto].
        unfold build_entry in H1. cbn [fst snd]. destruct (mangle_name q args); [discriminate|cbn in H1; discriminate]. }
    split; auto. unfold rewrite_ref, try_rewrite_ref, redir, wanted. destruct (target r) as [q| | |] eqn:TG; auto.
    destruct (rewrite_map_at K rm q B) as [[-> T]|[es [es' [-> [P E]]]]]; cbn [obind].
    - destruct T as [->|T]; auto. destruct (at_name types q); auto. destruct (extract_type_args s (rty r)) as [args|]; auto.
      destruct (forallb is_concrete args); auto. destruct (knows K (q, args)) eqn:N; auto. apply knows_in in N. destruct T. apply in_map_iff. exists (q, args). auto.
    - destruct (at_name types q) as [sc|] eqn:T; cbn [obind]; auto. destruct (extract_type_args sc (rty r)) as [args|] eqn:X; cbn [obind]; auto.
      assert (EI : forall a m, In (a, m) es -> In (q, a) K /\ mangle_name q a = Some m).
      { intros a m I. apply otraverse_some in E. assert (Q : exists b, In b (args_of K q) /\ build_entry q b = Some (a, m)).
        { clear - E I. induction E; [destruct I|]. destruct I as [->|I]; [exists x; cbn; auto|]. destruct IHE as [b [J F]]; auto. exists b. cbn; auto. }
        destruct Q as [b [J F]]. unfold build_entry in F. destruct (mangle_name q b) eqn:G; [|discriminate]. injection F as -> ->. split; auto. apply in_args_of; auto. }
      destruct (find (fun e => args_eqb (fst e) args) es') as [[a m]|] eqn:F.
      + apply (find_perm _ _ _ _ P) in F as [I Q]. apply args_eqb_eq in Q. cbn [fst] in Q. subst a. apply EI in I as [I G]. cbn [obind snd].
        destruct (S _ I) as [r0 [_ [_ [_ [_ C]]]]]. cbn [snd] in C. apply ground_all in C as ->. rewrite (proj2 (knows_in K (q, args)) I). cbn [fst snd]. rewrite G. auto.
      + cbn [obind]. destruct (forallb is_concrete args) eqn:C; auto. destruct (knows K (q, args)) eqn:N; auto. apply knows_in in N. exfalso.
        assert (J : In args (args_of K q)) by (apply in_args_of; auto). apply otraverse_some in E.
        assert (Q : exists m, In (args, m) es).
        { clear - E J. induction E; [destruct J|]. destruct J as [->|J]; [|destruct IHE as [m I]; auto; exists m; cbn; auto].
          unfold build_entry in H. destruct (mangle_name q args) as [m|]; [|discriminate]. injection H as <-. exists m. cbn; auto. }
        destruct Q as [m I]. apply (Permutation_in _ P) in I. apply (find_none _ _ F) in I. cbn [fst] in I. rewrite (proj2 (args_eqb_eq args args) eq_refl) in I. discriminate.
  Qed.
End Known.
