(** Iteration orders do not matter. *)
From Verif Require Export MonoMain.
From Verif Require AliasMain.
From Verif Require Import SubstProofs.
From Coq Require Import Sorted Ascii Lia.

(** ** Sorting by name *)
Definition before (a b : string) : bool := negb (String.ltb b a).
Lemma ascii_cmp a b : Ascii.compare a b = N.compare (N_of_ascii a) (N_of_ascii b). Proof. reflexivity. Qed.
Lemma ascii_inj a b : N_of_ascii a = N_of_ascii b -> a = b.
Proof. intros H. rewrite <- (ascii_N_embedding a), <- (ascii_N_embedding b), H. auto. Qed.
Lemma compare_lt_trans : forall a b c, String.compare a b = Lt -> String.compare b c = Lt -> String.compare a c = Lt.
Proof.
  induction a as [|x a IH]; intros [|y b] [|z c]; cbn [String.compare]; try discriminate; auto. rewrite !ascii_cmp.
  destruct (N.compare_spec (N_of_ascii x) (N_of_ascii y)) as [E1|E1|E1]; try discriminate; destruct (N.compare_spec (N_of_ascii y) (N_of_ascii z)) as [E2|E2|E2]; try discriminate; intros A B.
  - rewrite E1, E2, N.compare_refl. eauto.
  - rewrite E1, (proj2 (N.compare_lt_iff _ _) E2). auto.
  - rewrite <- E2, (proj2 (N.compare_lt_iff _ _) E1). auto.
  - rewrite (proj2 (N.compare_lt_iff _ _) (N.lt_trans _ _ _ E1 E2)). auto.
Qed.
Lemma before_iff a b : before a b = true <-> String.compare a b <> Gt.
Proof.
  unfold before, String.ltb. rewrite (String.compare_antisym a b). destruct (String.compare b a); cbn; split; intros H; try congruence; try discriminate; auto.
Qed.
Lemma before_total a b : before a b = true \/ before b a = true.
Proof. rewrite !before_iff, (String.compare_antisym b a). destruct (String.compare a b); cbn; auto; [left|left|right]; discriminate. Qed.
Lemma before_trans a b c : before a b = true -> before b c = true -> before a c = true.
Proof.
  rewrite !before_iff. intros A B. destruct (String.compare a b) eqn:E1; [apply String.compare_eq_iff in E1 as ->; auto| |congruence].
  destruct (String.compare b c) eqn:E2; [apply String.compare_eq_iff in E2 as ->; congruence| |congruence]. rewrite (compare_lt_trans _ _ _ E1 E2). discriminate.
Qed.
Lemma before_eq a b : before a b = true -> before b a = true -> a = b.
Proof.
  rewrite !before_iff, (String.compare_antisym b a). intros A B. destruct (String.compare a b) eqn:E; [apply String.compare_eq_iff; auto|cbn in B; congruence|congruence].
Qed.
Section Sorting.
  Context {A : Type} (key : A -> string).
  Definition le (x y : A) : bool := before (key x) (key y).
  Lemma insert_ordered x l : StronglySorted (fun x y => le x y = true) l -> StronglySorted (fun x y => le x y = true) (insert_sorted key x l).
  Proof.
    induction 1 as [|y l S IH F]; cbn; [repeat constructor|]. destruct (String.ltb (key x) (key y)) eqn:E.
    - assert (LE : le x y = true). { destruct (before_total (key x) (key y)) as [B|B]; auto. unfold before in B. rewrite E in B. discriminate. }
      constructor; [constructor; auto|]. constructor; auto. eapply Forall_impl; [|exact F]. intros z Z. eapply before_trans; eauto.
    - constructor; auto. eapply Permutation_Forall; [apply insert_sorted_perm|]. constructor; auto. unfold le, before. rewrite E. auto.
  Qed.
  Lemma sort_ordered l : StronglySorted (fun x y => le x y = true) (sort_by_key key l).
  Proof.
    unfold sort_by_key. enough (Q : forall acc, StronglySorted (fun x y => le x y = true) acc -> StronglySorted (fun x y => le x y = true) (fold_left (fun l a => insert_sorted key a l) l acc)) by (apply Q; constructor).
    induction l as [|x l IH]; intros acc S; cbn; auto. apply IH, insert_ordered; auto.
  Qed.
  Lemma sort_same l l' : Permutation l l' -> (forall x y, In x l -> In y l -> key x = key y -> x = y) -> sort_by_key key l = sort_by_key key l'.
  Proof.
    intros P U. apply (AliasMain.sorted_unique le); auto using sort_ordered.
    - rewrite <- (sort_perm key l), <- (sort_perm key l'). auto.
    - intros x y I J B C. apply U; try (eapply Permutation_in; [symmetry; apply (sort_perm key)|]; auto). apply before_eq; auto.
  Qed.
End Sorting.
Lemma otraverse_perm {A B} (f : A -> option B) l l' : Permutation l l' ->
  match otraverse f l, otraverse f l' with Some a, Some b => Permutation a b | None, None => True | _, _ => False end.
Proof.
  induction 1; cbn; auto.
  - destruct (f x); cbn; auto. destruct (otraverse f l), (otraverse f l'); cbn; auto.
  - destruct (f x), (f y); cbn; auto; destruct (otraverse f l); cbn; auto; constructor.
  - destruct (otraverse f l), (otraverse f l'), (otraverse f l''); try tauto. etransitivity; eauto.
Qed.

Section Order.
  Variables (types : list (string * scheme)) (ds : list decl) (m0 : meta) (variant : list ty -> N) (sh1 sh2 : nat -> list inst -> list inst).
  Hypothesis SO : source_ok types ds m0.
  Hypothesis O1 : orders sh1.
  Hypothesis O2 : orders sh2.
  Hypothesis SEP : separates variant types ds.
  Hypothesis NAMES : forall i j m, needed types ds i -> needed types ds j -> mangle_name (fst i) (snd i) = Some m -> mangle_name (fst j) (snd j) = Some m -> i = j.
  Lemma generate_order decls o1 o2 : Permutation o1 o2 -> (forall i, In i o1 -> needed types ds i) -> generate_specializations variant types decls o1 = generate_specializations variant types decls o2.
  Proof.
    intros P N. unfold generate_specializations. set (one := generate_one variant types (collect_func_decls decls) (collect_extern_function_names decls)).
    pose proof (otraverse_perm one o1 o2 P) as T. destruct (otraverse one o1) as [g1|] eqn:E1, (otraverse one o2) as [g2|] eqn:E2; cbn [obind]; try tauto.
    assert (FR : forall g, In g g1 -> exists i, In i o1 /\ one i = Some g).
    { apply otraverse_some in E1. clear - E1. induction E1; [intros g []|]. intros g [<-|I]; [exists x; cbn; auto|]. destruct (IHE1 g I) as [i [J Q]]. exists i. cbn; auto. }
    assert (NM : forall i g, one i = Some g -> (forall e, In e (copied g) -> mangle_name (fst i) (snd i) = Some (e_name e)) /\ (forall n sc, In (n, sc) (external g) -> mangle_name (fst i) (snd i) = Some n)).
    { intros [q args] g E. unfold one, generate_one in E. cbn [fst snd]. destruct (match at_name_last _ q with Some _ => _ | None => _ end) in E; [injection E as <-; split; intros; destruct H|].
      destruct (at_name types q) as [sc|]; [|injection E as <-; split; intros; destruct H]. apply obind_some in E as [m [-> E]]. destruct (in_range args (sc_body sc)); [|discriminate].
      destruct (at_name_last _ q) as [f|]; [destruct (forallb _ _); [|discriminate]|]; injection E as <-; cbn; split; intros; try tauto; destruct H as [H|[]]; [subst; auto|injection H as <- _; auto]. }
    assert (SAME : forall i j g h, In i o1 -> In j o1 -> one i = Some g -> one j = Some h -> forall m, mangle_name (fst i) (snd i) = Some m -> mangle_name (fst j) (snd j) = Some m -> g = h).
    { intros i j g h I J G H m A B. assert (i = j) by (eapply NAMES; eauto). congruence. }
    assert (ONE : forall g, (exists e, copied g = [e] /\ external g = []) \/ (exists p, copied g = [] /\ external g = [p]) \/ (copied g = [] /\ external g = [])) by (intros [|e|n sc]; cbn; eauto 6).
    assert (ES : sort_by_key e_name (flat_map copied g1) = sort_by_key e_name (flat_map copied g2)).
    { apply sort_same; [apply Permutation_flat_map; auto|]. intros x y I J E. apply in_flat_map in I as [g [I X]]. apply in_flat_map in J as [h [J Y]].
      destruct (FR g I) as [i [Io G]]. destruct (FR h J) as [j [Jo H]]. pose proof (proj1 (NM i g G) x X) as A. pose proof (proj1 (NM j h H) y Y) as B. rewrite <- E in B.
      pose proof (SAME i j g h Io Jo G H _ A B) as <-. destruct (ONE g) as [[e [C _]]|[[p [C _]]|[C _]]]; rewrite C in X, Y; try (destruct X; fail). destruct X as [<-|[]], Y as [<-|[]]. auto. }
    rewrite ES. f_equal. f_equal. apply sort_same; [apply Permutation_app; [auto|apply Permutation_flat_map; auto]|]. rewrite <- ES.
    assert (SRC : forall x, In x (List.map (fun e => (e_name e, e_scheme e)) (sort_by_key e_name (flat_map copied g1)) ++ flat_map external g1) ->
      exists i g, In i o1 /\ one i = Some g /\ mangle_name (fst i) (snd i) = Some (fst x) /\ (In x (external g) \/ exists e, In e (copied g) /\ x = (e_name e, e_scheme e))).
    { intros x I. apply in_app_iff in I as [I|I].
      - apply in_map_iff in I as [e [<- I]]. apply (Permutation_in _ (Permutation_sym (sort_perm e_name _))) in I. apply in_flat_map in I as [g [I X]]. destruct (FR g I) as [i [Io G]].
        exists i, g. split; auto. split; auto. split; [apply (NM i g G); auto|]. right. exists e. auto.
      - apply in_flat_map in I as [g [I X]]. destruct (FR g I) as [i [Io G]]. exists i, g. split; auto. split; auto. split; auto. destruct x as [n sc]. apply (proj2 (NM i g G) n sc X). }
    intros x y I J E. apply SRC in I as [i [g [Io [G [A X]]]]]. apply SRC in J as [j [h [Jo [H [B Y]]]]]. rewrite <- E in B. pose proof (SAME i j g h Io Jo G H _ A B) as <-.
    destruct (ONE g) as [[e [C D]]|[[p [C D]]|[C D]]]; rewrite C, D in X, Y; destruct X as [X|[e1 [X ->]]]; try (destruct X; fail); destruct Y as [Y|[e2 [Y ->]]]; try (destruct Y; fail).
    - destruct X as [<-|[]], Y as [<-|[]]. auto.
    - destruct X as [<-|[]], Y as [<-|[]]. auto.
  Qed.
  Lemma round_order n s l : inv types ds m0 variant s l -> round variant sh1 types n s = round variant sh2 types n s.
  Proof.
    intros H. unfold round. set (new := unseen (known s) (collect_instantiations types (callees (metadata s)) (decls s))).
    destruct (unseen_new (known s) (collect_instantiations types (callees (metadata s)) (decls s))) as [_ U]. fold new in U. clearbody new. destruct new as [|i rest]; auto.
    rewrite (generate_order (decls s) (sh1 n (i :: rest)) (sh2 n (i :: rest))); auto.
    - rewrite <- (O1 n (i :: rest)), <- (O2 n (i :: rest)). auto.
    - intros j J. apply (Permutation_in _ (Permutation_sym (O1 n (i :: rest)))) in J. apply U in J as [J _]. apply (collected types ds m0 variant SO s l j H) in J.
      eapply finds_needed; eauto.
  Qed.
  Lemma rounds_order fuel n s l : inv types ds m0 variant s l -> rounds variant sh1 types fuel n s = rounds variant sh2 types fuel n s.
  Proof.
    revert n s l. induction fuel as [|fuel IH]; intros n s l H; cbn; auto. rewrite <- (round_order n s l H). destruct (round variant sh1 types n s) as [[s'|]|] eqn:R; auto.
    destruct (round_step types ds m0 variant sh1 SO O1 SEP n s l s' H R) as [it H']. eauto.
  Qed.
  Lemma order_irrelevant : monomorphize variant sh1 types ds m0 = monomorphize variant sh2 types ds m0.
  Proof. unfold monomorphize. apply (rounds_order max_rounds 0 _ []). apply inv_start; auto. Qed.
End Order.

(** ** Nothing panics *)
Lemma NoDup_first {A} (a b : list A) : NoDup (a ++ b) -> NoDup a.
Proof. induction a as [|x a IH]; cbn; intros N; [constructor|]. inversion N; subst. constructor; auto. intros I. apply H1, in_or_app; auto. Qed.
Section Total.
  Variables (types : list (string * scheme)) (ds : list decl) (m0 : meta) (variant : list ty -> N) (shuffle : nat -> list inst -> list inst).
  Hypothesis SO : source_ok types ds m0.
  Hypothesis OR : orders shuffle.
  Hypothesis SEP : separates variant types ds.
  Hypothesis MAN : forall i, needed types ds i -> mangle_name (fst i) (snd i) <> None.
  Hypothesis SCO : forall q sc t, In (q, sc) types -> sc_params sc <> 0 -> scoped_under ds m0 q sc t -> Forall (fun i => i < sc_params sc) (bounds t).
  Lemma needed_length q args sc : needed types ds (q, args) -> In (q, sc) types -> sc_params sc <> 0 /\ List.length args = sc_params sc.
  Proof.
    intros N I. apply needed_asked in N as [r [_ [sc' [J [[P [L _]] _]]]]]. cbn [fst snd] in *. apply (at_name_iff types q _ (so_keys _ _ _ SO)) in I, J. assert (sc' = sc) by congruence. subst. auto.
  Qed.
  Lemma scoped_range q args sc t : needed types ds (q, args) -> In (q, sc) types -> scoped_under ds m0 q sc t -> in_range args t = true.
  Proof.
    intros N I U. destruct (needed_length _ _ _ N I) as [P L]. pose proof (SCO q sc t I P U) as F. unfold in_range.
    destruct (subst_bound_exact args t) as [[_ ->]|[i [J [G _]]]]; auto. rewrite Forall_forall in F. apply F in J. lia.
  Qed.
  Lemma generate_ok s l i : inv types ds m0 variant s l -> needed types ds i ->
    generate_one variant types (collect_func_decls (decls s)) (collect_extern_function_names (decls s)) i <> None.
  Proof.
    intros H N. destruct i as [q args]. unfold generate_one. destruct (needed_plain _ _ _ SO _ _ N) as [D _]. rewrite (in_decls _ _ _ _ _ _ H).
    rewrite (at_state types ds m0 variant SO (known s) l q D (fun x => mangled_items types ds m0 variant SO s l x H)).
    destruct (match option_map _ _ with Some _ => _ | None => _ end); [discriminate|]. destruct (needed_scheme types ds m0 SO _ _ N) as [sc [-> [I _]]].
    pose proof (MAN _ N) as M. cbn [fst snd] in M. destruct (mangle_name q args) as [m|]; [|congruence]. cbn [obind].
    rewrite (scoped_range q args sc _ N I (under_scheme _ _ _ _)). destruct (func_at ds q) as [f|] eqn:F; cbn [option_map]; [|discriminate].
    cbn [map_func f_body]. rewrite types_kept.
    replace (forallb (in_range args) (expr_types (f_body f))) with true; [discriminate|]. symmetry. apply forallb_forall. intros t T.
    eapply scoped_range; eauto. eapply under_body; eauto. eapply func_at_iff; eauto.
  Qed.
  Lemma otraverse_ok {A B} (f : A -> option B) l : (forall a, In a l -> f a <> None) -> otraverse f l <> None.
  Proof.
    induction l as [|a l IH]; cbn; intros H; [discriminate|]. destruct (f a) eqn:E; cbn; [|destruct (H a); auto]. destruct (otraverse f l); cbn; [discriminate|]. apply IH. intros; apply H; auto.
  Qed.
  Lemma range_kept m fin a o : minv variant m0 m fin -> plain_ids o -> all_in_range m0 a o -> specialize_metadata variant m a o <> None.
  Proof.
    intros [[N1 _ _] [C1 _ _] [H1 _ _] [P1 _ _] [L1 _ _] _ _] PL R. unfold specialize_metadata. unfold all_in_range in R.
    rewrite !(values_same o _ _ PL N1), !(values_same o _ _ PL C1), !(values_same o _ _ PL H1), !(values_same o _ _ PL P1), !(values_same o _ _ PL L1), R. discriminate.
  Qed.
  Lemma item_range q args f m l : item_ok types ds (q, args, f, m) -> In (q, args, f, m) l -> all_in_range m0 args (semantic_node_ids f).
  Proof.
    intros [N F] _. cbn [fst snd] in *. destruct (needed_scheme types ds m0 SO _ _ N) as [sc [_ [I _]]]. unfold all_in_range. apply forallb_forall. intros t T.
    eapply scoped_range; eauto. rewrite !in_app_iff, in_flat_map, in_map_iff in T.
    assert (V : forall A (tb : table A) x, In x (values (semantic_node_ids f) tb) -> exists i, func_node i f /\ lookup tb i = Some x).
    { intros A tb x J. unfold values in J. apply in_flat_map in J as [i [J K]]. destruct (lookup tb i) as [y|] eqn:E; [|destruct K]. destruct K as [<-|[]]. exists i. split; auto. apply ids_node; auto. }
    destruct T as [T|[T|[[o [T O]]|[[u c] [<- T]]]]].
    - apply V in T as [i [J E]]. eapply under_node; eauto.
    - apply V in T as [i [J E]]. eapply under_callee; eauto.
    - apply in_app_iff in T as [T|T]; apply V in T as [i [J E]]; [eapply under_handler|eapply under_perform]; eauto; rewrite !in_app_iff in *; cbn in O; tauto.
    - apply V in T as [i [J E]]. eapply under_lambda; eauto.
  Qed.
  Lemma meta_ok K (it l : list item) m :
    minv variant m0 m (List.map (fun x => (snd (fst (fst x)), semantic_node_ids (snd (fst x)))) l) ->
    NoDup (List.map (fun x => fst (fst x)) (l ++ it)) -> (forall x, In x (l ++ it) -> item_ok types ds x) ->
    ofold (fun m e => specialize_metadata variant m (e_args e) (e_origins e)) (List.map (entry_of types variant K) it) m <> None.
  Proof.
    revert l m. induction it as [|x it IH]; intros l m M ND OK; cbn; [discriminate|].
    assert (OX : item_ok types ds x) by (apply OK, in_or_app; cbn; auto).
    assert (S : specialize_metadata variant m (snd (fst (fst x))) (semantic_node_ids (snd (fst x))) <> None).
    { eapply range_kept; eauto.
      - intros i I. apply ids_node in I. destruct (named_source ds _ _ (proj2 OX)) as [path P]. eapply (so_source _ _ _ SO); eauto.
      - destruct x as [[[q args] f] k]. cbn [fst snd]. eapply (item_range q args f k [(q, args, f, k)]); cbn; auto. }
    destruct (specialize_metadata variant m _ _) as [m1|] eqn:E; [|congruence]. cbn [obind]. replace (l ++ x :: it) with ((l ++ [x]) ++ it) in * by (rewrite <- app_assoc; auto).
    apply (IH (l ++ [x])); auto. eapply (meta_steps types ds m0 variant SO SEP K [x] l m m1); eauto.
    - rewrite map_app in ND. apply NoDup_first in ND. auto.
    - intros y I. apply OK, in_or_app. auto.
    - cbn. rewrite E. auto.
  Qed.
  Lemma round_ok n s l : inv types ds m0 variant s l -> round variant shuffle types n s <> None.
  Proof.
    intros H. unfold round. destruct (unseen_new (known s) (collect_instantiations types (callees (metadata s)) (decls s))) as [NDn INn].
    set (new := unseen (known s) (collect_instantiations types (callees (metadata s)) (decls s))) in *.
    assert (NN : forall i, In i new -> needed types ds i). { intros i I. apply INn in I as [I _]. apply (collected types ds m0 variant SO s l i H) in I. eapply finds_needed; eauto. }
    pose proof (OR n new) as PN.
    assert (ON : forall i, In i (shuffle n new) -> needed types ds i) by (intros i I; apply NN; eapply Permutation_in; [symmetry; apply PN|auto]).
    enough (Q : obind (generate_specializations variant types (decls s) (shuffle n new)) (fun g =>
        obind (ofold (fun m e => specialize_metadata variant m (e_args e) (e_origins e)) (fst g) (metadata s)) (fun m =>
        obind (build_rewrite_map types (known s ++ new)) (fun rm =>
        Some (Some {| decls := List.map (rewrite_decl types rm) (decls s) ++ List.map (fun e => rewrite_decl types rm (DFunction (e_func e))) (fst g);
                      known := known s ++ new; ftypes := ftypes s ++ snd g; metadata := m |})))) <> None) by (destruct new; [discriminate|exact Q]).
    clearbody new. unfold generate_specializations.
    destruct (otraverse _ _) as [gs|] eqn:G; [|exfalso; revert G; apply otraverse_ok; intros i I; apply (generate_ok s l i H); auto]. cbn [obind].
    apply otraverse_some in G. rewrite (in_decls _ _ _ _ _ _ H) in G.
    pose proof (fun i g I E => gen_one types ds m0 variant SO (known s) l i g (ON i I) (fun x => mangled_items types ds m0 variant SO s l x H) E) as GO.
    assert (CP : flat_map copied gs = List.map (entry_of types variant (known s)) (flat_map (items_of ds) (shuffle n new))).
    { rewrite <- flat_map_flat. eapply MonoRounds.Forall2_flat; [exact G|]. intros i g I E. apply (GO i g I E). }
    pose proof (sort_perm e_name (flat_map copied gs)) as PS. rewrite CP in PS. symmetry in PS. apply Permutation_map_inv in PS as [it [EI PI]]. rewrite CP in *. rewrite EI in *. cbn [fst snd].
    assert (IT : forall q args f m, In (q, args, f, m) it -> In (q, args) new /\ function_named ds q f).
    { intros q args f m I. apply (Permutation_in _ (Permutation_sym PI)) in I. apply in_flat_map in I as [i [I J]]. apply (in_items_of types ds m0 SO) in J as [-> J]. split; [|apply J].
      eapply Permutation_in; [symmetry; apply PN|auto]. }
    destruct (ofold _ _ _) as [m'|] eqn:M.
    - cbn [obind]. destruct (build_rewrite_map types (known s ++ new)) eqn:B; [discriminate|]. exfalso. revert B. unfold build_rewrite_map. apply otraverse_ok. intros q _.
      destruct (otraverse (build_entry q) (args_of (known s ++ new) q)) eqn:E; [discriminate|]. exfalso. revert E. apply otraverse_ok. intros a I. apply in_args_of in I. unfold build_entry.
      assert (N : needed types ds (q, a)) by (apply in_app_iff in I as [I|I]; auto; apply (in_known _ _ _ _ _ _ H _ I)). apply MAN in N. cbn [fst snd] in N. destruct (mangle_name q a); cbn; congruence.
    - exfalso. revert M. apply (meta_ok _ _ l); [apply (in_meta _ _ _ _ _ _ H)| |].
      + rewrite map_app. apply NoDup_join; [apply (in_once _ _ _ _ _ _ H)|eapply Permutation_NoDup; [apply Permutation_map, PI|]; apply (items_nodup types ds m0 SO); eapply Permutation_NoDup; eauto|].
        intros i I J. apply in_map_iff in I as [[[[q args] f] m] [<- I]]. apply in_map_iff in J as [[[[q' args'] f'] m''] [E J]]. cbn [fst] in E. injection E as -> ->.
        apply (in_items _ _ _ _ _ _ H) in I as [I _]. apply IT in J as [J _]. apply INn in J as [_ J]. auto.
      + intros [[[q args] f] m] I. apply in_app_iff in I as [I|I].
        * apply (in_items _ _ _ _ _ _ H) in I as [I [F _]]. split; auto. apply (in_known _ _ _ _ _ _ H _ I).
        * apply IT in I as [I F]. split; auto.
  Qed.
  Lemma rounds_ok fuel n s l : inv types ds m0 variant s l -> rounds variant shuffle types fuel n s <> Panicked.
  Proof.
    revert n s l. induction fuel as [|fuel IH]; intros n s l H; cbn; [discriminate|]. pose proof (round_ok n s l H). destruct (round variant shuffle types n s) as [[s'|]|] eqn:R; [|discriminate|congruence].
    destruct (round_step types ds m0 variant shuffle SO OR SEP n s l s' H R) as [it H']. eauto.
  Qed.
  Lemma succeeds : (forall i, needed types ds i -> needed_in types ds 63 i) -> exists s, monomorphize variant shuffle types ds m0 = Done s.
  Proof.
    intros L. destruct (monomorphize variant shuffle types ds m0) as [| |s] eqn:E; eauto; exfalso; unfold monomorphize in E.
    - revert E. apply (rounds_ok max_rounds 0 _ []). apply inv_start; auto.
    - apply (rounds_exceeded types ds m0 variant shuffle SO OR SEP 63 0 0 (start types ds m0) [] (inv_start types ds m0 variant SO) (level_start types ds m0)) in E as [i [A B]].
      apply B, L. eapply needed_in_needed; eauto.
  Qed.
End Total.
