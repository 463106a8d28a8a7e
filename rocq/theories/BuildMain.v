(** The builder renames back. *)
From Coq Require Import Lia.
From Verif Require Export BuildNames.
Local Open Scope nat_scope.

(** ** Numbering of the operations of a module *)
Lemma assign_blks : forall l st, blks (fst (assign_values st l)) = blks st.
Proof.
  induction l as [|v l IH]; intros st; cbn; auto. specialize (IH {| vals := (v, next_v st) :: vals st; blks := blks st; next_v := next_v st + 1; next_b := next_b st |}).
  destruct (assign_values _ l) as [st' ns]. cbn in *. exact IH.
Qed.
Lemma label_kept b n : forall l st, num (blks st) b = Some n -> ~ In b l -> num (blks (fold_left assign_label l st)) b = Some n.
Proof.
  induction l as [|x l IH]; intros st H I; cbn [fold_left]; auto. apply IH; [|firstorder]. cbn [assign_label blks]. rewrite num_cons. destruct (N.eqb_spec x b) as [->|]; auto. destruct I. left. reflexivity.
Qed.
Lemma first_label st st' b args ops l r : NoDup (map block_name (Block b args ops :: l)) -> name_region st (Region (Block b args ops :: l)) = Some (st', r) ->
  exists args' ops' l', r = Region (Block (next_b st) args' ops' :: l').
Proof.
  intros D. cbn [name_region map block_name thread]. inversion D as [|? ? Nb _]; subst. cbn [name_block]. set (st0 := fold_left assign_label _ st).
  assert (E : num (blks st0) b = Some (next_b st)). { unfold st0. cbn [fold_left]. apply label_kept; auto. cbn [assign_label blks]. rewrite num_cons, N.eqb_refl. reflexivity. }
  pose proof (assign_blks (map fst args) st0) as K. destruct (assign_values st0 (map fst args)) as [st1 ns]. cbn [fst] in K. rewrite K, E.
  destruct (thread name_op st1 ops) as [[st2 ops']|]; [|discriminate]. destruct (thread name_block st2 l) as [[st3 bs]|]; [|discriminate]. intros H. injection H as <- <-. eauto.
Qed.
Lemma reset_ok : ok_names reset.
Proof. repeat split; cbn; try constructor; intros n []. Qed.
Definition entry_zero (g : N -> N) (o : op) : Prop := match o with Op _ _ _ _ _ _ _ [Region (Block b _ _ :: _)] => g b = 0%N | _ => True end.
Lemma top_named o : top_level o -> NoDup (op_values o) -> NoDup (op_blocks o) ->
  exists f g, option_map snd (name_op reset o) = Some (rename f g o) /\ one_to_one f (op_values o) /\ one_to_one g (op_blocks o)
    /\ (match o with Op _ d n _ _ _ _ _ => is_op d n "func" "func" = true end -> entry_zero g o).
Proof.
  intros T DV DB. inversion T as [d n operands succs attrs rtypes regions G S|attrs r ps P So Sy Ty_|attrs blocks P So Sy Ty_ En G S]; subst.
  - destruct (proj1 naming_ok _ G reset [] [] S reset_ok) as (st' & E & O & G1 & G2); auto; try (intros x []); try (intros x _ []).
    exists (fn (vals st')), (fn (blks st')). rewrite E. split; [reflexivity|]. destruct O as [O1 O2]. inversion G as [? ? ? ? ? ? ? ? NF _ _ _ _ _ _]; subst. split; [|split; [|congruence]]; intros x y X Y.
    + apply (fn_inj _ _ O1); apply (grows_added _ _ _ G1); assumption. + apply (fn_inj _ _ O2); apply (grows_added _ _ _ G2); assumption.
  - exists (fun x => x), (fun x => x). split; [reflexivity|]. repeat split; intros x y [].
  - assert (DV' : NoDup (flat_map block_values blocks)) by (rewrite op_values_eq in DV; cbn [flat_map app] in DV; rewrite app_nil_r in DV; exact DV).
    assert (DB' : NoDup (flat_map block_blocks blocks)) by (rewrite op_blocks_eq in DB; cbn [flat_map app] in DB; rewrite app_nil_r in DB; exact DB).
    destruct (naming_region_ok blocks) with (st := reset) (env := @nil N) (labs := map block_name blocks) as (st' & E & O & G1 & G2); auto; try (intros x []); try (intros x _ []); try apply incl_refl; try apply reset_ok.
    { apply Forall_forall. intros b _. apply (proj2 (proj2 naming_ok)). }
    exists (fn (vals st')), (fn (blks st')). split; [|split; [|split]].
    + cbn [name_op]. change (is_op (lit "func") (lit "func") "func" "func") with true. cbv iota. rewrite E. reflexivity.
    + rewrite op_values_eq. cbn [flat_map app]. rewrite app_nil_r. intros x y X Y. apply (fn_inj _ _ (proj1 O)); apply (grows_added _ _ _ G1); assumption.
    + rewrite op_blocks_eq. cbn [flat_map app]. rewrite app_nil_r. intros x y X Y. apply (fn_inj _ _ (proj2 O)); apply (grows_added _ _ _ G2); assumption.
    + intros _. destruct blocks as [|[b args ops] l]; [exact I|]. cbn [entry_zero]. apply first_label in E as (args' & ops' & l' & E); [|apply blocks_NoDup; exact DB'].
      rewrite rename_region_eq in E. cbn [map] in E. rewrite rename_block_eq in E. injection E as E _ _ _. exact E.
Qed.

(** ** Building *)
Section Build.
  Variable al : ty -> option text.
  Variable e : env.
  Hypothesis resolves : forall t, plain t -> build_type e (abbreviated al t) = Some t.

  Lemma fetch_cons {A} k (v : A) l k' : fetch ((k, v) :: l) k' = if text_eqb k k' then Some v else fetch l k'.
  Proof. unfold fetch. cbn. destruct (text_eqb k k'); reflexivity. Qed.
  Lemma fetch_none {A} (l : list (text * A)) k : ~ In k (map fst l) -> fetch l k = None.
  Proof. induction l as [|[k' v] l IH]; intros I; auto. rewrite fetch_cons. destruct (text_eqb k' k) eqn:E; [|apply IH; firstorder]. apply text_eqb_spec in E as ->. destruct I. left. reflexivity. Qed.
  Lemma fetch_in {A} (l : list (text * A)) k v : fetch l k = Some v -> In k (map fst l).
  Proof. intros H. destruct (in_dec (list_eq_dec N.eq_dec) k (map fst l)); auto. rewrite fetch_none in H by assumption. discriminate. Qed.

  Lemma attr_resolves : forall a, plain_attr a -> build_attr e (abbreviated_attr al a) = Some a.
  Proof.
    enough (H : (forall t : ty, True) /\ (forall a, plain_attr a -> build_attr e (abbreviated_attr al a) = Some a)) by apply H. apply ty_both; auto.
    - intros t _ P. inversion P as [? Pt| |? H _]; subst; [|destruct (H t); reflexivity]. cbn. rewrite resolves by exact Pt. reflexivity.
    - intros l F P. inversion P as [|? Pl|? _ H]; subst; [|destruct (H l); reflexivity]. cbn [abbreviated_attr build_attr]. rewrite all_some_map; [reflexivity|]. rewrite Forall_forall in *. auto.
    - intros a H1 H2 _. destruct a; try reflexivity; [destruct (H1 t)|destruct (H2 l)]; reflexivity.
  Qed.
  Lemma entries_resolve l : Forall (fun kv => plain_attr (snd kv)) l -> StronglySorted below (map fst l) -> build_entries e (entries_read al l) = Some l.
  Proof.
    intros P S. unfold build_entries, entries_read. rewrite (all_some_map (fun kv : text * attr => option_map (fun v => (fst kv, v)) (build_attr e (snd kv))) (fun kv => (fst kv, abbreviated_attr al (snd kv)))).
    - cbn. rewrite collect_sorted by exact S. reflexivity.
    - rewrite Forall_forall in *. intros [k v] I. cbn [fst snd]. rewrite attr_resolves by (apply (P _ I)). reflexivity.
  Qed.
  Lemma types_resolve l : Forall plain l -> all_some (map (build_type e) (map (abbreviated al) l)) = Some l.
  Proof. intros P. apply all_some_map. rewrite Forall_forall in *. auto. Qed.
  Lemma arg_types_resolve (l : list (N * ty)) : Forall (fun a => plain (snd a)) l -> all_some (map (fun a : text * ty => build_type e (snd a)) (map (arg_read al) l)) = Some (map snd l).
  Proof. induction 1 as [|[v t] l P F IH]; cbn [map all_some arg_read fst snd]; auto. cbn [snd] in P. rewrite resolves, IH by exact P. reflexivity. Qed.

  (** What is known of a state of the builder. *)
  Definition fresh_on (f : N -> N) (l : list N) (lo hi : N) : Prop := (lo <= hi)%N /\ (forall x, In x l -> (lo <= f x < hi)%N) /\ one_to_one f l.
  Definition off (f f' : N -> N) (l : list N) : Prop := forall x, ~ In x l -> f' x = f x.
  Record visible (st : bstate) (env labs : list N) (f g : N -> N) (seen : list N) : Prop := {
    v_vals : forall n, In n env -> fetch (values (sc st)) (write_uint n) = Some (f n);
    v_names : forall k, In k (map fst (values (sc st))) -> exists n, In n seen /\ k = write_uint n;
    v_labs : forall b, In b labs -> fetch (labels (sc st)) (bb b) = Some (g b);
    v_types : types (sc st) = e }.
  Record scope_grows (st st' : bstate) (f' : N -> N) (l : list N) : Prop := {
    s_new : forall n, In n l -> fetch (values (sc st')) (write_uint n) = Some (f' n);
    s_old : forall k, ~ In k (map write_uint l) -> fetch (values (sc st')) k = fetch (values (sc st)) k;
    s_dom : forall k, In k (map fst (values (sc st'))) -> In k (map write_uint l) \/ In k (map fst (values (sc st)));
    s_labels : labels (sc st') = labels (sc st);
    s_types : types (sc st') = types (sc st) }.
  Record built (st st' : bstate) (f f' g g' : N -> N) (vs bs : list N) : Prop := {
    b_f : off f f' vs;
    b_g : off g g' bs;
    b_fresh : fresh_on f' vs (fresh_v st) (fresh_v st');
    b_fresh_b : fresh_on g' bs (fresh_b st) (fresh_b st') }.
  Lemma fresh_nil f lo : fresh_on f [] lo lo.
  Proof. repeat split; [lia|intros; contradiction..|intros x y []]. Qed.
  Lemma fresh_app f f' a b lo mid hi : fresh_on f a lo mid -> off f f' b -> fresh_on f' b mid hi -> apart_ a b -> fresh_on f' (a ++ b) lo hi.
  Proof.
    intros (L1 & A1 & A2) O (L2 & B1 & B2) Ap. assert (E : forall x, In x a -> f' x = f x) by (intros x X; apply O, Ap, X). split; [lia|]. split.
    - intros x. rewrite in_app_iff. intros [X|X]; [rewrite (E x X); apply A1 in X; lia|apply B1 in X; lia].
    - intros x y. rewrite !in_app_iff. intros [X|X] [Y|Y] Q; [| | |exact (B2 x y X Y Q)].
      + rewrite !E in Q by assumption. exact (A2 x y X Y Q).
      + rewrite E in Q by assumption. apply A1 in X. apply B1 in Y. lia.
      + rewrite (E y) in Q by assumption. apply A1 in Y. apply B1 in X. lia.
  Qed.
  Lemma fresh_iff f a b lo hi : fresh_on f a lo hi -> (forall x, In x a <-> In x b) -> fresh_on f b lo hi.
  Proof. intros (L & A & B) E. split; auto. split; [intros x X; apply A, E, X|]. intros x y X Y. apply B; apply E; assumption. Qed.
  Lemma off_trans f f1 f2 a b : off f f1 a -> off f1 f2 b -> off f f2 (a ++ b).
  Proof. intros A B x X. rewrite in_app_iff in X. rewrite B, A; tauto. Qed.
  Lemma off_iff f f' a b : off f f' a -> (forall x, In x a <-> In x b) -> off f f' b.
  Proof. intros A E x X. apply A. rewrite E. exact X. Qed.
  Lemma off_refl f : off f f [].
  Proof. intros x _. reflexivity. Qed.
  Lemma built_refl st f g : built st st f f g g [] [].
  Proof. constructor; auto using off_refl, fresh_nil. Qed.
  Lemma built_trans st st1 st2 f f1 f2 g g1 g2 a b a' b' : built st st1 f f1 g g1 a b -> built st1 st2 f1 f2 g1 g2 a' b' -> apart_ a a' -> apart_ b b' -> built st st2 f f2 g g2 (a ++ a') (b ++ b').
  Proof. intros [A1 A2 A3 A4] [B1 B2 B3 B4] P Q. constructor; [eapply off_trans; eauto|eapply off_trans; eauto|eapply fresh_app; eauto|eapply fresh_app; eauto]. Qed.
  Lemma built_iff st st' f f' g g' a b a' b' : built st st' f f' g g' a b -> (forall x, In x a <-> In x a') -> (forall x, In x b <-> In x b') -> built st st' f f' g g' a' b'.
  Proof. intros [A1 A2 A3 A4] E F. constructor; [eapply off_iff|eapply off_iff|eapply fresh_iff|eapply fresh_iff]; eauto. Qed.
  Lemma visible_seen st env labs f g seen : visible st env labs f g seen -> incl env seen.
  Proof. intros V n I. pose proof (v_vals _ _ _ _ _ _ V n I) as E. apply fetch_in in E. apply (v_names _ _ _ _ _ _ V) in E as (m & M & E). apply write_uint_inj in E as ->. exact M. Qed.

  (** After something has been built: more values are visible. *)
  Lemma uint_in n l : In (write_uint n) (map write_uint l) <-> In n l.
  Proof. split; [|apply in_map]. intros I. apply in_map_iff in I as (m & E & I). apply write_uint_inj in E as <-. exact I. Qed.
  Lemma visible_grows st st' f f' g g' env labs seen new vs bs : visible st env labs f g seen -> scope_grows st st' f' new -> off f f' vs -> off g g' bs -> apart_ vs seen -> apart_ bs labs -> incl new vs ->
    visible st' (new ++ env) labs f' g' (new ++ seen).
  Proof.
    intros V [S1 S2 S3 S4 S5] O1 O2 A1 A2 I. constructor.
    - intros n. rewrite in_app_iff. intros [X|X]; [apply S1; exact X|]. assert (X' : ~ In n vs) by (intros Y; apply (A1 n Y), (visible_seen _ _ _ _ _ _ V), X).
      rewrite S2 by (rewrite uint_in; auto). rewrite (O1 n X'). apply (v_vals _ _ _ _ _ _ V), X.
    - intros k K. apply S3 in K as [K|K]; [apply in_map_iff in K as (n & <- & K); exists n; split; auto; apply in_or_app; auto|].
      apply (v_names _ _ _ _ _ _ V) in K as (n & K & ->). exists n. split; auto. apply in_or_app. auto.
    - intros b B. rewrite S4. rewrite O2 by (intros Y; exact (A2 b Y B)). apply (v_labs _ _ _ _ _ _ V), B.
    - rewrite S5. apply (v_types _ _ _ _ _ _ V).
  Qed.
  Lemma grows_compose st st1 st2 f1 f2 a b vs : scope_grows st st1 f1 a -> scope_grows st1 st2 f2 b -> off f1 f2 vs -> apart_ a vs -> incl b vs -> scope_grows st st2 f2 (a ++ b).
  Proof.
    intros [A1 A2 A3 A4 A5] [B1 B2 B3 B4 B5] O Ap I. constructor; try congruence.
    - intros n. rewrite in_app_iff. intros [X|X]; [|auto]. rewrite B2 by (rewrite uint_in; intros Y; exact (Ap n X (I n Y))). rewrite (O n (Ap n X)). auto.
    - intros k. rewrite map_app, in_app_iff. intros K. rewrite B2, A2; tauto.
    - intros k K. rewrite map_app, in_app_iff. apply B3 in K as [K|K]; auto. apply A3 in K as [K|K]; auto.
  Qed.

  Lemma register_ok : forall l st f, NoDup l -> (forall n, In n l -> ~ In (write_uint n) (map fst (values (sc st)))) ->
    exists st' f', register st (map write_uint l) = Some (st', map f' l) /\ scope_grows st st' f' l /\ off f f' l /\ fresh_on f' l (fresh_v st) (fresh_v st') /\ fresh_b st' = fresh_b st.
  Proof.
    induction l as [|n l IH]; intros st f D H.
    - exists st, f. split; [reflexivity|]. split; [constructor; cbn; auto; intros _ []|]. auto using off_refl, fresh_nil.
    - inversion D as [|? ? Nn D']; subst. cbn [map register]. unfold has. rewrite fetch_none by (apply H; left; reflexivity).
      set (st1 := {| sc := {| values := (write_uint n, fresh_v st) :: values (sc st); labels := labels (sc st); types := types (sc st) |}; fresh_v := fresh_v st + 1; fresh_b := fresh_b st |}).
      set (f1 := fun x => if (x =? n)%N then fresh_v st else f x).
      assert (O1 : off f f1 [n]). { intros x X. unfold f1. destruct (N.eqb_spec x n) as [->|]; auto. destruct X. left. reflexivity. }
      assert (E1 : f1 n = fresh_v st) by (unfold f1; rewrite N.eqb_refl; reflexivity).
      assert (F1 : fresh_on f1 [n] (fresh_v st) (fresh_v st1)). { unfold st1. cbn [fresh_v]. split; [lia|]. split; [intros x [<-|[]]; rewrite E1; lia|intros x y [<-|[]] [<-|[]] _; reflexivity]. }
      assert (G1 : scope_grows st st1 f1 [n]).
      { constructor; unfold st1; cbn [sc values labels types map fst]; auto.
        - intros m [<-|[]]. rewrite fetch_cons, text_eqb_refl, E1. reflexivity.
        - intros k K. rewrite fetch_cons. destruct (text_eqb (write_uint n) k) eqn:Q; auto. apply text_eqb_spec in Q as <-. destruct K. left. reflexivity.
        - intros k [<-|K]; auto. left. left. reflexivity. }
      destruct (IH st1 f1 D') as (st' & f' & E & G & O & F & B).
      { intros m M K. apply (s_dom _ _ _ _ G1) in K as [K|K]; [apply uint_in in K as [->|[]]; auto|]. apply (H m); [right; exact M|exact K]. }
      rewrite E. exists st', f'. rewrite B. assert (Ap : apart_ [n] l) by (intros x [<-|[]]; exact Nn). split; [|split; [|split; [|split]]].
      + f_equal. f_equal. cbn [map]. f_equal. rewrite (O n Nn). symmetry. exact E1.
      + change (n :: l) with ([n] ++ l). eapply grows_compose; eauto. apply incl_refl.
      + change (n :: l) with ([n] ++ l). eapply off_trans; eauto.
      + change (n :: l) with ([n] ++ l). eapply fresh_app; eauto.
      + reflexivity.
  Qed.

  (** *** Sequences of operations *)
  Definition builds_op (o : op) : Prop := generic o -> forall st f g env labs seen, op_scoped env labs o -> visible st env labs f g seen -> NoDup (op_values o) -> apart_ (op_values o) seen ->
    NoDup (op_blocks o) -> apart_ (op_blocks o) labs ->
    exists st' f' g', build_op st (reread al o) = Some (st', rename f' g' o) /\ built st st' f f' g g' (op_values o) (op_blocks o) /\ scope_grows st st' f' (op_results o).
  Lemma op_results_incl o : incl (op_results o) (op_values o).
  Proof. destruct o. rewrite op_values_eq. apply incl_appl, incl_refl. Qed.
  Lemma agree_off f f' l l' : off f f' l -> apart_ l l' -> agree f f' l'.
  Proof. intros O A x X. symmetry. apply O. intros Y. exact (A x Y X). Qed.
  Lemma agree_app f f' a b : agree f f' a -> agree f f' b -> agree f f' (a ++ b).
  Proof. intros A B x X. apply in_app_or in X as [X|X]; auto. Qed.
  Lemma apart_sym a b : apart_ a b -> apart_ b a.
  Proof. intros A x X Y. exact (A x Y X). Qed.
  Lemma apart_app a b c : apart_ (a ++ b) c <-> apart_ a c /\ apart_ b c.
  Proof. unfold apart_. setoid_rewrite in_app_iff. firstorder. Qed.

  Lemma scope_refl st f : scope_grows st st f [].
  Proof. constructor; cbn; auto. intros n []. Qed.
  Lemma ops_build : forall ops, Forall builds_op ops -> Forall generic ops -> forall st f g env labs seen, ops_scoped env labs ops -> visible st env labs f g seen -> NoDup (flat_map op_values ops) ->
    apart_ (flat_map op_values ops) seen -> NoDup (flat_map op_blocks ops) -> apart_ (flat_map op_blocks ops) labs ->
    exists st' f' g', thread build_op st (map (reread al) ops) = Some (st', map (rename f' g') ops) /\ built st st' f f' g g' (flat_map op_values ops) (flat_map op_blocks ops)
      /\ scope_grows st st' f' (flat_map op_results ops).
  Proof.
    induction 1 as [|o l H F IH]; intros G st f g env labs seen S V DV AV DB AB.
    - exists st, f, g. split; [reflexivity|]. split; [apply built_refl|apply scope_refl].
    - cbn [flat_map] in *. inversion S as [|? ? ? ? S1 S2]; subst. inversion G as [|? ? G1 G2]; subst. destruct (NoDup_cut _ _ DV) as (DV1 & DV2 & DV3). destruct (NoDup_cut _ _ DB) as (DB1 & DB2 & DB3).
      apply apart_app in AV as [AV1 AV2]. apply apart_app in AB as [AB1 AB2].
      destruct (H G1 st f g env labs seen S1 V DV1 AV1 DB1 AB1) as (st1 & f1 & g1 & E1 & B1 & K1).
      destruct (IH G2 st1 f1 g1 (op_results o ++ env) labs (op_results o ++ seen) S2) as (st2 & f2 & g2 & E2 & B2 & K2); auto.
      { exact (visible_grows _ _ _ _ _ _ _ _ _ _ _ _ V K1 (b_f _ _ _ _ _ _ _ _ B1) (b_g _ _ _ _ _ _ _ _ B1) AV1 AB1 (op_results_incl o)). }
      { apply apart_sym, apart_app. split; [|apply apart_sym; exact AV2]. intros x X. apply DV3, op_results_incl, X. }
      exists st2, f2, g2. cbn [map thread]. rewrite E1, E2. split; [|split; [eapply built_trans; eauto|]].
      + f_equal. f_equal. f_equal. apply (proj1 (rename_ext f1 f2 g1 g2) o env labs S1).
        * apply agree_app; (eapply agree_off; [apply (b_f _ _ _ _ _ _ _ _ B2)|]); [|exact (apart_sym _ _ DV3)]. eapply apart_sub; [exact AV2|apply incl_refl|eapply visible_seen; eauto].
        * apply agree_app; (eapply agree_off; [apply (b_g _ _ _ _ _ _ _ _ B2)|]); [exact AB2|exact (apart_sym _ _ DB3)].
      + eapply grows_compose; eauto; [apply (b_f _ _ _ _ _ _ _ _ B2)| |apply results_incl]. intros x X. apply DV3, op_results_incl, X.
  Qed.

  (** *** Blocks *)
  Definition raw_args (lb : text * block) : text * list (text * ty) := match lb with (lab, Block _ args _) => (lab, map (arg_read al) args) end.
  Definition made (f g : N -> N) (b : block) : N * list (N * ty) := match b with Block b args _ => (g b, map (fun a => (f (fst a), snd a)) args) end.
  Definition block_params (b : block) : list N := match b with Block _ args _ => map fst args end.
  Lemma made_ext f f' g g' b : agree f f' (block_params b) -> g (block_name b) = g' (block_name b) -> made f g b = made f' g' b.
  Proof. destruct b as [b args ops]. cbn. intros A B. f_equal; auto. apply map_ext_in. intros [v t] I. cbn. f_equal. apply A. apply (in_map fst) in I. exact I. Qed.
  Lemma map_fst_read (l : list (N * ty)) : map fst (map (arg_read al) l) = map write_uint (map fst l).
  Proof. rewrite !map_map. reflexivity. Qed.
  Lemma create_ok : forall l st f g, Forall generic_block (map snd l) -> types (sc st) = e -> NoDup (map fst l) -> (forall lab, In lab (map fst l) -> ~ In lab (map fst (labels (sc st)))) ->
    NoDup (map block_name (map snd l)) -> NoDup (flat_map block_params (map snd l)) -> (forall n, In n (flat_map block_params (map snd l)) -> ~ In (write_uint n) (map fst (values (sc st)))) ->
    exists st' f' g', create_blocks [] st (map raw_args l) = Some (st', map (made f' g') (map snd l)) /\ built st st' f f' g g' (flat_map block_params (map snd l)) (map block_name (map snd l))
      /\ (forall n, In n (flat_map block_params (map snd l)) -> fetch (values (sc st')) (write_uint n) = Some (f' n))
      /\ (forall k, ~ In k (map write_uint (flat_map block_params (map snd l))) -> fetch (values (sc st')) k = fetch (values (sc st)) k)
      /\ (forall k, In k (map fst (values (sc st'))) -> In k (map write_uint (flat_map block_params (map snd l))) \/ In k (map fst (values (sc st))))
      /\ (forall lab b, In (lab, b) l -> fetch (labels (sc st')) lab = Some (g' (block_name b)))
      /\ (forall lab, ~ In lab (map fst l) -> fetch (labels (sc st')) lab = fetch (labels (sc st)) lab)
      /\ types (sc st') = e.
  Proof.
    induction l as [|[lab [b args ops]] l IH]; intros st f g G T D1 H1 D2 D3 H2.
    - exists st, f, g. split; [reflexivity|]. split; [apply built_refl|]. cbn. repeat split; auto; intros; contradiction.
    - cbn [map snd fst flat_map block_name block_params] in *. pose proof (Forall_inv_tail G) as G2. assert (PA : Forall (fun a => plain (snd a)) args) by (pose proof (Forall_inv G) as G1; inversion G1; assumption).
      apply NoDup_cons_iff in D1 as [N1 D1']. apply NoDup_cons_iff in D2 as [N2 D2'].
      destruct (NoDup_cut _ _ D3) as (D31 & D32 & D33). cbn [raw_args create_blocks block_args]. unfold has. rewrite fetch_none by (apply H1; left; reflexivity). rewrite T, arg_types_resolve by exact PA.
      set (st0 := {| sc := {| values := values (sc st); labels := (lab, fresh_b st) :: labels (sc st); types := e |}; fresh_v := fresh_v st; fresh_b := fresh_b st + 1 |}).
      set (g1 := fun x => if (x =? b)%N then fresh_b st else g x).
      assert (O1 : off g g1 [b]). { intros x X. unfold g1. destruct (N.eqb_spec x b) as [->|]; auto. destruct X. left. reflexivity. }
      assert (E1 : g1 b = fresh_b st) by (unfold g1; rewrite N.eqb_refl; reflexivity).
      assert (F1 : fresh_on g1 [b] (fresh_b st) (fresh_b st + 1)). { split; [lia|]. split; [intros x [<-|[]]; rewrite E1; lia|intros x y [<-|[]] [<-|[]] _; reflexivity]. }
      rewrite map_fst_read. destruct (register_ok (map fst args) st0 f D31) as (st1 & f1 & R1 & K1 & P1 & Q1 & B1); [intros n I; apply H2, in_or_app; auto|]. rewrite R1. destruct K1 as [K1 K2 K3 K4 K5]. cbn [st0 sc values labels types] in K2, K3, K4, K5.
      destruct (IH st1 f1 g1 G2) as (st2 & f2 & g2 & R2 & B2 & A1 & A2 & A3 & A4 & A5 & A6); auto.
      { intros lab' I. rewrite K4. cbn [map fst In]. intros [<-|J]; [auto|]. exact (H1 lab' (or_intror I) J). }
      { intros n I J. apply K3 in J as [J|J]; [apply uint_in in J; exact (D33 n J I)|]. apply (H2 n); [apply in_or_app; auto|exact J]. }
      rewrite R2. exists st2, f2, g2. 
      assert (Bt : built st st1 f f1 g g1 (map fst args) [b]).
      { constructor; auto. rewrite B1. exact F1. }
      assert (Nb : apart_ [b] (map block_name (map snd l))) by (intros x [<-|[]]; exact N2).
      split; [|split; [|split; [|split; [|split; [|split; [|split]]]]]].
      + f_equal. f_equal. f_equal. rewrite combine_fst. rewrite <- E1. apply (made_ext f1 f2 g1 g2 (Block b args ops)).
        * eapply agree_off; [apply (b_f _ _ _ _ _ _ _ _ B2)|exact (apart_sym _ _ D33)].
        * symmetry. apply (b_g _ _ _ _ _ _ _ _ B2). exact N2.
      + change (b :: map block_name (map snd l)) with ([b] ++ map block_name (map snd l)). eapply built_trans; eauto.
      + intros n. rewrite in_app_iff. intros [X|X]; auto. rewrite A2 by (rewrite uint_in; apply D33; exact X). rewrite K1 by exact X. f_equal. symmetry. apply (b_f _ _ _ _ _ _ _ _ B2). apply D33, X.
      + intros k. rewrite map_app, in_app_iff. intros X. rewrite A2, K2; tauto.
      + intros k X. rewrite map_app, in_app_iff. apply A3 in X as [X|X]; auto. apply K3 in X as [X|X]; auto.
      + intros lab' b' [X|X]; [|eauto]. injection X as <- <-. cbn [block_name]. rewrite A5 by exact N1. rewrite K4, fetch_cons, text_eqb_refl. f_equal. rewrite <- E1. symmetry. apply (b_g _ _ _ _ _ _ _ _ B2). exact N2.
      + intros lab' X. rewrite A5 by (intros Y; apply X; right; exact Y). rewrite K4, fetch_cons. destruct (text_eqb lab lab') eqn:Q; auto. apply text_eqb_spec in Q as ->. destruct X. left. reflexivity.
      + exact A6.
  Qed.

  Definition block_ops (b : block) : list op := match b with Block _ _ ops => ops end.
  Definition raw_ops (b : raw_block) : list raw_op := match b with RawBlock _ _ ops => ops end.
  Definition body_values (b : block) : list N := flat_map op_values (block_ops b).
  Lemma fill_ok : forall l raws, Forall2 (fun r b => raw_ops r = map (reread al) (block_ops b)) raws l -> Forall (fun b => Forall builds_op (block_ops b)) l -> Forall generic_block l ->
    forall st f g env labs seen, blocks_scoped env labs l -> visible st (flat_map block_params l ++ env) labs f g seen -> NoDup (flat_map body_values l) -> apart_ (flat_map body_values l) seen ->
    NoDup (flat_map inner_blocks l) -> apart_ (flat_map inner_blocks l) labs -> apart_ (flat_map inner_blocks l) (map block_name l) ->
    exists st' f' g', fill build_op st (map (made f g) l) raws = Some (st', map (rename_block f' g') l) /\ built st st' f f' g g' (flat_map body_values l) (flat_map inner_blocks l).
  Proof.
    induction 1 as [|[lab rargs rops] [b args ops] raws l R F2 IH]; intros H G st f g env labs seen S V DV AV DB AB AN.
    - exists st, f, g. split; [reflexivity|apply built_refl].
    - cbn [raw_ops block_ops] in R. subst rops. inversion H as [|? ? H1 H2]; subst. inversion G as [|? ? G1 G2]; subst. inversion G1 as [? ? ? PA GO]; subst. inversion S as [|? ? ? ? ? ? S1 S2]; subst.
      cbn [flat_map body_values block_ops inner_blocks block_params map block_name] in *. change (body_values (Block b args ops)) with (flat_map op_values ops) in *. destruct (NoDup_cut _ _ DV) as (DV1 & DV2 & DV3). destruct (NoDup_cut _ _ DB) as (DB1 & DB2 & DB3).
      apply apart_app in AV as [AV1 AV2]. apply apart_app in AB as [AB1 AB2]. apply apart_app in AN as [AN1 AN2].
      assert (Sub : incl (map fst args ++ env) ((map fst args ++ flat_map block_params l) ++ env)) by incls.
      assert (V1 : visible st (map fst args ++ env) labs f g seen). { destruct V as [V1 V2 V3 V4]. constructor; auto. }
      destruct (ops_build ops H1 GO st f g (map fst args ++ env) labs seen S1 V1 DV1 AV1 DB1 AB1) as (st1 & f1 & g1 & E1 & B1 & K1).
      destruct (IH H2 G2 st1 f1 g1 (flat_map op_results ops ++ map fst args ++ env) labs (flat_map op_results ops ++ seen) S2) as (st2 & f2 & g2 & E2 & B2); auto.
      { pose proof (visible_grows _ _ _ _ _ _ _ _ _ _ _ _ V K1 (b_f _ _ _ _ _ _ _ _ B1) (b_g _ _ _ _ _ _ _ _ B1) AV1 AB1 (results_incl ops)) as [W1 W2 W3 W4]. constructor; auto. intros n I. apply W1. revert I. rewrite !in_app_iff. tauto. }
      { apply apart_sym, apart_app. split; [|apply apart_sym; exact AV2]. intros x X. apply DV3, results_incl, X. }
      { intros x X Y. exact (AN2 x X (or_intror Y)). }
      pose proof (visible_seen _ _ _ _ _ _ V) as Seen.
      assert (E3 : map (made f g) l = map (made f1 g1) l).
      { apply map_ext_in. intros b' I'. apply made_ext.
        - eapply agree_off; [apply (b_f _ _ _ _ _ _ _ _ B1)|]. eapply apart_sub; [exact AV1|apply incl_refl|]. intros x X. apply Seen. apply in_or_app. left. apply in_or_app. right. apply in_flat_map. eauto.
        - symmetry. apply (b_g _ _ _ _ _ _ _ _ B1). intros X. apply (AN1 _ X). right. apply in_map. exact I'. }
      exists st2, f2, g2. split; [|eapply built_trans; eauto].
      cbn [map fill made]. rewrite E1, E3, E2. f_equal. f_equal. f_equal. rewrite rename_block_eq.
      assert (OF : off f f2 (flat_map op_values ops ++ flat_map body_values l)) by (eapply off_trans; [apply (b_f _ _ _ _ _ _ _ _ B1)|apply (b_f _ _ _ _ _ _ _ _ B2)]).
      assert (OG : off g g2 (flat_map op_blocks ops ++ flat_map inner_blocks l)) by (eapply off_trans; [apply (b_g _ _ _ _ _ _ _ _ B1)|apply (b_g _ _ _ _ _ _ _ _ B2)]).
      f_equal.
      + symmetry. apply OG. intros X. apply in_app_or in X as [X|X]; [apply (AN1 _ X)|apply (AN2 _ X)]; left; reflexivity.
      + apply map_ext_in. intros [v t] I. cbn [fst snd]. f_equal. symmetry. apply OF. apply (in_map fst) in I. cbn [fst] in I. assert (In v seen) by (apply Seen, Sub, in_or_app; auto).
        intros X. apply in_app_or in X as [X|X]; [exact (AV1 _ X H0)|exact (AV2 _ X H0)].
      + eapply (rename_ops_ext f1 f2 g1 g2 labs ops); [exact S1| |].
        * apply agree_app; (eapply agree_off; [apply (b_f _ _ _ _ _ _ _ _ B2)|]); [|exact (apart_sym _ _ DV3)]. eapply apart_sub; [exact AV2|apply incl_refl|]. intros x X. apply Seen, Sub, X.
        * apply agree_app; (eapply agree_off; [apply (b_g _ _ _ _ _ _ _ _ B2)|]); [exact AB2|exact (apart_sym _ _ DB3)].
  Qed.

  (** *** Regions *)
  Lemma split_iff {A} (h h1 h2 : A -> list N) : (forall x, h x = h1 x ++ h2 x) -> forall l x, In x (flat_map h l) <-> In x (flat_map h1 l) \/ In x (flat_map h2 l).
  Proof. intros E l x. induction l as [|y l IH]; cbn [flat_map]; [cbn; tauto|]. rewrite E, !in_app_iff, IH. tauto. Qed.
  Lemma split_NoDup {A} (h h1 h2 : A -> list N) : (forall x, h x = h1 x ++ h2 x) -> forall l, NoDup (flat_map h l) -> NoDup (flat_map h1 l) /\ NoDup (flat_map h2 l) /\ apart_ (flat_map h2 l) (flat_map h1 l).
  Proof.
    intros E. induction l as [|y l IH]; cbn [flat_map]; intros D; [repeat split; try constructor; intros x []|]. rewrite E in D.
    destruct (NoDup_cut _ _ D) as (D1 & D2 & D3). destruct (NoDup_cut _ _ D1) as (D4 & D5 & D6). destruct (IH D2) as (I1 & I2 & I3). pose proof (split_iff h h1 h2 E l) as K.
    assert (C1 : forall x, In x (h1 y) \/ In x (h2 y) -> ~ In x (flat_map h1 l) /\ ~ In x (flat_map h2 l)). { intros x X. specialize (D3 x). specialize (K x). rewrite in_app_iff in D3. tauto. }
    split; [|split].
    - apply NoDup_paste; auto. intros x X. apply C1. auto.
    - apply NoDup_paste; auto. intros x X. apply C1. auto.
    - intros x. rewrite !in_app_iff. intros [X|X] [Y|Y]; [exact (D6 x Y X)|exact (proj1 (C1 x (or_intror X)) Y)|exact (proj2 (C1 x (or_introl Y)) X)|exact (I3 x X Y)].
  Qed.
  Lemma block_split b : block_values b = block_params b ++ body_values b.
  Proof. destruct b. reflexivity. Qed.
  Definition raw_head (r : raw_block) : text * list (text * ty) := match r with RawBlock lab args _ => (lab, args) end.
  Lemma region_core : forall (l : list (text * block)) raws extra im st f g env labs labs0 seen,
    (forall st, create_blocks extra st (map raw_head raws) = create_blocks [] st (map raw_args l)) ->
    Forall2 (fun r b => raw_ops r = map (reread al) (block_ops b)) raws (map snd l) ->
    Forall (fun b => Forall builds_op (block_ops b)) (map snd l) -> Forall generic_block (map snd l) -> blocks_scoped env labs (map snd l) ->
    NoDup (map fst l) -> (forall b, In b labs -> exists blk, In (bb b, blk) l /\ block_name blk = b) ->
    visible st env labs0 f g seen -> NoDup (flat_map block_values (map snd l)) -> apart_ (flat_map block_values (map snd l)) seen -> NoDup (flat_map block_blocks (map snd l)) ->
    exists st' f' g', build_region im extra st (RawRegion [] raws) = Some (st', Region (map (rename_block f' g') (map snd l)))
      /\ built st st' f f' g g' (flat_map block_values (map snd l)) (flat_map block_blocks (map snd l)) /\ sc st' = sc st.
  Proof.
    intros l raws extra im st f g env labs labs0 seen HC HR HB G S DL HL V DV AV DB. pose proof (split_iff _ _ _ block_split (map snd l)) as Iv. destruct (split_NoDup _ _ _ block_split _ DV) as (DV1 & DV2 & DV3).
    pose proof (blocks_iff (map snd l)) as Ib. destruct (blocks_NoDup _ DB) as (DB1 & DB2 & DB3). destruct V as [V1 V2 V3 V4].
    pose proof (visible_seen _ _ _ _ _ _ (Build_visible _ _ _ _ _ _ V1 V2 V3 V4)) as Seen.
    set (st0 := with_scope st {| values := values (sc st); labels := []; types := types (sc st) |}).
    destruct (create_ok l st0 f g G V4 DL) as (st1 & f1 & g1 & E1 & B1 & A1 & A2 & A3 & A4 & A5 & A6); auto.
    { intros n N1 N2. apply V2 in N2 as (m & M & N2). apply write_uint_inj in N2 as ->. apply (AV m); auto. apply Iv. auto. }
    assert (Labs : incl labs (map block_name (map snd l))). { intros b B. apply HL in B as (blk & B & <-). apply in_map. apply (in_map snd) in B. exact B. }
    assert (AP : apart_ (flat_map block_params (map snd l)) seen) by (intros x X; apply AV, Iv; auto).
    destruct (fill_ok (map snd l) raws HR HB G st1 f1 g1 env labs (flat_map block_params (map snd l) ++ seen) S) as (st2 & f2 & g2 & E2 & B2); auto.
    { constructor; auto.
      - intros n. rewrite in_app_iff. intros [X|X]; [apply A1; exact X|]. assert (Y : ~ In n (flat_map block_params (map snd l))) by (intros Y; exact (AP n Y (Seen n X))).
        rewrite A2 by (rewrite uint_in; exact Y). rewrite (b_f _ _ _ _ _ _ _ _ B1) by exact Y. apply V1. exact X.
      - intros k K. apply A3 in K as [K|K]; [apply in_map_iff in K as (n & <- & K); exists n; split; auto; apply in_or_app; auto|]. apply V2 in K as (n & K & ->). exists n. split; auto. apply in_or_app. auto.
      - intros b B. destruct (HL b B) as (blk & I & Q). rewrite (A4 _ _ I), Q. reflexivity. }
    { apply apart_sym, apart_app. split; [exact (apart_sym _ _ DV3)|]. intros x X Y. apply (AV x); auto. apply Iv. auto. }
    { eapply apart_sub; [exact DB3|apply incl_refl|exact Labs]. }
    exists (with_scope st2 (sc st)), f2, g2. split; [|split; [|reflexivity]].
    - cbn [build_region build_defs]. change (fun b : raw_block => match b with RawBlock lab args _ => (lab, args) end) with raw_head. rewrite HC. unfold st0 in E1. rewrite E1, E2. reflexivity.
    - assert (B3 : built st0 st2 f f2 g g2 (flat_map block_params (map snd l) ++ flat_map body_values (map snd l)) (map block_name (map snd l) ++ flat_map inner_blocks (map snd l))).
      { eapply built_trans; eauto; apply apart_sym; assumption. }
      destruct B3 as [C1 C2 C3 C4]. unfold st0, with_scope in C3, C4. cbn [fresh_v fresh_b] in C3, C4.
      assert (Iv' : forall x, In x (flat_map block_params (map snd l) ++ flat_map body_values (map snd l)) <-> In x (flat_map block_values (map snd l))) by (intros x; rewrite in_app_iff, Iv; tauto).
      assert (Ib' : forall x, In x (map block_name (map snd l) ++ flat_map inner_blocks (map snd l)) <-> In x (flat_map block_blocks (map snd l))) by (intros x; rewrite in_app_iff, Ib; tauto).
      constructor; unfold with_scope; cbn [fresh_v fresh_b]; [eapply off_iff|eapply off_iff|eapply fresh_iff|eapply fresh_iff]; eauto.
  Qed.
  Definition labelled (b : block) : text * block := (bb (block_name b), b).
  Lemma bb_inj a b : bb a = bb b -> a = b.
  Proof. unfold bb. intros E. apply app_inv_head in E. apply write_uint_inj in E. exact E. Qed.
  Lemma labelled_snd l : map snd (map labelled l) = l.
  Proof. rewrite map_map. apply map_id. Qed.
  Lemma labelled_NoDup l : NoDup (map block_name l) -> NoDup (map fst (map labelled l)).
  Proof.
    intros D. rewrite map_map. unfold labelled. cbn [fst]. rewrite <- map_map with (f := block_name) (g := bb). induction D as [|x l' Nx D IH]; cbn [map]; constructor; auto.
    intros I. apply in_map_iff in I as (y & E & I). apply bb_inj in E as ->. auto.
  Qed.
  Lemma labelled_in l b : In b (map block_name l) -> exists blk, In (bb b, blk) (map labelled l) /\ block_name blk = b.
  Proof. intros I. apply in_map_iff in I as (blk & <- & I). exists blk. split; auto. apply in_map_iff. exists blk. auto. Qed.
  Definition raw_of (b : block) : raw_block := match b with Block b args ops => RawBlock (bb b) (map (arg_read al) args) (map (reread al) ops) end.
  Lemma raw_heads l : map raw_head (map raw_of l) = map raw_args (map labelled l).
  Proof. rewrite !map_map. apply map_ext. intros []. reflexivity. Qed.
  Lemma raw_bodies l : Forall2 (fun r b => raw_ops r = map (reread al) (block_ops b)) (map raw_of l) l.
  Proof. induction l as [|[b args ops] l IH]; cbn; constructor; auto. Qed.

  Definition builds_region (r : region) : Prop := generic_region r -> forall st f g env labs seen, region_scoped env r -> visible st env labs f g seen -> NoDup (region_values r) -> apart_ (region_values r) seen ->
    NoDup (region_blocks r) -> forall im,
    exists st' f' g', build_region im [] st (reread_region al r) = Some (st', rename_region f' g' r) /\ built st st' f f' g g' (region_values r) (region_blocks r) /\ sc st' = sc st.
  Lemma regions_build : forall im l, Forall builds_region l -> Forall generic_region l -> forall st f g env labs seen, Forall (region_scoped env) l -> visible st env labs f g seen -> NoDup (flat_map region_values l) ->
    apart_ (flat_map region_values l) seen -> NoDup (flat_map region_blocks l) -> apart_ (flat_map region_blocks l) labs ->
    exists st' f' g', build_regions (build_region im) [] st (map (reread_region al) l) = Some (st', map (rename_region f' g') l) /\ built st st' f f' g g' (flat_map region_values l) (flat_map region_blocks l) /\ sc st' = sc st.
  Proof.
    intros im. induction 1 as [|r l H F IH]; intros G st f g env labs seen S V DV AV DB AB.
    - exists st, f, g. split; [reflexivity|]. split; [apply built_refl|reflexivity].
    - cbn [flat_map] in *. inversion S as [|? ? S1 S2]; subst. inversion G as [|? ? G1 G2]; subst. destruct (NoDup_cut _ _ DV) as (DV1 & DV2 & DV3). destruct (NoDup_cut _ _ DB) as (DB1 & DB2 & DB3).
      apply apart_app in AV as [AV1 AV2]. apply apart_app in AB as [AB1 AB2].
      destruct (H G1 st f g env labs seen S1 V DV1 AV1 DB1 im) as (st1 & f1 & g1 & E1 & B1 & K1).
      destruct (IH G2 st1 f1 g1 env labs seen S2) as (st2 & f2 & g2 & E2 & B2 & K2); auto.
      { pose proof (visible_seen _ _ _ _ _ _ V) as Seen. destruct V as [V1 V2 V3 V4]. constructor; rewrite ?K1; auto.
        - intros n I. rewrite (b_f _ _ _ _ _ _ _ _ B1) by (intros X; exact (AV1 n X (Seen n I))). auto.
        - intros b I. rewrite (b_g _ _ _ _ _ _ _ _ B1) by (intros X; exact (AB1 b X I)). auto. }
      exists st2, f2, g2. cbn [map build_regions]. rewrite E1, E2. split; [|split; [eapply built_trans; eauto|congruence]].
      f_equal. f_equal. f_equal. apply (proj1 (proj2 (rename_ext f1 f2 g1 g2)) r env S1).
      + apply agree_app; (eapply agree_off; [apply (b_f _ _ _ _ _ _ _ _ B2)|]); [|exact (apart_sym _ _ DV3)]. eapply apart_sub; [exact AV2|apply incl_refl|eapply visible_seen; eauto].
      + eapply agree_off; [apply (b_g _ _ _ _ _ _ _ _ B2)|]. exact (apart_sym _ _ DB3).
  Qed.
  Lemma values_found st env labs f g seen l : visible st env labs f g seen -> incl l env -> all_some (map (fetch (values (sc st))) (map write_uint l)) = Some (map f l).
  Proof. intros V. induction l as [|n l IH]; intros I; cbn [map all_some]; auto. rewrite (v_vals _ _ _ _ _ _ V) by (apply I; left; reflexivity). rewrite IH; auto. intros x X. apply I. right. exact X. Qed.
  Lemma labels_found st env labs f g seen l : visible st env labs f g seen -> incl l labs -> all_some (map (fetch (labels (sc st))) (map bb l)) = Some (map g l).
  Proof. intros V. induction l as [|n l IH]; intros I; cbn [map all_some]; auto. rewrite (v_labs _ _ _ _ _ _ V) by (apply I; left; reflexivity). rewrite IH; auto. intros x X. apply I. right. exact X. Qed.
  Lemma reread_generic results d n operands succs attrs rtypes regions : is_op d n "func" "func" = false ->
    reread al (Op results d n operands succs attrs rtypes regions) =
    RawOp (map write_uint results) d n None [] None (map write_uint operands) (entries_read al attrs) (map (abbreviated al) rtypes) (map (reread_region al) regions) (map bb succs).
  Proof. intros H. cbn [reread]. rewrite H. reflexivity. Qed.

  Lemma building_ok : (forall o, builds_op o) /\ (forall r, builds_region r) /\ (forall b, Forall builds_op (block_ops b)).
  Proof.
    apply op_all.
    - intros results d n operands succs attrs rtypes regions F G st f g env labs seen S V DV AV DB AB. rewrite op_values_eq in *. rewrite op_blocks_eq in *.
      inversion G as [? ? ? ? ? ? ? ? NF NM LR PT PA SA GR]; subst. inversion S as [? ? ? ? ? ? ? ? ? ? I1 I2 SR]; subst. destruct (NoDup_cut _ _ DV) as (DV1 & DV2 & DV3). apply apart_app in AV as [AV1 AV2].
      destruct (regions_build (is_op d n "core" "module") regions F GR st f g env labs seen SR V DV2 AV2 DB AB) as (st1 & f1 & g1 & E1 & B1 & K1).
      pose proof (visible_seen _ _ _ _ _ _ V) as Seen. pose proof (v_types _ _ _ _ _ _ V) as VT. rewrite reread_generic by exact NF.
      destruct (register_ok results st1 f1 DV1) as (st2 & f2 & E2 & G2 & O2 & F2 & B2).
      { intros n0 X Y. rewrite K1 in Y. apply (v_names _ _ _ _ _ _ V) in Y as (m & M & Y). apply write_uint_inj in Y as ->. exact (AV1 m X M). }
      assert (Bt : built st st2 f f2 g g1 (results ++ flat_map region_values regions) (flat_map region_blocks regions)).
      { destruct B1 as [C1 C2 C3 C4]. assert (Iv : forall x, In x (flat_map region_values regions ++ results) <-> In x (results ++ flat_map region_values regions)) by (intros x; rewrite !in_app_iff; tauto).
        constructor; auto. - eapply off_iff; [eapply off_trans; eauto|exact Iv]. - eapply fresh_iff; [eapply fresh_app; eauto; exact (apart_sym _ _ DV3)|exact Iv]. - rewrite B2. exact C4. }
      exists st2, f2, g1. split; [|split; [exact Bt|]].
      + cbn [build_op]. rewrite (values_found _ _ _ _ _ _ _ V I1), (labels_found _ _ _ _ _ _ _ V I2), VT, types_resolve, entries_resolve by assumption. cbn [build_signature option_map add_opt]. rewrite E1.
        rewrite rename_op_eq. destruct Bt as [C1 C2 _ _].
        assert (Q1 : map f operands = map f2 operands). { apply map_ext_in. intros x X. symmetry. apply C1. intros Y. apply in_app_or in Y as [Y|Y]; [exact (AV1 x Y (Seen x (I1 x X)))|exact (AV2 x Y (Seen x (I1 x X)))]. }
        assert (Q2 : map g succs = map g1 succs). { apply map_ext_in. intros x X. symmetry. apply C2. intros Y. exact (AB x Y (I2 x X)). }
        assert (Q3 : map (rename_region f1 g1) regions = map (rename_region f2 g1) regions).
        { apply map_ext_in. intros r R. rewrite Forall_forall in SR. apply (proj1 (proj2 (rename_ext f1 f2 g1 g1)) r env (SR r R)); [|intros x _; reflexivity].
          eapply agree_off; [exact O2|]. intros x X Y. apply in_app_or in Y as [Y|Y]; [exact (AV1 x X (Seen x Y))|]. apply (DV3 x X). apply in_flat_map. eauto. }
        rewrite Q1, Q2, Q3. destruct results as [|v results].
        * destruct rtypes; [|discriminate]. cbn [map List.length seq N.of_nat]. cbn in E2. injection E2 as <-. rewrite N.add_0_r. destruct st1; reflexivity.
        * rewrite map_length, LR, Nat.eqb_refl. change (map write_uint (v :: results)) with (write_uint v :: map write_uint results) in *. rewrite E2. reflexivity.
      + destruct G2 as [H1 H2 H3 H4 H5]. rewrite K1 in *. constructor; auto.
    - intros blocks F G st f g env labs seen S V DV AV DB im. rewrite region_values_eq in *. rewrite region_blocks_eq in *. inversion G as [? GB]; subst. inversion S as [? ? NL SB]; subst.
      enough (Goal0 : exists st' f' g', build_region im [] st (reread_region al (Region blocks)) = Some (st', Region (map (rename_block f' g') blocks)) /\ built st st' f f' g g' (flat_map block_values blocks) (flat_map block_blocks blocks) /\ sc st' = sc st) by exact Goal0.
      destruct (blocks_NoDup _ DB) as (DB1 & _ & _).
      assert (Plain : reread_region al (Region blocks) = RawRegion [] (map raw_of blocks) ->
        exists st' f' g', build_region im [] st (reread_region al (Region blocks)) = Some (st', Region (map (rename_block f' g') blocks)) /\ built st st' f f' g g' (flat_map block_values blocks) (flat_map block_blocks blocks) /\ sc st' = sc st).
      { intros E. rewrite E. pose proof (region_core (map labelled blocks) (map raw_of blocks) [] im st f g env (named_labels blocks) labs seen) as K. rewrite labelled_snd in K. apply K; auto using raw_bodies, labelled_NoDup.
        - intros st0. rewrite raw_heads. reflexivity. - intros b B. apply labelled_in, named_incl, B. }
      destruct blocks as [|[b [|a args] ops] [|b2 l]]; try (apply Plain; reflexivity); [|destruct ops; apply Plain; reflexivity]. destruct ops as [|o ops]; [destruct NL|].
      pose proof (region_core [(lit "bb0", Block b [] (o :: ops))] [RawBlock (lit "bb0") [] (map (reread al) (o :: ops))] [] im st f g env [] labs seen) as K. cbn [map snd fst] in K. apply K; auto.
      + constructor; [intros []|constructor]. + intros x [].
    - intros b args ops F. exact F.
  Qed.
End Build.
