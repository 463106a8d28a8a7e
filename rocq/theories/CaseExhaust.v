(** Lemmas about the check that arms are exhaustive. *)
From Coq Require Import Lia FinFun.
From Verif Require Import CaseSpec CaseProofs CaseMain.
Local Open Scope N_scope.

Lemma is_catch_all_ok p : is_catch_all p = true -> catch_all p.
Proof. induction p using pattern_all; cbn; try discriminate; auto. Qed.
Lemma catch_alls_ok l : forallb is_catch_all l = true -> Forall catch_all l.
Proof. intros H. apply Forall_forall. intros p Hp. apply is_catch_all_ok. rewrite forallb_forall in H. auto. Qed.
Lemma each_short ps : forall vs, Forall catch_all ps -> (List.length ps <= List.length vs)%nat -> exists b, each matches ps vs = Some (b, skipn (List.length ps) vs).
Proof.
  induction ps as [|p ps IH]; intros [|v vs] H L; cbn in *; try lia; try (eexists; reflexivity). inversion H; subst. pose proof (catch_all_matches p v H2) as Hm.
  destruct (matches p v) as [b|]; [|contradiction]. destruct (IH vs H3) as [b' ->]; [lia|]. eexists; reflexivity.
Qed.
Lemma in_lengths_exact a n : guard a = None -> In n (fst (arm_lengths a)) -> forall vs, N.of_nat (List.length vs) = n -> matches (pat a) (VList vs) <> None.
Proof.
  intros _ H vs L.
  assert (Hp : forall p, In n (fst (list_lengths p)) -> matches p (VList vs) <> None).
  { intros p Hp. destruct p; cbn in Hp; try contradiction.
    - destruct (forallb is_catch_all l) eqn:E; [|destruct Hp]. cbn in Hp. destruct Hp as [Hp|[]]. apply catch_alls_ok in E.
      assert (Hl : List.length l = List.length vs) by lia. destruct (each_short l vs E) as [b Hb]; [lia|]. cbn [matches]. rewrite Hb, Hl, skipn_all. discriminate.
    - destruct (forallb is_catch_all head); destruct Hp. }
  unfold arm_lengths in H. destruct (pat a) eqn:E; try exact (Hp _ H). specialize (Hp _ H). cbn [matches]. destruct (matches p (VList vs)); [discriminate|contradiction].
Qed.
Lemma in_lengths_prefix a n : In n (snd (arm_lengths a)) -> forall vs, n <= N.of_nat (List.length vs) -> matches (pat a) (VList vs) <> None.
Proof.
  intros H vs L.
  assert (Hp : forall p, In n (snd (list_lengths p)) -> matches p (VList vs) <> None).
  { intros p Hp. destruct p; cbn in Hp; try contradiction.
    - destruct (forallb is_catch_all l); destruct Hp.
    - destruct (forallb is_catch_all head) eqn:E; [|destruct Hp]. cbn in Hp. destruct Hp as [Hp|[]]. apply catch_alls_ok in E.
      destruct (each_short head vs E) as [b Hb]; [lia|]. cbn [matches]. rewrite Hb. discriminate. }
  unfold arm_lengths in H. destruct (pat a) eqn:E; try exact (Hp _ H). specialize (Hp _ H). cbn [matches]. destruct (matches p (VList vs)); [discriminate|contradiction].
Qed.
Lemma in_unguarded {B} (f : arm -> list B) arms y : In y (flat_map f (filter unguarded arms)) -> exists a, In a arms /\ guard a = None /\ In y (f a).
Proof.
  intros H. apply in_flat_map in H. destruct H as (a & Ha & Hy). apply filter_In in Ha. destruct Ha as [Ha Hu]. exists a. split; [exact Ha|]. split; [|exact Hy].
  unfold unguarded in Hu. destruct (guard a); [discriminate|reflexivity].
Qed.
Lemma flat_map_map {A B C} (f : B -> list C) (g : A -> B) l : flat_map f (map g l) = flat_map (fun x => f (g x)) l.
Proof. induction l; cbn; congruence. Qed.
Lemma list_covered arms vs : list_exhaustive arms = true -> covered arms (VList vs).
Proof.
  unfold list_exhaustive. rewrite !flat_map_map. intros H. apply existsb_exists in H. destruct H as (m & Hm & Hall).
  destruct (N.le_gt_cases m (N.of_nat (List.length vs))) as [L|L].
  - destruct (in_unguarded _ _ _ Hm) as (a & Ha & Hg & Hy). exists a. split; [exact Ha|]. split; [exact Hg|]. eapply in_lengths_prefix; eauto.
  - rewrite forallb_forall in Hall. specialize (Hall (List.length vs)). assert (Hin : In (List.length vs) (seq 0 (N.to_nat m))) by (apply in_seq; lia). specialize (Hall Hin).
    apply existsb_exists in Hall. destruct Hall as (n & Hn & Heq). apply N.eqb_eq in Heq. destruct (in_unguarded _ _ _ Hn) as (a & Ha & Hg & Hy).
    exists a. split; [exact Ha|]. split; [exact Hg|]. eapply in_lengths_exact; eauto.
Qed.
Lemma bools_covered p b : In b (covered_bools p) -> matches p (VBool b) <> None.
Proof.
  induction p as [|x|l|c fs IH|fs|l IH|l IH|l x IH|p x IH|] using pattern_all; cbn [covered_bools]; try contradiction.
  - destruct l; try contradiction. intros [<-|[]]. cbn. destruct b0; discriminate.
  - intros H. specialize (IH H). cbn. destruct (matches p (VBool b)); [discriminate|contradiction].
Qed.
Lemma variants_covered variants p t c vs : distinct_variants variants -> typed variants (VVariant c vs) t -> pattern_typed variants p t -> flat p -> In c (covered_variants p) -> matches p (VVariant c vs) <> None.
Proof.
  intros D Tv. induction p as [|x|l|c0 fs IH|fs|l IH|l IH|l x IH|p x IH|] using pattern_all; cbn [covered_variants]; intros Tp F H; try contradiction.
  - destruct H as [->|[]]. inversion Tv as [| | | | | |c' vs' ts' en' Hin' Hvs]; subst. inversion Tp as [| | | | | | | |c1 fs1 more ts en Hin Hfs| | | | |]; subst. inversion F; subst.
    rewrite <- (variant_once variants D _ _ _ _ Hin Hin') in Hvs.
    assert (L : (List.length fs <= List.length vs)%nat) by (rewrite (Forall2_len _ _ _ Hvs), (Forall2_len _ _ _ Hfs), app_length; lia).
    cbn [matches]. rewrite N.eqb_refl. destruct (each_short fs vs H0 L) as [b ->]. discriminate.
  - inversion Tp; subst. inversion F; subst. specialize (IH H3 H1 H). cbn [matches]. destruct (matches p (VVariant c vs)); [discriminate|contradiction].
Qed.
Lemma exhaustive_covers variants names t h arms v : distinct_variants variants -> all_named variants names -> seen t h -> typed variants v t ->
  Forall (fun a => pattern_typed variants (pat a) t) arms -> (forall a, In a arms -> guard a = None -> flat (pat a)) ->
  check_exhaustiveness names h arms = Exhaustive -> covered arms v.
Proof.
  intros D Nm Sn Tv Tp Fl H. unfold check_exhaustiveness in H. destruct (rev arms) as [|last l] eqn:R; [discriminate|].
  assert (Hlast : In last arms) by (apply in_rev; rewrite R; left; reflexivity).
  destruct (unguarded last && is_catch_all (pat last)) eqn:C.
  - apply andb_true_iff in C. destruct C as [C1 C2]. exists last. split; [exact Hlast|]. split; [unfold unguarded in C1; destruct (guard last); [discriminate|reflexivity]|].
    apply catch_all_matches. apply is_catch_all_ok. exact C2.
  - destruct Sn as [Sn|Sn]; subst h; [discriminate|]. destruct t as [| | | |ts|t|en]; try discriminate.
    + destruct (existsb (Bool.eqb true) _ && existsb (Bool.eqb false) _) eqn:B; [|discriminate]. apply andb_true_iff in B. destruct B as [B1 B2]. inversion Tv; subst.
      assert (Hb : exists a, In a arms /\ guard a = None /\ In b (covered_bools (pat a))).
      { destruct b; [apply existsb_exists in B1; destruct B1 as (y & Hy & He)|apply existsb_exists in B2; destruct B2 as (y & Hy & He)]; apply eqb_prop in He; subst y; apply (in_unguarded (fun a => covered_bools (pat a))); exact Hy. }
      destruct Hb as (a & Ha & Hg & Hy). exists a. split; [exact Ha|]. split; [exact Hg|]. apply bools_covered. exact Hy.
    + destruct (list_exhaustive arms) eqn:L; [|discriminate]. inversion Tv; subst. apply list_covered. exact L.
    + destruct (names en) as [known|] eqn:Hn; [|discriminate]. destruct (forallb _ known) eqn:Hf; [|discriminate]. inversion Tv as [| | | | | |c vs ts en' Hin Hvs]; subst.
      rewrite forallb_forall in Hf. specialize (Hf c (Nm _ _ Hn _ _ Hin)). apply existsb_exists in Hf. destruct Hf as (y & Hy & He). apply N.eqb_eq in He. subst y.
      destruct (in_unguarded (fun a => covered_variants (pat a)) _ _ Hy) as (a & Ha & Hg & Hc). exists a. split; [exact Ha|]. split; [exact Hg|].
      rewrite Forall_forall in Tp. eapply variants_covered; eauto.
Qed.
Lemma covered_chosen eval v arms : covered arms v -> forall outer, chosen eval v outer arms.
Proof.
  intros (a & Ha & Hg & Hm) outer. unfold chosen. induction arms as [|c arms IH]; [destruct Ha|]. rewrite select_cons. destruct Ha as [->|Ha].
  - destruct (matches (pat a) v) as [b|]; [|contradiction]. rewrite Hg. apply got_arm.
  - specialize (IH Ha). destruct (matches (pat c) v) as [b|]; [|exact IH]. destruct (guard c); [|apply got_arm]. unfold guarded.
    destruct (eval n _) as [[z|[|]| | | | | |]|]; cbn; try discriminate; [apply got_arm|exact IH].
Qed.

(** ** Completeness for plain patterns *)
Lemma total_check p : total p -> is_catch_all p = true.
Proof. induction 1; cbn; auto. Qed.
Lemma totals_check l : Forall total l -> forallb is_catch_all l = true.
Proof. intros H. apply forallb_forall. rewrite Forall_forall in H. intros p Hp. apply total_check. auto. Qed.
Lemma each_lengths ps : forall vs b more, each matches ps vs = Some (b, more) -> List.length vs = (List.length ps + List.length more)%nat.
Proof.
  induction ps as [|p ps IH]; intros vs b more H; cbn [each] in H.
  - destruct vs; injection H as <- <-; reflexivity.
  - destruct vs as [|v vs]; [discriminate|]. destruct (matches p v); [|discriminate]. destruct (each matches ps vs) as [[b' m]|] eqn:E; [|discriminate]. injection H as <- <-. cbn. f_equal. eapply IH; eauto.
Qed.
Lemma as_matches p x v : matches (As p x) v <> None -> matches p v <> None.
Proof. cbn. destruct (matches p v); [discriminate|auto]. Qed.
(** Which lengths an arm covers. *)
Lemma plain_list_lengths a vs : plain_arm a -> matches (pat a) (VList vs) <> None ->
  In (N.of_nat (List.length vs)) (fst (arm_lengths a)) \/ exists m, In m (snd (arm_lengths a)) /\ m <= N.of_nat (List.length vs).
Proof.
  assert (Hp : forall p, plain p -> matches p (VList vs) <> None -> In (N.of_nat (List.length vs)) (fst (list_lengths p)) \/ exists m, In m (snd (list_lengths p)) /\ m <= N.of_nat (List.length vs)).
  { intros p [b|c fs F|l F|l x F] M; cbn in M; try contradiction.
    - left. cbn. rewrite (totals_check l F). destruct (each matches l vs) as [[b m]|] eqn:E; [|contradiction]. destruct m; [|contradiction]. apply each_lengths in E. left. cbn in E. rewrite E. f_equal. lia.
    - right. exists (N.of_nat (List.length l)). cbn. rewrite (totals_check l F). split; [left; reflexivity|]. destruct (each matches l vs) as [[b m]|] eqn:E; [|contradiction]. apply each_lengths in E. lia. }
  intros [P|(p & x & E & P)] M.
  - unfold arm_lengths. destruct (pat a) eqn:E; try exact (Hp _ P M). inversion P.
  - rewrite E in M. unfold arm_lengths. rewrite E. apply Hp; [exact P|]. apply (as_matches _ x). exact M.
Qed.
Lemma unguarded_in {B} (f : arm -> list B) arms a y : In a arms -> guard a = None -> In y (f a) -> In y (flat_map f (filter unguarded arms)).
Proof. intros Ha Hg Hy. apply in_flat_map. exists a. split; [|exact Hy]. apply filter_In. split; [exact Ha|]. unfold unguarded. rewrite Hg. reflexivity. Qed.
Lemma least_prefix (l : list N) : l <> [] -> exists m, In m l /\ forall n, In n l -> m <= n.
Proof.
  induction l as [|x l IH]; [congruence|]. intros _. destruct l as [|y l]; [exists x; split; [left; reflexivity|]; intros n [->|[]]; lia|].
  destruct IH as (m & Hm & Hall); [discriminate|]. destruct (N.le_gt_cases x m) as [L|L].
  - exists x. split; [left; reflexivity|]. intros n [->|Hn]; [lia|]. specialize (Hall n Hn). lia.
  - exists m. split; [right; exact Hm|]. intros n [->|Hn]; [lia|auto].
Qed.
Lemma list_complete arms (u : value) : (forall a, In a arms -> guard a = None -> plain_arm a) -> (forall n, covered arms (VList (repeat u n))) -> list_exhaustive arms = true.
Proof.
  intros Pl Cov. unfold list_exhaustive. rewrite !flat_map_map.
  set (exact_ := flat_map (fun x => fst (arm_lengths x)) (filter unguarded arms)). set (pre := flat_map (fun x => snd (arm_lengths x)) (filter unguarded arms)).
  assert (Hn : forall n, In (N.of_nat n) exact_ \/ exists m, In m pre /\ m <= N.of_nat n).
  { intros n. destruct (Cov n) as (a & Ha & Hg & M). destruct (plain_list_lengths a _ (Pl a Ha Hg) M) as [H|(m & Hm & L)]; rewrite repeat_length in *.
    - left. eapply (unguarded_in (fun x => fst (arm_lengths x))); eauto.
    - right. exists m. split; [|exact L]. eapply (unguarded_in (fun x => snd (arm_lengths x))); eauto. }
  assert (Hne : pre <> []).
  { intros E. rewrite E in Hn.
    assert (Hall : forall n, In (N.of_nat n) exact_) by (intros n; destruct (Hn n) as [H|(m & [] & _)]; exact H).
    assert (Hle : (List.length (map N.of_nat (seq 0 (S (List.length exact_)))) <= List.length exact_)%nat).
    { apply NoDup_incl_length; [|intros y Hy; apply in_map_iff in Hy; destruct Hy as (n & <- & _); apply Hall].
      apply FinFun.Injective_map_NoDup; [intros x y Hxy; lia|apply seq_NoDup]. }
    rewrite map_length, seq_length in Hle. lia. }
  destruct (least_prefix pre Hne) as (m & Hm & Hleast). apply existsb_exists. exists m. split; [exact Hm|]. apply forallb_forall. intros n Hin. apply in_seq in Hin.
  destruct (Hn n) as [H|(m' & Hm' & L)]; [apply existsb_exists; exists (N.of_nat n); split; [exact H|apply N.eqb_refl]|]. specialize (Hleast m' Hm'). lia.
Qed.
Lemma plain_bools a b : plain_arm a -> matches (pat a) (VBool b) <> None -> In b (covered_bools (pat a)).
Proof.
  assert (Hp : forall p, plain p -> matches p (VBool b) <> None -> In b (covered_bools p)).
  { intros p [b0|c fs F|l F|l x F] M; cbn in M; try contradiction. left. destruct b0, b; try reflexivity; contradiction. }
  intros [P|(p & x & E & P)] M; [auto|]. rewrite E in *. apply (Hp p P). apply (as_matches _ x). exact M.
Qed.
Lemma plain_variants a c vs : plain_arm a -> matches (pat a) (VVariant c vs) <> None -> In c (covered_variants (pat a)).
Proof.
  assert (Hp : forall p, plain p -> matches p (VVariant c vs) <> None -> In c (covered_variants p)).
  { intros p [b0|c0 fs F|l F|l x F] M; cbn in M; try contradiction. left. destruct (N.eqb_spec c0 c); [assumption|contradiction]. }
  intros [P|(p & x & E & P)] M; [auto|]. rewrite E in *. apply (Hp p P). apply (as_matches _ x). exact M.
Qed.
Lemma values_of variants ts : Forall (inhabited variants) ts -> exists vs, Forall2 (typed variants) vs ts.
Proof. induction 1 as [|t ts [v Hv] Hts [vs Hvs]]; [exists []; constructor|exists (v :: vs); constructor; auto]. Qed.
Lemma exhaustive_complete variants names t h arms : (match t with TBool | TList _ | TEnum _ => True | _ => False end) ->
  h = match t with TBool => HBool | TList _ => HList | TEnum e => HNamed e | _ => HOther end ->
  inhabited variants t -> (forall e c ts u, In (c, ts) (variants e) -> In u ts -> inhabited variants u) ->
  (forall e, t = TEnum e -> names e = Some (map fst (variants e))) -> (forall u, t = TList u -> inhabited variants u) ->
  (forall a, In a arms -> guard a = None -> plain_arm a) -> (forall v, typed variants v t -> covered arms v) -> check_exhaustiveness names h arms = Exhaustive.
Proof.
  intros Ht Hh [v0 Hv0] Inh Nm Lst Pl Cov. unfold check_exhaustiveness. destruct (rev arms) as [|last l] eqn:R.
  { destruct (Cov v0 Hv0) as (a & Ha & _). apply in_rev in Ha. rewrite R in Ha. destruct Ha. }
  destruct (unguarded last && is_catch_all (pat last)); [reflexivity|]. destruct t as [| | | |ts|t|en]; try contradiction; subst h.
  - assert (Hb : forall b, existsb (Bool.eqb b) (flat_map (fun a => covered_bools (pat a)) (filter unguarded arms)) = true).
    { intros b. destruct (Cov (VBool b) (t_bool _ b)) as (a & Ha & Hg & M). apply existsb_exists. exists b. split; [|apply eqb_reflx].
      eapply (unguarded_in (fun a => covered_bools (pat a))); eauto. apply plain_bools; auto. }
    rewrite (Hb true), (Hb false). reflexivity.
  - destruct (Lst t eq_refl) as [u Hu]. rewrite (list_complete arms u Pl); [reflexivity|]. intros n. apply Cov. constructor. apply Forall_forall. intros w Hw. apply repeat_spec in Hw. subst w. exact Hu.
  - rewrite (Nm en eq_refl). enough (Hf : forallb (fun c => existsb (N.eqb c) (flat_map (fun a => covered_variants (pat a)) (filter unguarded arms))) (map fst (variants en)) = true) by (rewrite Hf; reflexivity).
    apply forallb_forall. intros c Hc. apply in_map_iff in Hc. destruct Hc as ([c' ts] & Hc' & Hin). cbn in Hc'. subst c'.
    destruct (values_of variants ts) as [vs Hvs]; [apply Forall_forall; intros u Hu; eapply Inh; eauto|].
    destruct (Cov (VVariant c vs) (t_variant _ c vs ts en Hin Hvs)) as (a & Ha & Hg & M). apply existsb_exists. exists c. split; [|apply N.eqb_refl].
    eapply (unguarded_in (fun a => covered_variants (pat a))); eauto. apply (plain_variants a c vs); auto.
Qed.

(** ** Named fields *)
Lemma in_order xs : forall written more vs, NoDup (map fst written ++ more) -> length vs = length (map fst written ++ more) -> NoDup xs ->
  map snd written = map (fun x => Bind (Some x)) xs ->
  exists b rest, each matches (map snd written) vs = Some (b, rest) /\ (forall x, ~ In x xs -> lookup b x = None)
    /\ forall f x, In (f, Bind (Some x)) written -> lookup b x = field (map fst written ++ more) vs f.
Proof.
  unfold field. induction xs as [|x xs IH]; intros [|[f p] written] more vs Nn L Nx E; try discriminate.
  - exists [], vs. cbn. split; [reflexivity|]. split; [reflexivity|]. intros f x [].
  - cbn in E. injection E as Ep E. subst p. destruct vs as [|v vs]; [discriminate|]. cbn in Nn, L. inversion Nn as [|? ? Nf Nn']; subst. inversion Nx as [|? ? Nx1 Nx2]; subst.
    destruct (IH written more vs) as (b & rest & E1 & E2 & E3); [assumption|lia|assumption|assumption|]. exists ((x, v) :: b), rest. cbn [map snd each matches binding]. rewrite E1. split; [reflexivity|]. split.
    + intros y Hy. unfold lookup. cbn [find fst]. destruct (N.eqb_spec x y) as [->|Hne]; [exfalso; apply Hy; left; reflexivity|]. apply (E2 y). intro. apply Hy. right. assumption.
    + intros g y [Hg|Hg].
      * injection Hg as <- <-. unfold lookup. cbn. rewrite !N.eqb_refl. reflexivity.
      * assert (y <> x). { intros ->. apply Nx1. apply (in_map snd) in Hg. rewrite E in Hg. apply in_map_iff in Hg. destruct Hg as (z & Hz & Hz'). cbn in Hz. injection Hz as ->. assumption. }
        assert (g <> f). { intros ->. apply Nf, in_or_app. left. apply (in_map fst) in Hg. exact Hg. }
        specialize (E3 g y Hg). unfold lookup in *. cbn. destruct (N.eqb_spec x y); [congruence|]. destruct (N.eqb_spec f g); [congruence|]. exact E3.
Qed.
Lemma named_in_order c written more vs xs : NoDup (map fst written ++ more) -> length vs = length (map fst written ++ more) -> NoDup xs ->
  map snd written = map (fun x => Bind (Some x)) xs ->
  exists b, matches (Variant c (constructor_fields written)) (VVariant c vs) = Some b
    /\ forall f x, In (f, Bind (Some x)) written -> lookup b x = field (map fst written ++ more) vs f.
Proof.
  intros Nn L Nx E. destruct (in_order xs written more vs Nn L Nx E) as (b & rest & E1 & _ & E3). exists b. split; [|exact E3].
  cbn [matches]. rewrite N.eqb_refl. unfold constructor_fields. rewrite E1. reflexivity.
Qed.
