(** Lemmas about the generated checks and bindings. *)
From Coq Require Import Lia.
From Verif Require Import CaseSpec.
Local Open Scope N_scope.

(** ** Induction on patterns *)
Section Induction.
  Variable P : pattern -> Prop.
  Hypothesis Hw : P Wildcard.
  Hypothesis Hb : forall x, P (Bind x).
  Hypothesis Hl : forall l, P (Literal l).
  Hypothesis Hv : forall c fs, Forall P fs -> P (Variant c fs).
  Hypothesis Hr : forall fs, P (Record_ fs).
  Hypothesis Ht : forall l, Forall P l -> P (Tuple l).
  Hypothesis Hli : forall l, Forall P l -> P (List_ l).
  Hypothesis Hlr : forall l x, Forall P l -> P (ListRest l x).
  Hypothesis Ha : forall p x, P p -> P (As p x).
  Hypothesis He : P Error_.
  Fixpoint pattern_all (p : pattern) : P p :=
    let go := fix go (l : list pattern) : Forall P l := match l with [] => Forall_nil _ | p :: l => Forall_cons p (pattern_all p) (go l) end in
    match p with
    | Wildcard => Hw | Bind x => Hb x | Literal l => Hl l | Variant c fs => Hv c fs (go fs) | Record_ fs => Hr fs | Tuple l => Ht l (go l)
    | List_ l => Hli l (go l) | ListRest l x => Hlr l x (go l) | As p x => Ha p x (pattern_all p) | Error_ => He
    end.
End Induction.

(** ** Environments *)
Definition agree (next : N) (e e' : env) : Prop := forall x, x < next -> e' x = e x.
Lemma agree_refl next e : agree next e e. Proof. intros x _; reflexivity. Qed.
Lemma agree_trans n n' e e1 e2 : n <= n' -> agree n e e1 -> agree n' e1 e2 -> agree n e e2.
Proof. intros L A B x H. rewrite (B x), (A x); auto; lia. Qed.
Lemma agree_le n n' e e' : n <= n' -> agree n' e e' -> agree n e e'.
Proof. intros L A x H. apply A. lia. Qed.
Lemma agree_set n r e v : n <= r -> agree n e (set e r v).
Proof. intros L x H. unfold set. destruct (N.eqb_spec x r); [lia|reflexivity]. Qed.
Lemma set_same e r v : set e r v r = Some v. Proof. unfold set. rewrite N.eqb_refl. reflexivity. Qed.
Lemma set_other e r v x : x <> r -> set e r v x = e x. Proof. unfold set. intros H. destruct (N.eqb_spec x r); congruence. Qed.

Definition is_some {A} (x : option A) : bool := match x with Some _ => true | None => false end.

(** ** Lemmas without code *)
Definition cond (e : env) (next : N) (c : N) (b : bool) : Prop := c < next /\ e c = Some (VBool b).
Lemma cond_keep e e' n n' c b : n <= n' -> agree n e e' -> cond e n c b -> cond e' n' c b.
Proof. intros L A [H1 H2]. split; [lia|]. rewrite A; auto. Qed.
Lemma conds_keep e e' n n' cs bs : n <= n' -> agree n e e' -> Forall2 (cond e n) cs bs -> Forall2 (cond e' n') cs bs.
Proof. intros L A F. induction F; constructor; auto. eapply cond_keep; eauto. Qed.
Lemma and_all_next l : forall next acc, fst (fst (and_all next acc l)) = next + N.of_nat (List.length l).
Proof. induction l as [|c l IH]; intros next acc; cbn [and_all List.length]; [cbn; lia|]. specialize (IH (next + 1) next). destruct (and_all (next + 1) next l) as [[n o] r]. cbn in *. lia. Qed.
Lemma and_all_val l : forall next acc, acc < next -> snd (and_all next acc l) < fst (fst (and_all next acc l)).
Proof.
  induction l as [|c l IH]; intros next acc L; cbn [and_all]; [exact L|]. specialize (IH (next + 1) next). destruct (and_all (next + 1) next l) as [[n o] r]. cbn in *. apply IH. lia.
Qed.
Lemma conjunction_emits next l : Forall (fun c => c < next) l -> exists next' ops c, conjunction next l = (next', ops, c) /\ next <= next' /\ c < next'.
Proof.
  intros H. destruct H as [|c l Hc Hl]; cbn [conjunction].
  - do 3 eexists. split; [reflexivity|lia].
  - pose proof (and_all_next l next c) as H1. pose proof (and_all_val l next c Hc) as H2. destruct (and_all next c l) as [[n o] r]. cbn in *. do 3 eexists. split; [reflexivity|]. lia.
Qed.

(** *** Code is made *)
Definition emits (check : N -> N -> pattern -> res (N * list op * N)) (p : pattern) : Prop :=
  forall next s, exists next' ops c, check next s p = Done (next', ops, c) /\ next <= next' /\ c < next'.
Lemma fields_emit check get ps : Forall (emits check) ps -> forall next i,
  exists next' ops cs, fields_check check get next i ps = Done (next', ops, cs) /\ next <= next' /\ Forall (fun c => c < next') cs.
Proof.
  induction 1 as [|p ps Hp Hps IH]; intros next i; cbn [fields_check].
  - do 3 eexists. split; [reflexivity|]. split; [lia|constructor].
  - destruct (Hp (next + 1) next) as (n1 & ops & c & -> & L1 & Lc). cbn [CaseModel.bind]. destruct (IH n1 (i + 1)) as (n2 & ops2 & cs & -> & L2 & F). cbn [CaseModel.bind].
    do 3 eexists. split; [reflexivity|]. split; [lia|]. constructor; [lia|exact F].
Qed.
Lemma suffix_emit check exact ps : Forall (emits check) ps -> forall next cur,
  exists next' ops c, suffix_check check exact next cur ps = Done (next', ops, c) /\ next <= next' /\ c < next'.
Proof.
  induction 1 as [|p ps Hp Hps IH]; intros next cur; cbn [suffix_check].
  - do 3 eexists. split; [reflexivity|]. lia.
  - destruct (Hp (next + 4) (next + 3)) as (n1 & ops & c & -> & L1 & Lc). cbn [CaseModel.bind]. destruct (IH (n1 + 1) n1) as (n2 & ops2 & cs & -> & L2 & F). cbn [CaseModel.bind].
    do 3 eexists. split; [reflexivity|]. lia.
Qed.
Lemma check_emits logical p : supported p -> emits (pattern_check logical) p.
Proof.
  induction p as [|x|l|c fs IH|fs|l IH|l IH|l x IH|p x IH|] using pattern_all; intros Hs next s; inversion Hs; subst; cbn [pattern_check].
  - do 3 eexists. split; [reflexivity|lia].
  - do 3 eexists. split; [reflexivity|lia].
  - destruct l as [n|z|b|s0|b|]; cbn in H0; try contradiction; cbn [literal_check].
    + unfold validate_nat. destruct (N.leb_spec n 1073741823); [|exfalso; change (2 ^ 30) with 1073741824 in H0; lia]. cbn [CaseModel.bind]. do 3 eexists. split; [reflexivity|lia].
    + unfold validate_int. destruct (Z.leb_spec (-1073741824) z), (Z.leb_spec z 1073741823); cbn [andb]; try (exfalso; change (2 ^ 30)%Z with 1073741824%Z in H0; lia).
      cbn [CaseModel.bind]. do 3 eexists. split; [reflexivity|lia].
    + do 3 eexists. split; [reflexivity|lia].
  - destruct logical; [|do 3 eexists; split; [reflexivity|lia]].
    assert (F : Forall (emits (pattern_check true)) fs). { rewrite Forall_forall in *. auto. }
    destruct fs as [|f fs]; [do 3 eexists; split; [reflexivity|lia]|].
    destruct (fields_emit (pattern_check true) (fun r i => VariantGet r (next + 1) c i) (f :: fs) F (next + 2) 0) as (n1 & ops & cs & -> & L & Fc). cbn [CaseModel.bind].
    destruct (conjunction_emits n1 cs Fc) as (n2 & ops2 & c2 & -> & L2 & Lc). do 3 eexists. split; [reflexivity|lia].
  - assert (F : Forall (emits (pattern_check logical)) l). { rewrite Forall_forall in *. auto. }
    destruct (fields_emit (pattern_check logical) (fun r i => StructGet r s i) l F next 0) as (n1 & ops & cs & -> & L & Fc). cbn [CaseModel.bind].
    destruct (conjunction_emits n1 cs Fc) as (n2 & ops2 & c2 & -> & L2 & Lc). do 3 eexists. split; [reflexivity|lia].
  - apply suffix_emit. rewrite Forall_forall in *. auto.
  - apply suffix_emit. rewrite Forall_forall in *. auto.
  - apply IH. assumption.
  - do 3 eexists. split; [reflexivity|lia].
Qed.

Definition placed_in (xs : list N) (next : N) (sc sc' : scope) : Prop := exists new, sc' = new ++ sc /\ Forall (fun e => snd e < next /\ In (fst e) xs) new.
Lemma placed_nil xs next sc : placed_in xs next sc sc.
Proof. exists []. split; auto. Qed.
Lemma placed_trans xs ys zs n n' sc sc1 sc2 : incl xs zs -> incl ys zs -> n <= n' -> placed_in xs n sc sc1 -> placed_in ys n' sc1 sc2 -> placed_in zs n' sc sc2.
Proof.
  intros I1 I2 L (a & -> & Fa) (b & -> & Fb). exists (b ++ a). split; [apply app_assoc|]. apply Forall_app. split.
  - eapply Forall_impl; [|exact Fb]. cbn. intros x [H1 H2]. auto.
  - eapply Forall_impl; [|exact Fa]. cbn. intros x [H1 H2]. split; [lia|auto].
Qed.
Definition bind_emits (binds : N -> N -> pattern -> scope -> res (N * list op * scope)) (p : pattern) : Prop :=
  forall next s sc, s < next -> exists next' ops sc', binds next s p sc = Done (next', ops, sc') /\ next <= next' /\ placed_in (pattern_locals p) next' sc sc'.
Lemma bind_local_placed x s next xs sc : s < next -> (forall y, x = Some y -> In y xs) -> placed_in xs next sc (bind_local x s sc).
Proof. intros L H. destruct x as [y|]; cbn; [|apply placed_nil]. exists [(y, s)]. split; [reflexivity|]. constructor; [|constructor]. cbn. auto. Qed.
Lemma fields_bind_emit binds get ps : Forall (bind_emits binds) ps -> forall next i sc,
  exists next' ops sc', fields_bind binds get next i ps sc = Done (next', ops, sc') /\ next <= next' /\ placed_in (flat_map pattern_locals ps) next' sc sc'.
Proof.
  induction 1 as [|p ps Hp Hps IH]; intros next i sc; cbn [fields_bind flat_map].
  - do 3 eexists. split; [reflexivity|]. split; [lia|apply placed_nil].
  - destruct (Hp (next + 1) next sc) as (n1 & ops & sc1 & -> & L1 & P1); [lia|]. cbn [CaseModel.bind]. destruct (IH n1 (i + 1) sc1) as (n2 & ops2 & sc2 & -> & L2 & P2). cbn [CaseModel.bind].
    do 3 eexists. split; [reflexivity|]. split; [lia|]. eapply placed_trans; [| | |exact P1|exact P2]; [apply incl_appl, incl_refl|apply incl_appr, incl_refl|exact L2].
Qed.
Lemma list_bind_emit binds ps rest : Forall (bind_emits binds) ps -> forall next cur sc, cur < next ->
  exists next' ops sc', list_bind binds next cur ps rest sc = Done (next', ops, sc') /\ next <= next'
    /\ placed_in (flat_map pattern_locals ps ++ match rest with Some x => [x] | None => [] end) next' sc sc'.
Proof.
  induction 1 as [|p ps Hp Hps IH]; intros next cur sc L; cbn [list_bind flat_map].
  - do 3 eexists. split; [reflexivity|]. split; [lia|]. apply bind_local_placed; [lia|]. intros y ->. cbn. auto.
  - destruct (Hp (next + 1) next sc) as (n1 & ops & sc1 & -> & L1 & P1); [lia|]. cbn [CaseModel.bind]. destruct (IH (n1 + 1) n1 sc1) as (n2 & ops2 & sc2 & -> & L2 & P2); [lia|]. cbn [CaseModel.bind].
    do 3 eexists. split; [reflexivity|]. split; [lia|]. rewrite <- app_assoc. eapply placed_trans; [| | |exact P1|exact P2]; [apply incl_appl, incl_refl|apply incl_appr, incl_refl|lia].
Qed.
Lemma pattern_bind_emits p : supported p -> bind_emits pattern_bind p.
Proof.
  induction p as [|x|l|c fs IH|fs|l IH|l IH|l x IH|p x IH|] using pattern_all; intros Sp next s sc L; cbn [pattern_bind pattern_locals].
  - do 3 eexists. split; [reflexivity|]. split; [lia|apply placed_nil].
  - do 3 eexists. split; [reflexivity|]. split; [lia|]. apply bind_local_placed; [lia|]. intros y ->. cbn. auto.
  - do 3 eexists. split; [reflexivity|]. split; [lia|apply placed_nil].
  - inversion Sp; subst. assert (F : Forall (bind_emits pattern_bind) fs) by (rewrite Forall_forall in *; auto).
    destruct (fields_bind_emit pattern_bind (fun r i => VariantGet r next c i) fs F (next + 1) 0 sc) as (n1 & ops & sc1 & -> & L1 & P1). cbn [CaseModel.bind]. do 3 eexists. split; [reflexivity|]. split; [lia|exact P1].
  - inversion Sp.
  - inversion Sp; subst. assert (F : Forall (bind_emits pattern_bind) l) by (rewrite Forall_forall in *; auto).
    destruct (fields_bind_emit pattern_bind (fun r i => StructGet r s i) l F next 0 sc) as (n1 & ops & sc1 & -> & L1 & P1). do 3 eexists. split; [reflexivity|]. split; [lia|exact P1].
  - inversion Sp; subst. assert (F : Forall (bind_emits pattern_bind) l) by (rewrite Forall_forall in *; auto).
    destruct (list_bind_emit pattern_bind l None F next s sc L) as (n1 & ops & sc1 & -> & L1 & P1). rewrite app_nil_r in P1. do 3 eexists. split; [reflexivity|]. split; [lia|exact P1].
  - inversion Sp; subst. assert (F : Forall (bind_emits pattern_bind) l) by (rewrite Forall_forall in *; auto).
    destruct (list_bind_emit pattern_bind l x F next s sc L) as (n1 & ops & sc1 & -> & L1 & P1). do 3 eexists. split; [reflexivity|]. split; [lia|exact P1].
  - inversion Sp; subst. destruct (IH H0 next s (bind_local x s sc) L) as (n1 & ops & sc1 & -> & L1 & P1). do 3 eexists. split; [reflexivity|]. split; [lia|].
    eapply placed_trans with (n := next); [| | | |exact P1]; [apply incl_appl, incl_refl|apply incl_appr, incl_refl|lia|]. apply bind_local_placed; [lia|]. intros y ->. cbn. auto.
  - do 3 eexists. split; [reflexivity|]. split; [lia|apply placed_nil].
Qed.

Definition holds (e : env) (next : N) (x : N * N) (y : N * value) : Prop := fst x = fst y /\ snd x < next /\ e (snd x) = Some (snd y).
Lemma holds_keep e e' n n' l m : n <= n' -> agree n e e' -> Forall2 (holds e n) l m -> Forall2 (holds e' n') l m.
Proof. intros L A F. induction F as [|x y l m (H1 & H2 & H3) F IH]; constructor; auto. split; [exact H1|]. split; [lia|]. rewrite A; auto. Qed.
(** *** Variables *)
Lemma lookup_app {A} (a b : list (N * A)) x : lookup (a ++ b) x = match lookup a x with Some v => Some v | None => lookup b x end.
Proof. unfold lookup. induction a as [|[y v] a IH]; cbn; [reflexivity|]. destruct (y =? x); [reflexivity|exact IH]. Qed.
Lemma lookup_in {A} (l : list (N * A)) x v : lookup l x = Some v -> In (x, v) l.
Proof. unfold lookup. induction l as [|[y u] l IH]; cbn; [discriminate|]. destruct (N.eqb_spec y x) as [->|]; [intros [= ->]; auto|auto]. Qed.
Lemma holds_lookup e next l m x : Forall2 (holds e next) l m ->
  match lookup l x, lookup m x with Some i, Some v => i < next /\ e i = Some v | None, None => True | _, _ => False end.
Proof.
  unfold lookup. induction 1 as [|[y i] [z v] l m (H1 & H2 & H3) F IH]; cbn in *; [exact I|]. subst z. destruct (y =? x); cbn; [auto|exact IH].
Qed.
Lemma Forall2_rev {A B} (R : A -> B -> Prop) l m : Forall2 R l m -> Forall2 R (rev l) (rev m).
Proof. induction 1; cbn; [constructor|]. apply Forall2_app; auto. Qed.
Definition below (next : N) (sc : scope) : Prop := Forall (fun e => snd e < next) sc.
Lemma below_le n n' sc : n <= n' -> below n sc -> below n' sc.
Proof. intros L. apply Forall_impl. intros x Hx. lia. Qed.
Lemma locals_agree n e e' sc x : below n sc -> agree n e e' -> locals e' sc x = locals e sc x.
Proof.
  intros B A. unfold locals. destruct (lookup sc x) as [i|] eqn:E; [|reflexivity]. apply A. apply lookup_in in E. unfold below in B. rewrite Forall_forall in B. apply (B _ E).
Qed.
Lemma placed_below xs n sc sc' : placed_in xs n sc sc' -> below n sc -> below n sc'.
Proof. intros (new & -> & F) B. apply Forall_app. split; [|exact B]. eapply Forall_impl; [|exact F]. cbn. tauto. Qed.
Lemma placed_locals xs n sc sc' e x : placed_in xs n sc sc' -> ~ In x xs -> locals e sc' x = locals e sc x.
Proof.
  intros (new & -> & F) H. unfold locals. rewrite lookup_app. destruct (lookup new x) as [i|] eqn:E; [|reflexivity]. apply lookup_in in E. rewrite Forall_forall in F. destruct (F _ E) as [_ Hin]. contradiction.
Qed.
Lemma bound_locals e n n' new sc b e' x : agree n e e' -> below n sc -> Forall2 (holds e' n') new b -> locals e' (rev new ++ sc) x = extended (locals e sc) b x.
Proof.
  intros A B F. unfold extended. pose proof (holds_lookup _ _ _ _ x (Forall2_rev _ _ _ F)) as H. unfold locals at 1. rewrite lookup_app.
  destruct (lookup (rev new) x) as [i|], (lookup (rev b) x) as [v|]; try contradiction.
  - apply H.
  - change (locals e' sc x = locals e sc x). eapply locals_agree; eauto.
Qed.
Lemma matches_locals p : forall v b, matches p v = Some b -> forall x, In x (pattern_locals p) -> In x (map fst b).
Proof.
  assert (Hb : forall x0 v x, In x (match x0 with Some x => [x] | None => [] end) -> In x (map fst (binding x0 v))).
  { intros [y|] v x H; cbn in *; exact H. }
  assert (He : forall ps, Forall (fun p => forall v b, matches p v = Some b -> forall x, In x (pattern_locals p) -> In x (map fst b)) ps ->
            forall vs b more, each matches ps vs = Some (b, more) -> forall x, In x (flat_map pattern_locals ps) -> In x (map fst b)).
  { induction 1 as [|q ps Hp Hps IH]; intros vs b more M x Hx; [destruct Hx|]. destruct vs as [|v vs]; [discriminate|]. cbn [each] in M.
    destruct (matches q v) as [b1|] eqn:M1; [|discriminate]. destruct (each matches ps vs) as [[b2 m]|] eqn:M2; [|discriminate]. injection M as <- <-.
    rewrite map_app. cbn in Hx. apply in_app_iff in Hx. apply in_or_app. destruct Hx as [Hx|Hx]; [left; eapply Hp; eauto|right; eapply IH; eauto]. }
  induction p as [|x|l|c fs IH|fs|l IH|l IH|l x IH|p x IH|] using pattern_all; intros v b M y Hy; cbn [matches pattern_locals] in *; try destruct Hy.
  - injection M as <-. auto.
  - destruct v; try discriminate. destruct (c =? ctor); [|discriminate]. destruct (each matches fs l) as [[b' m]|] eqn:M'; [|discriminate]. injection M as <-. eapply He; eauto.
  - destruct v; try discriminate. destruct (each matches l l0) as [[b' m]|] eqn:M'; [|discriminate]. injection M as <-. eapply He; eauto.
  - destruct v; try discriminate. destruct (each matches l l0) as [[b' [|? ?]]|] eqn:M'; try discriminate. injection M as <-. eapply He; eauto.
  - destruct v; try discriminate. destruct (each matches l l0) as [[b' m]|] eqn:M'; try discriminate. injection M as <-. rewrite map_app. apply in_app_iff in Hy. apply in_or_app. destruct Hy as [Hy|Hy]; [left; eapply He; eauto|right; auto].
  - destruct (matches p v) as [b'|] eqn:M'; [|discriminate]. injection M as <-. rewrite map_app. apply in_app_iff in Hy. apply in_or_app. destruct Hy as [Hy|Hy]; [left; auto|right; eapply IH; eauto].
Qed.
Section Code.
  Variable eval : N -> (N -> option value) -> option value.
  Variable kont : value -> option value.
  Notation run := (run eval kont).
  Notation run_list := (run_list run).
  Definition pure (e : env) (ops : list op) (e' : env) : Prop := run_list e ops = ([], inl e').
  Lemma pure_nil e : pure e [] e. Proof. reflexivity. Qed.
  Lemma pure_cons e o e1 ops e2 : run e o = ([], inl e1) -> pure e1 ops e2 -> pure e (o :: ops) e2.
  Proof. unfold pure. intros H1 H2. cbn [CaseSpec.run_list]. rewrite H1, H2. reflexivity. Qed.
  Lemma pure_app e a e1 b : pure e a e1 -> run_list e (a ++ b) = run_list e1 b.
  Proof.
    unfold pure. revert e. induction a as [|o a IH]; intros e H; cbn [CaseSpec.run_list app] in *.
    - injection H as ->. reflexivity.
    - destruct (run e o) as [t [e0|s]] eqn:E; [|discriminate]. destruct (run_list e0 a) as [t' r] eqn:E'. injection H as H1 H2. apply app_eq_nil in H1. destruct H1 as [-> ->]. subst r.
      rewrite (IH e0 E'). destruct (run_list e1 b); reflexivity.
  Qed.
  Lemma pure_join e a e1 b e2 : pure e a e1 -> pure e1 b e2 -> pure e (a ++ b) e2.
  Proof. intros H1 H2. unfold pure. rewrite (pure_app _ _ _ _ H1). exact H2. Qed.
  Lemma pure_one e o e1 : run e o = ([], inl e1) -> pure e [o] e1.
  Proof. intros H. eapply pure_cons; [exact H|apply pure_nil]. Qed.

  (** ** Checks *)
  Lemma and_all_ok l : forall bs next acc b e, cond e next acc b -> Forall2 (cond e next) l bs ->
    exists next' ops r e', and_all next acc l = (next', ops, r) /\ next <= next' /\ pure e ops e' /\ agree next e e' /\ cond e' next' r (b && forallb id bs).
  Proof.
    induction l as [|c l IH]; intros bs next acc b e Ha Hl; inversion Hl as [|c0 b0 l0 bs0 Hc Hl']; subst; cbn [and_all].
    - exists next, [], acc, e. repeat split; auto using agree_refl, pure_nil; try lia; try apply Ha. cbn. rewrite andb_true_r. apply Ha.
    - assert (R : run e (And next acc c) = ([], inl (set e next (VBool (b && b0))))). { cbn. destruct Ha as [_ ->], Hc as [_ ->]. reflexivity. }
      destruct (IH bs0 (next + 1) next (b && b0) (set e next (VBool (b && b0)))) as (next' & ops & r & e' & -> & L & Pu & A & C).
      + split; [lia|apply set_same].
      + eapply conds_keep; [|apply agree_set|exact Hl']; lia.
      + exists next', (And next acc c :: ops), r, e'. split; [reflexivity|]. split; [lia|]. split; [eapply pure_cons; eauto|].
        split; [eapply agree_trans; [|apply agree_set|exact A]; lia|]. cbn [forallb]. unfold id at 1. rewrite andb_assoc. exact C.
  Qed.
  Lemma conjunction_ok l bs next e : Forall2 (cond e next) l bs ->
    exists next' ops r e', conjunction next l = (next', ops, r) /\ next <= next' /\ pure e ops e' /\ agree next e e' /\ cond e' next' r (forallb id bs).
  Proof.
    intros H. destruct H as [|c b l bs Hc Hl]; cbn [conjunction].
    - exists (next + 1), [ConstBool next true], next, (set e next (VBool true)). split; [reflexivity|]. split; [lia|]. split; [apply pure_one; reflexivity|]. split; [apply agree_set; lia|]. split; [lia|apply set_same].
    - destruct (and_all_ok l bs next c b e Hc Hl) as (next' & ops & r & e' & -> & L & Pu & A & C). exists next', ops, r, e'. auto.
  Qed.
  (** *** Code works *)
  Definition works (e : env) (next : N) (ops : list op) (next' c : N) (b : bool) : Prop := exists e', pure e ops e' /\ agree next e e' /\ cond e' next' c b.
  Definition good (check : N -> N -> pattern -> res (N * list op * N)) (p : pattern) (v : value) : Prop :=
    forall next s e next' ops c, check next s p = Done (next', ops, c) -> e s = Some v -> s < next -> works e next ops next' c (is_some (matches p v)).
  Fixpoint bools (ps : list pattern) (vs : list value) : list bool :=
    match ps, vs with p :: ps, v :: vs => is_some (matches p v) :: bools ps vs | _, _ => [] end.
  Lemma bools_each ps : forall vs, (List.length ps <= List.length vs)%nat -> forallb id (bools ps vs) = is_some (each matches ps vs).
  Proof.
    induction ps as [|p ps IH]; intros [|v vs] L; cbn in *; try reflexivity; try lia. rewrite (IH vs) by lia. unfold id.
    destruct (matches p v); [|reflexivity]. destruct (each matches ps vs) as [[b m]|]; reflexivity.
  Qed.
  Lemma skipn_next {A} n : forall (l : list A) x m, skipn n l = x :: m -> nth_error l n = Some x /\ skipn (S n) l = m.
  Proof. induction n as [|n IH]; intros [|y l] x m H; try discriminate; cbn in *. - injection H as -> ->. auto. - apply IH. exact H. Qed.
  Lemma fields_work check get ps : Forall (emits check) ps -> forall all i vs next w whole e next' ops cs,
    (forall e r j v, e w = Some whole -> nth_error all (N.to_nat j) = Some v -> run e (get r j) = ([], inl (set e r v))) ->
    skipn (N.to_nat i) all = vs -> Forall2 (good check) ps (firstn (List.length ps) vs) -> e w = Some whole -> w < next ->
    fields_check check get next i ps = Done (next', ops, cs) ->
    exists e', pure e ops e' /\ agree next e e' /\ Forall2 (cond e' next') cs (bools ps vs).
  Proof.
    induction 1 as [|p ps Hp Hps IH]; intros all i vs next w whole e next' ops cs G Hs Hg Hw Lw E; cbn [fields_check] in E.
    - injection E as <- <- <-. exists e. repeat split; auto using agree_refl, pure_nil. constructor.
    - destruct vs as [|v vs]; [inversion Hg|]. cbn in Hg. inversion Hg as [|p0 v0 ps0 vs0 H1 H2]; subst.
      destruct (skipn_next _ _ _ _ Hs) as [Hn Hs'].
      pose proof (G e next i v Hw Hn) as R.
      destruct (Hp (next + 1) next) as (n1 & ops1 & c & E1 & L1 & Lc). rewrite E1 in E. cbn [CaseModel.bind] in E.
      destruct (H1 _ _ (set e next v) _ _ _ E1 (set_same _ _ _)) as (e1 & P1 & A1 & C1); [lia|].
      assert (Ae1 : agree next e e1) by (eapply agree_trans; [|apply agree_set|exact A1]; lia).
      destruct (fields_emit check get ps Hps n1 (i + 1)) as (n2 & ops2 & cs2 & E2 & L2 & F2). rewrite E2 in E. cbn [CaseModel.bind] in E. injection E as <- <- <-.
      destruct (fun a b c d => IH all (i + 1) vs n1 w whole e1 _ _ _ G a b c d E2) as (e2 & P2 & A2 & F); auto.
      { replace (N.to_nat (i + 1)) with (S (N.to_nat i)) by lia. exact Hs'. }
      { rewrite Ae1; auto. }
      { lia. }
      exists e2. split; [eapply pure_cons; [exact R|]; eapply pure_join; eauto|].
      split; [eapply agree_trans; [|exact Ae1|exact A2]; lia|]. cbn [bools]. constructor; [|exact F]. eapply cond_keep; [|exact A2|exact C1]. lia.
  Qed.
  Definition ended (exact : bool) (x : option (list (N * value) * list value)) : bool :=
    match x with Some (_, more) => if exact then match more with [] => true | _ => false end else true | None => false end.
  Lemma run_if_pure e r c (b : bool) th ty el ey v e' : e c = Some (VBool b) -> pure e (if b then th else el) e' -> e' (if b then ty else ey) = Some v ->
    run e (If r c th ty el ey) = ([], inl (set e r v)).
  Proof. intros Hc P R. cbn [CaseSpec.run]. rewrite Hc. unfold pure in P. destruct b; rewrite P; cbn [read bring]; rewrite R; reflexivity. Qed.
  Lemma suffix_works check exact ps : Forall (emits check) ps -> forall vs next cur e next' ops c,
    (forall p v, In p ps -> In v vs -> good check p v) -> e cur = Some (VList vs) -> cur < next ->
    suffix_check check exact next cur ps = Done (next', ops, c) -> works e next ops next' c (ended exact (each matches ps vs)).
  Proof.
    induction 1 as [|p ps Hp Hps IH]; intros vs next cur e next' ops c Hg Hc Lc E; cbn [suffix_check] in E.
    - injection E as <- <- <-. cbn [each ended].
      assert (Hr : run e (if exact then IsEmpty next cur else ConstBool next true) = ([], inl (set e next (VBool (if exact then match vs with [] => true | _ => false end else true))))).
      { destruct exact; cbn; [rewrite Hc|]; reflexivity. }
      eexists. split; [apply pure_one; exact Hr|]. split; [apply agree_set; lia|]. split; [lia|]. rewrite set_same. destruct vs; reflexivity.
    - destruct (Hp (next + 4) (next + 3)) as (n1 & ops1 & c1 & E1 & L1 & Lc1). rewrite E1 in E. cbn [CaseModel.bind] in E.
      destruct (suffix_emit check exact ps Hps (n1 + 1) n1) as (n2 & ops2 & c2 & E2 & L2 & Lc2). rewrite E2 in E. cbn [CaseModel.bind] in E. injection E as <- <- <-.
      set (e3 := set (set (set e next (VBool (match vs with [] => true | _ => false end))) (next + 1) (VBool true)) (next + 2) (VBool (match vs with [] => false | _ => true end))).
      assert (A3 : agree next e e3) by (intros x Hx; unfold e3; rewrite !set_other; auto; lia).
      assert (C3 : e3 cur = Some (VList vs)) by (rewrite A3; auto).
      assert (N3 : e3 (next + 2) = Some (VBool (match vs with [] => false | _ => true end))) by apply set_same.
      assert (Hpre : pure e [IsEmpty next cur; ConstBool (next + 1) true; Xor (next + 2) next (next + 1)] e3).
      { eapply pure_cons; [cbn [CaseSpec.run]; rewrite Hc; reflexivity|]. eapply pure_cons; [reflexivity|]. apply pure_one. cbn [CaseSpec.run].
        rewrite set_same, (set_other _ (next + 1)), set_same by lia. unfold give, e3. destruct vs; reflexivity. }
      enough (Hif : exists e4, pure e3 [If (n2 + 3) (next + 2) (Head (next + 3) cur :: ops1 ++ [If (n2 + 1) c1 (Tail n1 cur :: ops2) c2 [ConstBool n2 false] n2]) (n2 + 1) [ConstBool (n2 + 2) false] (n2 + 2)] e4
                /\ agree next e3 e4 /\ e4 (n2 + 3) = Some (VBool (ended exact (each matches (p :: ps) vs)))).
      { destruct Hif as (e4 & P4 & A4 & V4). exists e4. split; [exact (pure_join _ [_; _; _] _ [_] _ Hpre P4)|]. split; [eapply agree_trans; [|exact A3|exact A4]; lia|]. split; [lia|exact V4]. }
      destruct vs as [|v vs].
      + exists (set e3 (n2 + 3) (VBool false)). split; [|split; [apply agree_set; lia|rewrite set_same; reflexivity]].
        apply pure_one. eapply run_if_pure with (b := false); [exact N3|apply pure_one; reflexivity|apply set_same].
      + set (e4 := set e3 (next + 3) v).
        assert (A4 : agree (next + 3) e3 e4) by (apply agree_set; lia).
        destruct (Hg p v (or_introl eq_refl) (or_introl eq_refl) _ _ e4 _ _ _ E1 (set_same _ _ _)) as (e5 & P5 & A5 & C5); [lia|].
        assert (Hcur5 : e5 cur = Some (VList (v :: vs))) by (rewrite A5, A4; auto; lia).
        set (rest := ended exact (each matches ps vs)).
        assert (Hin : exists e6, pure e5 [If (n2 + 1) c1 (Tail n1 cur :: ops2) c2 [ConstBool n2 false] n2] e6 /\ e6 (n2 + 1) = Some (VBool (is_some (matches p v) && rest)) /\ agree (next + 4) e5 e6).
        { destruct (matches p v) as [bs|] eqn:Em; cbn [is_some andb] in *.
          - set (e6 := set e5 n1 (VList vs)).
            destruct (fun a b c => IH vs (n1 + 1) n1 e6 _ _ _ a b c E2) as (e7 & P7 & A7 & C7); auto; [intros; apply Hg; cbn; auto|apply set_same|lia|].
            exists (set e5 (n2 + 1) (VBool rest)). split; [|split; [apply set_same|apply agree_set; lia]]. apply pure_one. eapply run_if_pure with (b := true) (e' := e7); [apply C5| |apply C7].
            eapply pure_cons; [cbn [CaseSpec.run]; rewrite Hcur5; reflexivity|exact P7].
          - exists (set e5 (n2 + 1) (VBool false)). split; [|split; [apply set_same|apply agree_set; lia]]. apply pure_one. eapply run_if_pure with (b := false); [apply C5|apply pure_one; reflexivity|apply set_same]. }
        destruct Hin as (e6 & P6 & V6 & A6).
        exists (set e3 (n2 + 3) (VBool (is_some (matches p v) && rest))). split; [|split; [apply agree_set; lia|rewrite set_same]].
        * apply pure_one. eapply run_if_pure with (b := true) (e' := e6); [exact N3| |exact V6].
          eapply pure_cons; [cbn [CaseSpec.run]; rewrite C3; reflexivity|]. eapply pure_join; eauto.
        * cbn [each]. unfold rest. destruct (matches p v); [|reflexivity]. destruct (each matches ps vs) as [[b' more]|]; reflexivity.
  Qed.

  Section Checks.
    Variable variants : N -> list (N * list ty).
    Hypothesis distinct : distinct_variants variants.
    Lemma variant_once en c ts ts' : In (c, ts) (variants en) -> In (c, ts') (variants en) -> ts = ts'.
    Proof.
      specialize (distinct en). induction (variants en) as [|[c0 t0] l IH]; intros H1 H2; [destruct H1|]. cbn in distinct. apply NoDup_cons_iff in distinct. destruct distinct as [D1 D2].
      assert (Hno : forall t, In (c0, t) l -> False) by (intros t Ht; apply D1; apply (in_map fst) in Ht; exact Ht).
      destruct H1 as [H1|H1], H2 as [H2|H2].
      - congruence.
      - injection H1 as -> ->. destruct (Hno _ H2).
      - injection H2 as -> ->. destruct (Hno _ H1).
      - auto.
    Qed.
    Lemma catch_all_matches p v : catch_all p -> matches p v <> None.
    Proof. induction p as [|x|l|c fs IH|fs|l IH|l IH|l x IH|p x IH|] using pattern_all; cbn; intros H; try contradiction; try discriminate. specialize (IH H). destruct (matches p v); [discriminate|contradiction]. Qed.
    Lemma catch_all_each ps : forall vs, Forall catch_all ps -> (List.length ps <= List.length vs)%nat -> each matches ps vs <> None.
    Proof.
      induction ps as [|p ps IH]; intros [|v vs] H L; cbn in *; try discriminate; try lia. inversion H; subst. specialize (IH vs H3 ltac:(lia)). pose proof (catch_all_matches p v H2).
      destruct (matches p v); [|contradiction]. destruct (each matches ps vs) as [[b m]|]; [discriminate|contradiction].
    Qed.
    Definition ready (logical : bool) (p : pattern) : Prop := supported p /\ (logical = true \/ flat p).
    Lemma good_fields logical ps ts vs more :
      Forall (fun p => forall t v, typed variants v t -> pattern_typed variants p t -> ready logical p -> good (pattern_check logical) p v) ps ->
      Forall (ready logical) ps -> Forall2 (pattern_typed variants) ps ts -> Forall2 (typed variants) vs (ts ++ more) -> Forall2 (good (pattern_check logical)) ps (firstn (List.length ps) vs).
    Proof.
      intros IH R P. revert vs. induction P as [|p t ps ts Hp Hps IHP]; intros vs V; cbn [List.length firstn].
      - constructor.
      - cbn in V. inversion V; subst. apply Forall_inv in R as R0. apply Forall_inv in IH as IH0. apply Forall_inv_tail in R. apply Forall_inv_tail in IH. constructor; eauto.
    Qed.
    Lemma check_works logical p : forall t v, typed variants v t -> pattern_typed variants p t -> ready logical p -> good (pattern_check logical) p v.
    Proof.
      induction p as [|x|l|c fs IH|fs|l IH|l IH|l x IH|p x IH|] using pattern_all; intros t v Tv Tp [Sp Fp] next s e next' ops r E Hs Ls; cbn [pattern_check] in E; cbn [matches].
      - injection E as <- <- <-. eexists. split; [apply pure_one; reflexivity|]. split; [apply agree_set; lia|]. split; [lia|apply set_same].
      - injection E as <- <- <-. eexists. split; [apply pure_one; reflexivity|]. split; [apply agree_set; lia|]. split; [lia|apply set_same].
      - assert (Hr : forall u (b : bool), run e (match u with VBool b => ConstBool next b | VInt z => ConstInt next z | _ => ConstNil next end) = ([], inl (set e next u)) ->
                     run (set e next u) (CmpEq (next + 1) s next) = ([], inl (set (set e next u) (next + 1) (VBool b))) ->
                     works e next [match u with VBool b => ConstBool next b | VInt z => ConstInt next z | _ => ConstNil next end; CmpEq (next + 1) s next] (next + 2) (next + 1) b).
        { intros u b H1 H2. eexists. split; [eapply pure_cons; [exact H1|apply pure_one; exact H2]|]. split; [|split; [lia|apply set_same]].
          intros y Hy. rewrite !set_other by lia. reflexivity. }
        destruct l as [n|z|b|s0|b|]; cbn [literal_check] in E; try discriminate.
        + unfold validate_nat in E. destruct (n <=? 1073741823); [|discriminate]. cbn [CaseModel.bind] in E. injection E as <- <- <-. inversion Tp; subst. inversion Tv; subst.
          apply (Hr (VInt (Z.of_N n))); [reflexivity|]. cbn [CaseSpec.run]. rewrite set_same, set_other, Hs by lia. cbn [literal_value same_scalar]. rewrite Z.eqb_sym. destruct (Z.eqb _ z); reflexivity.
        + unfold validate_int in E. destruct (andb _ _); [|discriminate]. cbn [CaseModel.bind] in E. injection E as <- <- <-. inversion Tp; subst. inversion Tv; subst.
          apply (Hr (VInt z)); [reflexivity|]. cbn [CaseSpec.run]. rewrite set_same, set_other, Hs by lia. cbn [literal_value same_scalar]. rewrite Z.eqb_sym. destruct (Z.eqb z z0); reflexivity.
        + injection E as <- <- <-. inversion Tp; subst. inversion Tv; subst.
          apply (Hr (VBool b)); [reflexivity|]. cbn [CaseSpec.run]. rewrite set_same, set_other, Hs by lia. cbn [literal_value same_scalar]. destruct b, b0; reflexivity.
      - inversion Tp as [| | | | | | | |c0 fs0 more ts en Hin Hfs| | | | |]; subst. inversion Tv as [| | | | | |c' vs ts' en' Hin' Hvs]; subst.
        inversion Sp as [| | | |c1 fs1 Sfs| | | |]; subst.
        assert (Hsame : c' = c -> Forall2 (typed variants) vs (ts ++ more)). { intros ->. rewrite (variant_once _ _ _ _ Hin Hin'). exact Hvs. }
        assert (Hlen : c' = c -> (List.length fs <= List.length vs)%nat).
        { intros Hc. rewrite (Forall2_len _ _ _ (Hsame Hc)), (Forall2_len _ _ _ Hfs), app_length. lia. }
        assert (Hsimple : is_some (if c =? c' then option_map fst (each matches fs vs) else None) = (c' =? c) -> works e next [VariantIs next s c] (next + 1) next (is_some (if c =? c' then option_map fst (each matches fs vs) else None))).
        { intros ->. eexists. split; [apply pure_one; cbn; rewrite Hs; reflexivity|]. split; [apply agree_set; lia|]. split; [lia|apply set_same]. }
        destruct logical; [destruct fs as [|f fs]|].
        + injection E as <- <- <-. apply Hsimple. cbn [each option_map]. rewrite N.eqb_sym. destruct (c' =? c); reflexivity.
        + remember (f :: fs) as l eqn:El. clear El Hsimple f fs. clear Fp.
          assert (Em : Forall (emits (pattern_check true)) l) by (rewrite Forall_forall in *; intros q Hq; apply check_emits; auto).
          destruct (fields_emit _ (fun r i => VariantGet r (next + 1) c i) l Em (next + 2) 0) as (n1 & ops1 & cs & E1 & L1 & Lcs). rewrite E1 in E. cbn [CaseModel.bind] in E.
          destruct (conjunction_emits n1 cs Lcs) as (n2 & ops2 & c2 & E2 & L2 & Lc2). rewrite E2 in E. injection E as <- <- <-.
          set (e1 := set e next (VBool (c' =? c))).
          assert (R1 : run e (VariantIs next s c) = ([], inl e1)) by (cbn; rewrite Hs; reflexivity).
          assert (Hv1 : e1 s = Some (VVariant c' vs)) by (unfold e1; rewrite set_other by lia; exact Hs).
          assert (Hif : run e1 (If (n2 + 1) next (VariantCast (next + 1) s c :: ops1 ++ ops2) c2 [ConstBool n2 false] n2)
                        = ([], inl (set e1 (n2 + 1) (VBool (is_some (if c =? c' then option_map fst (each matches l vs) else None)))))).
          { destruct (N.eqb_spec c' c) as [->|Hne].
            - rewrite N.eqb_refl. specialize (Hsame eq_refl). specialize (Hlen eq_refl).
              set (e2 := set e1 (next + 1) (VVariant c vs)).
              destruct (fields_work _ (fun r i => VariantGet r (next + 1) c i) l Em vs 0 vs (next + 2) (next + 1) (VVariant c vs) e2 n1 ops1 cs) as (e3 & P3 & A3 & F3); auto; try lia.
              + intros e0 r0 j v0 H1 H2. cbn. rewrite H1, N.eqb_refl, H2. reflexivity.
              + eapply good_fields; eauto. rewrite Forall_forall in *. intros q Hq. split; auto.
              + apply set_same.
              + destruct (conjunction_ok cs (bools l vs) n1 e3 F3) as (n3 & ops3 & c3 & e4 & E3 & _ & P4 & _ & C4). rewrite E2 in E3. injection E3 as <- <- <-.
                rewrite bools_each in C4 by exact Hlen.
                eapply run_if_pure with (b := true) (e' := e4); [unfold e1; apply set_same| |].
                * eapply pure_cons; [cbn; rewrite Hv1, N.eqb_refl; reflexivity|]. eapply pure_join; eauto.
                * destruct C4 as [_ ->]. destruct (each matches l vs); reflexivity.
            - rewrite (proj2 (N.eqb_neq c c')) by congruence. eapply run_if_pure with (b := false); [unfold e1; apply set_same|apply pure_one; reflexivity|apply set_same]. }
          eexists. split; [eapply pure_cons; [exact R1|apply pure_one; exact Hif]|]. split; [|split; [lia|apply set_same]]. intros y Hy. unfold e1. rewrite !set_other by lia. reflexivity.
        + injection E as <- <- <-. apply Hsimple. rewrite (N.eqb_sym c). destruct (N.eqb_spec c' c) as [Hc|Hc]; [|reflexivity]. specialize (Hlen Hc).
          destruct Fp as [Fp|Fp]; [discriminate|]. inversion Fp; subst. pose proof (catch_all_each fs vs H0 Hlen). destruct (each matches fs vs); [reflexivity|contradiction].
      - inversion Sp.
      - inversion Tp; subst. inversion Tv; subst. inversion Sp; subst.
        assert (Em : Forall (emits (pattern_check logical)) l) by (rewrite Forall_forall in *; intros q Hq; apply check_emits; auto).
        destruct (fields_emit _ (fun r i => StructGet r s i) l Em next 0) as (n1 & ops1 & cs & E1 & L1 & Lcs). rewrite E1 in E. cbn [CaseModel.bind] in E.
        destruct (conjunction_emits n1 cs Lcs) as (n2 & ops2 & c2 & E2 & L2 & Lc2). rewrite E2 in E. injection E as <- <- <-.
        destruct (fields_work _ (fun r i => StructGet r s i) l Em l0 0 l0 next s (VStruct l0) e n1 ops1 cs) as (e3 & P3 & A3 & F3); auto; try lia.
        { intros e0 r0 j v0 Hw Hn. cbn. rewrite Hw, Hn. reflexivity. }
        { eapply good_fields with (more := []); [exact IH| |exact H0|rewrite app_nil_r; exact H2].
          rewrite Forall_forall in *. intros q Hq. split; auto. destruct Fp as [Fp|Fp]; [auto|right]. inversion Fp as [| | | | |l1 Fl| | |]; subst. rewrite Forall_forall in Fl. auto. }
        destruct (conjunction_ok cs (bools l l0) n1 e3 F3) as (n3 & ops3 & c3 & e4 & E3 & _ & P4 & A4 & C4). rewrite E2 in E3. injection E3 as <- <- <-.
        rewrite bools_each in C4 by (rewrite (Forall2_len _ _ _ H2), (Forall2_len _ _ _ H0); lia).
        exists e4. split; [eapply pure_join; eauto|]. split; [eapply agree_trans; [|exact A3|exact A4]; lia|]. destruct (each matches l l0); exact C4.
      - inversion Tp; subst. inversion Tv; subst. inversion Sp; subst.
        assert (Em : Forall (emits (pattern_check logical)) l) by (rewrite Forall_forall in *; intros q Hq; apply check_emits; auto).
        replace (is_some _) with (ended true (each matches l l0)) by (destruct (each matches l l0) as [[b [|? ?]]|]; reflexivity).
        eapply suffix_works with (cur := s); eauto. intros q u Hq Hu. rewrite Forall_forall in *. eapply IH; eauto. split; auto. destruct Fp as [Fp|Fp]; [auto|right]. inversion Fp as [| | | | | |l1 Fl| |]; subst. rewrite Forall_forall in Fl. auto.
      - inversion Tp; subst. inversion Tv; subst. inversion Sp; subst.
        assert (Em : Forall (emits (pattern_check logical)) l) by (rewrite Forall_forall in *; intros q Hq; apply check_emits; auto).
        replace (is_some _) with (ended false (each matches l l0)) by (destruct (each matches l l0) as [[b m]|]; reflexivity).
        eapply suffix_works with (cur := s); eauto. intros q u Hq Hu. rewrite Forall_forall in *. eapply IH; eauto. split; auto. destruct Fp as [Fp|Fp]; [auto|right]. inversion Fp as [| | | | | | |l1 x1 Fl|]; subst. rewrite Forall_forall in Fl. auto.
      - inversion Tp; subst. inversion Sp; subst. replace (is_some _) with (is_some (matches p v)) by (destruct (matches p v); reflexivity).
        eapply IH; eauto. split; auto. destruct Fp as [Fp|Fp]; [auto|right]. inversion Fp; subst. assumption.
      - injection E as <- <- <-. eexists. split; [apply pure_one; reflexivity|]. split; [apply agree_set; lia|]. split; [lia|apply set_same].
    Qed.
  End Checks.

  (** ** Bindings *)
  (** What the bindings do for a value that matches. *)
  Definition bound (e : env) (next : N) (ops : list op) (next' : N) (sc sc' : scope) (b : list (N * value)) : Prop :=
    exists e' new, pure e ops e' /\ agree next e e' /\ sc' = rev new ++ sc /\ Forall2 (holds e' next') new b.
  Definition binds_well (binds : N -> N -> pattern -> scope -> res (N * list op * scope)) (p : pattern) (v : value) : Prop :=
    forall b next s e sc next' ops sc', matches p v = Some b -> binds next s p sc = Done (next', ops, sc') -> e s = Some v -> s < next -> bound e next ops next' sc sc' b.
  Lemma binding_bound e next s x v sc : e s = Some v -> s < next -> bound e next [] next sc (bind_local x s sc) (binding x v).
  Proof.
    intros H L. exists e. destruct x as [y|]; cbn.
    - exists [(y, s)]. split; [apply pure_nil|]. split; [apply agree_refl|]. split; [reflexivity|]. constructor; [|constructor]. split; auto.
    - exists []. split; [apply pure_nil|]. split; [apply agree_refl|]. split; [reflexivity|]. constructor.
  Qed.
  Lemma bound_join e n ops n1 sc sc1 b e1 new n' ops2 n2 sc2 b2 : pure e ops e1 -> agree n e e1 -> sc1 = rev new ++ sc -> Forall2 (holds e1 n1) new b -> n <= n1 -> n1 <= n' -> n' <= n2 ->
    bound e1 n' ops2 n2 sc1 sc2 b2 -> bound e n (ops ++ ops2) n2 sc sc2 (b ++ b2).
  Proof.
    intros P A -> F L1 L2 L3 (e2 & new2 & P2 & A2 & -> & F2). exists e2, (new ++ new2). split; [eapply pure_join; eauto|]. split; [eapply agree_trans; [|exact A|exact A2]; lia|].
    split; [rewrite rev_app_distr, app_assoc; reflexivity|]. apply Forall2_app; [|exact F2]. eapply holds_keep; [| |exact F]; [lia|]. eapply agree_le; [exact L2|exact A2].
  Qed.
  Lemma fields_bind_works binds get ps : Forall (bind_emits binds) ps -> forall all i vs next w whole e sc next' ops sc' b more,
    (forall e r j v, e w = Some whole -> nth_error all (N.to_nat j) = Some v -> run e (get r j) = ([], inl (set e r v))) ->
    skipn (N.to_nat i) all = vs -> (forall p v, In p ps -> binds_well binds p v) -> e w = Some whole -> w < next ->
    fields_bind binds get next i ps sc = Done (next', ops, sc') -> each matches ps vs = Some (b, more) -> bound e next ops next' sc sc' b.
  Proof.
    induction 1 as [|p ps Hp Hps IH]; intros all i vs next w whole e sc next' ops sc' b more G Hs Hg Hw Lw E M; cbn [fields_bind] in E.
    - injection E as <- <- <-. cbn in M. destruct vs; injection M as <- <-; exists e, []; repeat split; auto using pure_nil, agree_refl.
    - destruct vs as [|v vs]; [discriminate|]. cbn [each] in M. destruct (matches p v) as [b1|] eqn:M1; [|discriminate]. destruct (each matches ps vs) as [[b2 m]|] eqn:M2; [|discriminate]. injection M as <- <-.
      destruct (skipn_next _ _ _ _ Hs) as [Hn Hs'].
      pose proof (G e next i v Hw Hn) as R.
      destruct (Hp (next + 1) next sc) as (n1 & ops1 & sc1 & E1 & L1 & _); [lia|]. rewrite E1 in E. cbn [CaseModel.bind] in E.
      destruct (fields_bind_emit binds get ps Hps n1 (i + 1) sc1) as (n2 & ops2 & sc2 & E2 & L2 & _). rewrite E2 in E. cbn [CaseModel.bind] in E. injection E as <- <- <-.
      destruct (Hg p v (or_introl eq_refl) _ _ _ (set e next v) _ _ _ _ M1 E1 (set_same _ _ _)) as (e1 & new & P1 & A1 & Hsc & F1); [lia|].
      assert (Ae1 : agree next e e1) by (eapply agree_trans; [|apply agree_set|exact A1]; lia).
      change (get next i :: ops1 ++ ops2) with ((get next i :: ops1) ++ ops2).
      eapply bound_join with (n1 := n1) (n' := n1); [eapply pure_cons; eauto|exact Ae1|exact Hsc|exact F1|lia|lia|lia|].
      eapply (IH all (i + 1) vs n1 w whole); eauto.
      + replace (N.to_nat (i + 1)) with (S (N.to_nat i)) by lia. exact Hs'.
      + intros; apply Hg; cbn; auto.
      + rewrite Ae1; auto.
      + lia.
  Qed.
  Lemma list_bind_works binds ps rest : Forall (bind_emits binds) ps -> forall vs next cur e sc next' ops sc' b more,
    (forall p v, In p ps -> binds_well binds p v) -> e cur = Some (VList vs) -> cur < next ->
    list_bind binds next cur ps rest sc = Done (next', ops, sc') -> each matches ps vs = Some (b, more) -> bound e next ops next' sc sc' (b ++ binding rest (VList more)).
  Proof.
    induction 1 as [|p ps Hp Hps IH]; intros vs next cur e sc next' ops sc' b more Hg Hc Lc E M; cbn [list_bind] in E.
    - injection E as <- <- <-. assert (b = [] /\ more = vs) as [-> ->] by (destruct vs; cbn in M; injection M as <- <-; auto). apply binding_bound; auto.
    - destruct vs as [|v vs]; [discriminate|]. cbn [each] in M. destruct (matches p v) as [b1|] eqn:M1; [|discriminate]. destruct (each matches ps vs) as [[b2 m]|] eqn:M2; [|discriminate]. injection M as <- <-.
      destruct (Hp (next + 1) next sc) as (n1 & ops1 & sc1 & E1 & L1 & _); [lia|]. rewrite E1 in E. cbn [CaseModel.bind] in E.
      destruct (list_bind_emit binds ps rest Hps (n1 + 1) n1 sc1) as (n2 & ops2 & sc2 & E2 & L2 & _); [lia|]. rewrite E2 in E. cbn [CaseModel.bind] in E. injection E as <- <- <-.
      destruct (Hg p v (or_introl eq_refl) _ _ _ (set e next v) _ _ _ _ M1 E1 (set_same _ _ _)) as (e1 & new & P1 & A1 & Hsc & F1); [lia|].
      assert (Ae1 : agree next e e1) by (eapply agree_trans; [|apply agree_set|exact A1]; lia).
      assert (R1 : run e (Head next cur) = ([], inl (set e next v))) by (cbn; rewrite Hc; reflexivity).
      assert (R2 : run e1 (Tail n1 cur) = ([], inl (set e1 n1 (VList vs)))) by (cbn; rewrite Ae1, Hc by exact Lc; reflexivity).
      replace (Head next cur :: ops1 ++ Tail n1 cur :: ops2) with ((Head next cur :: ops1 ++ [Tail n1 cur]) ++ ops2) by (cbn; rewrite <- app_assoc; reflexivity).
      rewrite <- app_assoc.
      eapply bound_join with (n1 := n1) (n' := n1 + 1) (e1 := set e1 n1 (VList vs)); [| |exact Hsc| | | | |].
      + eapply pure_cons; [exact R1|]. eapply pure_join; [exact P1|apply pure_one; exact R2].
      + eapply agree_trans with (n' := n1); [|exact Ae1|apply agree_set]; lia.
      + eapply holds_keep; [| |exact F1]; [lia|apply agree_set; lia].
      + lia.
      + lia.
      + lia.
      + eapply IH; eauto; [intros; apply Hg; cbn; auto|apply set_same|lia].
  Qed.
  Lemma pattern_bind_works p : supported p -> forall v, binds_well pattern_bind p v.
  Proof.
    assert (Hall : forall ps, Forall supported ps -> Forall (bind_emits pattern_bind) ps) by (intros ps; apply Forall_impl; apply pattern_bind_emits).
    induction p as [|x|l|c fs IH|fs|l IH|l IH|l x IH|p x IH|] using pattern_all; intros Sp v b next s e sc next' ops sc' M E Hs Ls; cbn [pattern_bind] in E; cbn [matches] in M.
    - injection E as <- <- <-. injection M as <-. exists e, []. repeat split; auto using pure_nil, agree_refl.
    - injection E as <- <- <-. injection M as <-. apply binding_bound; auto.
    - injection E as <- <- <-. destruct (literal_value l); [|discriminate]. destruct (same_scalar _ v); [|discriminate]. injection M as <-. exists e, []. repeat split; auto using pure_nil, agree_refl.
    - destruct v as [| | | | |c' vs| |]; try discriminate. destruct (N.eqb_spec c c') as [<-|]; [|discriminate]. inversion Sp; subst.
      destruct (each matches fs vs) as [[b' more]|] eqn:M'; [|discriminate]. injection M as <-. cbn [fst].
      destruct (fields_bind_emit pattern_bind (fun r i => VariantGet r next c i) fs (Hall _ H0) (next + 1) 0 sc) as (n1 & ops1 & sc1 & E1 & L1 & _). rewrite E1 in E. cbn [CaseModel.bind] in E. injection E as <- <- <-.
      set (e1 := set e next (VVariant c vs)).
      change (VariantCast next s c :: ops1) with ([VariantCast next s c] ++ ops1). change b' with ([] ++ b').
      eapply bound_join with (n1 := next) (n' := next + 1) (e1 := e1) (new := []); [| |reflexivity|constructor| | | |].
      + apply pure_one. cbn. rewrite Hs, N.eqb_refl. reflexivity.
      + apply agree_set. lia.
      + lia.
      + lia.
      + lia.
      + eapply (fields_bind_works _ _ fs (Hall _ H0) vs 0 vs (next + 1) next (VVariant c vs)); eauto; [| |apply set_same|lia].
        * intros e0 r0 j v0 H1 H2. cbn. rewrite H1, N.eqb_refl, H2. reflexivity.
        * intros q u Hq. rewrite Forall_forall in *. apply IH; auto.
    - discriminate.
    - destruct v as [| | | |vs| | |]; try discriminate. inversion Sp; subst.
      destruct (each matches l vs) as [[b' more]|] eqn:M'; [|discriminate]. injection M as <-. cbn [fst].
      eapply (fields_bind_works _ _ l (Hall _ H0) vs 0 vs next s (VStruct vs)); eauto.
      + intros e0 r0 j v0 H1 H2. cbn. rewrite H1, H2. reflexivity.
      + intros q u Hq. rewrite Forall_forall in *. apply IH; auto.
    - destruct v as [| | | | | |vs|]; try discriminate. inversion Sp; subst.
      destruct (each matches l vs) as [[b' [|? ?]]|] eqn:M'; try discriminate. injection M as <-. rewrite <- (app_nil_r b').
      eapply (list_bind_works _ l None (Hall _ H0) vs); eauto. intros q u Hq. rewrite Forall_forall in *. apply IH; auto.
    - destruct v as [| | | | | |vs|]; try discriminate. inversion Sp; subst.
      destruct (each matches l vs) as [[b' more]|] eqn:M'; try discriminate. injection M as <-.
      eapply (list_bind_works _ l x (Hall _ H0) vs); eauto. intros q u Hq. rewrite Forall_forall in *. apply IH; auto.
    - destruct (matches p v) as [b'|] eqn:M'; [|discriminate]. injection M as <-. inversion Sp; subst.
      destruct (binding_bound e next s x v sc Hs Ls) as (e1 & new & P1 & A1 & Hsc & F1). injection P1 as <-.
      destruct (pattern_bind_emits p H0 next s (bind_local x s sc) Ls) as (n1 & ops1 & sc1 & E1 & L1 & _). rewrite E1 in E. injection E as <- <- <-.
      change ops1 with ([] ++ ops1). eapply bound_join with (n1 := next) (n' := next); [apply pure_nil|exact A1|exact Hsc|exact F1|lia|lia|lia|]. eapply IH; eauto.
    - injection E as <- <- <-. injection M as <-. exists e, []. repeat split; auto using pure_nil, agree_refl.
  Qed.

End Code.
