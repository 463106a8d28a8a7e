From Coq Require Import Permutation.
From Verif Require Import InternModel InternSpec InternProofs.
From Verif Require Export UnifySpec SubstProofs.

Lemma NoDup_app_l {A} (l m : list A) : NoDup (l ++ m) -> NoDup l.
Proof.
  induction l as [|x l IH]; intros H; [constructor|]. cbn in H. apply NoDup_cons_iff in H as [H1 H2].
  constructor; [|apply IH; exact H2]. intros Hin. apply H1. apply in_or_app. left. exact Hin.
Qed.

Section Sound.
Variable S : semantics.
Variable Q : sameness S.
Notation val := (valuation S).
Notation mean := (meaning S).
Notation mrow := (meaning_row S).
Notation meff := (meaning_effects S).

Lemma mean_func th ps r e c : mean th (TFunc ps r e c) = s_func S (List.map (mean th) ps) (mean th r) (mrow th e).
Proof. reflexivity. Qed.
Lemma mean_cont th a r e : mean th (TCont a r e) = s_cont S (mean th a) (mean th r) (mrow th e).
Proof. reflexivity. Qed.

Lemma meff_app th es es' base : meff th (es ++ es') base = meff th es (meff th es' base).
Proof. unfold meaning_effects. apply fold_right_app. Qed.

Lemma meff_perm th es es' base : Permutation es es' -> meff th es base = meff th es' base.
Proof.
  induction 1 as [|[a xs] es es' P IH|[a xs] [b ys] es|es1 es2 es3 P1 IH1 P2 IH2]; cbn.
  - reflexivity.
  - unfold meaning_effects in IH. rewrite IH. reflexivity.
  - apply s_comm.
  - congruence.
Qed.

Lemma meff_in th e es base : In e es -> meff th (e :: es) base = meff th es base.
Proof.
  intros H. apply in_split in H as [l1 [l2 ->]].
  rewrite (meff_perm th (e :: l1 ++ e :: l2) (e :: e :: l1 ++ l2)).
  - rewrite (meff_perm th (l1 ++ e :: l2) (e :: l1 ++ l2)) by (symmetry; apply Permutation_middle).
    destruct e as [a xs]. cbn. apply s_idem.
  - constructor. symmetry. apply Permutation_middle.
Qed.

Lemma meff_add_all th es2 : forall es1 base, meff th (add_all es1 es2) base = meff th (es1 ++ es2) base.
Proof.
  induction es2 as [|e es2 IH]; intros es1 base; cbn [add_all]; [rewrite app_nil_r; reflexivity|].
  rewrite IH. destruct (has_effect es1 e) eqn:E.
  - apply has_effect_In in E.
    rewrite (meff_perm th (es1 ++ e :: es2) (e :: es1 ++ es2)) by (symmetry; apply Permutation_middle).
    symmetry. apply meff_in. apply in_or_app. left. exact E.
  - rewrite <- app_assoc. reflexivity.
Qed.

Definition agrees_rows (th : val) (rs : row_subst) : Prop :=
  forall v r, rget rs v = Some r -> snd th v = mrow th r.

Lemma agrees_nil th : agrees_rows th [].
Proof. intros v r H. discriminate H. Qed.

Lemma rapply_meaning th rs r : agrees_rows th rs -> mrow th (rapply rs r) = mrow th r.
Proof.
  intros A. pose proof (rapply_loop rs r) as L. revert L. generalize (rapply rs r) as r'.
  generalize (@nil nat) as vs. generalize (Datatypes.S (List.length rs)) as fuel. intros fuel. revert r.
  induction fuel as [|fuel IH]; intros r vs r' H; [discriminate|]. cbn [rloop] in H.
  destruct (snd r) as [v|] eqn:E; [|injection H as <-; reflexivity].
  destruct (rget rs v) as [q|] eqn:G; [|injection H as <-; reflexivity].
  destruct (existsb (Nat.eqb v) vs); [injection H as <-; reflexivity|].
  rewrite (IH _ _ _ H). unfold meaning_row. cbn [fst snd]. rewrite meff_add_all, meff_app, E.
  rewrite (A v q G). reflexivity.
Qed.

Lemma rapply_empty r : rapply [] r = r.
Proof. unfold rapply. cbn. destruct (snd r); reflexivity. Qed.

Lemma map_mean th f l l' : (forall x y, f x = Some y -> mean th y = mean th x) ->
  Forall2 (fun x y => f x = Some y) l l' -> List.map (mean th) l' = List.map (mean th) l.
Proof. intros H. induction 1 as [|x y l l' E _ IH]; [reflexivity|]. cbn. rewrite IH, (H _ _ E). reflexivity. Qed.

Lemma omap_row_meaning th f r r' : (forall x y, f x = Some y -> mean th y = mean th x) ->
  omap_row f r = Some r' -> mrow th r' = mrow th r.
Proof.
  intros H E. apply omap_row_some in E as [T F]. unfold meaning_row. rewrite T.
  generalize (match snd r with Some v => snd th v | None => s_empty S end) as base.
  induction F as [|[a xs] [b ys] es es' [E G] _ IH]; intros base; [reflexivity|]. cbn in *. subst b.
  unfold meaning_effects in IH. rewrite IH. rewrite (map_mean th f _ _ H G). reflexivity.
Qed.

Lemma tapply_meaning th ts rs : (forall v t, tget ts v = Some t -> fst th v = mean th t) -> agrees_rows th rs ->
  forall fuel t r, tapply fuel ts rs t = Some r -> mean th r = mean th t.
Proof.
  intros A B. induction fuel as [|fuel IH]; intros t r H; [discriminate|].
  destruct t as [p|i|sc i|v|d n args|ps q e c|xs|c xs|a q e|]; cbn [tapply] in H; cbv zeta in H;
    try (injection H as <-; reflexivity).
  - destruct (tget ts v) as [u|] eqn:E; [|injection H as <-; reflexivity].
    rewrite (IH _ _ H). cbn. rewrite (A v u E). reflexivity.
  - apply obind_some in H as [args' [H E]]. injection E as <-. apply otraverse_some in H.
    cbn. rewrite (map_mean th _ _ _ IH H). reflexivity.
  - apply obind_some in H as [ps' [H1 H]]. apply obind_some in H as [q' [H2 H]].
    apply obind_some in H as [e' [H3 E]]. injection E as <-. apply otraverse_some in H1.
    rewrite !mean_func. rewrite (map_mean th _ _ _ IH H1), (IH _ _ H2), (omap_row_meaning th _ _ _ IH H3).
    rewrite rapply_meaning by exact B. reflexivity.
  - apply obind_some in H as [args' [H E]]. injection E as <-. apply otraverse_some in H.
    cbn. rewrite (map_mean th _ _ _ IH H). reflexivity.
  - apply obind_some in H as [c' [H1 H]]. apply obind_some in H as [xs' [H2 E]]. injection E as <-.
    apply otraverse_some in H2. cbn. rewrite (IH _ _ H1), (map_mean th _ _ _ IH H2). reflexivity.
  - apply obind_some in H as [a' [H1 H]]. apply obind_some in H as [q' [H2 H]].
    apply obind_some in H as [e' [H3 E]]. injection E as <-.
    rewrite !mean_cont. rewrite (IH _ _ H1), (IH _ _ H2), (omap_row_meaning th _ _ _ IH H3).
    rewrite rapply_meaning by exact B. reflexivity.
Qed.

(** * Computations *)
Definition fine (new : list event) : Prop := Forall (fun e => ordinary e /\ (e = Coerced -> lenient S Q)) new.

Definition tri {A} (m : U A) (P : A -> val -> Prop) : Prop := forall st a st', m st = (UOk a, st') ->
  exists new, u_log st' = new ++ u_log st /\
    (fine new -> forall th, solves S th st' -> solves S th st /\ P a th).

Lemma tri_ret {A} (a : A) (P : A -> val -> Prop) : (forall th, P a th) -> tri (uret a) P.
Proof. intros H st b st' E. injection E as <- <-. exists []. split; [reflexivity|]. auto. Qed.

Lemma tri_err {A} e (P : A -> val -> Prop) : tri (uerror e) P.
Proof. intros st b st' E. discriminate. Qed.

Lemma tri_weaken {A} (m : U A) (P R : A -> val -> Prop) : tri m P -> (forall a th, P a th -> R a th) -> tri m R.
Proof.
  intros H I st a st' E. destruct (H st a st' E) as [new [L G]]. exists new. split; [exact L|].
  intros F th Hth. destruct (G F th Hth). auto.
Qed.

Lemma tri_bind {A B} (m : U A) (f : A -> U B) P (R : B -> val -> Prop) :
  tri m P -> (forall a, tri (f a) (fun b th => P a th -> R b th)) -> tri (ubind m f) R.
Proof.
  intros H G st b st' E. unfold ubind in E. destruct (m st) as [[a|e|] st1] eqn:M; try discriminate.
  destruct (H st a st1 M) as [n1 [L1 K1]]. destruct (G a st1 b st' E) as [n2 [L2 K2]].
  exists (n2 ++ n1). split; [rewrite L2, L1, app_assoc; reflexivity|].
  intros F th Hth. apply Forall_app in F as [F2 F1]. destruct (K2 F2 th Hth) as [S1 R1].
  destruct (K1 F1 th S1) as [S0 P0]. split; [exact S0 | exact (R1 P0)].
Qed.

Lemma tri_ask {A} (f : ust -> option A) (P : A -> val -> Prop) :
  (forall st a, f st = Some a -> forall th, solves S th st -> P a th) -> tri (ask f) P.
Proof.
  intros H st a st' E. unfold ask in E. destruct (f st) as [x|] eqn:G; [|discriminate]. injection E as <- <-.
  exists []. split; [reflexivity|]. intros _ th Hth. split; [exact Hth | eapply H; eassumption].
Qed.

Lemma tri_log e (P : unit -> val -> Prop) :
  (ordinary e -> (e = Coerced -> lenient S Q) -> forall th, P tt th) -> tri (log e) P.
Proof.
  intros H st a st' E. injection E as <- <-. exists [e]. split; [reflexivity|].
  intros F th Hth. apply Forall_inv in F. destruct F as [F1 F2]. split; [exact Hth | apply H; assumption].
Qed.

Lemma tri_pure {A} (m : U A) (P : A -> val -> Prop) (C : Prop) :
  (forall st a st', m st = (UOk a, st') -> C) -> (C -> tri m P) -> tri m P.
Proof. intros H K st a st' E. exact (K (H st a st' E) st a st' E). Qed.

Lemma tri_bind_row v r (P : unit -> val -> Prop) :
  (forall th, snd th v = mrow th r -> P tt th) -> tri (bind_row v r) P.
Proof.
  intros H st a st' E. injection E as <- <-. cbn [u_log].
  destruct (rget (u_rs st) v) as [q|] eqn:G.
  - exists [Rebound v]. split; [reflexivity|]. intros F. exfalso. apply Forall_inv in F. destruct F as [F _]. exact F.
  - exists []. split; [reflexivity|]. intros _ th [T R]. cbn [u_ts u_rs] in T, R. split.
    + split; [exact T|]. intros w q Gw. apply R. unfold rget.
      rewrite (mget_insert_other Nat.eqb nat_decides); [exact Gw|]. intros ->. congruence.
    + apply H. apply R. apply (mget_insert_same Nat.eqb nat_decides).
Qed.

Lemma tri_fresh (P : nat -> val -> Prop) : (forall n th, P n th) -> tri fresh_row P.
Proof. intros H st a st' E. injection E as <- <-. exists []. split; [reflexivity|]. intros _ th Hth. split; [exact Hth | apply H]. Qed.

Definition same (th : val) (t1 t2 : ty) : Prop := same_ty S Q (mean th t1) (mean th t2).
Definition same_args (th : val) (l1 l2 : list ty) : Prop := Forall2 (same th) l1 l2.

Lemma tri_each2 rec l1 : (forall t1 t2, tri (rec t1 t2) (fun _ th => same th t1 t2)) ->
  forall l2, List.length l1 = List.length l2 -> tri (each2 rec l1 l2) (fun _ th => same_args th l1 l2).
Proof.
  intros H. induction l1 as [|x l1 IH]; intros [|y l2] L; try discriminate.
  - apply tri_ret. intros. constructor.
  - cbn [each2]. eapply tri_bind; [apply H|]. intros [].
    eapply tri_weaken; [apply IH; cbn in L; congruence|]. intros [] th F E. constructor; assumption.
Qed.

Lemma same_args_map th l1 l2 : same_args th l1 l2 -> Forall2 (same_ty S Q) (List.map (mean th) l1) (List.map (mean th) l2).
Proof. induction 1; constructor; assumption. Qed.

Lemma same_args_sym th l1 l2 : same_args th l1 l2 -> same_args th l2 l1.
Proof. induction 1; constructor; [apply same_sym|]; assumption. Qed.

Definition same_eff (th : val) (e1 e2 : effect) : Prop := fst e1 = fst e2 /\ same_args th (snd e1) (snd e2).

Lemma same_effects th es1 es2 b1 b2 : Forall2 (same_eff th) es1 es2 -> same_row S Q b1 b2 ->
  same_row S Q (meff th es1 b1) (meff th es2 b2).
Proof.
  intros F B. induction F as [|[a xs] [b ys] es1 es2 [E G] _ IH]; [exact B|]. cbn in *. subst b.
  apply same_ext; [apply same_args_map; exact G | exact IH].
Qed.

Section WithRec.
Variable rec : ty -> ty -> U unit.
Variable fuel : nat.
Hypothesis rec_ok : forall t1 t2, tri (rec t1 t2) (fun _ th => same th t1 t2).

Lemma match_args_ok e1 e2 : List.length (snd e1) = List.length (snd e2) ->
  tri (match_args rec fuel e1 e2) (fun b th => b = true -> same_args th (snd e1) (snd e2)).
Proof.
  intros L. unfold match_args. eapply tri_bind; [apply (tri_ask _ (fun _ _ => True)); auto|].
  intros [|].
  - eapply tri_bind; [apply (tri_each2 rec (snd e1) rec_ok (snd e2) L)|]. intros []. apply tri_ret. auto.
  - apply tri_ret. discriminate.
Qed.

Lemma first_match_ok f (P : effect -> val -> Prop) l :
  Forall (fun e => tri (f e) (fun b th => b = true -> P e th)) l ->
  tri (first_match f l) (fun b th => b = true -> exists e, In e l /\ P e th).
Proof.
  induction 1 as [|e l H _ IH]; cbn [first_match].
  - apply tri_ret. discriminate.
  - eapply tri_bind; [exact H|]. intros [|].
    + apply tri_ret. intros th K _. exists e. split; [left; reflexivity | apply K; reflexivity].
    + eapply tri_weaken; [exact IH|]. intros b th K _ E. destruct (K E) as [x [Hx Px]].
      exists x. split; [right; exact Hx | exact Px].
Qed.

Lemma check_arity_inv report n cands st a st' : check_arity report n cands st = (UOk a, st') ->
  Forall (fun e => List.length (snd e) = n) cands.
Proof.
  unfold check_arity. destruct (List.find _ cands) as [e|] eqn:E; [discriminate|]. intros _.
  apply Forall_forall. intros e He. pose proof (find_none _ _ E e He) as N. cbn in N.
  apply negb_false_iff, Nat.eqb_eq in N. auto.
Qed.

Lemma check_arity_ok report n cands :
  tri (check_arity report n cands) (fun _ _ => Forall (fun e => List.length (snd e) = n) cands).
Proof.
  intros st a st' E. pose proof (check_arity_inv _ _ _ _ _ _ E) as F. unfold check_arity in E.
  destruct (List.find _ cands); [discriminate|]. injection E as <- <-.
  exists []. split; [reflexivity|]. auto.
Qed.

(** A pure fact established by the first step may be used by the rest. *)
Lemma tri_bind_fact {A B} (m : U A) (f : A -> U B) (C : Prop) (R : B -> val -> Prop) :
  (forall st a st', m st = (UOk a, st') -> C) -> tri m (fun _ _ => True) ->
  (C -> forall a, tri (f a) R) -> tri (ubind m f) R.
Proof.
  intros H M K. intros st b st' E. pose proof E as E'. unfold ubind in E'.
  destruct (m st) as [[a|e|] st1] eqn:G; try discriminate.
  assert (T : tri (ubind m f) R).
  { eapply tri_bind; [exact M|]. intros x. eapply tri_weaken; [apply K; eapply H; exact G|]. auto. }
  exact (T st b st' E).
Qed.

Lemma sets_step_ok es2 r1 r2 e1 :
  tri (sets_step rec fuel es2 r1 r2 e1) (fun _ th => exists e2, In e2 es2 /\ same_eff th e1 e2).
Proof.
  unfold sets_step. set (same0 := filter _ es2).
  assert (I : forall e, In e same0 -> In e es2 /\ fst e1 = fst e).
  { intros e H. unfold same0 in H. apply filter_In in H as [H1 H2]. apply ability_eqb_eq in H2. auto. }
  destruct same0 as [|c cs]; [apply tri_err|].
  eapply (tri_bind_fact _ _ _ _ (check_arity_inv _ _ _)).
  { eapply tri_weaken; [apply check_arity_ok|]. auto. }
  intros L _. eapply tri_bind.
  - apply (first_match_ok _ (fun e2 th => same_args th (snd e1) (snd e2))).
    eapply Forall_impl; [|exact L]. intros e2 E. apply match_args_ok. symmetry. exact E.
  - intros [|]; [|apply tri_err]. apply tri_ret. intros th K. destruct (K eq_refl) as [e2 [H2 G]].
    destruct (I e2 H2) as [H3 H4]. exists e2. split; [exact H3 | split; assumption].
Qed.

Lemma each_ok f (P : effect -> val -> Prop) l : (forall e, tri (f e) (fun _ th => P e th)) ->
  tri (each f l) (fun _ th => Forall (fun e => P e th) l).
Proof.
  intros H. induction l as [|e l IH]; cbn [each]; [apply tri_ret; constructor|].
  eapply tri_bind; [apply H|]. intros []. eapply tri_weaken; [exact IH|]. intros [] th F E. constructor; assumption.
Qed.

(** Matching every entry of an unambiguous list into an equally long one is a bijection. *)
Lemma align (R : effect -> effect -> Prop) es1 : forall es2,
  NoDup (List.map fst es1) -> List.length es1 = List.length es2 ->
  Forall (fun e1 => exists e2, In e2 es2 /\ fst e1 = fst e2 /\ R e1 e2) es1 ->
  exists es2', Permutation es2 es2' /\ Forall2 R es1 es2'.
Proof.
  induction es1 as [|e es1 IH]; intros es2 N L F.
  - destruct es2; [|discriminate]. exists []. split; constructor.
  - inversion F as [|? ? [x [Hx [Ex Rx]]] F']; subst. cbn in N. inversion N as [|? ? N1 N2]; subst.
    apply in_split in Hx as [a [b ->]].
    destruct (IH (a ++ b)) as [es2' [P G]].
    + exact N2.
    + rewrite app_length in *. cbn in L. lia.
    + rewrite Forall_forall in *. intros e1 H1. destruct (F' e1 H1) as [e2 [H2 [E2 R2]]].
      exists e2. split; [|auto]. apply in_app_or in H2. apply in_or_app. destruct H2 as [H2|[->|H2]]; auto.
      exfalso. apply N1. apply in_map_iff. exists e1. split; [congruence | exact H1].
    + exists (x :: es2'). split; [|constructor; assumption].
      transitivity (x :: a ++ b); [symmetry; apply Permutation_middle | constructor; exact P].
Qed.

Lemma unify_sets_ok es1 es2 r1 r2 base : (forall th, same_row S Q (base th) (base th)) ->
  tri (unify_sets rec fuel es1 es2 r1 r2) (fun _ th => same_row S Q (meff th es1 (base th)) (meff th es2 (base th))).
Proof.
  intros B. unfold unify_sets. destruct (Nat.eqb_spec (List.length es1) (List.length es2)) as [L|L]; [|apply tri_err].
  eapply tri_bind; [apply (tri_log _ (fun _ _ => unambiguous es1)); cbn; auto|]. intros [].
  eapply tri_weaken.
  - apply (each_ok _ (fun e1 th => exists e2, In e2 es2 /\ same_eff th e1 e2)). intros e1. apply sets_step_ok.
  - intros [] th F N. destruct (align (same_eff th) es1 es2 N L) as [es2' [P G]].
    + eapply Forall_impl; [|exact F]. intros e1 [e2 [H [E G]]]. exists e2. split; [exact H|]. split; [exact E | split; assumption].
    + rewrite (meff_perm th es2 es2' (base th) P). apply same_effects; [exact G | apply B].
Qed.

Lemma difference_loop_ok l1 l2 : tri (difference_loop rec fuel l1 l2) (fun only th =>
  exists ms, Permutation l2 (ms ++ only) /\ Forall (fun e2 => exists e1, In e1 l1 /\ same_eff th e1 e2) ms).
Proof.
  induction l2 as [|e2 l2 IH]; cbn [difference_loop].
  - apply tri_ret. intros th. exists []. split; constructor.
  - set (same0 := filter _ l1).
    assert (I : forall e, In e same0 -> In e l1 /\ fst e = fst e2).
    { intros e H. unfold same0 in H. apply filter_In in H as [H1 H2]. apply ability_eqb_eq in H2. auto. }
    eapply (tri_bind_fact _ _ _ _ (check_arity_inv _ _ _)).
    { eapply tri_weaken; [apply check_arity_ok|]. auto. }
    intros L _. eapply tri_bind.
    + apply (first_match_ok _ (fun e1 th => same_args th (snd e1) (snd e2))).
      eapply Forall_impl; [|exact L]. intros e1 E. apply match_args_ok. exact E.
    + intros b. eapply tri_bind; [exact IH|]. intros only. apply tri_ret. intros th [ms [P F]] K. destruct b.
      * destruct (K eq_refl) as [e1 [H1 G]]. destruct (I e1 H1) as [H2 H3].
        exists (e2 :: ms). split; [constructor; exact P|]. constructor; [|exact F].
        exists e1. split; [exact H2 | split; assumption].
      * exists ms. split; [|exact F]. transitivity (e2 :: ms ++ only); [constructor; exact P | apply Permutation_middle].
Qed.

(** With [l1] open and [l2] closed. *)
Lemma difference_ok l1 l2 : tri (difference rec fuel l1 l2) (fun only th =>
  List.length l2 - List.length only = List.length l1 ->
  same_row S Q (meff th l1 (mrow th (only, None))) (meff th l2 (s_empty S))).
Proof.
  unfold difference. eapply tri_bind; [apply (tri_log _ (fun _ _ => unambiguous l2)); cbn; auto|]. intros [].
  eapply tri_weaken; [apply difference_loop_ok|]. intros only th [ms [P F]] N L. unfold unambiguous in N.
  pose proof (Permutation_length P) as PL. rewrite app_length in PL.
  destruct (align (fun e2 e1 => same_eff th e1 e2) ms l1) as [l1' [P1 G]].
  - assert (X : NoDup (List.map fst (ms ++ only))).
    { eapply Permutation_NoDup; [apply Permutation_map; exact P | exact N]. }
    rewrite map_app in X. eapply NoDup_app_l. exact X.
  - rewrite PL, Nat.add_sub in L. exact L.
  - eapply Forall_impl; [|exact F]. intros e2 [e1 [H1 [E G]]]. exists e1. split; [exact H1|]. split; [auto | split; auto].
  - rewrite (meff_perm th l2 _ _ P), meff_app. rewrite (meff_perm th l1 l1' _ P1).
    unfold meaning_row. cbn [fst snd]. apply same_effects; [|apply same_row_refl].
    clear - G. induction G; constructor; assumption.
Qed.

Definition unmatched (l : list (effect * bool)) : list effect :=
  List.map fst (filter (fun e : effect * bool => negb (snd e)) l).

Lemma split_match_ok e1 l :
  Forall (fun e : effect * bool => fst e1 = fst (fst e) -> List.length (snd (fst e)) = List.length (snd e1)) l ->
  tri (split_match rec fuel e1 l) (fun m th => match m with
    | None => True
    | Some l' => exists e2, same_eff th e1 e2 /\ Permutation (unmatched l) (e2 :: unmatched l')
    end).
Proof.
  intros L. induction L as [|[e2 b] l L0 _ IH]; cbn [split_match]; [apply tri_ret; auto|].
  fold (split_match rec fuel e1). cbn [fst] in L0.
  destruct (negb (ability_eqb (fst e1) (fst e2)) || b) eqn:C.
  - eapply tri_bind; [exact IH|]. intros [l'|]; cbn [option_map]; apply tri_ret; [|auto].
    intros th [x [Hx P]]. exists x. split; [exact Hx|]. unfold unmatched in *. cbn [filter snd].
    destruct b; cbn [negb List.map fst]; [exact P|].
    transitivity (e2 :: x :: List.map fst (filter (fun e => negb (snd e)) l')); [constructor; exact P | constructor].
  - apply orb_false_iff in C as [C1 C2]. subst b. apply negb_false_iff in C1. apply ability_eqb_eq in C1.
    eapply tri_bind; [apply match_args_ok; symmetry; apply L0; exact C1|]. intros [|].
    + apply tri_ret. intros th K. exists e2. split; [split; [exact C1 | apply K; reflexivity]|].
      unfold unmatched. cbn. constructor; reflexivity.
    + eapply tri_bind; [exact IH|]. intros [l'|]; cbn [option_map]; apply tri_ret; [|auto].
      intros th [x [Hx P]] _. exists x. split; [exact Hx|]. unfold unmatched in *. cbn.
      transitivity (e2 :: x :: List.map fst (filter (fun e => negb (snd e)) l')); [constructor; exact P | constructor].
Qed.

Lemma split_loop_ok l1 : forall l2, tri (split_loop rec fuel l1 l2) (fun p th =>
  exists ms1 ms2, Permutation l1 (ms1 ++ fst p) /\ Permutation (unmatched l2) (ms2 ++ unmatched (snd p)) /\
    Forall2 (same_eff th) ms1 ms2).
Proof.
  induction l1 as [|e1 l1 IH]; intros l2; cbn [split_loop].
  - apply tri_ret. intros th. exists [], []. cbn. repeat split; auto.
  - eapply (tri_bind_fact _ _ _ _ (check_arity_inv _ _ _)).
    { eapply tri_weaken; [apply check_arity_ok|]. auto. }
    intros L _. eapply tri_bind.
    + apply split_match_ok. apply Forall_forall. intros [e2 b] H E. cbn [fst] in *.
      rewrite Forall_forall in L. apply L. apply filter_In. split; [apply in_map_iff; exists (e2, b); auto|].
      apply ability_eqb_eq. auto.
    + intros [l2'|]; (eapply tri_bind; [apply IH|]); intros [o1 l']; apply tri_ret; cbn [fst snd];
        intros th [ms1 [ms2 [P1 [P2 F]]]] K.
      * destruct K as [e2 [H P]]. exists (e1 :: ms1), (e2 :: ms2). split; [constructor; exact P1|].
        split; [|constructor; assumption]. rewrite P. constructor. exact P2.
      * exists ms1, ms2. split; [|split; assumption].
        transitivity (e1 :: ms1 ++ o1); [constructor; exact P1 | apply Permutation_middle].
Qed.

Lemma split_ok l1 l2 : tri (split_effects rec fuel l1 l2) (fun p th => forall base,
  same_row S Q (meff th l1 (meff th (snd p) base)) (meff th l2 (meff th (fst p) base))).
Proof.
  unfold split_effects. eapply tri_bind; [apply split_loop_ok|]. intros [o1 l']. apply tri_ret. cbn [fst snd].
  intros th [ms1 [ms2 [P1 [P2 F]]]] base.
  assert (U : unmatched (List.map (fun e => (e, false)) l2) = l2).
  { unfold unmatched. clear. induction l2 as [|e l IH]; [reflexivity|]. cbn. rewrite IH. reflexivity. }
  rewrite U in P2. fold (unmatched l') in *.
  rewrite (meff_perm th l1 _ _ P1), (meff_perm th l2 _ _ P2). rewrite !meff_app.
  rewrite <- (meff_app th (unmatched l') o1). rewrite (meff_perm th (unmatched l' ++ o1) (o1 ++ unmatched l')) by apply Permutation_app_comm.
  rewrite meff_app. apply same_effects; [exact F | apply same_row_refl].
Qed.

Lemma row_eqb_eq (r1 r2 : row) : row_eqb r1 r2 = true -> r1 = r2.
Proof.
  destruct r1 as [es1 t1], r2 as [es2 t2]. cbn. intros H. apply andb_true_iff in H as [H1 H2].
  assert (t1 = t2).
  { destruct t1, t2; cbn in H2; try discriminate; [|reflexivity]. apply Nat.eqb_eq in H2. congruence. }
  assert (es1 = es2); [|congruence]. revert es2 H1. induction es1 as [|e es1 IH]; intros [|e2 es2] H1; try discriminate; [reflexivity|].
  cbn in H1. apply andb_true_iff in H1 as [A B]. apply effect_eqb_eq in A. subst. f_equal. apply IH. exact B.
Qed.

Lemma is_pure_eq r : is_pure r = true -> r = pure_row.
Proof. destruct r as [[|e es] [t|]]; cbn; try discriminate. reflexivity. Qed.

Lemma tri_occurs v r : tri (occurs_in_row fuel v r) (fun _ _ => True).
Proof. apply tri_ask. auto. Qed.

Lemma unify_rows_ok r1 r2 : tri (unify_rows rec fuel r1 r2) (fun _ th => same_row S Q (mrow th r1) (mrow th r2)).
Proof.
  unfold unify_rows.
  assert (A : forall r, tri (ask (fun st => omap_row (tapply fuel (u_ts st) []) (rapply (u_rs st) r)))
    (fun r' th => mrow th r' = mrow th r)).
  { intros r. apply tri_ask. intros st r' E th [T R]. rewrite (omap_row_meaning th _ _ _ (fun x y => tapply_meaning th (u_ts st) [] T (agrees_nil th) fuel x y) E).
    apply rapply_meaning. exact R. }
  eapply tri_bind; [apply A|]. intros q1. eapply tri_bind; [apply A|]. intros q2.
  apply (tri_weaken _ (fun _ th => same_row S Q (mrow th q1) (mrow th q2))); [|intros [] th H E2 E1; rewrite <- E1, <- E2; exact H].
  destruct (row_eqb q1 q2) eqn:E.
  { apply row_eqb_eq in E. subst. apply tri_ret. intros. apply same_row_refl. }
  destruct (is_pure q1 && is_pure q2) eqn:Pu.
  { apply andb_true_iff in Pu as [P1 P2]. apply is_pure_eq in P1, P2. subst. apply tri_ret. intros. apply same_row_refl. }
  destruct (snd q1) as [v1|] eqn:T1, (snd q2) as [v2|] eqn:T2.
  - destruct (Nat.eqb_spec v1 v2) as [->|N].
    + eapply tri_weaken; [apply (unify_sets_ok _ _ _ _ (fun th => snd th v2)); intros; apply same_row_refl|].
      intros [] th H. unfold meaning_row. rewrite T1, T2. exact H.
    + eapply tri_bind; [apply tri_occurs|]. intros [|]; [apply tri_err|].
      eapply tri_bind; [apply tri_occurs|]. intros [|]; [apply tri_err|].
      eapply tri_bind; [apply split_ok|]. intros [o1 o2]. cbn [fst snd].
      eapply tri_bind; [apply (tri_fresh (fun _ _ => True)); auto|]. intros v3.
      eapply tri_bind; [apply (tri_bind_row _ _ (fun _ th => snd th v1 = mrow th (o2, Some v3))); auto|]. intros [].
      apply tri_bind_row. intros th B2 B1 _ H _ _. unfold meaning_row at 1 2. rewrite T1, T2, B1, B2. apply H.
  - eapply tri_bind; [apply tri_occurs|]. intros [|]; [apply tri_err|].
    eapply tri_bind; [apply difference_ok|]. intros only.
    destruct (Nat.eqb_spec (List.length (fst q2) - List.length only) (List.length (fst q1))) as [L|L]; [|apply tri_err].
    apply tri_bind_row. intros th B H _. unfold meaning_row at 1 2. rewrite T1, T2, B. apply H. exact L.
  - destruct (is_pure q1 && negb match fst q2 with [] => true | _ => false end) eqn:Su.
    + apply andb_true_iff in Su as [P1 _]. apply is_pure_eq in P1. subst.
      apply tri_log. intros _ LN th. apply (proj2 (proj2 (LN eq_refl))).
    + eapply tri_bind; [apply tri_occurs|]. intros [|]; [apply tri_err|].
      eapply tri_bind; [apply difference_ok|]. intros only.
      destruct (Nat.eqb_spec (List.length (fst q1) - List.length only) (List.length (fst q2))) as [L|L]; [|apply tri_err].
      apply tri_bind_row. intros th B H _. apply same_row_sym. unfold meaning_row at 1 2. rewrite T1, T2, B. apply H. exact L.
  - eapply tri_weaken; [apply (unify_sets_ok _ _ _ _ (fun th => s_empty S)); intros; apply same_row_refl|].
    intros [] th H. unfold meaning_row. rewrite T1, T2. exact H.
Qed.
End WithRec.

Lemma bind_type_ok fuel v t st st' : tget (u_ts st) v = None -> bind_type fuel v t st = (UOk tt, st') ->
  u_log st' = u_log st /\ forall th, solves S th st' -> solves S th st /\ fst th v = mean th t.
Proof.
  intros N E. unfold bind_type, ubind, ask in E. destruct (occurs fuel (u_rs st) v t) as [[|]|]; try discriminate.
  injection E as <-. split; [reflexivity|]. intros th [T R]. cbn [u_ts u_rs] in T, R. split.
  - split; [|exact R]. intros w u Gw. apply T. unfold tget.
    rewrite (mget_insert_other Nat.eqb nat_decides); [exact Gw|]. intros ->. congruence.
  - apply T. apply (mget_insert_same Nat.eqb nat_decides).
Qed.

Lemma unify_ok fuel : forall t1 t2, tri (unify fuel t1 t2) (fun _ th => same th t1 t2).
Proof.
  induction fuel as [|fuel IH]; intros t1 t2 st [] st' E; [discriminate|].
  cbn [unify] in E. cbv zeta in E. unfold ubind at 1 in E. unfold ask at 1 in E.
  destruct (tapply fuel (u_ts st) [] t1) as [q1|] eqn:A1; [|discriminate].
  unfold ubind at 1 in E. unfold ask at 1 in E.
  destruct (tapply fuel (u_ts st) [] t2) as [q2|] eqn:A2; [|discriminate].
  assert (M : forall th, solves S th st -> mean th q1 = mean th t1 /\ mean th q2 = mean th t2).
  { intros th [T R]. split; [eapply tapply_meaning; [exact T | apply agrees_nil | exact A1] |
                             eapply tapply_meaning; [exact T | apply agrees_nil | exact A2]]. }
  pose proof (tapply_unbound _ _ _ _ _ A1) as U1. pose proof (tapply_unbound _ _ _ _ _ A2) as U2.
  enough (X : exists new, u_log st' = new ++ u_log st /\
    (fine new -> forall th, solves S th st' -> solves S th st /\ same th q1 q2)).
  { destruct X as [new [L X]]. exists new. split; [exact L|]. intros F th Hth. destruct (X F th Hth) as [H1 H2].
    split; [exact H1|]. destruct (M th H1) as [M1 M2]. unfold same in *. congruence. }
  clear A1 A2 M t1 t2.
  destruct (ty_eqb q1 q2) eqn:Eq.
  { apply ty_eqb_eq in Eq. subst. injection E as <-. exists []. split; [reflexivity|]. intros _ th H.
    split; [exact H | apply same_refl]. }
  assert (KB : forall v t, tget (u_ts st) v = None -> bind_type fuel v t st = (UOk tt, st') ->
    exists new, u_log st' = new ++ u_log st /\
      (fine new -> forall th, solves S th st' -> solves S th st /\ (fst th v = mean th t))).
  { intros v t N B. destruct (bind_type_ok _ _ _ _ _ N B) as [L H]. exists []. split; [exact L|]. auto. }
  assert (KL : forall v, (univars q1 = [v] \/ univars q2 = [v]) -> tget (u_ts st) v = None).
  { intros v [H|H]; [rewrite H in U1; inversion U1; assumption | rewrite H in U2; inversion U2; assumption]. }
  assert (KV1 : forall v, q1 = TUni v -> bind_type fuel v q2 st = (UOk tt, st') ->
    exists new, u_log st' = new ++ u_log st /\
      (fine new -> forall th, solves S th st' -> solves S th st /\ same th q1 q2)).
  { intros v -> B. destruct (KB v q2 (KL v (or_introl eq_refl)) B) as [new [L H]]. exists new. split; [exact L|].
    intros F th Hth. destruct (H F th Hth) as [H1 H2]. split; [exact H1|]. unfold same. cbn [meaning]. rewrite H2. apply same_refl. }
  assert (KV2 : forall v, q2 = TUni v -> bind_type fuel v q1 st = (UOk tt, st') ->
    exists new, u_log st' = new ++ u_log st /\
      (fine new -> forall th, solves S th st' -> solves S th st /\ same th q1 q2)).
  { intros v -> B. destruct (KB v q1 (KL v (or_intror eq_refl)) B) as [new [L H]]. exists new. split; [exact L|].
    intros F th Hth. destruct (H F th Hth) as [H1 H2]. split; [exact H1|]. unfold same. cbn [meaning]. rewrite H2. apply same_refl. }
  assert (KT : forall m, tri m (fun (_ : unit) th => same th q1 q2) -> m st = (UOk tt, st') ->
    exists new, u_log st' = new ++ u_log st /\
      (fine new -> forall th, solves S th st' -> solves S th st /\ same th q1 q2)).
  { intros m T H. exact (T st tt st' H). }
  assert (KN : (q1 = TError \/ q1 = TPrim PNever \/ q2 = TError \/ q2 = TPrim PNever) ->
    tri (log Coerced) (fun (_ : unit) th => same th q1 q2)).
  { intros C. apply tri_log. intros _ LN th. destruct (LN eq_refl) as (L1 & L2 & _). unfold same.
    destruct C as [-> | [-> | [-> | ->]]]; cbn [meaning]; auto; apply same_sym; auto. }
  clear KB KL U1 U2.
  destruct q1 as [p|i|s i|v|d n a1|p1 r1 e1 c1|a1|f1 a1|x1 r1 e1|];
    try (exact (KV1 _ eq_refl E));
    destruct q2 as [p'|i'|s' i'|v'|d' n' a2|p2 r2 e2 c2|a2|f2 a2|x2 r2 e2|];
    try (exact (KV2 _ eq_refl E));
    try (destruct p; exact (KV2 _ eq_refl E));
    try discriminate;
    try (refine (KT _ (KN _) E); tauto);
    try (destruct p; try discriminate; refine (KT _ (KN _) E); tauto);
    try (destruct p'; try discriminate; refine (KT _ (KN _) E); tauto);
    clear KV1 KV2 KN.
  - (* primitives *)
    destruct p, p'; try discriminate; refine (KT _ _ E); apply tri_log; intros _ LN th;
      destruct (LN eq_refl) as (L1 & L2 & _); unfold same; cbn [meaning]; auto; apply same_sym; auto.
  - (* Named *)
    destruct (tydef_eqb d d') eqn:D; [|discriminate].
    destruct (Nat.eqb_spec (List.length a1) (List.length a2)) as [L|L]; [|discriminate].
    apply tydef_eqb_eq in D. subst d'. refine (KT _ _ E).
    eapply tri_weaken; [apply (tri_each2 _ _ IH _ L)|]. intros [] th F. unfold same. cbn [meaning].
    apply same_named. apply same_args_map. exact F.
  - (* Func *)
    destruct (Nat.eqb_spec (List.length p1) (List.length p2)) as [L|L]; [|discriminate]. cbn [negb] in E.
    refine (KT _ _ E). eapply tri_bind; [apply (tri_each2 _ _ IH _ L)|]. intros [].
    eapply tri_bind; [apply IH|]. intros [].
    eapply tri_weaken; [apply (unify_rows_ok _ _ IH)|]. intros [] th H1 H2 H3. unfold same. rewrite !mean_func.
    apply same_func; [apply same_args_map; exact H3 | exact H2 | exact H1].
  - (* Tuple *)
    destruct (Nat.eqb_spec (List.length a1) (List.length a2)) as [L|L]; [|discriminate]. cbn [negb] in E.
    refine (KT _ _ E). eapply tri_weaken; [apply (tri_each2 _ _ IH _ L)|]. intros [] th F. unfold same. cbn [meaning].
    apply same_tuple. apply same_args_map. exact F.
  - (* App *)
    refine (KT _ _ E). eapply tri_bind; [apply IH|]. intros [].
    destruct (Nat.eqb_spec (List.length a1) (List.length a2)) as [L|L]; [|apply tri_err]. cbn [negb].
    eapply tri_weaken; [apply (tri_each2 _ _ IH _ L)|]. intros [] th F H. unfold same. cbn [meaning].
    apply same_app; [exact H | apply same_args_map; exact F].
  - (* Cont *)
    refine (KT _ _ E). eapply tri_bind; [apply IH|]. intros [].
    eapply tri_bind; [apply IH|]. intros [].
    eapply tri_weaken; [apply (unify_rows_ok _ _ IH)|]. intros [] th H1 H2 H3. unfold same. rewrite !mean_cont.
    apply same_cont; assumption.
Qed.
End Sound.

(** * Constraint sets *)
Section Solve.
Variable S : semantics.
Variable Q : sameness S.

Lemma attempt_ok {A} (f : A -> U unit) (P : A -> valuation S -> Prop) l :
  Forall (fun c => tri S Q (f c) (fun _ th => P c th)) l ->
  tri S Q (attempt f l) (fun _ th => fold_right (fun c R => P c th /\ R) True l).
Proof.
  induction 1 as [|c l H _ IH]; intros st [] st' E.
  - injection E as <-. exists []. split; [reflexivity|]. intros _ th Hth. split; [exact Hth | exact I].
  - cbn [attempt] in E. fold (attempt f) in E. destruct (f c st) as [[[]|e|] st1] eqn:M; try discriminate.
    + destruct (H st tt st1 M) as [n1 [L1 K1]]. destruct (IH st1 tt st' E) as [n2 [L2 K2]].
      exists (n2 ++ n1). split; [rewrite L2, L1, app_assoc; reflexivity|].
      intros F th Hth. apply Forall_app in F as [F2 F1]. destruct (K2 F2 th Hth) as [S1 R1].
      destruct (K1 F1 th S1) as [S0 P0]. split; [exact S0 | split; assumption].
    + destruct (attempt f l st1) as [[[]|e'|] st2]; discriminate.
Qed.

Lemma constr_ok fuel : forall c, tri S Q (solve_constr fuel c) (fun _ th => holds S Q th c).
Proof.
  fix IH 1. intros [t1 t2|r1 r2|cs].
  - exact (unify_ok S Q fuel t1 t2).
  - exact (unify_rows_ok S Q (unify fuel) fuel (unify_ok S Q fuel) r1 r2).
  - apply (attempt_ok (solve_constr fuel) (fun c th => holds S Q th c)).
    induction cs as [|c cs IHcs]; constructor; [apply IH | exact IHcs].
Qed.

Lemma solve_ok fuel cs st st' : solve fuel cs st = (UOk tt, st') ->
  exists new, u_log st' = new ++ u_log st /\
    (fine S Q new -> forall th, solves S th st' -> solves S th st /\ holds S Q th (CAnd cs)).
Proof.
  intros E. unfold solve in E.
  assert (F : Forall (fun c => tri S Q (solve_constr fuel c) (fun _ th => holds S Q th c)) cs)
    by (apply Forall_forall; intros c _; exact (constr_ok fuel c)).
  destruct (attempt_ok _ _ cs F _ _ _ E) as [new [L K]].
  exists new. split; [exact L|]. intros G th Hth. exact (K G th Hth).
Qed.
End Solve.
