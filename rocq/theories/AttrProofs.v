(** Proofs about attribute maps. *)
From Verif Require Import AttrModel AttrSpec.
From Coq Require Import Lia.
Open Scope Z_scope.

Lemma fits : forall t v, (exists x, try_from t v = Some x) <-> representable t v.
Proof.
  intros t v. unfold try_from, representable, value_of. split.
  - intros (x & H). destruct ((min_of t <=? v) && (v <=? max_of t)) eqn:E; [|discriminate]. apply Bool.andb_true_iff in E as (E1 & E2). apply Z.leb_le in E1, E2.
    exists (if v <? 0 then v + 2 ^ width t else v).
    destruct t; cbn in *; destruct (Z.ltb_spec v 0); split; try lia; match goal with |- context[(?a <=? ?b)] => destruct (Z.leb_spec a b) | _ => idtac end; lia.
  - intros (bits & B & <-). exists (value_of t bits). unfold value_of.
    replace ((min_of t <=? _) && (_ <=? max_of t)) with true; [reflexivity|]. symmetry. apply Bool.andb_true_iff. rewrite !Z.leb_le.
    destruct t; cbn in *; match goal with |- context[(?a <=? ?b)] => destruct (Z.leb_spec a b) | _ => idtac end; lia.
Qed.
Lemma try_from_same : forall t v x, try_from t v = Some x -> x = v.
Proof. intros t v x. unfold try_from. destruct ((min_of t <=? v) && (v <=? max_of t)); congruence. Qed.

Close Scope Z_scope.
Lemma snoc_split' : forall A (h : list A) x b y a, h ++ [x] = b ++ y :: a -> (a = [] /\ b = h /\ y = x) \/ exists a', a = a' ++ [x] /\ h = b ++ y :: a'.
Proof.
  intros A h x b y a. destruct a as [|z a] using rev_ind; intro H.
  - left. apply app_inj_tail in H as (-> & ->). auto.
  - clear IHa. right. change (b ++ y :: a ++ [z]) with (b ++ (y :: a) ++ [z]) in H. rewrite app_assoc in H. apply app_inj_tail in H as (-> & ->). exists a. auto.
Qed.

(** ** Symbol table *)
Lemma position_nth : forall l t i, position l t = Some i -> nth_error l i = Some t.
Proof.
  induction l as [|x l IH]; intros t i; cbn [position]; [discriminate|]. destruct (String.eqb_spec x t) as [->|N]; [intros [= <-]; reflexivity|].
  destruct (position l t) as [j|] eqn:E; [|discriminate]. intros [= <-]. apply IH, E.
Qed.
Lemma position_app : forall l m t i, position l t = Some i -> position (l ++ m) t = Some i.
Proof.
  induction l as [|x l IH]; intros m t i; cbn [position app]; [discriminate|]. destruct (String.eqb x t); [auto|]. destruct (position l t) as [j|] eqn:E; [|discriminate]. rewrite (IH m t j E). auto.
Qed.
Lemma position_snoc : forall l t, position l t = None -> position (l ++ [t]) t = Some (List.length l).
Proof.
  induction l as [|x l IH]; intros t; cbn [position app List.length]; [rewrite String.eqb_refl; reflexivity|]. destruct (String.eqb x t); [discriminate|]. destruct (position l t) eqn:E; [discriminate|]. rewrite IH by exact E. reflexivity.
Qed.
Lemma position_snoc_other : forall l t u, u <> t -> position (l ++ [t]) u = position l u.
Proof.
  induction l as [|x l IH]; intros t u N; cbn [position app]; [destruct (String.eqb_spec t u); [congruence|reflexivity]|]. destruct (String.eqb x u); [reflexivity|]. rewrite IH by exact N. reflexivity.
Qed.
Lemma position_inj : forall l t u i, position l t = Some i -> position l u = Some i -> t = u.
Proof. intros l t u i H K. apply position_nth in H, K. congruence. Qed.
Lemma intern_spec : forall table t, position (fst (intern table t)) t = Some (snd (intern table t)) /\
  (forall u i, position table u = Some i -> position (fst (intern table t)) u = Some i) /\
  (forall u, u <> t -> position (fst (intern table t)) u = position table u).
Proof.
  intros table t. unfold intern. destruct (position table t) as [i|] eqn:E; cbn [fst snd].
  - split; [exact E|]. split; auto.
  - split; [apply position_snoc, E|]. split; [intros u i H; apply position_app, H|intros u N; apply position_snoc_other, N].
Qed.

(** ** Map *)
Lemma aget_drop : forall m s s', aget (adrop m s) s' = if Nat.eqb s s' then None else aget m s'.
Proof.
  intros m s s'. unfold adrop. induction m as [|[k a] m IH]; cbn [filter aget fst]; [destruct (Nat.eqb s s'); reflexivity|].
  destruct (Nat.eqb_spec s k) as [->|N]; cbn [negb].
  - rewrite IH. destruct (Nat.eqb_spec k s') as [->|N]; [reflexivity|]. destruct (Nat.eqb_spec s' k); [congruence|reflexivity].
  - cbn [aget]. rewrite IH. destruct (Nat.eqb_spec s' k) as [->|]; [|reflexivity]. destruct (Nat.eqb_spec s k); [congruence|reflexivity].
Qed.

Lemma holds_snoc : forall h t a o, holds (h ++ [o]) t a <-> (o = Insert t a \/ (holds h t a /\ o <> Remove t /\ o <> ClearAll /\ forall b, o <> Insert t b)).
Proof.
  intros h t a o. split.
  - intros (b & f & E & K). apply snoc_split' in E as [(-> & -> & ->)|(f' & -> & ->)]; [left; reflexivity|]. right. split; [|apply K, in_or_app; right; left; reflexivity].
    exists b, f'. split; [reflexivity|]. intros x Hx. apply K, in_or_app. left. exact Hx.
  - intros [->|((b & f & -> & K) & N)]; [exists h, []; split; [reflexivity|intros x []]|]. exists b, (f ++ [o]). split; [rewrite <- app_assoc; reflexivity|].
    intros x Hx. apply in_app_or in Hx as [Hx|[<-|[]]]; [apply K, Hx|exact N].
Qed.

(** The map and table together refine the history. *)
Lemma refines : forall h, let '(table, m) := arun h in
  (forall t a, holds h t a <-> exists i, position table t = Some i /\ aget m i = Some a) /\
  (forall i a, aget m i = Some a -> exists t, position table t = Some i) .
Proof.
  intro h. induction h as [|o h IH] using rev_ind.
  - cbn. split; [|discriminate]. intros t a. split; [intros ([|] & f & E & _); discriminate|intros (i & E & _); discriminate].
  - unfold arun in *. rewrite fold_left_app. cbn [fold_left]. destruct (fold_left aexec h ([], [])) as [table m]. destruct IH as (IH1 & IH2). destruct o as [u|u b|u|]; cbn [aexec].
    + destruct (intern_spec table u) as (P1 & P2 & P3). split.
      * intros t a. rewrite holds_snoc, IH1. split.
        -- intros [[= ]|((i & E & G) & _)]. exists i. split; [apply P2, E|exact G].
        -- intros (i & E & G). right. split; [|repeat split; discriminate]. destruct (IH2 i a G) as (t' & Et). rewrite (position_inj _ t t' i E (P2 _ _ Et)). eauto.
      * intros i a G. destruct (IH2 i a G) as (t' & Et). exists t'. apply P2, Et.
    + destruct (intern_spec table u) as (P1 & P2 & P3). destruct (intern table u) as [table' sym]. cbn [fst snd] in *. split.
      * intros t a. rewrite holds_snoc, IH1. cbn [aget]. split.
        -- intros [[= -> ->]|((i & E & G) & _ & _ & N)]; [exists sym; split; [exact P1|rewrite Nat.eqb_refl; reflexivity]|].
           exists i. split; [apply P2, E|]. destruct (Nat.eqb_spec i sym) as [->|Ni].
           ++ exfalso. apply (N b). f_equal. apply (position_inj table' u t sym); [exact P1|apply P2, E].
           ++ rewrite aget_drop. destruct (Nat.eqb_spec sym i); [congruence|exact G].
        -- intros (i & E & G). destruct (Nat.eqb_spec i sym) as [->|Ni].
           ++ injection G as ->. left. f_equal. apply (position_inj table' u t sym); assumption.
           ++ rewrite aget_drop in G. destruct (Nat.eqb_spec sym i) as [|_]; [congruence|]. right. assert (Ntu : t <> u) by congruence.
              split; [exists i; split; [rewrite <- P3; assumption|exact G]|]. repeat split; try discriminate. intros b' [= -> _]. contradiction.
      * intros i a G. cbn [aget] in G. destruct (Nat.eqb_spec i sym) as [->|Ni]; [exists u; exact P1|]. rewrite aget_drop in G. destruct (Nat.eqb sym i); [discriminate|]. destruct (IH2 i a G) as (t' & Et). exists t'. apply P2, Et.
    + destruct (position table u) as [sym|] eqn:Eu; split.
      * intros t a. rewrite holds_snoc, IH1. split.
        -- intros [[= ]|((i & E & G) & N & _ & _)]. exists i. split; [exact E|]. rewrite aget_drop. destruct (Nat.eqb_spec sym i) as [->|_]; [|exact G]. exfalso. apply N. f_equal. apply (position_inj table u t i); assumption.
        -- intros (i & E & G). rewrite aget_drop in G. destruct (Nat.eqb_spec sym i) as [|Ni]; [discriminate|]. right. split; [eauto|]. split; [intros [= ->]; congruence|]. split; discriminate.
      * intros i a G. rewrite aget_drop in G. destruct (Nat.eqb sym i); [discriminate|]. eauto.
      * intros t a. rewrite holds_snoc, IH1. split; [intros [[= ]|((i & E & G) & _)]; eauto|]. intros (i & E & G). right. split; [eauto|]. split; [intros [= ->]; congruence|]. split; discriminate.
      * exact IH2.
    + split; [|discriminate]. intros t a. rewrite holds_snoc. split; [intros [[= ]|(_ & _ & N & _)]; contradiction|intros (i & _ & G); discriminate].
Qed.

Lemma get_by_text : forall h t a, get (fst (arun h)) (snd (arun h)) (ByText t) = Some a <-> holds h t a.
Proof.
  intros h t a. pose proof (refines h) as R. destruct (arun h) as [table m]. destruct R as (R1 & R2). cbn [fst snd]. unfold get. cbn [lookup_symbol]. rewrite R1. destruct (position table t) as [i|].
  - split; [eauto|]. intros (j & [= <-] & G). exact G.
  - split; [discriminate|]. intros (j & E & _). discriminate.
Qed.
Lemma get_by_symbol : forall h t sym, position (fst (arun h)) t = Some sym ->
  get (fst (arun h)) (snd (arun h)) (BySymbol sym) = get (fst (arun h)) (snd (arun h)) (ByText t).
Proof. intros h t sym E. unfold get. cbn [lookup_symbol]. rewrite E. reflexivity. Qed.

Lemma get_integer_exact : forall h t ty,
  let r := get_integer ty (fst (arun h)) (snd (arun h)) (ByText t) in
  (forall v, r = OkInt (Some v) <-> (holds h t (AInt v) /\ representable ty v)) /\
  (forall v ty', r = OutOfRange v ty' <-> (ty' = ty /\ holds h t (AInt v) /\ ~ representable ty v)) /\
  (r = OkInt None <-> forall v, ~ holds h t (AInt v)).
Proof.
  intros h t ty r. subst r. unfold get_integer, get_i128. pose proof (get_by_text h t) as G. destruct (get (fst (arun h)) (snd (arun h)) (ByText t)) as [a|]; cbn [bind].
  - assert (Ha : holds h t a) by (apply G; reflexivity). assert (U : forall b, holds h t b -> b = a) by (intros b Hb; apply G in Hb; congruence).
    destruct (as_i128 a) as [v|] eqn:Ea.
    + destruct a; try discriminate. injection Ea as ->. pose proof (fits ty v) as F. destruct (try_from ty v) as [x|] eqn:Et.
      * pose proof (try_from_same ty v x Et) as ->. assert (Rv : representable ty v) by (apply F; eauto). split; [|split].
        -- intro w. split; [intros [= <-]; auto|]. intros (Hw & _). apply U in Hw. congruence.
        -- intros w ty'. split; [discriminate|]. intros (_ & Hw & N). apply U in Hw. injection Hw as ->. contradiction.
        -- split; [discriminate|]. intro N. exfalso. exact (N v Ha).
      * assert (Rv : ~ representable ty v) by (intro Q; apply F in Q as (x & Q); discriminate). split; [|split].
        -- intro w. split; [discriminate|]. intros (Hw & N). apply U in Hw. injection Hw as ->. contradiction.
        -- intros w ty'. split; [intros [= <- <-]; auto|]. intros (-> & Hw & N). apply U in Hw. injection Hw as ->. reflexivity.
        -- split; [discriminate|]. intro N. exfalso. exact (N v Ha).
    + assert (Na : forall v, ~ holds h t (AInt v)) by (intros v Hv; apply U in Hv; subst a; discriminate). split; [|split].
      * intro w. split; [discriminate|]. intros (Hw & _). exfalso. exact (Na _ Hw).
      * intros w ty'. split; [discriminate|]. intros (_ & Hw & _). exfalso. exact (Na _ Hw).
      * split; [auto|reflexivity].
  - assert (Na : forall v, ~ holds h t (AInt v)) by (intros v Hv; apply G in Hv; discriminate). split; [|split].
    + intro w. split; [discriminate|]. intros (Hw & _). exfalso. exact (Na _ Hw).
    + intros w ty'. split; [discriminate|]. intros (_ & Hw & _). exfalso. exact (Na _ Hw).
    + split; [auto|reflexivity].
Qed.
Lemma round_trip : forall h t ty v, representable ty v -> get_integer ty (fst (arun (h ++ [Insert t (from_int v)]))) (snd (arun (h ++ [Insert t (from_int v)]))) (ByText t) = OkInt (Some v).
Proof. intros h t ty v R. apply get_integer_exact. split; [apply holds_snoc; left; reflexivity|exact R]. Qed.
