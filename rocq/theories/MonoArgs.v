(** Type arguments of references. *)
From Verif Require Export MonoParts.
From Verif Require Import TyProofs SubstProofs.
From Coq Require Import Lia.

Fixpoint zip_rec (ss cs : list ty) (acc : list (option ty)) : option (list (option ty)) :=
  match ss, cs with
  | [], [] => Some acc
  | s :: ss, c :: cs => obind (extract_rec s c acc) (zip_rec ss cs)
  | _, _ => None
  end.
Lemma extract_func sp sr se sc cp cr ce cc acc :
  extract_rec (TFunc sp sr se sc) (TFunc cp cr ce cc) acc = obind (zip_rec sp cp acc) (extract_rec sr cr).
Proof.
  cbn [extract_rec]. f_equal.
Qed.
Lemma extract_named si sn sa ci cn ca acc : extract_rec (TNamed si sn sa) (TNamed ci cn ca) acc = if tydef_eqb si ci then zip_rec sa ca acc else None.
Proof. reflexivity. Qed.
Lemma extract_tuple se ce acc : extract_rec (TTuple se) (TTuple ce) acc = zip_rec se ce acc.
Proof. reflexivity. Qed.

Definition agrees (f : nat -> ty) (acc : list (option ty)) : Prop := forall i t, nth_error acc i = Some (Some t) -> t = f i.
Definition grows (acc acc' : list (option ty)) : Prop := forall i t, nth_error acc i = Some (Some t) -> nth_error acc' i = Some (Some t).
Lemma grows_refl a : grows a a. Proof. red; auto. Qed.
Lemma grows_trans a b c : grows a b -> grows b c -> grows a c. Proof. unfold grows; auto. Qed.
Lemma grows_agrees f a b : grows a b -> agrees f b -> agrees f a. Proof. unfold grows, agrees; auto. Qed.
Lemma set_nth_len {A} (l : list A) i a : i < List.length l -> List.length (set_nth l i a) = List.length l.
Proof. intros H. unfold set_nth. rewrite app_length, firstn_length_le by lia. cbn [List.length]. rewrite skipn_length. lia. Qed.
Lemma set_nth_nth {A} (l : list A) i a j : i < List.length l -> nth_error (set_nth l i a) j = if Nat.eqb i j then Some a else nth_error l j.
Proof.
  revert l j. induction i as [|i IH]; intros [|x l] j H; cbn in H; try lia.
  - destruct j; reflexivity.
  - destruct j; [reflexivity|]. cbn. apply (IH l j). lia.
Qed.
(** What a successful extraction says. *)
Record extracts (fit : (nat -> ty) -> Prop) (sees : nat -> Prop) (acc acc' : list (option ty)) : Prop := {
  ex_len : List.length acc' = List.length acc; ex_grows : grows acc acc'; ex_fit : forall f, agrees f acc' -> fit f;
  ex_seen : forall i, sees i -> exists t, nth_error acc' i = Some (Some t);
  ex_only : forall i t, nth_error acc' i = Some (Some t) -> nth_error acc i = Some (Some t) \/ sees i }.
Definition sees_any (ts : list ty) (i : nat) : Prop := exists t, In t ts /\ seen i t.
Lemma zip_sound ss : Forall (fun s => forall c acc acc', extract_rec s c acc = Some acc' -> extracts (fun f => fits f s c) (fun i => seen i s) acc acc') ss ->
  forall cs acc acc', zip_rec ss cs acc = Some acc' -> extracts (fun f => Forall2 (fits f) ss cs) (sees_any ss) acc acc'.
Proof.
  induction 1 as [|s ss H F IH]; intros [|c cs] acc acc' E; cbn in E; try discriminate.
  - injection E as <-. split; auto using grows_refl. intros i [t [[] _]].
  - destruct (extract_rec s c acc) as [acc1|] eqn:E1; [|discriminate]. cbn in E. apply H in E1 as [L1 G1 F1 S1 O1]. apply IH in E as [L2 G2 F2 S2 O2]. split.
    + congruence.
    + eauto using grows_trans.
    + intros f A. constructor; auto. apply F1. eauto using grows_agrees.
    + intros i [t [[<-|I] V]].
      * destruct (S1 i V) as [u U]. exists u. apply G2; auto.
      * apply S2. exists t; auto.
    + intros i t N. apply O2 in N as [N|[u [I V]]]; [apply O1 in N as [N|V]; auto|]; right; [exists s|exists u]; cbn; auto.
Qed.
Lemma same_sound s c acc acc' : (forall f, fits f s s) -> (forall i, ~ seen i s) -> (if ty_eqb s c then Some acc else None) = Some acc' ->
  extracts (fun f => fits f s c) (fun i => seen i s) acc acc'.
Proof.
  intros R N E. destruct (ty_eqb s c) eqn:Q; [|discriminate]. injection E as <-. apply ty_eqb_eq in Q as <-. split; auto using grows_refl. intros i V. destruct (N i V).
Qed.
Lemma extract_sound s : forall c acc acc', extract_rec s c acc = Some acc' -> extracts (fun f => fits f s c) (fun i => seen i s) acc acc'.
Proof.
  induction s as [p|i|sc i|i|d n args IH|ps r e k IHp IHr IHe|xs IH|h xs IHc IH|a r e IHa IHr IHe|] using ty_induct; intros c acc acc' E;
    try (apply same_sound; [intros; constructor|intros ? V; inversion V|destruct c; exact E]; fail).
  - cbn in E. destruct (nth_error acc i) as [[t|]|] eqn:N; [destruct (ty_eqb t c) eqn:Q; [|discriminate]| |discriminate]; injection E as <-.
    + apply ty_eqb_eq in Q as <-. split; auto using grows_refl.
      * intros f A. rewrite (A _ _ N). constructor.
      * intros j V. inversion V; subst. eauto.
    + assert (L : i < List.length acc) by (apply nth_error_Some; congruence). split.
      * apply set_nth_len; auto.
      * intros j t M. rewrite set_nth_nth by auto. destruct (Nat.eqb_spec i j); [subst; congruence|auto].
      * intros f A. rewrite (A i c) by (rewrite set_nth_nth, Nat.eqb_refl by auto; auto). constructor.
      * intros j V. inversion V; subst. exists c. rewrite set_nth_nth, Nat.eqb_refl by auto; auto.
      * intros j t. rewrite set_nth_nth by auto. destruct (Nat.eqb_spec i j) as [->|]; [intros _; right; constructor|auto].
  - destruct c as [ | | | |d' n' args'| | | | | ]; try (cbn in E; discriminate). rewrite extract_named in E. destruct (tydef_eqb d d') eqn:Q; [|discriminate].
    apply tydef_eqb_eq in Q as <-. destruct (zip_sound _ IH _ _ _ E) as [L G F S O]. split; auto.
    + intros f A. constructor; auto.
    + intros i V. inversion V; subst. apply S. exists t; auto.
    + intros i t M. apply O in M as [M|[u [I V]]]; auto. right. econstructor; eauto.
  - destruct c as [ | | | | |ps' r' e' k'| | | | ]; try (cbn in E; discriminate). rewrite extract_func in E.
    destruct (zip_rec ps ps' acc) as [acc1|] eqn:E1; [|discriminate]. cbn in E. destruct (zip_sound _ IHp _ _ _ E1) as [L1 G1 F1 S1 O1].
    destruct (IHr _ _ _ E) as [L2 G2 F2 S2 O2]. split.
    + congruence.
    + eauto using grows_trans.
    + intros f A. constructor; auto. apply F1. eauto using grows_agrees.
    + intros i V. inversion V; subst; auto. destruct (S1 i) as [u U]; [exists t; auto|]. eauto.
    + intros i t M. apply O2 in M as [M|V]; [apply O1 in M as [M|[u [I V]]]; auto|]; right; [econstructor; eauto|apply seen_result; auto].
  - destruct c as [ | | | | | |xs'| | | ]; try (cbn in E; discriminate). rewrite extract_tuple in E. destruct (zip_sound _ IH _ _ _ E) as [L G F S O]. split; auto.
    + intros f A. constructor; auto.
    + intros i V. inversion V; subst. apply S. exists t; auto.
    + intros i t M. apply O in M as [M|[u [I V]]]; auto. right. econstructor; eauto.
Qed.

(** Instances are extracted. *)
Lemma zip_complete f ss : Forall (fun s => forall c acc, fits f s c -> agrees f acc -> (forall i, seen i s -> i < List.length acc) ->
    exists acc', extract_rec s c acc = Some acc' /\ agrees f acc') ss ->
  forall cs acc, Forall2 (fits f) ss cs -> agrees f acc -> (forall i, sees_any ss i -> i < List.length acc) -> exists acc', zip_rec ss cs acc = Some acc' /\ agrees f acc'.
Proof.
  induction 1 as [|s ss H F IH]; intros cs acc FF A L; inversion FF; subst; cbn; [eauto|].
  destruct (H y acc) as [acc1 [E1 A1]]; auto.
  { intros i V. apply L. exists s. cbn; auto. }
  rewrite E1. cbn. apply IH; auto. intros i [t [I V]]. apply extract_sound in E1 as [L1 _ _ _ _]. rewrite L1. apply L. exists t. cbn; auto.
Qed.
Lemma extract_complete f s : forall c acc, fits f s c -> agrees f acc -> (forall i, seen i s -> i < List.length acc) ->
  exists acc', extract_rec s c acc = Some acc' /\ agrees f acc'.
Proof.
  induction s as [p|i|sc i|i|d n args IH|ps r e k IHp IHr IHe|xs IH|h xs IHc IH|a r e IHa IHr IHe|] using ty_induct; intros c acc FF A L; inversion FF; subst;
    try (exists acc; split; auto; cbn [extract_rec]; rewrite ty_eqb_refl; auto; fail).
  - cbn [extract_rec]. assert (B : i < List.length acc) by (apply L; constructor). destruct (nth_error acc i) as [[t|]|] eqn:N.
    + apply A in N as ->. rewrite ty_eqb_refl. eauto.
    + eexists. split; eauto. intros j t. rewrite set_nth_nth by auto. destruct (Nat.eqb_spec i j) as [->|]; [intros [= <-]; auto|apply A].
    + apply nth_error_None in N. lia.
  - rewrite extract_named. rewrite (proj2 (tydef_eqb_eq d d) eq_refl). eapply zip_complete; eauto. intros i [t [I V]]. apply L. econstructor; eauto.
  - rewrite extract_func. destruct (zip_complete f ps IHp ps' acc) as [acc1 [E1 A1]]; auto.
    { intros i [t [I V]]. apply L. econstructor; eauto. }
    rewrite E1. cbn. apply IHr; auto. intros i V. destruct (zip_sound ps (proj2 (Forall_forall _ _) (fun s _ => extract_sound s)) _ _ _ E1) as [L1 _ _ _ _]. rewrite L1. apply L, seen_result; auto.
  - rewrite extract_tuple. eapply zip_complete; eauto. intros i [t [I V]]. apply L. econstructor; eauto.
Qed.
Lemma otraverse_id {A} (l : list (option A)) r : otraverse (fun o => o) l = Some r <-> l = List.map Some r.
Proof.
  revert r. induction l as [|[a|] l IH]; intros r; cbn; split; intros E.
  - injection E as <-. reflexivity.
  - destruct r; [reflexivity|discriminate].
  - destruct (otraverse (fun o => o) l) as [r'|] eqn:Q; [|discriminate]. injection E as <-. cbn. f_equal. apply IH; auto.
  - destruct r as [|b r]; [discriminate|]. injection E as -> E. rewrite (proj2 (IH r) E). reflexivity.
  - discriminate.
  - destruct r; discriminate.
Qed.
Lemma extract_iff sc c args : extract_type_args sc c = Some args <-> arguments sc c args.
Proof.
  unfold extract_type_args, arguments. destruct (sc_params sc) as [|n] eqn:P; [split; [discriminate|intros [H _]; congruence]|].
  remember (S n) as m. split.
  - intros E. destruct (extract_rec (sc_body sc) c (repeat None m)) as [acc|] eqn:Q; [|discriminate]. cbn in E. apply otraverse_id in E.
    destruct (extract_sound _ _ _ _ Q) as [L G F S O]. rewrite repeat_length in L.
    assert (N : forall i, nth_error acc i = option_map Some (nth_error args i)) by (intros i; rewrite E, nth_error_map; auto).
    assert (LA : List.length args = m) by (rewrite <- L, E, map_length; auto). repeat split; auto; try lia.
    + apply F. intros i t M. rewrite N in M. destruct (nth_error args i) eqn:X; [|discriminate]. injection M as ->. symmetry. apply nth_error_nth; auto.
    + intros H. destruct (nth_error args i) as [t|] eqn:X; [|apply nth_error_None in X; lia]. destruct (O i t) as [Y|Y]; auto.
      * rewrite N, X. auto.
      * apply nth_error_In, repeat_spec in Y. discriminate.
    + intros V. destruct (S i V) as [t T]. rewrite N in T. rewrite <- LA. apply nth_error_Some. destruct (nth_error args i); discriminate.
  - intros [_ [LA [F V]]]. destruct (extract_complete _ _ c (repeat None m) F) as [acc [Q A]].
    + intros i t N. apply nth_error_In, repeat_spec in N. discriminate.
    + intros i S. rewrite repeat_length. apply V; auto.
    + rewrite Q. cbn. apply otraverse_id. apply list_eq_nth_error. intros i. destruct (extract_sound _ _ _ _ Q) as [L G _ S O]. rewrite repeat_length in L.
      rewrite nth_error_map. destruct (Nat.lt_ge_cases i m) as [H|H].
      * destruct (S i) as [t T]; [apply V; auto|]. rewrite T. apply A in T as ->. rewrite (nth_error_nth' args TError) by lia. auto.
      * rewrite (proj2 (nth_error_None acc i)), (proj2 (nth_error_None args i)) by lia. auto.
Qed.

(** ** Concrete types *)
Lemma concrete_ground t : is_concrete t = true <-> ground t.
Proof.
  assert (L : forall ts, Forall (fun t => is_concrete t = true <-> ground t) ts -> forallb is_concrete ts = true <-> Forall ground ts).
  { intros ts F. rewrite forallb_forall. rewrite !Forall_forall in *. split; intros H x I; apply F; auto. }
  assert (R : forall e : row, Forall (fun e => Forall (fun t => is_concrete t = true <-> ground t) (snd e)) (fst e) ->
    (match snd e with None => true | Some _ => false end = true /\ forallb (fun e : effect => match e with (_, xs) => forallb is_concrete xs end) (fst e) = true <->
     snd e = None /\ Forall (fun e : effect => Forall ground (snd e)) (fst e))).
  { intros [es tl] F. cbn [fst snd] in *. rewrite forallb_forall. rewrite !Forall_forall in *. split; intros [A B]; (split; [destruct tl; congruence|]).
    - intros [a xs] I. apply (L _ (F _ I)). apply (B _ I).
    - intros [a xs] I. apply (L _ (F _ I)). apply (B _ I). }
  induction t as [p|i|sc i|i|d n args IH|ps r e k IHp IHr IHe|xs IH|h xs IHc IH|a r e IHa IHr IHe|] using ty_induct; cbn [is_concrete];
    try (split; [discriminate|intros G; inversion G]; fail).
  - split; [constructor|auto].
  - rewrite L by auto. split; [constructor; auto|intros G; inversion G; auto].
  - rewrite !andb_true_iff. pose proof (R e IHe) as Q. rewrite Q. rewrite L, IHr by auto. destruct e as [es tl]. cbn [fst snd]. split.
    + intros [[A B] [-> C]]. constructor; auto.
    + intros G; inversion G; subst; auto.
  - rewrite L by auto. split; [constructor; auto|intros G; inversion G; auto].
  - rewrite !andb_true_iff. pose proof (R e IHe) as Q. rewrite Q. rewrite IHa, IHr by auto. destruct e as [es tl]. cbn [fst snd]. split.
    + intros [[A B] [-> C]]. constructor; auto.
    + intros G; inversion G; subst; auto.
Qed.
Lemma ground_plug g t : ground t -> plug g t = t.
Proof.
  assert (L : forall ts, Forall (fun t => ground t -> plug g t = t) ts -> Forall ground ts -> List.map (plug g) ts = ts).
  { intros ts F G. apply map_same. rewrite Forall_forall in *. auto. }
  assert (R : forall es : list effect, Forall (fun e : effect => Forall (fun t => ground t -> plug g t = t) (snd e)) es ->
    Forall (fun e : effect => Forall ground (snd e)) es -> List.map (fun e : effect => match e with (a, xs) => (a, List.map (plug g) xs) end) es = es).
  { intros es F G. apply map_same. rewrite Forall_forall in *. intros [a xs] I. f_equal. apply L; [apply (F _ I)|apply (G _ I)]. }
  induction t as [p|i|sc i|i|d n args IH|ps r e k IHp IHr IHe|xs IH|h xs IHc IH|a r e IHa IHr IHe|] using ty_induct; intros G; cbn [plug]; auto; inversion G; subst.
  - rewrite L; auto.
  - rewrite L, IHr by auto. cbn [fst snd] in *. rewrite R by auto. reflexivity.
  - rewrite L; auto.
  - rewrite IHa, IHr by auto. cbn [fst snd] in *. rewrite R by auto. reflexivity.
Qed.
Lemma first_order_list ts : fold_right (fun t P => first_order t /\ P) True ts <-> Forall first_order ts.
Proof. induction ts; cbn; split; intros H; auto; [destruct H; constructor; [|apply IHts]; auto|inversion H; split; [|apply IHts]; auto]. Qed.
(** Substitution does not change which arguments a use has. *)
Lemma fits_stable f g s : first_order s -> (forall i, seen i s -> ground (f i)) -> forall c, fits f s c -> fits f s (plug g c).
Proof.
  assert (L : forall ss, Forall (fun s => first_order s -> (forall i, seen i s -> ground (f i)) -> forall c, fits f s c -> fits f s (plug g c)) ss ->
    Forall first_order ss -> (forall i, sees_any ss i -> ground (f i)) -> forall cs, Forall2 (fits f) ss cs -> Forall2 (fits f) ss (List.map (plug g) cs)).
  { induction 1 as [|s0 ss H F IH]; intros O G cs FF; inversion FF; subst; cbn; constructor; inversion O; subst.
    - apply H; auto. intros i V. apply G. exists s0. cbn; auto.
    - apply IH; auto. intros i [t [I V]]. apply G. exists t. cbn; auto. }
  induction s as [p|i|sc i|i|d n args IH|ps r e k IHp IHr IHe|xs IH|h xs IHc IH|a r e IHa IHr IHe|] using ty_induct; intros O G c FF; inversion FF; subst; cbn [plug];
    try (constructor; fail); try (destruct O; fail).
  - rewrite ground_plug by (apply G; constructor). constructor.
  - cbn [first_order] in O. apply first_order_list in O. constructor. apply L; auto. intros i [t [I V]]. apply G. econstructor; eauto.
  - cbn [first_order] in O. destruct O as [O1 O2]. apply first_order_list in O1. constructor; [apply L; auto|apply IHr; auto].
    + intros i [t [I V]]. apply G. econstructor; eauto.
    + intros i V. apply G. apply seen_result. auto.
  - cbn [first_order] in O. apply first_order_list in O. constructor. apply L; auto. intros i [t [I V]]. apply G. econstructor; eauto.
Qed.
(** The instance of a scheme fits it. *)
Lemma fits_instance f s : first_order s -> fits f s (plug f s).
Proof.
  assert (L : forall ss, Forall (fun s => first_order s -> fits f s (plug f s)) ss -> Forall first_order ss -> Forall2 (fits f) ss (List.map (plug f) ss)).
  { induction 1; intros O; cbn; constructor; inversion O; auto. }
  induction s as [p|i|sc i|i|d n args IH|ps r e k IHp IHr IHe|xs IH|h xs IHc IH|a r e IHa IHr IHe|] using ty_induct; intros O; cbn [plug]; try (constructor; fail); try (destruct O; fail);
    cbn [first_order] in O; try destruct O as [O O2]; apply first_order_list in O; constructor; auto.
Qed.
