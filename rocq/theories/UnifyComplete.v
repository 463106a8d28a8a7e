(** Unification of first-order types: it ends, it fails only when there is no solution, and
    the bindings it leaves have exactly the solutions of the equation. *)
From Verif Require Export UnifyMono UnifySpec.
From Verif Require Import InternModel InternProofs EffectRowProofs TyProofs MangleProofs UnifySound.

Lemma tapply_mono ts rs n m t : n <= m -> ole (tapply n ts rs t) (tapply m ts rs t).
Proof. induction 1 as [|m _ IH]; [apply ole_refl|]. intros a H. apply tapply_step, IH, H. Qed.

Definition resolves (ts : type_subst) (t r : ty) : Prop := exists n, tapply n ts [] t = Some r.

Lemma resolves_fun ts t r r' : resolves ts t r -> resolves ts t r' -> r = r'.
Proof.
  intros [n H] [m K]. apply (tapply_mono _ _ _ (Nat.max n m)) in H; [|apply Nat.le_max_l].
  apply (tapply_mono _ _ _ (Nat.max n m)) in K; [|apply Nat.le_max_r]. congruence.
Qed.

Lemma rapply_none r : rapply [] r = r.
Proof. destruct r as [es [v|]]; reflexivity. Qed.

(** ** Resolving, and substituting the solution *)

Lemma Forall2_map_eq {A B C} (f : A -> C) (g : B -> C) l l' :
  Forall2 (fun x y => f x = g y) l l' -> List.map f l = List.map g l'.
Proof. induction 1; cbn; congruence. Qed.

Lemma otraverse_map {A B} (f : A -> option B) (g : A -> B) l :
  Forall (fun x => f x = Some (g x)) l -> otraverse f l = Some (List.map g l).
Proof. induction 1 as [|x l H _ IH]; [reflexivity|]. cbn. fold (otraverse f). rewrite H. cbn. rewrite IH. reflexivity. Qed.

Definition fill_eff (f : nat -> ty) (e : effect) : effect := (fst e, List.map (fill f) (snd e)).

Lemma fill_func f ps q e c : fill f (TFunc ps q e c) = TFunc (List.map (fill f) ps) (fill f q) (List.map (fill_eff f) (fst e), snd e) c.
Proof.
  refine (f_equal (fun es => TFunc (List.map (fill f) ps) (fill f q) (es, snd e) c) (map_ext _ (fill_eff f) _ (fst e))).
  intros [a xs]. reflexivity.
Qed.
Lemma fill_cont f a q e : fill f (TCont a q e) = TCont (fill f a) (fill f q) (List.map (fill_eff f) (fst e), snd e).
Proof.
  refine (f_equal (fun es => TCont (fill f a) (fill f q) (es, snd e)) (map_ext _ (fill_eff f) _ (fst e))).
  intros [b xs]. reflexivity.
Qed.

Lemma omap_row_map (f : ty -> option ty) (g : nat -> ty) r :
  Forall (fun e : effect => Forall (fun x => f x = Some (fill g x)) (snd e)) (fst r) ->
  omap_row f r = Some (List.map (fill_eff g) (fst r), snd r).
Proof.
  intros H. unfold omap_row. rewrite (otraverse_map _ (fill_eff g)); [destruct r; reflexivity|].
  revert H. apply Forall_impl. intros e H. rewrite (otraverse_map _ (fill g)) by exact H. reflexivity.
Qed.

Lemma otraverse_fill (f f' : ty -> option ty) (g : nat -> ty) l l' :
  (forall x y, f x = Some y -> f' x = Some (fill g y)) ->
  otraverse f l = Some l' -> otraverse f' l = Some (List.map (fill g) l').
Proof.
  intros K H. apply otraverse_some in H. apply otraverse_some.
  induction H as [|x y l l' E _ IH]; constructor; [apply K, E | exact IH].
Qed.

Lemma omap_row_fill (f f' : ty -> option ty) (g : nat -> ty) r r' :
  (forall x y, f x = Some y -> f' x = Some (fill g y)) ->
  omap_row f r = Some r' -> omap_row f' r = Some (List.map (fill_eff g) (fst r'), snd r').
Proof.
  intros K H. apply (proj1 (omap_row_some _ _ _)) in H as [T H]. apply omap_row_some. cbn [fst snd].
  split; [exact T|]. induction H as [|x y l l' [A E] _ IH]; constructor; [|exact IH].
  cbn [fill_eff fst snd]. split; [exact A|].
  apply otraverse_some, (otraverse_fill f f' g); [exact K|]. apply otraverse_some. exact E.
Qed.

(** A new binding of an unbound variable to a resolved type. *)
Definition point (v : nat) (u : ty) : nat -> ty := fun w => if Nat.eqb w v then u else TUni w.

Lemma tget_insert_same ts v u : tget (minsert Nat.eqb ts v u) v = Some u.
Proof. apply (mget_insert_same Nat.eqb nat_decides). Qed.
Lemma tget_insert_other ts v u w : v <> w -> tget (minsert Nat.eqb ts v u) w = tget ts w.
Proof. apply (mget_insert_other Nat.eqb nat_decides). Qed.

Lemma bind_resolves ts v u h : tget ts v = None -> tapply h (minsert Nat.eqb ts v u) [] u = Some u ->
  forall n t r, tapply n ts [] t = Some r ->
    tapply (n + h) (minsert Nat.eqb ts v u) [] t = Some (fill (point v u) r).
Proof.
  intros Hv Hu. set (ts' := minsert Nat.eqb ts v u).
  induction n as [|n IH]; intros t r E; [discriminate|].
  destruct t as [p|i|sc i|w|d nm args|ps q e c|xs|c xs|a q e|]; cbn [tapply Nat.add] in E |- *; cbv zeta in E |- *.
  - injection E as <-. reflexivity.
  - injection E as <-. reflexivity.
  - injection E as <-. reflexivity.
  - destruct (Nat.eqb_spec w v) as [->|N].
    + rewrite Hv in E. injection E as <-. cbn [fill]. unfold point. rewrite Nat.eqb_refl.
      unfold ts' at 1. rewrite tget_insert_same.
      apply (tapply_mono _ _ h); [lia|]. exact Hu.
    + unfold ts' at 1. rewrite tget_insert_other by congruence.
      destruct (tget ts w) as [t'|]; [apply IH, E|]. injection E as <-. cbn [fill]. unfold point.
      rewrite (proj2 (Nat.eqb_neq w v) N). reflexivity.
  - apply obind_some in E as [l' [E1 E]]. injection E as <-.
    rewrite (otraverse_fill _ (tapply (n + h) ts' []) (point v u) _ _ IH E1). reflexivity.
  - apply obind_some in E as [l' [E1 E]]. apply obind_some in E as [q' [E2 E]]. apply obind_some in E as [e' [E3 E]].
    injection E as <-. rewrite fill_func.
    rewrite (otraverse_fill _ (tapply (n + h) ts' []) (point v u) _ _ IH E1). cbn [obind].
    rewrite (IH _ _ E2). cbn [obind].
    rewrite (omap_row_fill _ (tapply (n + h) ts' []) (point v u) _ _ IH E3). reflexivity.
  - apply obind_some in E as [l' [E1 E]]. injection E as <-.
    rewrite (otraverse_fill _ (tapply (n + h) ts' []) (point v u) _ _ IH E1). reflexivity.
  - apply obind_some in E as [c' [E2 E]]. apply obind_some in E as [l' [E1 E]]. injection E as <-.
    rewrite (IH _ _ E2). cbn [obind].
    rewrite (otraverse_fill _ (tapply (n + h) ts' []) (point v u) _ _ IH E1). reflexivity.
  - apply obind_some in E as [a' [E1 E]]. apply obind_some in E as [q' [E2 E]]. apply obind_some in E as [e' [E3 E]].
    injection E as <-. rewrite fill_cont. rewrite (IH _ _ E1). cbn [obind].
    rewrite (IH _ _ E2). cbn [obind].
    rewrite (omap_row_fill _ (tapply (n + h) ts' []) (point v u) _ _ IH E3). reflexivity.
  - injection E as <-. reflexivity.
Qed.

(** ** First-order types *)

(** First-order, with all variables satisfying [P]. *)
Fixpoint fo (P : nat -> Prop) (t : ty) : Prop :=
  let all := fix all (l : list ty) : Prop := match l with [] => True | x :: l => fo P x /\ all l end in
  match t with
  | TPrim p => p <> PNever
  | TUni v => P v
  | TNamed _ _ xs | TTuple xs => all xs
  | TFunc ps r e _ => all ps /\ fo P r /\ e = pure_row
  | TApp c xs => fo P c /\ all xs
  | TCont a r e => fo P a /\ fo P r /\ e = pure_row
  | TBound _ | TLocal _ _ | TError => False
  end.

Definition all_fo (P : nat -> Prop) (l : list ty) : Prop := Forall (fo P) l.
Lemma all_fo_eq P l :
  (fix all (l : list ty) : Prop := match l with [] => True | x :: l => fo P x /\ all l end) l <-> Forall (fo P) l.
Proof.
  induction l as [|x l IH]; [split; constructor|]. rewrite IH. split.
  - intros [H K]. constructor; assumption.
  - intros H. inversion H; subst. split; assumption.
Qed.
Lemma fo_named P d n xs : fo P (TNamed d n xs) <-> Forall (fo P) xs.
Proof. apply all_fo_eq. Qed.
Lemma fo_tuple P xs : fo P (TTuple xs) <-> Forall (fo P) xs.
Proof. apply all_fo_eq. Qed.
Lemma fo_func P ps r e c : fo P (TFunc ps r e c) <-> Forall (fo P) ps /\ fo P r /\ e = pure_row.
Proof. cbn [fo]. rewrite all_fo_eq. reflexivity. Qed.
Lemma fo_app P c xs : fo P (TApp c xs) <-> fo P c /\ Forall (fo P) xs.
Proof. cbn [fo]. rewrite all_fo_eq. reflexivity. Qed.
Lemma fo_cont P a r e : fo P (TCont a r e) <-> fo P a /\ fo P r /\ e = pure_row.
Proof. reflexivity. Qed.

Lemma first_order_all l :
  (fix all (l : list ty) : Prop := match l with [] => True | x :: l => first_order x /\ all l end) l <-> Forall first_order l.
Proof.
  induction l as [|x l IH]; [split; constructor|]. rewrite IH. split.
  - intros [H K]. constructor; assumption.
  - intros H. inversion H; subst. split; assumption.
Qed.

Lemma fo_first_order (P : nat -> Prop) t : first_order t -> (forall v, In v (univars t) -> P v) -> fo P t.
Proof.
  induction t as [p|i|s i|i|d n args IH|ps r e c IHp IHr IHe|xs IH|c xs IHc IH|a r e IHa IHr IHe|] using ty_induct;
    intros F K; try exact F.
  - apply K. left. reflexivity.
  - apply fo_named. cbn [first_order] in F. rewrite first_order_all in F. unfold univars in K. cbn [occurrences] in K.
    rewrite Forall_forall in *. intros x Hx. apply IH; [exact Hx | apply F, Hx|]. intros v Hv. apply K.
    apply in_flat_map. exists x. split; assumption.
  - cbn [first_order] in F. rewrite first_order_all in F. destruct F as [F1 [F2 ->]]. rewrite univars_func in K.
    apply fo_func. split; [|split; [|reflexivity]].
    + rewrite Forall_forall in *. intros x Hx. apply IHp; [exact Hx | apply F1, Hx|]. intros v Hv. apply K.
      apply in_or_app. left. apply in_flat_map. exists x. split; assumption.
    + apply IHr; [exact F2|]. intros v Hv. apply K. apply in_or_app. right. apply in_or_app. left. exact Hv.
  - apply fo_tuple. cbn [first_order] in F. rewrite first_order_all in F. unfold univars in K. cbn [occurrences] in K.
    rewrite Forall_forall in *. intros x Hx. apply IH; [exact Hx | apply F, Hx|]. intros v Hv. apply K.
    apply in_flat_map. exists x. split; assumption.
  - cbn [first_order] in F. rewrite first_order_all in F. destruct F as [F1 F2]. unfold univars in K. cbn [occurrences] in K.
    apply fo_app. split.
    + apply IHc; [exact F1|]. intros v Hv. apply K. apply in_or_app. left. exact Hv.
    + rewrite Forall_forall in *. intros x Hx. apply IH; [exact Hx | apply F2, Hx|]. intros v Hv. apply K.
      apply in_or_app. right. apply in_flat_map. exists x. split; assumption.
  - destruct F as [F1 [F2 ->]]. rewrite univars_cont in K. apply fo_cont. split; [|split; [|reflexivity]].
    + apply IHa; [exact F1|]. intros v Hv. apply K. apply in_or_app. left. exact Hv.
    + apply IHr; [exact F2|]. intros v Hv. apply K. apply in_or_app. right. apply in_or_app. left. exact Hv.
Qed.

Lemma fo_weaken (P Q : nat -> Prop) t : (forall v, P v -> Q v) -> fo P t -> fo Q t.
Proof.
  intros K. induction t as [p|i|s i|i|d n args IH|ps r e c IHp IHr IHe|xs IH|c xs IHc IH|a r e IHa IHr IHe|] using ty_induct;
    intros F; try exact F.
  - apply K, F.
  - apply fo_named in F. apply fo_named. revert F. apply Forall_mp. exact IH.
  - apply fo_func in F as [F1 [F2 F3]]. apply fo_func. split; [revert F1; apply Forall_mp; exact IHp | split; [apply IHr, F2 | exact F3]].
  - apply fo_tuple in F. apply fo_tuple. revert F. apply Forall_mp. exact IH.
  - apply fo_app in F as [F1 F2]. apply fo_app. split; [apply IHc, F1 | revert F2; apply Forall_mp; exact IH].
  - apply fo_cont in F as [F1 [F2 F3]]. apply fo_cont. split; [apply IHa, F1 | split; [apply IHr, F2 | exact F3]].
Qed.

(** The size of a type, rows aside. *)
Fixpoint tsize (t : ty) : nat :=
  match t with
  | TNamed _ _ xs | TTuple xs => S (list_sum (List.map tsize xs))
  | TFunc ps r _ _ => S (tsize r + list_sum (List.map tsize ps))
  | TApp c xs => S (tsize c + list_sum (List.map tsize xs))
  | TCont a r _ => S (tsize a + tsize r)
  | _ => 1
  end.

Lemma list_sum_in x l : In x l -> x <= list_sum l.
Proof. induction l as [|y l IH]; intros []; cbn; [subst; lia | specialize (IH H); unfold list_sum in IH; lia]. Qed.
Lemma tsize_in x l : In x l -> tsize x <= list_sum (List.map tsize l).
Proof. intros H. apply list_sum_in, in_map, H. Qed.
Lemma tsize_pos t : 0 < tsize t.
Proof. destruct t; cbn; lia. Qed.

Lemma strip_size t : tsize (strip t) = tsize t.
Proof.
  induction t as [p|i|s i|i|d n args IH|ps r e c IHp IHr IHe|xs IH|c xs IHc IH|a r e IHa IHr IHe|] using ty_induct;
    cbn [strip tsize]; try reflexivity; rewrite ?map_map.
  - rewrite (map_ext_Forall _ _ IH). reflexivity.
  - rewrite (map_ext_Forall _ _ IHp), IHr. reflexivity.
  - rewrite (map_ext_Forall _ _ IH). reflexivity.
  - rewrite (map_ext_Forall _ _ IH), IHc. reflexivity.
  - rewrite IHa, IHr. reflexivity.
Qed.

(** A type containing [v] is larger than its value, unless it is just [v]. *)
Lemma fill_size f P v t : fo P t -> In v (univars t) -> tsize (f v) <= tsize (fill f t) /\ (t = TUni v \/ tsize (f v) < tsize (fill f t)).
Proof.
  assert (L : forall xs, Forall (fun x => fo P x -> In v (univars x) -> tsize (f v) <= tsize (fill f x) /\ (x = TUni v \/ tsize (f v) < tsize (fill f x))) xs ->
    Forall (fo P) xs -> In v (flat_map univars xs) -> tsize (f v) <= list_sum (List.map tsize (List.map (fill f) xs))).
  { intros xs H F I. apply in_flat_map in I as [x [I1 I2]]. rewrite Forall_forall in *.
    specialize (H x I1 (F x I1) I2). pose proof (tsize_in (fill f x) (List.map (fill f) xs) (in_map _ _ _ I1)). lia. }
  induction t as [p|i|s i|i|d n args IH|ps r e c IHp IHr IHe|xs IH|c xs IHc IH|a r e IHa IHr IHe|] using ty_induct;
    intros F I; try (destruct I; fail).
  - destruct I as [->|[]]. cbn [fill]. split; [lia | left; reflexivity].
  - apply fo_named in F. pose proof (L _ IH F I). cbn [fill tsize]. split; [|right]; lia.
  - apply fo_func in F as [F1 [F2 ->]]. rewrite univars_func in I. cbn [fill tsize].
    apply in_app_or in I as [I|I]; [|apply in_app_or in I as [I|[]]].
    + pose proof (L _ IHp F1 I). split; [|right]; lia.
    + specialize (IHr F2 I). split; [|right]; lia.
  - apply fo_tuple in F. pose proof (L _ IH F I). cbn [fill tsize]. split; [|right]; lia.
  - apply fo_app in F as [F1 F2]. unfold univars in I. cbn [occurrences] in I. cbn [fill tsize].
    apply in_app_or in I as [I|I].
    + specialize (IHc F1 I). split; [|right]; lia.
    + pose proof (L _ IH F2 I). split; [|right]; lia.
  - apply fo_cont in F as [F1 [F2 ->]]. rewrite univars_cont in I. cbn [fill tsize].
    apply in_app_or in I as [I|I]; [|apply in_app_or in I as [I|[]]].
    + specialize (IHa F1 I). split; [|right]; lia.
    + specialize (IHr F2 I). split; [|right]; lia.
Qed.

(** The occurs check decides membership. *)
Lemma rapply_pure rs : rapply rs pure_row = pure_row.
Proof. unfold rapply. cbn. reflexivity. Qed.

Lemma oany_exists {A} (f : A -> option bool) (g : A -> bool) l :
  Forall (fun x => f x = Some (g x)) l -> oany f l = Some (existsb g l).
Proof. induction 1 as [|x l H _ IH]; [reflexivity|]. cbn. fold (oany f). rewrite H. destruct (g x); [reflexivity | exact IH]. Qed.

Definition inside (v : nat) (t : ty) : bool := existsb (Nat.eqb v) (univars t).
Lemma inside_In v t : inside v t = true <-> In v (univars t).
Proof.
  unfold inside. rewrite existsb_exists. split.
  - intros [x [H E]]. apply Nat.eqb_eq in E. subst. exact H.
  - intros H. exists v. split; [exact H | apply Nat.eqb_refl].
Qed.
Lemma inside_flat v l : existsb (Nat.eqb v) (flat_map univars l) = existsb (inside v) l.
Proof. induction l as [|x l IH]; [reflexivity|]. cbn [flat_map existsb]. rewrite existsb_app, IH. reflexivity. Qed.

Lemma occurs_inside P rs v t : fo P t -> forall n, tsize t <= n -> occurs n rs v t = Some (inside v t).
Proof.
  assert (L : forall xs n,
    Forall (fun x => fo P x -> forall n, tsize x <= n -> occurs n rs v x = Some (inside v x)) xs ->
    Forall (fo P) xs -> list_sum (List.map tsize xs) <= n -> oany (occurs n rs v) xs = Some (existsb (inside v) xs)).
  { intros xs n H F Hn. apply oany_exists. rewrite Forall_forall in *. intros x Hx. apply H; [exact Hx | apply F, Hx|].
    pose proof (tsize_in x xs Hx). lia. }
  induction t as [p|i|s i|i|d nm args IH|ps r e c IHp IHr IHe|xs IH|c xs IHc IH|a r e IHa IHr IHe|] using ty_induct;
    intros F n Hn; pose proof (tsize_pos (TPrim PInt)); (destruct n as [|n]; [cbn [tsize] in Hn; lia|]);
    cbn [occurs tsize] in Hn |- *; cbv zeta; try reflexivity; try (destruct F; fail).
  - unfold inside. cbn [univars occurrences existsb]. unfold univars. cbn [occurrences existsb]. rewrite orb_false_r, Nat.eqb_sym. reflexivity.
  - apply fo_named in F. rewrite (L _ n IH F ltac:(lia)). unfold inside at 2, univars. cbn [occurrences].
    fold univars. rewrite <- inside_flat. reflexivity.
  - apply fo_func in F as [F1 [F2 ->]]. rewrite (L _ n IHp F1 ltac:(lia)), (IHr F2 n) by lia. rewrite rapply_pure.
    cbn [fst pure_row oany]. unfold inside at 3. rewrite univars_func, !existsb_app, inside_flat. cbn [row_univars].
    destruct (existsb (inside v) ps); cbn; [reflexivity|]. fold (inside v r). destruct (inside v r); reflexivity.
  - apply fo_tuple in F. rewrite (L _ n IH F ltac:(lia)). unfold inside at 2, univars. cbn [occurrences].
    fold univars. rewrite <- inside_flat. reflexivity.
  - apply fo_app in F as [F1 F2]. rewrite (L _ n IH F2 ltac:(lia)), (IHc F1 n) by lia.
    change (inside v (TApp c xs)) with (existsb (Nat.eqb v) (univars c ++ flat_map univars xs)).
    rewrite existsb_app, inside_flat. fold (inside v c). destruct (inside v c); reflexivity.
  - apply fo_cont in F as [F1 [F2 ->]]. rewrite (IHa F1 n), (IHr F2 n) by lia. rewrite rapply_pure.
    cbn [fst pure_row oany]. unfold inside at 3. rewrite univars_cont, !existsb_app. cbn [row_univars].
    fold (inside v a) (inside v r). destruct (inside v a); cbn; [reflexivity|]. destruct (inside v r); reflexivity.
Qed.

(** A resolved type resolves to itself. *)
Lemma tapply_id ts t : fo (fun v => tget ts v = None) t -> forall n, tsize t <= n -> tapply n ts [] t = Some t.
Proof.
  set (P := fun v => tget ts v = None).
  assert (L : forall xs n,
    Forall (fun x => fo P x -> forall n, tsize x <= n -> tapply n ts [] x = Some x) xs ->
    Forall (fo P) xs -> list_sum (List.map tsize xs) <= n -> otraverse (tapply n ts []) xs = Some xs).
  { intros xs n H F Hn. rewrite (otraverse_map _ (fun x => x)); [rewrite map_id; reflexivity|].
    rewrite Forall_forall in *. intros x Hx. apply H; [exact Hx | apply F, Hx|]. pose proof (tsize_in x xs Hx). lia. }
  induction t as [p|i|s i|i|d nm args IH|ps r e c IHp IHr IHe|xs IH|c xs IHc IH|a r e IHa IHr IHe|] using ty_induct;
    intros F n Hn; (destruct n as [|n]; [cbn [tsize] in Hn; lia|]);
    cbn [tapply tsize] in Hn |- *; cbv zeta; try reflexivity.
  - cbn [fo] in F. unfold P in F. rewrite F. reflexivity.
  - apply fo_named in F. rewrite (L _ n IH F ltac:(lia)). reflexivity.
  - apply fo_func in F as [F1 [F2 ->]]. rewrite (L _ n IHp F1 ltac:(lia)), (IHr F2 n) by lia. reflexivity.
  - apply fo_tuple in F. rewrite (L _ n IH F ltac:(lia)). reflexivity.
  - apply fo_app in F as [F1 F2]. rewrite (L _ n IH F2 ltac:(lia)), (IHc F1 n) by lia. reflexivity.
  - apply fo_cont in F as [F1 [F2 ->]]. rewrite (IHa F1 n), (IHr F2 n) by lia. reflexivity.
Qed.

(** What resolving yields, for first-order types and bindings. *)
Section Resolve.
  Variables (P : nat -> Prop) (ts : type_subst).
  Hypothesis Hts : forall v t, tget ts v = Some t -> fo P t.

  Lemma tapply_fo n : forall t r, tapply n ts [] t = Some r -> fo P t -> fo (fun v => P v /\ tget ts v = None) r.
  Proof.
    induction n as [|n IH]; intros t r E F; [discriminate|].
    assert (L : forall l l', otraverse (tapply n ts []) l = Some l' -> Forall (fo P) l -> Forall (fo (fun v => P v /\ tget ts v = None)) l').
    { intros l l' H K. apply otraverse_some in H. revert K.
      induction H as [|x y l l' Hx _ IHl]; intros K; constructor; inversion K; subst; [apply (IH x); assumption | apply IHl; assumption]. }
    destruct t as [p|i|sc i|w|d nm args|ps q e c|xs|c xs|a q e|]; cbn [tapply] in E; cbv zeta in E; try (destruct F; fail).
    - injection E as <-. exact F.
    - destruct (tget ts w) as [t'|] eqn:W; [apply (IH t'); [exact E | apply (Hts _ _ W)]|].
      injection E as <-. split; [exact F | exact W].
    - apply obind_some in E as [l' [E1 E]]. injection E as <-. apply fo_named in F. apply fo_named. apply (L _ _ E1 F).
    - apply obind_some in E as [l' [E1 E]]. apply obind_some in E as [q' [E2 E]]. apply obind_some in E as [e' [E3 E]].
      injection E as <-. apply fo_func in F as [F1 [F2 ->]]. injection E3 as <-.
      apply fo_func. split; [apply (L _ _ E1 F1) | split; [apply (IH _ _ E2 F2) | reflexivity]].
    - apply obind_some in E as [l' [E1 E]]. injection E as <-. apply fo_tuple in F. apply fo_tuple. apply (L _ _ E1 F).
    - apply obind_some in E as [c' [E2 E]]. apply obind_some in E as [l' [E1 E]]. injection E as <-.
      apply fo_app in F as [F1 F2]. apply fo_app. split; [apply (IH _ _ E2 F1) | apply (L _ _ E1 F2)].
    - apply obind_some in E as [a' [E1 E]]. apply obind_some in E as [q' [E2 E]]. apply obind_some in E as [e' [E3 E]].
      injection E as <-. apply fo_cont in F as [F1 [F2 ->]]. injection E3 as <-.
      apply fo_cont. split; [apply (IH _ _ E1 F1) | split; [apply (IH _ _ E2 F2) | reflexivity]].
  Qed.

  Lemma tapply_same f : solves_bindings f ts ->
    forall n t r, tapply n ts [] t = Some r -> fo P t -> unifies f t r.
  Proof.
    intros Hf. unfold unifies, same_type. induction n as [|n IH]; intros t r E F; [discriminate|].
    assert (L : forall l l', otraverse (tapply n ts []) l = Some l' -> Forall (fo P) l ->
      List.map strip (List.map (fill f) l) = List.map strip (List.map (fill f) l')).
    { intros l l' H K. apply otraverse_some in H. revert K.
      induction H as [|x y l l' Hx _ IHl]; intros K; [reflexivity|]. inversion K; subst. cbn [List.map].
      rewrite (IH x y) by assumption. rewrite IHl by assumption. reflexivity. }
    destruct t as [p|i|sc i|w|d nm args|ps q e c|xs|c xs|a q e|]; cbn [tapply] in E; cbv zeta in E; try (destruct F; fail).
    - injection E as <-. reflexivity.
    - destruct (tget ts w) as [t'|] eqn:W.
      + rewrite <- (IH t' r E (Hts _ _ W)). exact (Hf w t' W).
      + injection E as <-. reflexivity.
    - apply obind_some in E as [l' [E1 E]]. injection E as <-. apply fo_named in F. cbn [fill strip]. rewrite (L _ _ E1 F). reflexivity.
    - apply obind_some in E as [l' [E1 E]]. apply obind_some in E as [q' [E2 E]]. apply obind_some in E as [e' [E3 E]].
      injection E as <-. apply fo_func in F as [F1 [F2 ->]]. injection E3 as <-.
      cbn [fill strip]. rewrite (L _ _ E1 F1), (IH _ _ E2 F2). reflexivity.
    - apply obind_some in E as [l' [E1 E]]. injection E as <-. apply fo_tuple in F. cbn [fill strip]. rewrite (L _ _ E1 F). reflexivity.
    - apply obind_some in E as [c' [E2 E]]. apply obind_some in E as [l' [E1 E]]. injection E as <-.
      apply fo_app in F as [F1 F2]. cbn [fill strip]. rewrite (L _ _ E1 F2), (IH _ _ E2 F1). reflexivity.
    - apply obind_some in E as [a' [E1 E]]. apply obind_some in E as [q' [E2 E]]. apply obind_some in E as [e' [E3 E]].
      injection E as <-. apply fo_cont in F as [F1 [F2 ->]]. injection E3 as <-.
      cbn [fill strip]. rewrite (IH _ _ E1 F1), (IH _ _ E2 F2). reflexivity.
  Qed.
End Resolve.

(** ** Runs that end with exactly the right solutions *)

Definition unbound (ts : type_subst) (v : nat) : bool := match tget ts v with None => true | _ => false end.
Definition free (V : list nat) (ts : type_subst) : nat := List.length (filter (unbound ts) V).

Section Runs.
  Variable V : list nat.
  Notation inV := (fun v => In v V).

  Record good (st : ust) : Prop := {
    g_fo : forall v t, tget (u_ts st) v = Some t -> fo inV t;
    g_acyclic : acyclic (u_ts st) }.

  Definition below (st st' : ust) : Prop :=
    u_ts st' = u_ts st \/ free V (u_ts st') < free V (u_ts st).
  Lemma below_refl st : below st st.
  Proof. left. reflexivity. Qed.
  Lemma below_trans a b c : below a b -> below b c -> below a c.
  Proof.
    unfold below. intros [H|H] [K|K]; [left; congruence | right | right | right]; [rewrite <- H; exact K | rewrite K; exact H | lia].
  Qed.

  (** [m], with enough fuel, ends in [o] and [st'] whatever the fuel, and keeps exactly those
      solutions that satisfy [E]. *)
  Definition ends (m : nat -> U unit) (st : ust) (E : (nat -> ty) -> Prop) (o : ures unit) (st' : ust) : Prop :=
    (exists N, forall n, N <= n -> m n st = (o, st')) /\
    o <> Out /\ good st' /\ below st st' /\ u_rs st' = u_rs st /\ u_log st' = u_log st /\
    (forall f, (o = UOk tt /\ solves_bindings f (u_ts st')) <-> (solves_bindings f (u_ts st) /\ E f)).
  Definition finishes (m : nat -> U unit) (st : ust) (E : (nat -> ty) -> Prop) : Prop :=
    exists o st', ends m st E o st'.

  Lemma fin_ext m m' N st E : (forall n, N <= n -> m n st = m' n st) -> finishes m' st E -> finishes m st E.
  Proof.
    intros H [o [st' [[M HM] R]]]. exists o, st'. split; [|exact R].
    exists (Nat.max N M). intros n Hn. rewrite H by lia. apply HM. lia.
  Qed.
  Lemma fin_shift m st E : finishes (fun n => m (S n)) st E -> finishes m st E.
  Proof.
    intros [o [st' [[M HM] R]]]. exists o, st'. split; [|exact R]. exists (S M). intros [|n] Hn; [lia|]. apply HM. lia.
  Qed.
  Lemma fin_iff m st E E' : (forall f, solves_bindings f (u_ts st) -> (E f <-> E' f)) -> finishes m st E -> finishes m st E'.
  Proof.
    intros H [o [st' (A & B & C & D & F & G & K)]]. exists o, st'. repeat (split; [assumption|]).
    intros f. rewrite K. split; intros [S1 S2]; (split; [exact S1|]); apply (H f S1), S2.
  Qed.
  Lemma fin_ret st : good st -> finishes (fun _ => uret tt) st (fun _ => True).
  Proof.
    intros G. exists (UOk tt), st. split; [exists 0; reflexivity|]. split; [discriminate|]. split; [exact G|].
    split; [apply below_refl|]. split; [reflexivity|]. split; [reflexivity|]. intros f. tauto.
  Qed.
  Lemma fin_err e st E : good st -> (forall f, solves_bindings f (u_ts st) -> ~ E f) -> finishes (fun _ => uerror e) st E.
  Proof.
    intros G K. exists (UErr e), st. split; [exists 0; reflexivity|]. split; [discriminate|]. split; [exact G|].
    split; [apply below_refl|]. split; [reflexivity|]. split; [reflexivity|]. intros f. split.
    - intros [H _]. discriminate.
    - intros [H1 H2]. destruct (K f H1 H2).
  Qed.
  Lemma fin_bind m1 m2 st E1 E2 : finishes m1 st E1 ->
    (forall st1, good st1 -> below st st1 -> finishes m2 st1 E2) ->
    finishes (fun n => m1 n ;;; m2 n) st (fun f => E1 f /\ E2 f).
  Proof.
    intros [o1 [st1 ([N1 R1] & B1 & C1 & D1 & F1 & G1 & K1)]] H.
    destruct o1 as [[]|e|]; [| |congruence].
    - destruct (H st1 C1 D1) as [o2 [st2 ([N2 R2] & B2 & C2 & D2 & F2 & G2 & K2)]].
      exists o2, st2. split.
      { exists (Nat.max N1 N2). intros n Hn. unfold ubind. rewrite R1 by lia. apply R2. lia. }
      split; [exact B2|]. split; [exact C2|]. split; [eapply below_trans; eassumption|].
      split; [congruence|]. split; [congruence|]. intros f. rewrite K2. specialize (K1 f).
      split.
      + intros [S1 S2]. destruct (proj1 K1 (conj eq_refl S1)) as [S0 S3]. tauto.
      + intros [S0 [S3 S4]]. destruct (proj2 K1 (conj S0 S3)) as [_ S1]. tauto.
    - exists (UErr e), st1. split.
      { exists N1. intros n Hn. unfold ubind. rewrite R1 by lia. reflexivity. }
      split; [discriminate|]. split; [exact C1|]. split; [exact D1|]. split; [exact F1|]. split; [exact G1|].
      intros f. specialize (K1 f). split; [intros [X _]; discriminate|]. intros [S0 [S1 _]].
      destruct (proj2 K1 (conj S0 S1)) as [X _]. discriminate.
  Qed.

  (** Reading something that settles. *)
  Lemma fin_ask {A} (g : nat -> ust -> option A) (a : A) k st E :
    (exists N, forall n, N <= n -> g n st = Some a) -> finishes (fun n => k n a) st E ->
    finishes (fun n => ubind (ask (g n)) (k n)) st E.
  Proof.
    intros [N H] F. apply (fin_ext _ (fun n => k n a) N); [|exact F]. intros n Hn. unfold ubind, ask. rewrite H by exact Hn. reflexivity.
  Qed.

  Lemma resolves_settles ts t r : resolves ts t r -> exists N, forall n, N <= n -> tapply n ts [] t = Some r.
  Proof. intros [N H]. exists N. intros n Hn. apply (tapply_mono _ _ N); assumption. Qed.

  Lemma good_resolves st t : good st -> fo inV t ->
    exists r, resolves (u_ts st) t r /\ fo (fun v => In v V /\ tget (u_ts st) v = None) r.
  Proof.
    intros [G A] F. destruct (A t) as [n [r E]]. exists r. split; [exists n; exact E|].
    apply (tapply_fo inV (u_ts st) G n t r E F).
  Qed.

  Lemma fo_below (P Q : nat -> Prop) t : fo (fun v => P v /\ Q v) t -> fo P t /\ fo Q t.
  Proof. intros F. split; revert F; apply fo_weaken; tauto. Qed.

  Lemma fo_univars P t : fo P t -> forall v, In v (univars t) -> P v.
  Proof.
    assert (L : forall xs, Forall (fun x => fo P x -> forall v, In v (univars x) -> P v) xs -> Forall (fo P) xs ->
      forall v, In v (flat_map univars xs) -> P v).
    { intros xs H F v I. apply in_flat_map in I as [x [I1 I2]]. rewrite Forall_forall in *. apply (H x I1 (F x I1) v I2). }
    induction t as [p|i|s i|i|d n args IH|ps r e c IHp IHr IHe|xs IH|c xs IHc IH|a r e IHa IHr IHe|] using ty_induct;
      intros F v I; try (destruct I; fail).
    - destruct I as [->|[]]. exact F.
    - apply fo_named in F. apply (L _ IH F v I).
    - apply fo_func in F as [F1 [F2 ->]]. rewrite univars_func in I.
      apply in_app_or in I as [I|I]; [|apply in_app_or in I as [I|[]]]; [apply (L _ IHp F1 v I) | apply (IHr F2 v I)].
    - apply fo_tuple in F. apply (L _ IH F v I).
    - apply fo_app in F as [F1 F2]. unfold univars in I. cbn [occurrences] in I.
      apply in_app_or in I as [I|I]; [apply (IHc F1 v I) | apply (L _ IH F2 v I)].
    - apply fo_cont in F as [F1 [F2 ->]]. rewrite univars_cont in I.
      apply in_app_or in I as [I|I]; [|apply in_app_or in I as [I|[]]]; [apply (IHa F1 v I) | apply (IHr F2 v I)].
  Qed.

  Lemma free_insert ts v u : In v V -> tget ts v = None -> free V (minsert Nat.eqb ts v u) < free V ts.
  Proof.
    intros I H. unfold free. 
    assert (K : forall l, List.length (filter (unbound (minsert Nat.eqb ts v u)) l) <= List.length (filter (unbound ts) l) /\
      (In v l -> List.length (filter (unbound (minsert Nat.eqb ts v u)) l) < List.length (filter (unbound ts) l))).
    { induction l as [|w l [IH1 IH2]]; [split; [apply le_n | intros []]|]. cbn [filter].
      destruct (Nat.eq_dec v w) as [<-|N].
      - assert (U1 : unbound (minsert Nat.eqb ts v u) v = false) by (unfold unbound; rewrite tget_insert_same; reflexivity).
        assert (U2 : unbound ts v = true) by (unfold unbound; rewrite H; reflexivity).
        rewrite U1, U2. cbn [List.length]. split; intros; lia.
      - assert (U1 : unbound (minsert Nat.eqb ts v u) w = unbound ts w) by (unfold unbound; rewrite tget_insert_other by exact N; reflexivity).
        rewrite U1. destruct (unbound ts w); cbn [List.length].
        + split; [lia|]. intros [->|J]; [congruence | specialize (IH2 J); lia].
        + split; [exact IH1|]. intros [->|J]; [congruence | apply IH2, J]. }
    apply K, I.
  Qed.

  (** Binding a variable. *)
  Lemma fin_bind_type v r st : good st -> In v V -> tget (u_ts st) v = None -> r <> TUni v ->
    fo (fun w => In w V /\ tget (u_ts st) w = None) r ->
    finishes (fun n => bind_type n v r) st (fun f => unifies f (TUni v) r).
  Proof.
    intros G Iv Hv Hne F. unfold bind_type. destruct (fo_below _ _ _ F) as [F1 F2].
    apply (fin_ask (fun n st => occurs n (u_rs st) v r) (inside v r)).
    { exists (tsize r). intros n Hn. apply (occurs_inside inV); [exact F1 | exact Hn]. }
    destruct (inside v r) eqn:I.
    - apply fin_err; [exact G|]. intros f Hf U. apply inside_In in I.
      destruct (fill_size f _ v r F1 I) as [_ [X|X]]; [congruence|].
      unfold unifies, same_type in U. apply (f_equal tsize) in U. rewrite !strip_size in U. cbn [fill] in U. lia.
    - assert (NI : ~ In v (univars r)) by (intros X; apply inside_In in X; congruence).
      assert (Hid : forall n, tsize r <= n -> tapply n (minsert Nat.eqb (u_ts st) v r) [] r = Some r).
      { apply tapply_id. apply fo_first_order.
        - revert F1. clear. induction r as [p|i|s i|i|d n args IH|ps r e c IHp IHr IHe|xs IH|c xs IHc IH|a r e IHa IHr IHe|] using ty_induct;
            intros F; try exact F; try exact I.
          + apply fo_named in F. cbn [first_order]. apply first_order_all. revert F. apply Forall_mp, IH.
          + apply fo_func in F as [A [B C]]. cbn [first_order]. rewrite first_order_all. split; [revert A; apply Forall_mp, IHp | split; [apply IHr, B | exact C]].
          + apply fo_tuple in F. cbn [first_order]. apply first_order_all. revert F. apply Forall_mp, IH.
          + apply fo_app in F as [A B]. cbn [first_order]. rewrite first_order_all. split; [apply IHc, A | revert B; apply Forall_mp, IH].
          + apply fo_cont in F as [A [B C]]. split; [apply IHa, A | split; [apply IHr, B | exact C]].
        - intros w Hw. rewrite tget_insert_other by (intros <-; contradiction). apply (fo_univars _ _ F w Hw). }
      eexists (UOk tt), _. split; [exists 0; intros n _; reflexivity|].
      split; [discriminate|]. cbn [u_ts u_rs u_log].
      split; [|split; [right; apply free_insert; assumption | split; [reflexivity | split; [reflexivity|]]]].
      + constructor; cbn [u_ts].
        * intros w t Hw. destruct (Nat.eq_dec v w) as [<-|N].
          { rewrite tget_insert_same in Hw. injection Hw as <-. exact F1. }
          rewrite tget_insert_other in Hw by exact N. apply (g_fo _ G w t Hw).
        * intros t. destruct (g_acyclic _ G t) as [n [q E]]. exists (n + tsize r), (fill (point v r) q).
          apply bind_resolves; [exact Hv | apply Hid; lia | exact E].
      + intros f. split.
        * intros [_ K]. split.
          { intros w t Hw. apply K. rewrite tget_insert_other; [exact Hw|]. intros <-. congruence. }
          apply K, tget_insert_same.
        * intros [K1 K2]. split; [reflexivity|]. intros w t Hw. destruct (Nat.eq_dec v w) as [<-|N].
          { rewrite tget_insert_same in Hw. injection Hw as <-. exact K2. }
          rewrite tget_insert_other in Hw by exact N. apply K1, Hw.
  Qed.

  Lemma fin_bind_type_sym v r st : good st -> In v V -> tget (u_ts st) v = None -> r <> TUni v ->
    fo (fun w => In w V /\ tget (u_ts st) w = None) r ->
    finishes (fun n => bind_type n v r) st (fun f => unifies f r (TUni v)).
  Proof.
    intros G Iv Hv Hne F. apply (fin_iff _ _ (fun f => unifies f (TUni v) r)).
    - intros f _. unfold unifies, same_type. split; intros E; symmetry; exact E.
    - apply fin_bind_type; assumption.
  Qed.

  Definition same_all (f : nat -> ty) (l l' : list ty) : Prop :=
    List.map strip (List.map (fill f) l) = List.map strip (List.map (fill f) l').

  Lemma fin_each2 (rec : nat -> ty -> ty -> U unit) st0 l : forall l',
    List.length l = List.length l' ->
    (forall x y st, In x l -> In y l' -> good st -> below st0 st -> finishes (fun n => rec n x y) st (fun f => unifies f x y)) ->
    forall st, good st -> below st0 st -> finishes (fun n => each2 (rec n) l l') st (fun f => same_all f l l').
  Proof.
    induction l as [|x l IH]; intros [|y l'] HL H st G B; try discriminate.
    - apply (fin_iff _ _ (fun _ => True)); [intros f _; split; reflexivity|]. apply fin_ret, G.
    - apply (fin_iff _ _ (fun f => unifies f x y /\ same_all f l l')).
      { intros f _. unfold same_all, unifies, same_type. cbn [List.map]. split.
        - intros [E1 E2]. rewrite E1, E2. reflexivity.
        - intros E. injection E as E1 E2. split; assumption. }
      cbn [each2]. apply (fin_bind (fun n => rec n x y) (fun n => each2 (rec n) l l')).
      + apply H; [left | left | |]; auto.
      + intros st1 G1 B1. apply IH; [injection HL as HL; exact HL | | exact G1 | eapply below_trans; eassumption].
        intros x' y' st' I1 I2. apply H; right; assumption.
  Qed.

  Lemma fin_rows_pure rec st : good st -> finishes (fun n => unify_rows (rec n) n pure_row pure_row) st (fun _ => True).
  Proof.
    intros G. apply (fin_ext _ (fun _ => uret tt) 0); [|apply fin_ret, G]. intros n _. unfold unify_rows, ubind, ask.
    rewrite rapply_pure. reflexivity.
  Qed.

  Lemma fin_seq m1 m2 st E1 E2 E : finishes m1 st E1 ->
    (forall st1, good st1 -> below st st1 -> finishes m2 st1 E2) ->
    (forall f, E1 f /\ E2 f <-> E f) ->
    finishes (fun n => m1 n ;;; m2 n) st E.
  Proof.
    intros H1 H2 K. apply (fin_iff _ _ (fun f => E1 f /\ E2 f)); [intros f _; apply K|]. apply fin_bind; assumption.
  Qed.

  Lemma resolved_self st x : fo (fun v => In v V /\ tget (u_ts st) v = None) x -> resolves (u_ts st) x x.
  Proof. intros F. exists (tsize x). apply tapply_id; [apply (fo_below _ _ _ F) | apply le_n]. Qed.

  (** Two different resolved types, given the recursive calls. *)
  Definition step (n : nat) (t1 t2 : ty) : U unit :=
    match t1, t2 with
    | TUni v, _ => bind_type n v t2
    | _, TUni v => bind_type n v t1
    | TBound _, _ | _, TBound _ | TLocal _ _, _ | _, TLocal _ _ => uerror (EMismatch t1 t2)
    | TError, _ | _, TError => log Coerced
    | TPrim PNever, _ | _, TPrim PNever => log Coerced
    | TNamed i1 _ a1, TNamed i2 _ a2 =>
        if negb (tydef_eqb i1 i2) || negb (Nat.eqb (List.length a1) (List.length a2))
        then uerror (EMismatch t1 t2) else each2 (unify n) a1 a2
    | TFunc p1 r1 e1 _, TFunc p2 r2 e2 _ =>
        if negb (Nat.eqb (List.length p1) (List.length p2)) then uerror (EMismatch t1 t2) else
        each2 (unify n) p1 p2 ;;; unify n r1 r2 ;;; unify_rows (unify n) n e1 e2
    | TTuple a1, TTuple a2 =>
        if negb (Nat.eqb (List.length a1) (List.length a2)) then uerror (EMismatch t1 t2) else
        each2 (unify n) a1 a2
    | TApp c1 a1, TApp c2 a2 =>
        unify n c1 c2 ;;;
        if negb (Nat.eqb (List.length a1) (List.length a2)) then uerror (EMismatch t1 t2) else
        each2 (unify n) a1 a2
    | TCont a1 r1 e1, TCont a2 r2 e2 =>
        unify n a1 a2 ;;; unify n r1 r2 ;;; unify_rows (unify n) n e1 e2
    | _, _ => uerror (EMismatch t1 t2)
    end.

  Lemma map_len_ne f (a b : list ty) : Nat.eqb (List.length a) (List.length b) = false -> ~ same_all f a b.
  Proof.
    intros L E. apply Nat.eqb_neq in L. apply L. unfold same_all in E. apply (f_equal (@List.length ty)) in E.
    rewrite !map_length in E. exact E.
  Qed.

  Definition part (x t : ty) : Prop := tsize x < tsize t.

  Lemma fin_step st r1 r2 : good st ->
    fo (fun v => In v V /\ tget (u_ts st) v = None) r1 ->
    fo (fun v => In v V /\ tget (u_ts st) v = None) r2 -> r1 <> r2 ->
    (forall x y st1, tsize x < tsize r1 -> fo (fun v => In v V /\ tget (u_ts st) v = None) x ->
      fo (fun v => In v V /\ tget (u_ts st) v = None) y -> good st1 -> below st st1 ->
      finishes (fun n => unify n x y) st1 (fun f => unifies f x y)) ->
    finishes (fun n => step n r1 r2) st (fun f => unifies f r1 r2).
  Proof.
    set (Pu := fun v => In v V /\ tget (u_ts st) v = None).
    intros G F1 F2 Hne H.
    destruct r1 as [p1|i1|s1 i1|v1|d1 n1 a1|ps1 q1 e1 c1|a1|c1 a1|a1 q1 e1|];
      destruct r2 as [p2|i2|s2 i2|v2|d2 n2 a2|ps2 q2 e2 c2|a2|c2 a2|a2 q2 e2|];
      try (destruct F1; fail); try (destruct F2; fail); cbn [step].
    all: try (destruct p1; try (destruct F1; reflexivity)).
    all: try (apply fin_bind_type; [exact G | apply F1 | apply F1 | congruence | exact F2]).
    all: try (apply fin_bind_type_sym; [exact G | apply F2 | apply F2 | congruence | exact F1]).
    all: try (destruct p2; try (destruct F2; reflexivity)).
    all: try (exfalso; apply Hne; reflexivity).
    all: try (apply fin_err; [exact G | intros f _ U; discriminate U]).
    - (* named *)
      destruct (tydef_eqb d1 d2) eqn:D; cbn [negb orb].
      2:{ apply fin_err; [exact G|]. intros f _ U. injection U as U _. apply tydef_eqb_eq in U. congruence. }
      apply tydef_eqb_eq in D. subst d2.
      destruct (Nat.eqb (List.length a1) (List.length a2)) eqn:L; cbn [negb].
      2:{ apply fin_err; [exact G|]. intros f _ U. injection U as U. apply (map_len_ne f _ _ L U). }
      apply fo_named in F1, F2. rewrite Forall_forall in F1, F2.
      apply (fin_iff _ _ (fun f => same_all f a1 a2)).
      { intros f _. unfold unifies, same_type, same_all. cbn [fill strip]. split; congruence. }
      apply (fin_each2 unify st); [apply Nat.eqb_eq, L | | exact G | apply below_refl].
      intros x y st1 I1 I2 G1 B1. apply H; [|apply F1, I1 | apply F2, I2 | exact G1 | exact B1].
      cbn [tsize]. pose proof (tsize_in x a1 I1). lia.
    - (* func *)
      apply fo_func in F1 as [F1 [F1' ->]]. apply fo_func in F2 as [F2 [F2' ->]].
      destruct (Nat.eqb (List.length ps1) (List.length ps2)) eqn:L; cbn [negb].
      2:{ apply fin_err; [exact G|]. intros f _ U. unfold unifies, same_type in U. cbn [fill strip] in U. injection U as U _. apply (map_len_ne f _ _ L U). }
      rewrite Forall_forall in F1, F2.
      apply (fin_seq _ _ _ (fun f => same_all f ps1 ps2) (fun f => unifies f q1 q2)).
      + apply (fin_each2 unify st); [apply Nat.eqb_eq, L | | exact G | apply below_refl].
        intros x y st1 I1 I2 G1 B1. apply H; [|apply F1, I1 | apply F2, I2 | exact G1 | exact B1].
        cbn [tsize]. pose proof (tsize_in x ps1 I1). lia.
      + intros st1 G1 B1. apply (fin_seq _ _ _ (fun f => unifies f q1 q2) (fun _ => True)).
        * apply H; [cbn [tsize]; lia | exact F1' | exact F2' | exact G1 | exact B1].
        * intros st2 G2 _. apply fin_rows_pure, G2.
        * intros f. tauto.
      + intros f. unfold unifies, same_type, same_all. cbn [fill strip]. split; [intros [A B]; rewrite A, B; reflexivity|].
        intros E. injection E as A B. split; assumption.
    - (* tuple *)
      destruct (Nat.eqb (List.length a1) (List.length a2)) eqn:L; cbn [negb].
      2:{ apply fin_err; [exact G|]. intros f _ U. injection U as U. apply (map_len_ne f _ _ L U). }
      apply fo_tuple in F1, F2. rewrite Forall_forall in F1, F2.
      apply (fin_iff _ _ (fun f => same_all f a1 a2)).
      { intros f _. unfold unifies, same_type, same_all. cbn [fill strip]. split; congruence. }
      apply (fin_each2 unify st); [apply Nat.eqb_eq, L | | exact G | apply below_refl].
      intros x y st1 I1 I2 G1 B1. apply H; [|apply F1, I1 | apply F2, I2 | exact G1 | exact B1].
      cbn [tsize]. pose proof (tsize_in x a1 I1). lia.
    - (* app *)
      apply fo_app in F1 as [F1 F1']. apply fo_app in F2 as [F2 F2']. rewrite Forall_forall in F1', F2'.
      apply (fin_seq _ _ _ (fun f => unifies f c1 c2) (fun f => same_all f a1 a2)).
      + apply H; [cbn [tsize]; lia | exact F1 | exact F2 | exact G | apply below_refl].
      + intros st1 G1 B1. destruct (Nat.eqb (List.length a1) (List.length a2)) eqn:L; cbn [negb].
        2:{ apply fin_err; [exact G1|]. intros f _. apply (map_len_ne f _ _ L). }
        apply (fin_each2 unify st); [apply Nat.eqb_eq, L | | exact G1 | exact B1].
        intros x y st2 I1 I2 G2 B2. apply H; [|apply F1', I1 | apply F2', I2 | exact G2 | exact B2].
        cbn [tsize]. pose proof (tsize_in x a1 I1). lia.
      + intros f. unfold unifies, same_type, same_all. cbn [fill strip]. split; [intros [A B]; rewrite A, B; reflexivity|].
        intros E. injection E as A B. split; assumption.
    - (* cont *)
      apply fo_cont in F1 as [F1 [F1' ->]]. apply fo_cont in F2 as [F2 [F2' ->]].
      apply (fin_seq _ _ _ (fun f => unifies f a1 a2) (fun f => unifies f q1 q2)).
      + apply H; [cbn [tsize]; lia | exact F1 | exact F2 | exact G | apply below_refl].
      + intros st1 G1 B1. apply (fin_seq _ _ _ (fun f => unifies f q1 q2) (fun _ => True)).
        * apply H; [cbn [tsize]; lia | exact F1' | exact F2' | exact G1 | exact B1].
        * intros st2 G2 _. apply fin_rows_pure, G2.
        * intros f. tauto.
      + intros f. unfold unifies, same_type. cbn [fill strip]. split; [intros [A B]; rewrite A, B; reflexivity|].
        intros E. injection E as A B. split; assumption.
  Qed.

  (** By induction on the number of unbound variables and the size of the resolved type. *)
  Lemma fin_unify k : forall s st t1 t2 r1, good st -> fo inV t1 -> fo inV t2 ->
    free V (u_ts st) <= k -> resolves (u_ts st) t1 r1 -> tsize r1 <= s ->
    finishes (fun n => unify n t1 t2) st (fun f => unifies f t1 t2).
  Proof.
    induction k as [k IHk] using lt_wf_ind. induction s as [|s IHs]; intros st t1 t2 r1 G F1 F2 Hk R1 Hs.
    { pose proof (tsize_pos r1). lia. }
    destruct (good_resolves st t1 G F1) as [r1' [R1' W1]]. assert (r1' = r1) by (eapply resolves_fun; eassumption). subst r1'.
    destruct (good_resolves st t2 G F2) as [r2 [R2 W2]].
    apply (fin_iff _ _ (fun f => unifies f r1 r2)).
    { intros f Hf. destruct R1 as [n1 E1], R2 as [n2 E2].
      pose proof (tapply_same inV _ (g_fo _ G) f Hf _ _ _ E1 F1). pose proof (tapply_same inV _ (g_fo _ G) f Hf _ _ _ E2 F2).
      unfold unifies, same_type in *. split; congruence. }
    apply fin_shift. cbn [unify]. cbv zeta.
    apply (fin_ask (fun n st => tapply n (u_ts st) [] t1) r1); [apply resolves_settles, R1|].
    apply (fin_ask (fun n st => tapply n (u_ts st) [] t2) r2); [apply resolves_settles, R2|].
    destruct (ty_eqb r1 r2) eqn:Q.
    - apply ty_eqb_eq in Q. subst r2. apply (fin_iff _ _ (fun _ => True)); [|apply fin_ret, G].
      intros f _. split; reflexivity.
    - assert (Hne : r1 <> r2) by (intros ->; rewrite (proj2 (ty_eqb_eq r2 r2) eq_refl) in Q; discriminate).
      change (finishes (fun n => step n r1 r2) st (fun f => unifies f r1 r2)).
      apply fin_step; [exact G | exact W1 | exact W2 | exact Hne|].
      intros x y st1 Hx Fx Fy G1 [B|B].
      + apply (IHs st1 x y x); [exact G1 | apply (fo_below _ _ _ Fx) | apply (fo_below _ _ _ Fy) | rewrite B; exact Hk | rewrite B; apply resolved_self, Fx | lia].
      + destruct (good_resolves st1 x G1 (proj1 (fo_below _ _ _ Fx))) as [rx [Rx _]].
        apply (IHk (free V (u_ts st1)) ltac:(lia) (tsize rx) st1 x y rx); [exact G1 | apply (fo_below _ _ _ Fx) | apply (fo_below _ _ _ Fy) | lia | exact Rx | lia].
  Qed.

  Lemma unify_finishes st t1 t2 : good st -> fo inV t1 -> fo inV t2 ->
    finishes (fun n => unify n t1 t2) st (fun f => unifies f t1 t2).
  Proof.
    intros G F1 F2. destruct (good_resolves st t1 G F1) as [r1 [R1 _]].
    apply (fin_unify (free V (u_ts st)) (tsize r1) st t1 t2 r1); auto.
  Qed.
End Runs.

(** ** Constraints *)

Section Constraints.
  Variable V : list nat.
  Notation inV := (fun v => In v V).

  Fixpoint fo_constr (c : constr) : Prop :=
    match c with
    | CType t1 t2 => fo inV t1 /\ fo inV t2
    | CRow _ _ => False
    | CAnd cs => fold_right (fun c P => fo_constr c /\ P) True cs
    end.

  Lemma fin_attempt {A} (f : nat -> A -> U unit) (E : A -> (nat -> ty) -> Prop) l :
    Forall (fun c => forall st, good V st -> finishes V (fun n => f n c) st (E c)) l ->
    forall st, good V st -> finishes V (fun n => attempt (f n) l) st (fun g => fold_right (fun c P => E c g /\ P) True l).
  Proof.
    induction 1 as [|c l H _ IH]; intros st G; [apply fin_ret, G|].
    destruct (H st G) as [o1 [st1 ([N1 R1] & B1 & C1 & D1 & F1 & G1 & K1)]].
    destruct (IH st1 C1) as [o2 [st2 ([N2 R2] & B2 & C2 & D2 & F2 & G2 & K2)]].
    destruct o1 as [[]|e|]; [| |congruence].
    - exists o2, st2. split.
      { exists (Nat.max N1 N2). intros n Hn. cbn [attempt]. rewrite R1 by lia. apply R2. lia. }
      split; [exact B2|]. split; [exact C2|]. split; [eapply below_trans; eassumption|].
      split; [congruence|]. split; [congruence|]. intros g. rewrite K2. specialize (K1 g). cbn [fold_right].
      split.
      + intros [S1 S2]. destruct (proj1 K1 (conj eq_refl S1)) as [S0 S3]. tauto.
      + intros [S0 [S3 S4]]. destruct (proj2 K1 (conj S0 S3)) as [_ S1]. tauto.
    - exists (UErr e), st2. split.
      { exists (Nat.max N1 N2). intros n Hn. cbn [attempt]. rewrite R1 by lia. fold (attempt (f n)).
        rewrite R2 by lia. destruct o2; [reflexivity | reflexivity | congruence]. }
      split; [discriminate|]. split; [exact C2|]. split; [eapply below_trans; eassumption|].
      split; [congruence|]. split; [congruence|]. intros g. specialize (K1 g). cbn [fold_right].
      split; [intros [X _]; discriminate|]. intros [S0 [S1 _]]. destruct (proj2 K1 (conj S0 S1)) as [X _]. discriminate.
  Qed.

  Lemma fold_and {A} (P : A -> Prop) l : fold_right (fun c Q => P c /\ Q) True l <-> Forall P l.
  Proof.
    induction l as [|c l IH]; cbn [fold_right]; [split; constructor|]. rewrite IH. split.
    - intros [H K]. constructor; assumption.
    - intros H. inversion H; subst. split; assumption.
  Qed.

  Lemma constr_finishes : forall c, fo_constr c -> forall st, good V st ->
    finishes V (fun n => solve_constr n c) st (fun g => satisfies g c).
  Proof.
    fix IH 1. intros [t1 t2|r1 r2|cs] F st G.
    - apply unify_finishes; [exact G | apply F | apply F].
    - destruct F.
    - apply (fin_attempt (fun n c => solve_constr n c) (fun c g => satisfies g c)); [|exact G].
      cbn [fo_constr] in F. clear st G. revert F. induction cs as [|c cs IHcs]; intros F; constructor.
      + intros st G. apply (IH c (proj1 F) st G).
      + apply IHcs, F.
  Qed.
End Constraints.

(** The variables of a set of constraints. *)
Fixpoint constr_vars (c : constr) : list nat :=
  match c with
  | CType t1 t2 => univars t1 ++ univars t2
  | CRow _ _ => []
  | CAnd cs => flat_map constr_vars cs
  end.

Lemma fo_constr_of V : forall c, first_order_constr c -> incl (constr_vars c) V -> fo_constr V c.
Proof.
  fix IH 1. intros [t1 t2|r1 r2|cs] F I.
  - destruct F as [F1 F2]. cbn [constr_vars] in I. split; apply fo_first_order; auto; intros v Hv; apply I, in_or_app; auto.
  - destruct F.
  - cbn [fo_constr first_order_constr constr_vars] in *. revert F I. induction cs as [|c cs IHcs]; intros F I; [exact Logic.I|].
    cbn [fold_right flat_map] in *. split.
    + apply IH; [apply F|]. intros v Hv. apply I, in_or_app. left. exact Hv.
    + apply IHcs; [apply F|]. intros v Hv. apply I, in_or_app. right. exact Hv.
Qed.

Definition binding_vars (ts : type_subst) : list nat := flat_map (fun p => univars (snd p)) ts.
Lemma tget_In ts v t : tget ts v = Some t -> In (v, t) ts.
Proof.
  induction ts as [|[k u] ts IH]; [discriminate|]. unfold tget. cbn [mget]. destruct (Nat.eqb v k) eqn:E.
  - intros H. injection H as ->. apply Nat.eqb_eq in E. subst. left. reflexivity.
  - intros H. right. apply IH, H.
Qed.

Lemma fo_only P t : fo P t -> first_order t.
Proof.
  induction t as [p|i|s i|i|d n args IH|ps r e c IHp IHr IHe|xs IH|c xs IHc IH|a r e IHa IHr IHe|] using ty_induct;
    intros F; try exact F; try exact I.
  - apply fo_named in F. cbn [first_order]. apply first_order_all. revert F. apply Forall_mp, IH.
  - apply fo_func in F as [A [B C]]. cbn [first_order]. rewrite first_order_all. split; [revert A; apply Forall_mp, IHp | split; [apply IHr, B | exact C]].
  - apply fo_tuple in F. cbn [first_order]. apply first_order_all. revert F. apply Forall_mp, IH.
  - apply fo_app in F as [A B]. cbn [first_order]. rewrite first_order_all. split; [apply IHc, A | revert B; apply Forall_mp, IH].
  - apply fo_cont in F as [A [B C]]. split; [apply IHa, A | split; [apply IHr, B | exact C]].
Qed.

Lemma solve_first_order_ok st cs :
  acyclic (u_ts st) -> (forall v t, tget (u_ts st) v = Some t -> first_order t) ->
  first_order_constr (CAnd cs) ->
  exists o st' N, (forall n, N <= n -> solve n cs st = (o, st')) /\ o <> Out /\
    acyclic (u_ts st') /\ (forall v t, tget (u_ts st') v = Some t -> first_order t) /\
    u_rs st' = u_rs st /\
    (forall f, (o = UOk tt /\ solves_bindings f (u_ts st')) <-> (solves_bindings f (u_ts st) /\ satisfies f (CAnd cs))).
Proof.
  intros A B F. set (V := constr_vars (CAnd cs) ++ binding_vars (u_ts st)).
  set (st0 := mkU (u_ts st) (u_rs st) (fold_left reserve_constr cs (u_next st)) (u_log st)).
  assert (G : good V st0).
  { constructor; [|exact A]. intros v t H. apply fo_first_order; [apply (B v t H)|]. intros w Hw.
    apply in_or_app. right. apply in_flat_map. exists (v, t). split; [apply tget_In, H | exact Hw]. }
  assert (K : fo_constr V (CAnd cs)).
  { apply fo_constr_of; [exact F|]. intros v Hv. apply in_or_app. left. exact Hv. }
  destruct (constr_finishes V (CAnd cs) K st0 G) as [o [st' ([N R] & B1 & C1 & D1 & F1 & G1 & K1)]].
  exists o, st', N. split; [exact R|]. split; [exact B1|]. split; [apply (g_acyclic _ _ C1)|].
  split; [intros v t H; apply (fo_only _ _ (g_fo _ _ C1 v t H))|]. split; [exact F1|]. exact K1.
Qed.

(** ** The substitution that an acyclic state stands for *)

Lemma acyclic_uniform ts : acyclic ts -> exists N, forall v, exists r, tapply N ts [] (TUni v) = Some r.
Proof.
  intros A.
  assert (L : forall l : list nat, exists N, forall v, In v l -> exists r, tapply N ts [] (TUni v) = Some r).
  { induction l as [|v l [N H]]; [exists 0; intros v []|]. destruct (A (TUni v)) as [n [r E]].
    exists (Nat.max N n). intros w [<-|Hw].
    - exists r. apply (tapply_mono _ _ n); [lia | exact E].
    - destruct (H w Hw) as [r' E']. exists r'. apply (tapply_mono _ _ N); [lia | exact E']. }
  destruct (L (List.map fst ts)) as [N H]. exists (S N). intros v. destruct (tget ts v) as [t|] eqn:E.
  - destruct (H v) as [r R]; [apply in_map_iff; exists (v, t); split; [reflexivity | apply tget_In, E]|].
    exists r. apply tapply_step, R.
  - exists (TUni v). cbn [tapply]. rewrite E. reflexivity.
Qed.

Definition resolved (ts : type_subst) (N : nat) (v : nat) : ty :=
  match tapply N ts [] (TUni v) with Some r => r | None => TError end.

Lemma tapply_resolved ts N : (forall v, exists r, tapply N ts [] (TUni v) = Some r) ->
  forall n t r, tapply n ts [] t = Some r -> r = fill (resolved ts N) t.
Proof.
  intros H. induction n as [|n IH]; intros t r E; [discriminate|].
  assert (L : forall l l', otraverse (tapply n ts []) l = Some l' -> l' = List.map (fill (resolved ts N)) l).
  { intros l l' K. apply otraverse_some in K. induction K as [|x y l l' Hx _ IHl]; [reflexivity|].
    cbn [List.map]. rewrite (IH _ _ Hx), IHl. reflexivity. }
  assert (L' : forall e e', omap_row (tapply n ts []) (rapply [] e) = Some e' -> e' = (List.map (fill_eff (resolved ts N)) (fst e), snd e)).
  { intros e e' K. rewrite rapply_none in K. apply (proj1 (omap_row_some _ _ _)) in K as [T K].
    destruct e' as [es' tl']. cbn [fst snd] in *. subst tl'. f_equal. induction K as [|x y l l' [A B] _ IHl]; [reflexivity|].
    cbn [List.map]. rewrite IHl. destruct y as [a ys]. cbn [fst snd] in *. subst a.
    apply otraverse_some, L in B. subst ys. reflexivity. }
  destruct t as [p|i|sc i|w|d nm args|ps q e c|xs|c xs|a q e|].
  4:{ destruct (H w) as [r' R']. cbn [fill]. unfold resolved. rewrite R'.
      apply (tapply_mono _ _ _ (Nat.max N (S n))) in E; [|lia]. apply (tapply_mono _ _ _ (Nat.max N (S n))) in R'; [|lia]. congruence. }
  all: cbn [tapply] in E; cbv zeta in E.
  - injection E as <-. reflexivity.
  - injection E as <-. reflexivity.
  - injection E as <-. reflexivity.
  - apply obind_some in E as [l' [E1 E]]. injection E as <-. rewrite (L _ _ E1). reflexivity.
  - apply obind_some in E as [l' [E1 E]]. apply obind_some in E as [q' [E2 E]]. apply obind_some in E as [e' [E3 E]].
    injection E as <-. rewrite fill_func, (L _ _ E1), (IH _ _ E2), (L' _ _ E3). reflexivity.
  - apply obind_some in E as [l' [E1 E]]. injection E as <-. rewrite (L _ _ E1). reflexivity.
  - apply obind_some in E as [c' [E2 E]]. apply obind_some in E as [l' [E1 E]]. injection E as <-.
    rewrite (L _ _ E1), (IH _ _ E2). reflexivity.
  - apply obind_some in E as [a' [E1 E]]. apply obind_some in E as [q' [E2 E]]. apply obind_some in E as [e' [E3 E]].
    injection E as <-. rewrite fill_cont, (IH _ _ E1), (IH _ _ E2), (L' _ _ E3). reflexivity.
  - injection E as <-. reflexivity.
Qed.

Lemma resolved_solves ts : acyclic ts -> exists f N,
  (forall v n, N <= n -> tapply n ts [] (TUni v) = Some (f v)) /\ solves_bindings f ts.
Proof.
  intros A. destruct (acyclic_uniform ts A) as [N H]. exists (resolved ts N), N. split.
  - intros v n Hn. destruct (H v) as [r R]. unfold resolved. rewrite R. apply (tapply_mono _ _ N); assumption.
  - intros v t E. unfold unifies, same_type. f_equal. cbn [fill]. destruct (A t) as [n [r R]].
    rewrite <- (tapply_resolved ts N H n t r R).
    assert (R' : tapply (S n) ts [] (TUni v) = Some r) by (cbn [tapply]; rewrite E; exact R).
    symmetry. apply (tapply_resolved ts N H _ _ _ R').
Qed.

Lemma acyclic_vars ts : (exists f N, forall v, tapply N ts [] (TUni v) = Some (f v)) -> acyclic ts.
Proof.
  intros [f [N H]] t.
  enough (X : exists n, tapply n ts [] t = Some (fill f t)) by (destruct X as [n E]; exists n, (fill f t); exact E).
  assert (L : forall l, Forall (fun x => exists n, tapply n ts [] x = Some (fill f x)) l ->
    exists n, Forall (fun x => tapply n ts [] x = Some (fill f x)) l).
  { induction 1 as [|x l [n E] _ [m IH]]; [exists 0; constructor|]. exists (Nat.max n m). constructor.
    - apply (tapply_mono _ _ n); [lia | exact E].
    - revert IH. apply Forall_impl. intros y. apply tapply_mono. lia. }
  induction t as [p|i|s i|i|d nm args IH|ps r e c IHp IHr IHe|xs IH|c xs IHc IH|a r e IHa IHr IHe|] using ty_induct.
  - exists 1. reflexivity.
  - exists 1. reflexivity.
  - exists 1. reflexivity.
  - exists N. apply H.
  - destruct (L _ IH) as [n E]. exists (S n). cbn [tapply]. rewrite (otraverse_map _ _ _ E). reflexivity.
  - destruct (L _ IHp) as [n1 E1]. destruct IHr as [n2 E2].
    assert (L3 : exists n, Forall (fun e : effect => Forall (fun x => tapply n ts [] x = Some (fill f x)) (snd e)) (fst e)).
    { clear -IHe L. induction IHe as [|x l K _ [m IH]]; [exists 0; constructor|]. destruct (L _ K) as [n E].
      exists (Nat.max n m). constructor.
      - revert E. apply Forall_impl. intros y. apply tapply_mono. lia.
      - revert IH. apply Forall_impl. intros y. apply Forall_impl. intros z. apply tapply_mono. lia. }
    destruct L3 as [n3 E3]. set (n := Nat.max n1 (Nat.max n2 n3)). exists (S n). rewrite fill_func. cbn [tapply].
    rewrite rapply_none, (omap_row_map _ f), (otraverse_map _ (fill f)), (tapply_mono _ _ n2 n r ltac:(lia) _ E2); [reflexivity | |].
    + revert E1. apply Forall_impl. intros y. apply tapply_mono. lia.
    + revert E3. apply Forall_impl. intros y. apply Forall_impl. intros z. apply tapply_mono. lia.
  - destruct (L _ IH) as [n E]. exists (S n). cbn [tapply]. rewrite (otraverse_map _ _ _ E). reflexivity.
  - destruct (L _ IH) as [n1 E1]. destruct IHc as [n2 E2]. set (n := Nat.max n1 n2). exists (S n). cbn [tapply fill].
    rewrite (otraverse_map _ (fill f)), (tapply_mono _ _ n2 n c ltac:(lia) _ E2); [reflexivity|].
    revert E1. apply Forall_impl. intros y. apply tapply_mono. lia.
  - destruct IHa as [n1 E1]. destruct IHr as [n2 E2].
    assert (L3 : exists n, Forall (fun e : effect => Forall (fun x => tapply n ts [] x = Some (fill f x)) (snd e)) (fst e)).
    { clear -IHe L. induction IHe as [|x l K _ [m IH]]; [exists 0; constructor|]. destruct (L _ K) as [n E].
      exists (Nat.max n m). constructor.
      - revert E. apply Forall_impl. intros y. apply tapply_mono. lia.
      - revert IH. apply Forall_impl. intros y. apply Forall_impl. intros z. apply tapply_mono. lia. }
    destruct L3 as [n3 E3]. set (n := Nat.max n1 (Nat.max n2 n3)). exists (S n). rewrite fill_cont. cbn [tapply].
    rewrite rapply_none, (omap_row_map _ f), (tapply_mono _ _ n1 n a ltac:(lia) _ E1), (tapply_mono _ _ n2 n r ltac:(lia) _ E2); [reflexivity|].
    revert E3. apply Forall_impl. intros y. apply Forall_impl. intros z. apply tapply_mono. lia.
  - exists 1. reflexivity.
Qed.

Lemma solve_from_scratch cs : first_order_constr (CAnd cs) ->
  exists N,
    (exists st' f, (forall n, N <= n -> solve n cs new_solver = (UOk tt, st')) /\
      (forall n v, N <= n -> tapply n (u_ts st') (u_rs st') (TUni v) = Some (f v)) /\ most_general f cs) \/
    (exists e st', (forall n, N <= n -> solve n cs new_solver = (UErr e, st')) /\ forall g, ~ satisfies g (CAnd cs)).
Proof.
  intros F.
  assert (A : acyclic (u_ts new_solver)) by (apply acyclic_vars; exists TUni, 1; reflexivity).
  destruct (solve_first_order_ok new_solver cs A ltac:(discriminate) F) as [o [st' [N (R & B & C & D & RS & K)]]].
  assert (Z : forall g, solves_bindings g (u_ts new_solver)) by (intros g v t E; discriminate).
  destruct o as [[]|e|]; [| |congruence].
  - destruct (resolved_solves _ C) as [f [M [E Sf]]]. exists (Nat.max N M). left. exists st', f.
    split; [intros n Hn; apply R; lia|]. split; [intros n v Hn; rewrite RS; apply E; lia|]. split.
    + apply (proj1 (K f) (conj eq_refl Sf)).
    + intros g Hg v. destruct (proj2 (K g) (conj (Z g) Hg)) as [_ Sg].
      apply (tapply_same (fun _ => True) (u_ts st') (fun v t H => fo_first_order _ t (D v t H) (fun _ _ => I)) g Sg M (TUni v) (f v) (E v M (le_n M)) I).
  - exists N. right. exists e, st'. split; [exact R|]. intros g Hg. destruct (proj2 (K g) (conj (Z g) Hg)) as [X _]. discriminate.
Qed.
