From Coq Require Import Permutation.
From Verif Require Import InternModel InternSpec InternProofs.
From Verif Require Export SubstModel SubstSpec TyProofs EffectRowProofs.

(** * Lists of results *)
Lemma Forall2_impl {A B} (P Q : A -> B -> Prop) l l' :
  (forall x y, P x y -> Q x y) -> Forall2 P l l' -> Forall2 Q l l'.
Proof. intros I. induction 1; constructor; auto. Qed.

Lemma straverse_ok {A B} (f : A -> sres B) g l :
  Forall (fun x => f x = SOk (g x)) l -> straverse f l = SOk (List.map g l).
Proof. induction 1 as [|x l E _ IH]; [reflexivity|]. cbn. rewrite E. cbn. rewrite IH. reflexivity. Qed.

Lemma otraverse_some {A B} (f : A -> option B) l l' :
  otraverse f l = Some l' <-> Forall2 (fun x y => f x = Some y) l l'.
Proof.
  revert l'. induction l as [|x l IH]; intros l'; cbn.
  - split; [intros E; injection E as <-; constructor | intros H; inversion H; reflexivity].
  - split.
    + destruct (f x) as [y|] eqn:E; [|discriminate]. cbn.
      destruct (otraverse f l) as [ys|] eqn:G; [|discriminate]. cbn. intros Q. injection Q as <-.
      constructor; [exact E | apply IH; reflexivity].
    + intros H. inversion H as [|? y ? ys E G]; subst. rewrite E. cbn.
      apply IH in G. rewrite G. reflexivity.
Qed.

Lemma obind_some {A B} (x : option A) (f : A -> option B) b :
  obind x f = Some b <-> exists a, x = Some a /\ f a = Some b.
Proof.
  destruct x as [a|]; cbn; split.
  - intros H. exists a. auto.
  - intros [a' [E H]]. injection E as <-. exact H.
  - discriminate.
  - intros [a [E _]]. discriminate.
Qed.

Lemma omap_row_some f r r' : omap_row f r = Some r' <->
  snd r' = snd r /\
  Forall2 (fun e e' => fst e' = fst e /\ Forall2 (fun x y => f x = Some y) (snd e) (snd e')) (fst r) (fst r').
Proof.
  unfold omap_row. rewrite obind_some. split.
  - intros [es [E Q]]. injection Q as <-. cbn [fst snd]. split; [reflexivity|].
    apply otraverse_some in E. revert E. apply Forall2_impl. intros e e' H.
    apply obind_some in H as [ys [H Q]]. injection Q as <-. cbn. split; [reflexivity|].
    apply otraverse_some. exact H.
  - intros [T H]. exists (fst r'). split; [|destruct r'; cbn in *; subst; reflexivity].
    apply otraverse_some. revert H. apply Forall2_impl. intros e e' [A H].
    apply obind_some. exists (snd e'). split; [apply otraverse_some; exact H|].
    destruct e'; cbn in *; subst; reflexivity.
Qed.

(** * Bound variables *)
Notation row_plug f e :=
  (List.map (fun e0 : ability * list ty => match e0 with (a, xs) => (a, List.map (plug f) xs) end) (fst e), snd e).

Lemma flat_map_forall {A} (f : A -> list nat) (P : nat -> Prop) l :
  Forall P (flat_map f l) <-> Forall (fun x => Forall P (f x)) l.
Proof.
  induction l as [|x l IH]; cbn.
  - split; constructor.
  - rewrite Forall_app, IH. split.
    + intros [A1 A2]. constructor; assumption.
    + intros H. inversion H. auto.
Qed.

Definition subst_row (s : list ty) (e : row) : sres row :=
  match e with
  | (es, tail) =>
      sbind (straverse (fun e : effect => match e with
                                 | (a, xs) => sbind (straverse (fun x => or_panic (subst_bound s x)) xs)
                                                    (fun ys => SOk (a, ys))
                                 end) es)
            (fun es' => SOk (es', tail))
  end.

Lemma subst_func s ps r e c : subst_bound s (TFunc ps r e c) =
  sbind (straverse (subst_bound s) ps) (fun ps' =>
  sbind (subst_bound s r) (fun r' =>
  sbind (subst_row s e) (fun e' => SOk (TFunc ps' r' e' c)))).
Proof. reflexivity. Qed.

Lemma subst_cont s a r e : subst_bound s (TCont a r e) =
  sbind (subst_bound s a) (fun a' =>
  sbind (subst_bound s r) (fun r' =>
  sbind (subst_row s e) (fun e' => SOk (TCont a' r' e')))).
Proof. reflexivity. Qed.

Definition pick (s : list ty) (i : nat) : ty := nth i s TError.

Lemma subst_bound_ok s t : Forall (fun i => i < List.length s) (bounds t) ->
  subst_bound s t = SOk (plug (pick s) t).
Proof.
  assert (L : forall l, Forall (fun t => Forall (fun i => i < List.length s) (bounds t) ->
      subst_bound s t = SOk (plug (pick s) t)) l ->
    Forall (fun i => i < List.length s) (flat_map bounds l) ->
    straverse (subst_bound s) l = SOk (List.map (plug (pick s)) l)).
  { intros l H B. apply straverse_ok. apply flat_map_forall in B.
    rewrite Forall_forall in *. intros x Hx. apply H; auto. }
  assert (R : forall e : row, Forall (fun e => Forall (fun t => Forall (fun i => i < List.length s) (bounds t) ->
      subst_bound s t = SOk (plug (pick s) t)) (snd e)) (fst e) ->
    Forall (fun i => i < List.length s)
      (flat_map (fun e => match e with (_, xs) => flat_map bounds xs end) (fst e) ++ []) ->
    subst_row s e = SOk (row_plug (pick s) e)).
  { intros [es tl] H B. unfold subst_row. cbn [fst snd] in *. rewrite app_nil_r in B.
    rewrite (straverse_ok _ (fun e : effect => match e with (a, xs) => (a, List.map (plug (pick s)) xs) end)).
    - reflexivity.
    - apply flat_map_forall in B. rewrite Forall_forall in *. intros [a xs] Hx.
      specialize (H _ Hx). specialize (B _ Hx). cbn in H, B.
      rewrite (straverse_ok _ (plug (pick s))); [reflexivity|].
      apply flat_map_forall in B. rewrite Forall_forall in *. intros x Hi.
      rewrite (H x Hi) by (apply B; exact Hi). reflexivity. }
  induction t as [p|i|sc i|i|d n args IH|ps r e c IHp IHr IHe|xs IH|c xs IHc IH|a r e IHa IHr IHe|] using ty_induct;
    intros B; try reflexivity.
  - cbn in B. inversion B; subst. cbn. unfold pick.
    rewrite (nth_error_nth' s TError) by assumption. reflexivity.
  - cbn [subst_bound plug]. rewrite (L args IH B). reflexivity.
  - unfold bounds in B. cbn [occurrences] in B. fold bounds in B.
    apply Forall_app in B as [B1 B2]. apply Forall_app in B2 as [B2 B3].
    rewrite subst_func. cbn [plug]. rewrite (L ps IHp B1). cbn [sbind]. rewrite (IHr B2). cbn [sbind].
    rewrite (R e IHe B3). reflexivity.
  - cbn [subst_bound plug]. rewrite (L xs IH B). reflexivity.
  - unfold bounds in B. cbn [occurrences] in B. fold bounds in B. apply Forall_app in B as [B1 B2].
    cbn [subst_bound plug]. rewrite (IHc B1). cbn [sbind]. rewrite (L xs IH B2). reflexivity.
  - unfold bounds in B. cbn [occurrences] in B. fold bounds in B.
    apply Forall_app in B as [B1 B2]. apply Forall_app in B2 as [B2 B3].
    rewrite subst_cont. cbn [plug]. rewrite (IHa B1). cbn [sbind]. rewrite (IHr B2). cbn [sbind].
    rewrite (R e IHe B3). reflexivity.
Qed.

(** Any failure names an index that occurs and is out of range. *)
Definition blames (s : list ty) (is : list nat) {A} (x : sres A) : Prop :=
  match x with
  | SOk _ => True
  | SOut i m | SPanic i m => In i is /\ List.length s <= i /\ m = List.length s
  end.

Lemma blames_incl s is js {A} (x : sres A) : incl is js -> blames s is x -> blames s js x.
Proof. intros I. destruct x; cbn; auto; intros [H1 H2]; split; auto. Qed.

Lemma blames_bind s is {A B} (x : sres A) (f : A -> sres B) :
  blames s is x -> (forall a, x = SOk a -> blames s is (f a)) -> blames s is (sbind x f).
Proof. destruct x; cbn; auto. Qed.

Lemma blames_traverse s {A B} (f : A -> sres B) (g : A -> list nat) l :
  Forall (fun x => blames s (g x) (f x)) l -> blames s (flat_map g l) (straverse f l).
Proof.
  induction 1 as [|x l E _ IH]; [exact I|]. cbn. apply blames_bind.
  - eapply blames_incl; [|exact E]. intros i Hi. apply in_or_app. left. exact Hi.
  - intros y _. apply blames_bind; [|intros; exact I].
    eapply blames_incl; [|exact IH]. intros i Hi. apply in_or_app. right. exact Hi.
Qed.

Lemma blames_panic s is {A} (x : sres A) : blames s is x -> blames s is (or_panic x).
Proof. destruct x; auto. Qed.

Lemma subst_bound_blames s t : blames s (bounds t) (subst_bound s t).
Proof.
  assert (R : forall e : row, Forall (fun e => Forall (fun t => blames s (bounds t) (subst_bound s t)) (snd e)) (fst e) ->
    blames s (flat_map (fun e => match e with (_, xs) => flat_map bounds xs end) (fst e) ++ [])
    (subst_row s e)).
  { intros [es tl] H. unfold subst_row. cbn [fst] in *. rewrite app_nil_r. apply blames_bind; [|intros; exact I].
    apply blames_traverse. rewrite Forall_forall in *. intros [a xs] Hx. specialize (H _ Hx). cbn in H.
    apply blames_bind; [|intros; exact I]. apply blames_traverse.
    rewrite Forall_forall in *. intros x Hi. apply blames_panic. apply H. exact Hi. }
  induction t as [p|i|sc i|i|d n args IH|ps r e c IHp IHr IHe|xs IH|c xs IHc IH|a r e IHa IHr IHe|] using ty_induct;
    try exact I.
  - cbn. destruct (nth_error s i) eqn:E; [exact I|]. apply nth_error_None in E. cbn. auto.
  - cbn [subst_bound]. apply blames_bind; [|intros; exact I]. apply blames_traverse. exact IH.
  - rewrite subst_func. unfold bounds. cbn [occurrences]. fold bounds.
    apply blames_bind; [|intros ps' _; apply blames_bind; [|intros r' _; apply blames_bind; [|intros; exact I]]].
    + eapply blames_incl; [|apply blames_traverse; exact IHp]. intros i Hi. apply in_or_app. left. exact Hi.
    + eapply blames_incl; [|exact IHr]. intros i Hi. apply in_or_app. right. apply in_or_app. left. exact Hi.
    + eapply blames_incl; [|apply R; exact IHe]. intros i Hi. apply in_or_app. right. apply in_or_app. right. exact Hi.
  - cbn [subst_bound]. apply blames_bind; [|intros; exact I]. apply blames_traverse. exact IH.
  - cbn [subst_bound]. unfold bounds. cbn [occurrences]. fold bounds.
    apply blames_bind; [|intros c' _; apply blames_bind; [|intros; exact I]].
    + eapply blames_incl; [|exact IHc]. intros i Hi. apply in_or_app. left. exact Hi.
    + eapply blames_incl; [|apply blames_traverse; exact IH]. intros i Hi. apply in_or_app. right. exact Hi.
  - rewrite subst_cont. unfold bounds. cbn [occurrences]. fold bounds.
    apply blames_bind; [|intros ps' _; apply blames_bind; [|intros r' _; apply blames_bind; [|intros; exact I]]].
    + eapply blames_incl; [|exact IHa]. intros i Hi. apply in_or_app. left. exact Hi.
    + eapply blames_incl; [|exact IHr]. intros i Hi. apply in_or_app. right. apply in_or_app. left. exact Hi.
    + eapply blames_incl; [|apply R; exact IHe]. intros i Hi. apply in_or_app. right. apply in_or_app. right. exact Hi.
Qed.

(** Success requires all indices in range: substitution looks at every occurrence. *)
Lemma straverse_inv {A B} (f : A -> sres B) l l' : straverse f l = SOk l' -> Forall (fun x => exists y, f x = SOk y) l.
Proof.
  revert l'. induction l as [|x l IH]; intros l' H; [constructor|]. cbn in H.
  destruct (f x) as [y| |] eqn:E; try discriminate. cbn in H.
  destruct (straverse f l) as [ys| |] eqn:G; try discriminate. constructor; eauto.
Qed.

Lemma sbind_ok {A B} (x : sres A) (f : A -> sres B) b : sbind x f = SOk b -> exists a, x = SOk a /\ f a = SOk b.
Proof. destruct x; try discriminate. cbn. eauto. Qed.

Lemma subst_bound_inv s t t' : subst_bound s t = SOk t' -> Forall (fun i => i < List.length s) (bounds t).
Proof.
  assert (L : forall l l', Forall (fun t => forall t', subst_bound s t = SOk t' -> Forall (fun i => i < List.length s) (bounds t)) l ->
    straverse (subst_bound s) l = SOk l' -> Forall (fun i => i < List.length s) (flat_map bounds l)).
  { intros l l' H E. apply straverse_inv in E. apply flat_map_forall. rewrite Forall_forall in *.
    intros x Hx. destruct (E x Hx) as [y Ey]. eapply H; eauto. }
  assert (R : forall (e : row) e', Forall (fun e => Forall (fun t => forall t', subst_bound s t = SOk t' -> Forall (fun i => i < List.length s) (bounds t)) (snd e)) (fst e) ->
    subst_row s e = SOk e' ->
    Forall (fun i => i < List.length s) (flat_map (fun e => match e with (_, xs) => flat_map bounds xs end) (fst e) ++ [])).
  { intros [es tl] e' H E. cbn [fst] in *. rewrite app_nil_r. apply sbind_ok in E as [es' [E _]].
    apply straverse_inv in E. apply flat_map_forall. rewrite Forall_forall in *. intros [a xs] Hx.
    specialize (H _ Hx). cbn in H. destruct (E _ Hx) as [y Ey]. apply sbind_ok in Ey as [ys [Ey _]].
    apply straverse_inv in Ey. apply flat_map_forall. rewrite Forall_forall in *. intros x Hi.
    destruct (Ey x Hi) as [z Ez]. destruct (subst_bound s x) eqn:Q; try discriminate. eapply H; eauto. }
  revert t'.
  induction t as [p|i|sc i|i|d n args IH|ps r e c IHp IHr IHe|xs IH|c xs IHc IH|a r e IHa IHr IHe|] using ty_induct;
    intros t' E; try (constructor; fail).
  - cbn in E. destruct (nth_error s i) eqn:Q; [|discriminate]. constructor; [|constructor].
    apply nth_error_Some. congruence.
  - cbn [subst_bound] in E. apply sbind_ok in E as [l' [E _]]. eapply L; eauto.
  - rewrite subst_func in E. apply sbind_ok in E as [l' [E1 E]]. apply sbind_ok in E as [r' [E2 E]].
    apply sbind_ok in E as [e' [E3 E]]. unfold bounds. cbn [occurrences]. fold bounds.
    apply Forall_app. split; [eapply L; eauto|]. apply Forall_app. split; [eapply IHr; eauto | eapply R; eauto].
  - cbn [subst_bound] in E. apply sbind_ok in E as [l' [E _]]. eapply L; eauto.
  - cbn [subst_bound] in E. apply sbind_ok in E as [c' [E1 E]]. apply sbind_ok in E as [l' [E2 E]].
    unfold bounds. cbn [occurrences]. fold bounds. apply Forall_app. split; [eapply IHc; eauto | eapply L; eauto].
  - rewrite subst_cont in E. apply sbind_ok in E as [a' [E1 E]]. apply sbind_ok in E as [r' [E2 E]].
    apply sbind_ok in E as [e' [E3 E]]. unfold bounds. cbn [occurrences]. fold bounds.
    apply Forall_app. split; [eapply IHa; eauto|]. apply Forall_app. split; [eapply IHr; eauto | eapply R; eauto].
Qed.

Lemma subst_bound_exact s t :
  (Forall (fun i => i < List.length s) (bounds t) /\ subst_bound s t = SOk (plug (pick s) t)) \/
  (exists i, In i (bounds t) /\ List.length s <= i /\
     (subst_bound s t = SOut i (List.length s) \/ subst_bound s t = SPanic i (List.length s))).
Proof.
  pose proof (subst_bound_blames s t) as B. destruct (subst_bound s t) as [t'|i m|i m] eqn:E.
  - left. pose proof (subst_bound_inv s t t' E) as H. split; [exact H|].
    rewrite <- E. apply subst_bound_ok. exact H.
  - right. cbn in B. destruct B as [H1 [H2 ->]]. exists i. auto.
  - right. cbn in B. destruct B as [H1 [H2 ->]]. exists i. auto.
Qed.

(** * Fresh row variables *)
Definition ren (m : list (nat * nat)) (v : nat) : nat := match mget Nat.eqb m v with Some w => w | None => v end.
Definition extends (m m' : list (nat * nat)) : Prop := forall v w, mget Nat.eqb m v = Some w -> mget Nat.eqb m' v = Some w.

Definition finv (q : list nat) (n0 : nat) (st : fresh_state) : Prop :=
  n0 <= fst st /\
  (forall v w, mget Nat.eqb (snd st) v = Some w -> In v q /\ n0 <= w < fst st) /\
  (forall v v' w, mget Nat.eqb (snd st) v = Some w -> mget Nat.eqb (snd st) v' = Some w -> v = v').

Definition good (q : list nat) (n0 : nat) {B} (occ : list nat) (out : (nat -> nat) -> B) (st : fresh_state)
    (p : B * fresh_state) : Prop :=
  finv q n0 st ->
  finv q n0 (snd p) /\ fst st <= fst (snd p) /\ extends (snd st) (snd (snd p)) /\
  (forall st', finv q n0 st' -> extends (snd (snd p)) (snd st') -> fst p = out (ren (snd st'))) /\
  (forall v, In v occ -> In v q -> mget Nat.eqb (snd (snd p)) v <> None) /\
  (forall v, mget Nat.eqb (snd (snd p)) v <> None -> mget Nat.eqb (snd st) v <> None \/ In v occ).

Section Fresh.
  Variables (q : list nat) (n0 : nat).
  Notation ok := (good q n0).

  Lemma good_done {B} (x : B) st : ok [] (fun _ => x) st (x, st).
  Proof.
    intros F. cbn. split; [exact F|]. split; [lia|]. split; [intros v w H; exact H|].
    split; [reflexivity|]. split; [intros v []|]. auto.
  Qed.

  Lemma good_pair {A B C} (g : A -> B -> C) o1 o2 f1 f2 st x st1 y st2 :
    ok o1 f1 st (x, st1) -> ok o2 f2 st1 (y, st2) ->
    ok (o1 ++ o2) (fun r => g (f1 r) (f2 r)) st (g x y, st2).
  Proof.
    intros H1 H2 F. destruct (H1 F) as (A1 & A2 & A3 & A4 & A5 & A6). cbn [fst snd] in *.
    destruct (H2 A1) as (B1 & B2 & B3 & B4 & B5 & B6). cbn [fst snd] in *.
    split; [exact B1|]. split; [lia|]. split; [intros v w H; apply B3, A3, H|].
    split.
    { intros st' F' E. rewrite <- (B4 st' F' E). rewrite <- (A4 st' F'); [reflexivity|].
      intros v w H. apply E, B3, H. }
    split.
    { intros v Hv Q. apply in_app_or in Hv as [Hv|Hv]; [|apply B5; assumption].
      specialize (A5 v Hv Q). destruct (mget Nat.eqb (snd st1) v) as [w|] eqn:E; [|congruence].
      rewrite (B3 v w E). discriminate. }
    intros v Hv. destruct (B6 v Hv) as [H|H]; [|right; apply in_or_app; right; exact H].
    destruct (A6 v H) as [G|G]; [left; exact G|]. right. apply in_or_app. left. exact G.
  Qed.

  Lemma good_map {A B} (g : A -> B) o f st x st1 : ok o f st (x, st1) -> ok o (fun r => g (f r)) st (g x, st1).
  Proof.
    intros H F. destruct (H F) as (A1 & A2 & A3 & A4 & A5 & A6). cbn [fst snd] in *.
    repeat (split; [assumption|]). split; [|split; assumption].
    intros st' F' E. rewrite (A4 st' F' E). reflexivity.
  Qed.

  Lemma good_smap {A B} (f : A -> fresh_state -> B * fresh_state) occ out l :
    Forall (fun x => forall st, ok (occ x) (fun r => out r x) st (f x st)) l ->
    forall st, ok (flat_map occ l) (fun r => List.map (out r) l) st (smap f l st).
  Proof.
    induction 1 as [|x l H _ IH]; intros st.
    - apply good_done.
    - cbn. specialize (H st). destruct (f x st) as [y st1]. specialize (IH st1).
      fold (smap f) in *. destruct (smap f l st1) as [ys st2].
      exact (good_pair cons _ _ _ _ _ _ _ _ _ H IH).
  Qed.

  Lemma good_tail tl st : ok (opt_list tl) (fun r => option_map r tl) st (freshen_tail q tl st).
  Proof.
    destruct tl as [v|]; [|apply good_done]. cbn. destruct (existsb (Nat.eqb v) q) eqn:E.
    - apply existsb_In in E. destruct st as [n m]. cbn [fst snd].
      destruct (mget Nat.eqb m v) as [w|] eqn:G; intros F; cbn [fst snd].
      + split; [exact F|]. split; [lia|]. split; [intros ? ? H; exact H|]. split.
        { intros st' F' X. cbn. unfold ren. rewrite (X v w G). reflexivity. }
        split; [intros u [<-|[]] _; congruence | auto].
      + destruct F as (F1 & F2 & F3). cbn [fst snd] in *. split.
        { split; [cbn; lia|]. cbn [fst snd]. split.
          - intros u w H. destruct (Nat.eq_dec v u) as [<-|N].
            + rewrite (mget_insert_same Nat.eqb nat_decides) in H. injection H as <-. split; [exact E | lia].
            + rewrite (mget_insert_other Nat.eqb nat_decides) in H by congruence.
              destruct (F2 u w H). split; [assumption | lia].
          - intros u u' w H H'. destruct (Nat.eq_dec v u) as [<-|N], (Nat.eq_dec v u') as [<-|N'].
            + reflexivity.
            + rewrite (mget_insert_same Nat.eqb nat_decides) in H. injection H as <-.
              rewrite (mget_insert_other Nat.eqb nat_decides) in H' by congruence.
              destruct (F2 _ _ H') as [_ ?]. lia.
            + rewrite (mget_insert_same Nat.eqb nat_decides) in H'. injection H' as <-.
              rewrite (mget_insert_other Nat.eqb nat_decides) in H by congruence.
              destruct (F2 _ _ H) as [_ ?]. lia.
            + rewrite (mget_insert_other Nat.eqb nat_decides) in H by congruence.
              rewrite (mget_insert_other Nat.eqb nat_decides) in H' by congruence. eauto. }
        split; [lia|]. split.
        { intros u w H. rewrite (mget_insert_other Nat.eqb nat_decides); [exact H | congruence]. }
        split.
        { intros st' F' X. cbn. unfold ren. rewrite (X v n); [reflexivity|].
          apply (mget_insert_same Nat.eqb nat_decides). }
        split.
        { intros u [<-|[]] _. rewrite (mget_insert_same Nat.eqb nat_decides). discriminate. }
        intros u H. destruct (Nat.eq_dec v u) as [<-|N]; [right; left; reflexivity|]. left.
        rewrite (mget_insert_other Nat.eqb nat_decides) in H by congruence. exact H.
    - assert (N : ~ In v q) by (intros H; apply existsb_In in H; congruence).
      intros F. cbn [fst snd]. split; [exact F|]. split; [lia|]. split; [intros ? ? H; exact H|]. split.
      { intros st' (F1 & F2 & F3) X. cbn. unfold ren.
        destruct (mget Nat.eqb (snd st') v) as [w|] eqn:G; [|reflexivity].
        destruct (F2 v w G) as [H _]. contradiction. }
      split; [|auto]. intros u [<-|[]] H. contradiction.
  Qed.

  Definition freshen_row (r : row) (st : fresh_state) : row * fresh_state :=
    match r with
    | (es, tail) =>
        let (es', st) := smap (fun (e : effect) st => match e with
                                           | (a, xs) => let (ys, st) := smap (freshen q) xs st in ((a, ys), st)
                                           end) es st in
        let (tail', st) := freshen_tail q tail st in
        ((es', tail'), st)
    end.
  Definition retail_row (f : nat -> nat) (r : row) : row :=
    (List.map (fun e : effect => match e with (a, xs) => (a, List.map (retail f) xs) end) (fst r),
     option_map f (snd r)).
  Definition row_tails (r : row) : list nat :=
    flat_map (fun e : effect => match e with (_, xs) => flat_map tails xs end) (fst r) ++ opt_list (snd r).

  Lemma good_row (e : row) :
    Forall (fun e => Forall (fun t => forall st, ok (tails t) (fun r => retail r t) st (freshen q t st)) (snd e)) (fst e) ->
    forall st, ok (row_tails e) (fun r => retail_row r e) st (freshen_row e st).
  Proof.
    destruct e as [es tl]. intros H st. unfold freshen_row, row_tails, retail_row. cbn [fst snd] in *.
    assert (G := good_smap (fun (e : effect) st => match e with
                                           | (a, xs) => let (ys, st) := smap (freshen q) xs st in ((a, ys), st)
                                           end)
      (fun e : effect => match e with (_, xs) => flat_map tails xs end)
      (fun r (e : effect) => match e with (a, xs) => (a, List.map (retail r) xs) end) es).
    specialize (G ltac:(
      eapply Forall_impl; [|exact H]; intros [a xs] X st0; cbn [snd] in X;
      pose proof (good_smap (freshen q) tails (fun r x => retail r x) xs X st0) as Y;
      destruct (smap (freshen q) xs st0) as [ys st1];
      exact (good_map (fun ys => (a, ys)) _ _ _ _ _ Y)) st).
    destruct (smap _ es st) as [es' st1]. pose proof (good_tail tl st1) as T.
    destruct (freshen_tail q tl st1) as [tl' st2].
    exact (good_pair (fun a b => (a, b)) _ _ _ _ _ _ _ _ _ G T).
  Qed.

  Lemma good_freshen t : forall st, ok (tails t) (fun r => retail r t) st (freshen q t st).
  Proof.
    induction t as [p|i|sc i|i|d n args IH|ps r e c IHp IHr IHe|xs IH|c xs IHc IH|a r e IHa IHr IHe|] using ty_induct;
      intros st; try apply good_done.
    - cbn [freshen]. pose proof (good_smap (freshen q) tails (fun r x => retail r x) args IH st) as Y.
      destruct (smap (freshen q) args st) as [ys st1]. exact (good_map (TNamed d n) _ _ _ _ _ Y).
    - change (freshen q (TFunc ps r e c) st) with
        (let (ps', st) := smap (freshen q) ps st in
         let (r', st) := freshen q r st in
         let (e', st) := freshen_row e st in (TFunc ps' r' e' c, st)).
      pose proof (good_smap (freshen q) tails (fun r x => retail r x) ps IHp st) as Y.
      destruct (smap (freshen q) ps st) as [ys st1]. specialize (IHr st1).
      destruct (freshen q r st1) as [r' st2]. pose proof (good_row e IHe st2) as E.
      destruct (freshen_row e st2) as [e' st3].
      pose proof (good_pair (fun a b => (a, b)) _ _ _ _ _ _ _ _ _ IHr E) as P.
      exact (good_pair (fun ps p => TFunc ps (fst p) (snd p) c) _ _ _ _ _ _ _ _ _ Y P).
    - cbn [freshen]. pose proof (good_smap (freshen q) tails (fun r x => retail r x) xs IH st) as Y.
      destruct (smap (freshen q) xs st) as [ys st1]. exact (good_map TTuple _ _ _ _ _ Y).
    - cbn [freshen]. specialize (IHc st). destruct (freshen q c st) as [c' st1].
      pose proof (good_smap (freshen q) tails (fun r x => retail r x) xs IH st1) as Y.
      destruct (smap (freshen q) xs st1) as [ys st2]. exact (good_pair TApp _ _ _ _ _ _ _ _ _ IHc Y).
    - change (freshen q (TCont a r e) st) with
        (let (a', st) := freshen q a st in
         let (r', st) := freshen q r st in
         let (e', st) := freshen_row e st in (TCont a' r' e', st)).
      specialize (IHa st). destruct (freshen q a st) as [a' st1]. specialize (IHr st1).
      destruct (freshen q r st1) as [r' st2]. pose proof (good_row e IHe st2) as E.
      destruct (freshen_row e st2) as [e' st3].
      pose proof (good_pair (fun a b => (a, b)) _ _ _ _ _ _ _ _ _ IHr E) as P.
      exact (good_pair (fun a p => TCont a (fst p) (snd p)) _ _ _ _ _ _ _ _ _ IHa P).
  Qed.
End Fresh.

Lemma freshen_renames q t n t' n' m : freshen q t (n, []) = (t', (n', m)) ->
  exists f, t' = retail f t /\ n <= n' /\
    (forall v, ~ In v q -> f v = v) /\
    (forall v, In v q -> In v (tails t) -> n <= f v < n') /\
    (forall v w, In v q -> In w q -> In v (tails t) -> In w (tails t) -> f v = f w -> v = w).
Proof.
  intros E. pose proof (good_freshen q n t (n, [])) as G. rewrite E in G.
  destruct G as (A1 & A2 & A3 & A4 & A5 & A6).
  { split; [cbn; lia|]. split; intros; discriminate. }
  cbn [fst snd] in *. exists (ren m). destruct A1 as (I1 & I2 & I3). cbn [fst snd] in *.
  split; [apply (A4 (n', m)); [split; [exact I1 | split; assumption] | intros v w H; exact H]|].
  split; [exact A2|]. unfold ren. split; [|split].
  - intros v H. destruct (mget Nat.eqb m v) as [w|] eqn:G; [|reflexivity]. destruct (I2 v w G). contradiction.
  - intros v Q T. specialize (A5 v T Q). destruct (mget Nat.eqb m v) as [w|] eqn:G; [|congruence].
    apply (I2 v w G).
  - intros v w Qv Qw Tv Tw H. pose proof (A5 v Tv Qv). pose proof (A5 w Tw Qw).
    destruct (mget Nat.eqb m v) as [v'|] eqn:Gv; [|congruence].
    destruct (mget Nat.eqb m w) as [w'|] eqn:Gw; [|congruence]. subst w'. eapply I3; eassumption.
Qed.

(** * Instances of a scheme *)
Lemma fold_left_flat {A B C} (f : A -> B -> A) (g : C -> list B) l : forall acc,
  fold_left (fun a x => fold_left f (g x) a) l acc = fold_left f (flat_map g l) acc.
Proof. induction l as [|x l IH]; intros acc; [reflexivity|]. cbn. rewrite fold_left_app. apply IH. Qed.

Lemma fold_left_ext_Forall {A B} (f g : A -> B -> A) l : Forall (fun x => forall a, f a x = g a x) l ->
  forall acc, fold_left f l acc = fold_left g l acc.
Proof. induction 1 as [|x l E _ IH]; intros acc; [reflexivity|]. cbn. rewrite E. apply IH. Qed.

Lemma collect_tails_flat t : forall acc, collect_tails t acc = fold_left add_var (tails t) acc.
Proof.
  assert (L : forall l, Forall (fun t => forall acc, collect_tails t acc = fold_left add_var (tails t) acc) l ->
    forall acc, fold_left (fun acc x => collect_tails x acc) l acc = fold_left add_var (flat_map tails l) acc).
  { intros l H acc. rewrite <- fold_left_flat. apply fold_left_ext_Forall. eapply Forall_impl; [|exact H]. auto. }
  assert (R : forall (e : row), Forall (fun e => Forall (fun t => forall acc, collect_tails t acc = fold_left add_var (tails t) acc) (snd e)) (fst e) ->
    forall acc, (match e with
    | (es, tail) =>
        let acc := fold_left (fun acc (e : effect) => match e with
                                           | (_, xs) => fold_left (fun acc x => collect_tails x acc) xs acc
                                           end) es acc in
        match tail with
        | Some v => add_var acc v
        | None => acc
        end
    end) = fold_left add_var (row_tails e) acc).
  { intros [es tl] H acc. unfold row_tails. cbn [fst snd] in *. rewrite fold_left_app. cbv zeta.
    assert (Q : fold_left (fun acc (e : effect) => match e with
                                           | (_, xs) => fold_left (fun acc x => collect_tails x acc) xs acc
                                           end) es acc =
                fold_left add_var (flat_map (fun e : effect => let (_, xs) := e in flat_map tails xs) es) acc).
    { rewrite <- fold_left_flat. apply fold_left_ext_Forall. eapply Forall_impl; [|exact H].
      intros [a xs] X acc'. cbn in X. apply L. exact X. }
    rewrite Q. destruct tl; reflexivity. }
  induction t as [p|i|sc i|i|d n args IH|ps r e c IHp IHr IHe|xs IH|c xs IHc IH|a r e IHa IHr IHe|] using ty_induct;
    intros acc; try reflexivity.
  - apply (L args IH).
  - transitivity (fold_left add_var (row_tails e) (fold_left add_var (tails r) (fold_left add_var (flat_map tails ps) acc))).
    + rewrite <- R by exact IHe. rewrite <- IHr. rewrite <- L by exact IHp. reflexivity.
    + rewrite <- !fold_left_app. first [reflexivity | rewrite <- app_assoc; reflexivity].
  - apply (L xs IH).
  - cbn [collect_tails]. rewrite IHc, L by exact IH. rewrite <- fold_left_app. reflexivity.
  - transitivity (fold_left add_var (row_tails e) (fold_left add_var (tails r) (fold_left add_var (tails a) acc))).
    + rewrite <- R by exact IHe. rewrite <- IHr, <- IHa. reflexivity.
    + rewrite <- !fold_left_app. first [reflexivity | rewrite <- app_assoc; reflexivity].
Qed.

Lemma add_var_In acc v x : In x (add_var acc v) <-> In x acc \/ x = v.
Proof.
  unfold add_var. destruct (existsb (Nat.eqb v) acc) eqn:E.
  - apply existsb_In in E. split; [auto|]. intros [H| ->]; assumption.
  - rewrite in_app_iff. cbn. intuition.
Qed.

Lemma add_vars_In vs : forall acc x, In x (fold_left add_var vs acc) <-> In x acc \/ In x vs.
Proof.
  induction vs as [|v vs IH]; intros acc x; cbn; [intuition|]. rewrite IH, add_var_In. intuition.
Qed.

Lemma fold_max_le vs : forall n, n <= fold_left (fun n v => Nat.max n (S v)) vs n.
Proof. induction vs as [|v vs IH]; intros n; cbn [fold_left]; [lia|]. specialize (IH (Nat.max n (S v))). lia. Qed.

Lemma fold_max_in vs : forall n v, In v vs -> v < fold_left (fun n v => Nat.max n (S v)) vs n.
Proof.
  induction vs as [|w vs IH]; intros n v H; [destruct H|]. cbn [fold_left]. destruct H as [<-|H]; [|apply IH, H].
  pose proof (fold_max_le vs (Nat.max n (S w))). lia.
Qed.

Lemma reserve_spec next t : next <= reserve next t /\ (forall v, In v (tails t) -> v < reserve next t).
Proof.
  unfold reserve, collect_effect_vars. rewrite collect_tails_flat. split; [apply fold_max_le|].
  intros v H. apply fold_max_in. apply add_vars_In. right. exact H.
Qed.

Lemma plug_ext f g t : Forall (fun i => f i = g i) (bounds t) -> plug f t = plug g t.
Proof.
  assert (L : forall l, Forall (fun t => Forall (fun i => f i = g i) (bounds t) -> plug f t = plug g t) l ->
    Forall (fun i => f i = g i) (flat_map bounds l) -> List.map (plug f) l = List.map (plug g) l).
  { intros l H B. apply flat_map_forall in B. apply map_ext_in. rewrite Forall_forall in *. auto. }
  assert (R : forall e : row, Forall (fun e => Forall (fun t => Forall (fun i => f i = g i) (bounds t) -> plug f t = plug g t) (snd e)) (fst e) ->
    Forall (fun i => f i = g i) (flat_map (fun e : effect => match e with (_, xs) => flat_map bounds xs end) (fst e) ++ []) ->
    row_plug f e = row_plug g e).
  { intros [es tl] H B. cbn [fst snd] in *. rewrite app_nil_r in B. apply flat_map_forall in B.
    f_equal. apply map_ext_in. rewrite Forall_forall in *. intros [a xs] Hx.
    specialize (H _ Hx). specialize (B _ Hx). cbn in H, B. f_equal. apply L; assumption. }
  induction t as [p|i|sc i|i|d n args IH|ps r e c IHp IHr IHe|xs IH|c xs IHc IH|a r e IHa IHr IHe|] using ty_induct;
    intros B; try reflexivity.
  - cbn in B. inversion B. assumption.
  - cbn [plug]. f_equal. apply L; assumption.
  - unfold bounds in B. cbn [occurrences] in B. fold bounds in B.
    apply Forall_app in B as [B1 B2]. apply Forall_app in B2 as [B2 B3].
    cbn [plug]. rewrite (L ps IHp B1), (IHr B2). f_equal. exact (R e IHe B3).
  - cbn [plug]. f_equal. apply L; assumption.
  - unfold bounds in B. cbn [occurrences] in B. fold bounds in B. apply Forall_app in B as [B1 B2].
    cbn [plug]. rewrite (IHc B1), (L xs IH B2). reflexivity.
  - unfold bounds in B. cbn [occurrences] in B. fold bounds in B.
    apply Forall_app in B as [B1 B2]. apply Forall_app in B2 as [B2 B3].
    cbn [plug]. rewrite (IHa B1), (IHr B2). f_equal. exact (R e IHe B3).
Qed.

Lemma flat_map_map {A B C} (f : A -> B) (g : B -> list C) l : flat_map g (List.map f l) = flat_map (fun x => g (f x)) l.
Proof. induction l as [|x l IH]; [reflexivity|]. cbn. rewrite IH. reflexivity. Qed.

Lemma flat_map_ext_F {A C} (f g : A -> list C) l : Forall (fun x => f x = g x) l -> flat_map f l = flat_map g l.
Proof. induction 1 as [|x l E _ IH]; [reflexivity|]. cbn. rewrite E, IH. reflexivity. Qed.

Lemma plug_tails f t : (forall i, tails (f i) = []) -> tails (plug f t) = tails t.
Proof.
  intros N.
  assert (L : forall l, Forall (fun t => tails (plug f t) = tails t) l -> flat_map tails (List.map (plug f) l) = flat_map tails l).
  { intros l H. rewrite flat_map_map. apply flat_map_ext_F. exact H. }
  assert (R : forall e : row, Forall (fun e => Forall (fun t => tails (plug f t) = tails t) (snd e)) (fst e) ->
    row_tails (row_plug f e) = row_tails e).
  { intros [es tl] H. unfold row_tails. cbn [fst snd] in *. f_equal. rewrite flat_map_map.
    apply flat_map_ext_F. eapply Forall_impl; [|exact H]. intros [a xs] X. apply L. exact X. }
  induction t as [p|i|sc i|i|d n args IH|ps r e c IHp IHr IHe|xs IH|c xs IHc IH|a r e IHa IHr IHe|] using ty_induct;
    try reflexivity.
  - apply N.
  - apply (L args IH).
  - transitivity (flat_map tails (List.map (plug f) ps) ++ tails (plug f r) ++ row_tails (row_plug f e)); [reflexivity|].
    rewrite (L ps IHp), IHr. exact (f_equal (fun z => flat_map tails ps ++ tails r ++ z) (R e IHe)).
  - apply (L xs IH).
  - transitivity (tails (plug f c) ++ flat_map tails (List.map (plug f) xs)); [reflexivity|].
    rewrite IHc, (L xs IH). reflexivity.
  - transitivity (tails (plug f a) ++ tails (plug f r) ++ row_tails (row_plug f e)); [reflexivity|].
    rewrite IHa, IHr. exact (f_equal (fun z => tails a ++ tails r ++ z) (R e IHe)).
Qed.

Lemma instantiate_ok sc next :
  Forall (fun i => i < sc_params sc) (bounds (sc_body sc)) ->
  exists base f t' next',
    instantiate sc next = (SOk t', next') /\
    next <= base /\ (forall v, In v (tails (sc_body sc)) -> v < base) /\
    t' = retail f (plug (fun i => TUni (solver_var (base + i))) (sc_body sc)) /\
    base + sc_params sc <= next' /\
    (forall v, ~ In v (sc_rows sc) -> f v = v) /\
    (forall v, In v (sc_rows sc) -> In v (tails (sc_body sc)) -> base + sc_params sc <= f v < next') /\
    (forall v w, In v (sc_rows sc) -> In w (sc_rows sc) -> In v (tails (sc_body sc)) -> In w (tails (sc_body sc)) ->
       f v = f w -> v = w).
Proof.
  intros B. destruct (reserve_spec next (sc_body sc)) as [R1 R2]. set (base := reserve next (sc_body sc)) in *.
  set (s := List.map (fun i => TUni (solver_var i)) (seq base (sc_params sc))).
  assert (Ls : List.length s = sc_params sc) by (unfold s; rewrite map_length, seq_length; reflexivity).
  pose proof (subst_bound_ok s (sc_body sc)) as S. rewrite Ls in S. specialize (S B).
  assert (P : plug (pick s) (sc_body sc) = plug (fun i => TUni (solver_var (base + i))) (sc_body sc)).
  { apply plug_ext. eapply Forall_impl; [|exact B]. intros i Hi. cbn beta in Hi. unfold pick, s.
    rewrite (nth_indep _ TError (TUni (solver_var 0))) by (rewrite map_length, seq_length; exact Hi).
    rewrite (map_nth (fun i => TUni (solver_var i))). rewrite seq_nth by exact Hi. reflexivity. }
  destruct (freshen (sc_rows sc) (plug (pick s) (sc_body sc)) (base + sc_params sc, [])) as [t' [n' m]] eqn:E.
  destruct (freshen_renames _ _ _ _ _ _ E) as (f & F1 & F2 & F3 & F4 & F5).
  rewrite P in F1, F4, F5. rewrite plug_tails in F4, F5 by reflexivity.
  exists base, f, t', n'. split.
  { unfold instantiate. fold base. fold s. rewrite S. cbn [or_panic]. rewrite E. reflexivity. }
  repeat (split; [assumption|]). assumption.
Qed.

(** * Generalization *)
Definition row_univars (r : row) : list nat :=
  flat_map (fun e : effect => match e with (_, xs) => flat_map univars xs end) (fst r).
Definition fill_row (f : nat -> ty) (r : row) : row :=
  (List.map (fun e : effect => match e with (a, xs) => (a, List.map (fill f) xs) end) (fst r), snd r).

Lemma univars_func ps r e c : univars (TFunc ps r e c) = flat_map univars ps ++ univars r ++ row_univars e.
Proof. unfold univars at 1. cbn [occurrences]. fold univars. rewrite app_nil_r. reflexivity. Qed.
Lemma univars_cont a r e : univars (TCont a r e) = univars a ++ univars r ++ row_univars e.
Proof. unfold univars at 1. cbn [occurrences]. fold univars. rewrite app_nil_r. reflexivity. Qed.

Section Generalize.
  Variables (ts : type_subst) (rs : row_subst).

  Definition unbound (v : nat) : Prop := tget ts v = None.

  Lemma Forall2_flat {A B} (R : A -> B -> Prop) (g : B -> list nat) (P : nat -> Prop) l l' :
    Forall2 R l l' -> (forall x y, R x y -> Forall P (g y)) -> Forall P (flat_map g l').
  Proof. intros F H. apply flat_map_forall. induction F; constructor; eauto. Qed.

  Ltac split_some :=
    repeat match goal with
    | H : obind _ _ = Some _ |- _ => apply obind_some in H; destruct H as [? [? H]]
    | H : otraverse _ _ = Some _ |- _ => apply otraverse_some in H
    | H : omap_row _ _ = Some _ |- _ => apply omap_row_some in H; destruct H as [? H]
    end.

  Lemma row_flat (R : ty -> ty -> Prop) (P : nat -> Prop) (es es' : list effect) :
    Forall2 (fun e e' => fst e' = fst e /\ Forall2 R (snd e) (snd e')) es es' ->
    (forall x y, R x y -> Forall P (univars y)) ->
    Forall P (flat_map (fun e : effect => match e with (_, xs) => flat_map univars xs end) es').
  Proof.
    intros F H. eapply Forall2_flat; [exact F|]. intros e [a ys] [_ G]. eapply Forall2_flat; [exact G | exact H].
  Qed.

  Lemma tapply_unbound fuel : forall t r, tapply fuel ts rs t = Some r -> Forall unbound (univars r).
  Proof.
    induction fuel as [|fuel IH]; intros t r H; [discriminate|].
    destruct t as [p|i|sc i|v|d n args|ps q e c|xs|c xs|a q e|]; cbn [tapply] in H; cbv zeta in H;
      try (injection H as <-; constructor).
    - destruct (tget ts v) as [u|] eqn:E; [eapply IH; exact H|]. injection H as <-. constructor; [exact E | constructor].
    - split_some. injection H as <-. eapply Forall2_flat; eauto.
    - split_some. injection H as <-. rewrite univars_func. apply Forall_app. split; [eapply Forall2_flat; eauto|].
      apply Forall_app. split; [eauto|]. eapply row_flat; eauto.
    - split_some. injection H as <-. eapply Forall2_flat; eauto.
    - split_some. injection H as <-. change (univars (TApp x x0)) with (univars x ++ flat_map univars x0).
      apply Forall_app. split; [eauto | eapply Forall2_flat; eauto].
    - split_some. injection H as <-. rewrite univars_cont. apply Forall_app. split; [eauto|].
      apply Forall_app. split; [eauto|]. eapply row_flat; eauto.
  Qed.

  Definition numbered (index : list (nat * nat)) (v : nat) : ty :=
    match mget Nat.eqb index v with Some i => TBound i | None => TUni v end.

  Lemma Forall2_map_r {A B C} (R : A -> C -> Prop) (f : B -> C) l l' :
    Forall2 (fun x y => R x (f y)) l l' -> Forall2 R l (List.map f l').
  Proof. induction 1; constructor; auto. Qed.

  Lemma omap_row_then (f g : ty -> option ty) h r r' :
    (forall x y, f x = Some y -> g x = Some (h y)) ->
    omap_row f r = Some r' ->
    omap_row g r = Some (List.map (fun e : effect => match e with (a, xs) => (a, List.map h xs) end) (fst r'), snd r').
  Proof.
    intros I H. apply omap_row_some in H as [T F]. apply omap_row_some. cbn [fst snd]. split; [exact T|].
    apply Forall2_map_r. revert F. apply Forall2_impl. intros [a xs] [b ys] [E G]. cbn in *. split; [exact E|].
    apply Forall2_map_r. revert G. apply Forall2_impl. exact I.
  Qed.

  Lemma replace_ok index fuel : (forall v i, mget Nat.eqb index v = Some i -> unbound v) ->
    forall t r, tapply fuel ts rs t = Some r -> replace fuel ts rs index [] t = Some (fill (numbered index) r).
  Proof.
    intros N. induction fuel as [|fuel IH]; intros t r H; [discriminate|].
    assert (L : forall l l', Forall2 (fun x y => tapply fuel ts rs x = Some y) l l' ->
      otraverse (replace fuel ts rs index []) l = Some (List.map (fill (numbered index)) l')).
    { intros l l' F. apply otraverse_some. apply Forall2_map_r. revert F. apply Forall2_impl. exact IH. }
    destruct t as [p|i|sc i|v|d n args|ps q e c|xs|c xs|a q e|]; cbn [tapply] in H; cbv zeta in H;
      cbn [replace]; cbv zeta; try (injection H as <-; reflexivity).
    - cbn [mget List.find]. change (mget Nat.eqb [] v) with (@None (nat * nat)). cbn match.
      destruct (mget Nat.eqb index v) as [i|] eqn:E.
      + rewrite (N v i E) in H. injection H as <-. cbn [fill]. unfold numbered. rewrite E. reflexivity.
      + destruct (tget ts v) as [u|] eqn:G; [apply IH; exact H|]. injection H as <-.
        cbn [fill]. unfold numbered. rewrite E. reflexivity.
    - apply obind_some in H as [args' [H Q]]. injection Q as <-. apply otraverse_some in H.
      rewrite (L _ _ H). reflexivity.
    - apply obind_some in H as [ps' [H1 H]]. apply obind_some in H as [q' [H2 H]].
      apply obind_some in H as [e' [H3 Q]]. injection Q as <-. apply otraverse_some in H1.
      rewrite (L _ _ H1). cbn [obind]. rewrite (IH _ _ H2). cbn [obind].
      rewrite (omap_row_then _ _ _ _ _ IH H3). reflexivity.
    - apply obind_some in H as [xs' [H Q]]. injection Q as <-. apply otraverse_some in H.
      rewrite (L _ _ H). reflexivity.
    - apply obind_some in H as [c' [H1 H]]. apply obind_some in H as [xs' [H2 Q]]. injection Q as <-.
      apply otraverse_some in H2. rewrite (IH _ _ H1). cbn [obind]. rewrite (L _ _ H2). reflexivity.
    - apply obind_some in H as [a' [H1 H]]. apply obind_some in H as [q' [H2 H]].
      apply obind_some in H as [e' [H3 Q]]. injection Q as <-.
      rewrite (IH _ _ H1). cbn [obind]. rewrite (IH _ _ H2). cbn [obind].
      rewrite (omap_row_then _ _ _ _ _ IH H3). reflexivity.
  Qed.

  Lemma ofold_flat {A B} (f : list nat -> A -> option (list nat)) (R : A -> B -> Prop) (g : B -> list nat) :
    (forall acc x y, R x y -> f acc x = Some (fold_left add_var (g y) acc)) ->
    forall l l', Forall2 R l l' -> forall acc, ofold f l acc = Some (fold_left add_var (flat_map g l') acc).
  Proof.
    intros H l l' F. induction F as [|x y l l' E _ IH]; intros acc; [reflexivity|].
    cbn [ofold]. rewrite (H _ _ _ E). cbn [obind]. fold (ofold f). rewrite IH. cbn [flat_map].
    rewrite fold_left_app. reflexivity.
  Qed.

  Lemma collect_ok fuel : forall t r acc, tapply fuel ts rs t = Some r ->
    collect fuel ts rs acc t = Some (fold_left add_var (univars r) acc).
  Proof.
    induction fuel as [|fuel IH]; intros t r acc H; [discriminate|].
    assert (L : forall l l', Forall2 (fun x y => tapply fuel ts rs x = Some y) l l' -> forall acc,
      ofold (collect fuel ts rs) l acc = Some (fold_left add_var (flat_map univars l') acc)).
    { apply ofold_flat. intros; apply IH; assumption. }
    assert (R : forall (es es' : list effect),
      Forall2 (fun e e' => fst e' = fst e /\ Forall2 (fun x y => tapply fuel ts rs x = Some y) (snd e) (snd e')) es es' ->
      forall acc, ofold (fun acc (ef : effect) => ofold (collect fuel ts rs) (snd ef) acc) es acc =
        Some (fold_left add_var (flat_map (fun e : effect => match e with (_, xs) => flat_map univars xs end) es') acc)).
    { apply ofold_flat. intros acc0 e [a ys] [_ G]. apply L. exact G. }
    destruct t as [p|i|sc i|v|d n args|ps q e c|xs|c xs|a q e|]; cbn [tapply] in H; cbv zeta in H;
      cbn [collect]; cbv zeta; try (injection H as <-; reflexivity).
    - destruct (tget ts v) as [u|] eqn:G; [apply IH; exact H|]. injection H as <-. reflexivity.
    - apply obind_some in H as [args' [H Q]]. injection Q as <-. apply otraverse_some in H. apply (L _ _ H).
    - apply obind_some in H as [ps' [H1 H]]. apply obind_some in H as [q' [H2 H]].
      apply obind_some in H as [e' [H3 Q]]. injection Q as <-. apply otraverse_some in H1.
      rewrite (L _ _ H1). cbn [obind]. rewrite (IH _ _ _ H2). cbn [obind].
      apply omap_row_some in H3 as [_ H3]. rewrite (R _ _ H3). rewrite univars_func, !fold_left_app. reflexivity.
    - apply obind_some in H as [args' [H Q]]. injection Q as <-. apply otraverse_some in H. apply (L _ _ H).
    - apply obind_some in H as [c' [H1 H]]. apply obind_some in H as [xs' [H2 Q]]. injection Q as <-.
      apply otraverse_some in H2. rewrite (IH _ _ _ H1). cbn [obind]. rewrite (L _ _ H2).
      change (univars (TApp c' xs')) with (univars c' ++ flat_map univars xs'). rewrite fold_left_app. reflexivity.
    - apply obind_some in H as [a' [H1 H]]. apply obind_some in H as [q' [H2 H]].
      apply obind_some in H as [e' [H3 Q]]. injection Q as <-.
      rewrite (IH _ _ _ H1). cbn [obind]. rewrite (IH _ _ _ H2). cbn [obind].
      apply omap_row_some in H3 as [_ H3]. rewrite (R _ _ H3). rewrite univars_cont, !fold_left_app. reflexivity.
  Qed.
End Generalize.

(** First occurrences. *)
Lemma filter_filter {A} (p q : A -> bool) l : filter p (filter q l) = filter (fun x => q x && p x) l.
Proof.
  induction l as [|x l IH]; [reflexivity|]. cbn. destruct (q x) eqn:E; cbn; [destruct (p x)|]; rewrite IH; reflexivity.
Qed.

Lemma uniq_In l x : In x (uniq l) <-> In x l.
Proof.
  induction l as [|y l IH]; [reflexivity|]. cbn. rewrite filter_In, IH. destruct (Nat.eqb_spec y x) as [->|N]; cbn; intuition.
Qed.

Lemma uniq_NoDup l : NoDup (uniq l).
Proof.
  induction l as [|y l IH]; cbn; constructor.
  - rewrite filter_In. rewrite Nat.eqb_refl. intros [_ H]. discriminate.
  - apply NoDup_filter. exact IH.
Qed.

Lemma add_vars_uniq l : forall acc, fold_left add_var l acc =
  acc ++ filter (fun v => negb (existsb (Nat.eqb v) acc)) (uniq l).
Proof.
  induction l as [|x l IH]; intros acc; cbn [fold_left uniq filter]; [rewrite app_nil_r; reflexivity|].
  rewrite IH. rewrite filter_filter. unfold add_var.
  destruct (existsb (Nat.eqb x) acc) eqn:E; cbn [negb].
  - f_equal. apply filter_ext. intros v. destruct (Nat.eqb_spec x v) as [<-|N]; cbn; [rewrite E; reflexivity | reflexivity].
  - rewrite <- app_assoc. cbn [List.app]. f_equal. f_equal. apply filter_ext. intros v.
    rewrite existsb_app. cbn. rewrite (Nat.eqb_sym v x). rewrite negb_orb. rewrite orb_false_r. apply andb_comm.
Qed.

Lemma add_vars_nil l : fold_left add_var l [] = uniq l.
Proof. rewrite add_vars_uniq. cbn. induction (uniq l) as [|x u IH]; [reflexivity|]. cbn. rewrite IH. reflexivity. Qed.

Lemma number_position vs v : mget Nat.eqb (number vs) v = position vs v.
Proof.
  unfold number. assert (G : forall n, mget Nat.eqb (combine vs (seq n (List.length vs))) v = option_map (fun i => n + i) (position vs v)).
  { induction vs as [|x vs IH]; intros n; [reflexivity|]. cbn [List.length seq combine position].
    cbn [mget]. rewrite (Nat.eqb_sym v x). destruct (Nat.eqb x v).
    - cbn. rewrite Nat.add_0_r. reflexivity.
    - rewrite IH. destruct (position vs v); cbn; [f_equal; lia | reflexivity]. }
  rewrite G. destruct (position vs v); reflexivity.
Qed.

Lemma position_nth vs v i : position vs v = Some i -> nth i vs 0 = v /\ i < List.length vs.
Proof.
  revert i. induction vs as [|x vs IH]; intros i H; [discriminate|]. cbn in H.
  destruct (Nat.eqb_spec x v) as [->|N].
  - injection H as <-. cbn. split; [reflexivity | lia].
  - destruct (position vs v) as [j|] eqn:E; [|discriminate]. injection H as <-. cbn.
    destruct (IH j eq_refl). split; [assumption | lia].
Qed.

Lemma position_In vs v i : position vs v = Some i -> In v vs.
Proof. intros H. destruct (position_nth _ _ _ H) as [<- L]. apply nth_In. exact L. Qed.

Lemma position_some vs v : In v vs -> exists i, position vs v = Some i.
Proof.
  induction vs as [|x vs IH]; intros H; [destruct H|]. cbn. destruct (Nat.eqb_spec x v) as [->|N]; [eauto|].
  destruct H as [->|H]; [congruence|]. destruct (IH H) as [i ->]. cbn. eauto.
Qed.

(** Filling the variables with leaves and reading the result back. *)
Lemma close_induct (p : nat -> ty) (f : nat -> ty) (q : nat -> Prop) t :
  bounds t = [] ->
  (forall v, plug p (f v) = TUni v /\ Forall q (bounds (f v))) ->
  plug p (fill f t) = t /\ Forall q (bounds (fill f t)).
Proof.
  intros B V. revert B.
  assert (L : forall l, Forall (fun t => bounds t = [] -> plug p (fill f t) = t /\ Forall q (bounds (fill f t))) l ->
    flat_map bounds l = [] ->
    List.map (plug p) (List.map (fill f) l) = l /\ Forall q (flat_map bounds (List.map (fill f) l))).
  { intros l H. induction H as [|x l H _ IH]; intros B; [split; [reflexivity | constructor]|].
    cbn in B. apply app_eq_nil in B as [B1 B2]. destruct (H B1) as [H1 H2]. destruct (IH B2) as [I1 I2].
    cbn. split; [rewrite H1, I1; reflexivity | apply Forall_app; split; assumption]. }
  assert (R : forall e : row, Forall (fun e => Forall (fun t => bounds t = [] -> plug p (fill f t) = t /\ Forall q (bounds (fill f t))) (snd e)) (fst e) ->
    flat_map (fun e : effect => match e with (_, xs) => flat_map bounds xs end) (fst e) ++ [] = [] ->
    row_plug p (fill_row f e) = e /\
    Forall q (flat_map (fun e : effect => match e with (_, xs) => flat_map bounds xs end) (fst (fill_row f e)) ++ [])).
  { intros [es tl] H B. rewrite app_nil_r in *. unfold fill_row. cbn [fst snd] in *.
    enough (G : List.map (fun e0 : effect => match e0 with (a, xs) => (a, List.map (plug p) xs) end)
             (List.map (fun e0 : effect => match e0 with (a, xs) => (a, List.map (fill f) xs) end) es) = es /\
      Forall q (flat_map (fun e : effect => match e with (_, xs) => flat_map bounds xs end)
        (List.map (fun e0 : effect => match e0 with (a, xs) => (a, List.map (fill f) xs) end) es))).
    { destruct G as [G1 G2]. split; [|exact G2]. exact (f_equal (fun z : list effect => (z, tl)) G1). }
    induction H as [|[a xs] es H _ IH]; [split; [reflexivity | constructor]|].
    cbn in B. apply app_eq_nil in B as [B1 B2]. destruct (IH B2) as [I1 I2]. destruct (L xs H B1) as [L1 L2].
    cbn. split; [rewrite L1, I1; reflexivity | apply Forall_app; split; assumption]. }
  induction t as [p'|i|sc i|i|d n args IH|ps r e c IHp IHr IHe|xs IH|c xs IHc IH|a r e IHa IHr IHe|] using ty_induct;
    intros B; try (split; [reflexivity | constructor]; fail).
  - discriminate.
  - apply V.
  - destruct (L args IH B) as [L1 L2]. split; [cbn [fill plug]; rewrite L1; reflexivity | exact L2].
  - unfold bounds in B. cbn [occurrences] in B. fold bounds in B.
    apply app_eq_nil in B as [B1 B2]. apply app_eq_nil in B2 as [B2 B3].
    destruct (L ps IHp B1) as [L1 L2]. destruct (IHr B2) as [R1 R2]. destruct (R e IHe B3) as [E1 E2]. split.
    + transitivity (TFunc (List.map (plug p) (List.map (fill f) ps)) (plug p (fill f r)) (row_plug p (fill_row f e)) c); [reflexivity|].
      rewrite L1, R1. exact (f_equal (fun z => TFunc ps r z c) E1).
    + unfold bounds. cbn [occurrences fill]. fold bounds. apply Forall_app. split; [exact L2|].
      apply Forall_app. split; [exact R2 | exact E2].
  - destruct (L xs IH B) as [L1 L2]. split; [cbn [fill plug]; rewrite L1; reflexivity | exact L2].
  - unfold bounds in B. cbn [occurrences] in B. fold bounds in B. apply app_eq_nil in B as [B1 B2].
    destruct (IHc B1) as [C1 C2]. destruct (L xs IH B2) as [L1 L2]. split.
    + cbn [fill plug]. rewrite C1, L1. reflexivity.
    + unfold bounds. cbn [occurrences fill]. fold bounds. apply Forall_app. split; [exact C2 | exact L2].
  - unfold bounds in B. cbn [occurrences] in B. fold bounds in B.
    apply app_eq_nil in B as [B1 B2]. apply app_eq_nil in B2 as [B2 B3].
    destruct (IHa B1) as [L1 L2]. destruct (IHr B2) as [R1 R2]. destruct (R e IHe B3) as [E1 E2]. split.
    + transitivity (TCont (plug p (fill f a)) (plug p (fill f r)) (row_plug p (fill_row f e))); [reflexivity|].
      rewrite L1, R1. exact (f_equal (fun z => TCont a r z) E1).
    + unfold bounds. cbn [occurrences fill]. fold bounds. apply Forall_app. split; [exact L2|].
      apply Forall_app. split; [exact R2 | exact E2].
Qed.

Lemma close_over_back vs t : bounds t = [] ->
  subst_bound (List.map TUni vs) (close_over vs t) = SOk t.
Proof.
  intros B. set (s := List.map TUni vs).
  destruct (close_induct (pick s) (fun v => match position vs v with Some i => TBound i | None => TUni v end)
    (fun i => i < List.length s) t B) as [P Q].
  { intros v. destruct (position vs v) as [i|] eqn:E; [|split; [reflexivity | constructor]].
    destruct (position_nth _ _ _ E) as [N L]. cbn. split.
    - unfold pick, s. rewrite (nth_indep _ TError (TUni 0)) by (rewrite map_length; exact L).
      rewrite map_nth. rewrite N. reflexivity.
    - constructor; [|constructor]. unfold s. rewrite map_length. exact L. }
  unfold close_over. rewrite subst_bound_ok by exact Q. rewrite P. reflexivity.
Qed.

Lemma fill_ext f g t : (forall v, f v = g v) -> fill f t = fill g t.
Proof.
  intros E.
  assert (L : forall l, Forall (fun t => fill f t = fill g t) l -> List.map (fill f) l = List.map (fill g) l).
  { intros l H. apply map_ext_in. rewrite Forall_forall in H. exact H. }
  assert (R : forall e : row, Forall (fun e => Forall (fun t => fill f t = fill g t) (snd e)) (fst e) -> fill_row f e = fill_row g e).
  { intros [es tl] H. unfold fill_row. cbn [fst snd] in *. f_equal. apply map_ext_in. rewrite Forall_forall in H.
    intros [a xs] Hx. f_equal. apply L. apply (H _ Hx). }
  induction t as [p'|i|sc i|i|d n args IH|ps r e c IHp IHr IHe|xs IH|c xs IHc IH|a r e IHa IHr IHe|] using ty_induct;
    try reflexivity.
  - apply E.
  - cbn [fill]. rewrite (L args IH). reflexivity.
  - cbn [fill]. rewrite (L ps IHp), IHr. exact (f_equal (fun z => TFunc (List.map (fill g) ps) (fill g r) z c) (R e IHe)).
  - cbn [fill]. rewrite (L xs IH). reflexivity.
  - cbn [fill]. rewrite (L xs IH), IHc. reflexivity.
  - cbn [fill]. rewrite IHa, IHr. exact (f_equal (fun z => TCont (fill g a) (fill g r) z) (R e IHe)).
Qed.

Lemma generalize_excluding_ok fuel ts rs excluded t r : tapply fuel ts rs t = Some r ->
  let vs := filter (fun v => negb (existsb (Nat.eqb v) excluded)) (uniq (univars r)) in
  generalize_excluding fuel ts rs excluded t = Some (close_over vs r, List.length vs, number vs).
Proof.
  intros H vs. unfold generalize_excluding. rewrite (collect_ok ts rs fuel t r [] H). cbn [obind].
  rewrite add_vars_nil. fold vs. rewrite (replace_ok ts rs (number vs) fuel) with (r := r); [|intros v i|exact H].
  - cbn [obind]. unfold close_over.
    rewrite (fill_ext (numbered (number vs)) (fun v => match position vs v with Some i => TBound i | None => TUni v end)).
    + reflexivity.
    + intros v. unfold numbered. rewrite number_position. reflexivity.
  - rewrite number_position. intros E. apply position_In in E. unfold vs in E. apply filter_In in E as [E _].
    apply (proj1 (uniq_In _ _)) in E. pose proof (tapply_unbound ts rs fuel t r H) as U. rewrite Forall_forall in U. apply U. exact E.
Qed.

Lemma existsb_nil l : filter (fun v => negb (existsb (Nat.eqb v) [])) l = l.
Proof. induction l as [|x l IH]; [reflexivity|]. cbn in *. rewrite IH. reflexivity. Qed.

Lemma generalize_ok fuel ts rs t r : tapply fuel ts rs t = Some r -> univars r <> [] ->
  generalize fuel ts rs t = Some (close_over (uniq (univars r)) r, List.length (uniq (univars r)), number (uniq (univars r))).
Proof.
  intros H N. pose proof (generalize_excluding_ok fuel ts rs [] t r H) as G. cbv zeta in G.
  rewrite existsb_nil in G. rewrite <- G. unfold generalize_excluding, generalize.
  rewrite (collect_ok ts rs fuel t r [] H). cbn [obind]. rewrite add_vars_nil, existsb_nil.
  destruct (uniq (univars r)) as [|v vs] eqn:E; [|reflexivity].
  destruct (univars r) as [|u us]; [contradiction | discriminate].
Qed.
