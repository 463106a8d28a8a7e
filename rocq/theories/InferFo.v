(** Inference only generates equations between first-order types, and only adds to what it
    has recorded. *)
From Verif Require Import TyProofs UnifyMono UnifySpec UnifyComplete SubstProofs InferRun InferSolve.

Lemma bnd_inv {A B} (m : M A) (f : A -> M B) st b st' : bnd m f st = (b, st') ->
  exists a st1, m st = (a, st1) /\ f a st1 = (b, st').
Proof. unfold bnd. destruct (m st) as [a st1]. eauto. Qed.

(** [st'] has at least what [st] had. *)
Definition grows (st st' : ist) : Prop :=
  (exists l, i_cs st' = l ++ i_cs st) /\ (exists l, i_log st' = l ++ i_log st).
Lemma grows_refl st : grows st st.
Proof. split; exists []; reflexivity. Qed.
Lemma grows_trans a b c : grows a b -> grows b c -> grows a c.
Proof.
  intros [[l1 E1] [l2 E2]] [[l3 E3] [l4 E4]]. split; [exists (l3 ++ l1) | exists (l4 ++ l2)]; rewrite <- app_assoc; congruence.
Qed.
Lemma grows_sat th st st' : grows st st' -> sat th (i_cs st') -> sat th (i_cs st).
Proof. intros [[l E] _] S a b H. apply S. rewrite E. apply in_or_app. auto. Qed.
Lemma grows_log st st' : grows st st' -> i_log st' = [] -> i_log st = [].
Proof. intros [_ [l E]] H. rewrite H in E. destruct l; [symmetry; exact E | discriminate]. Qed.

Definition all_fo (l : list (nat * ty)) : Prop := Forall (fun e => first_order (snd e)) l.
Record st_fo (st : ist) : Prop := {
  sf_cs : fo_pairs (i_cs st);
  sf_nodes : all_fo (i_nodes st);
  sf_lams : all_fo (i_lams st);
  sf_refs : all_fo (i_refs st) }.

(** [m] keeps that and returns a [P]. *)
Definition fom {A} (P : A -> Prop) (m : M A) : Prop := forall st a st', st_fo st -> m st = (a, st') ->
  st_fo st' /\ P a /\ grows st st'.

Lemma fom_ret {A} (P : A -> Prop) a : P a -> fom P (ret a).
Proof. intros H st b st' F [= <- <-]. split; [exact F|]. split; [exact H | apply grows_refl]. Qed.
Lemma fom_bnd {A B} (P : A -> Prop) (Q : B -> Prop) m f : fom P m -> (forall a, P a -> fom Q (f a)) -> fom Q (bnd m f).
Proof.
  intros H K st b st' F E. apply bnd_inv in E as [a [st1 [E1 E2]]]. destruct (H _ _ _ F E1) as [F1 [Pa G1]].
  destruct (K a Pa _ _ _ F1 E2) as [F2 [Pb G2]]. split; [exact F2|]. split; [exact Pb | eapply grows_trans; eauto].
Qed.
Lemma fom_impl {A} (P Q : A -> Prop) m : (forall a, P a -> Q a) -> fom P m -> fom Q m.
Proof. intros H K st a st' F E. destruct (K _ _ _ F E) as [X [Y Z]]. auto. Qed.
Lemma fom_mmap {A B} (P : B -> Prop) (f : A -> M B) l : Forall (fun a => fom P (f a)) l -> fom (Forall P) (mmap f l).
Proof.
  induction 1 as [|a l H F IH]; [apply fom_ret; constructor|]. cbn [mmap].
  eapply fom_bnd; [exact H|]. intros b Hb. eapply fom_bnd; [exact IH|]. intros bs Hbs. apply fom_ret. constructor; assumption.
Qed.
Lemma fom_mzip {A B C} (P : C -> Prop) (f : A -> B -> M C) l l' :
  (forall a b, In a l -> In b l' -> fom P (f a b)) -> fom (Forall P) (mzip f l l').
Proof.
  revert l'. induction l as [|a l IH]; intros [|b l'] H; cbn [mzip]; try (apply fom_ret; constructor).
  eapply fom_bnd; [apply H; left; reflexivity|]. intros c Hc. eapply fom_bnd; [apply IH; intros; apply H; right; assumption|].
  intros cs Hcs. apply fom_ret. constructor; assumption.
Qed.

Definition top {A} (a : A) : Prop := True.
Lemma fom_fresh : fom first_order fresh.
Proof. intros [] a st' [] [= <- <-]. split; [split; assumption|]. split; [exact I|]. split; exists []; reflexivity. Qed.
Lemma fom_fresh_for {A} (l : list A) : fom (Forall first_order) (fresh_for l).
Proof. apply fom_mmap, Forall_forall. intros. apply fom_fresh. Qed.
Lemma fom_guessed g : fom top (guessed g).
Proof. intros [] a st' [] [= <- <-]. split; [split; assumption|]. split; [exact I|]. split; [exists [] | exists [g]]; reflexivity. Qed.
Lemma fom_eqn a b : first_order a -> first_order b -> fom top (eqn a b).
Proof.
  intros Ha Hb [] u st' [] [= <- <-]. split; [split; try assumption|].
  - intros x y [[= <- <-]|H]; auto.
  - split; [exact I|]. split; [exists [(a, b)] | exists []]; reflexivity.
Qed.
Lemma fom_record i t : first_order t -> fom top (record i t).
Proof.
  intros Ht [] u st' [] [= <- <-]. split; [split; try assumption|].
  - constructor; assumption.
  - split; [exact I|]. split; exists []; reflexivity.
Qed.
Lemma look_fo i l t : all_fo l -> look i l = Some t -> first_order t.
Proof.
  intros F E. unfold look in E. destruct (List.find _ l) as [[k u]|] eqn:G; [|discriminate]. injection E as <-.
  apply find_some in G as [G _]. apply (proj1 (Forall_forall _ _) F _ G).
Qed.
Lemma fom_node i : fom (fun o => match o with Some t => first_order t | None => True end) (node i).
Proof.
  intros st o st' F [= <- <-]. split; [exact F|]. split; [|apply grows_refl].
  destruct (look i (i_nodes st)) eqn:E; [|exact I]. eapply look_fo; [apply F | exact E].
Qed.
Lemma fom_lam_type i : fom (fun o => match o with Some t => first_order t | None => True end) (lam_type i).
Proof.
  intros st o st' F [= <- <-]. split; [exact F|]. split; [|apply grows_refl].
  destruct (look i (i_lams st)) eqn:E; [|exact I]. eapply look_fo; [apply (sf_lams _ F) | exact E].
Qed.
Lemma fom_record_lam i t : first_order t -> fom top (record_lam i t).
Proof.
  intros Ht st u st' F [= <- <-]. destruct (look i (i_lams st)); [split; [exact F|]; split; [exact I | apply grows_refl]|].
  destruct st, F. split; [split; try assumption|].
  - constructor; assumption.
  - split; [exact I|]. split; exists []; reflexivity.
Qed.

Lemma fom_if {A} (b : bool) (P : A -> Prop) m m' : fom P m -> fom P m' -> fom P (if b then m else m').
Proof. destruct b; auto. Qed.

(** * Schemes *)
Definition schematic (sc : poly) : Prop :=
  (forall g, (forall i, i < fst sc -> first_order (g i)) -> first_order (plug g (snd sc))) /\
  (fst sc = 0 -> first_order (snd sc)).
Definition env_fo (D : env) : Prop := Forall (fun e => schematic (snd e)) D.

Lemma fo_list t : first_order t -> first_order (list_ty t).
Proof. intros H. cbn. auto. Qed.
Lemma fo_tuple ts : Forall first_order ts -> first_order (TTuple ts).
Proof. intros H. cbn. apply first_order_all, H. Qed.
Lemma fo_fn ts r : Forall first_order ts -> first_order r -> first_order (func_ty ts r).
Proof. intros H K. cbn. split; [apply first_order_all, H | auto]. Qed.
Lemma fo_lit l : first_order (lit_ty l).
Proof. destruct l; cbn; try discriminate; exact I. Qed.
Lemma fo_params ps r e c : first_order (TFunc ps r e c) -> Forall first_order ps /\ first_order r.
Proof. cbn. rewrite first_order_all. tauto. Qed.
Lemma fo_components ts : first_order (TTuple ts) -> Forall first_order ts.
Proof. cbn. apply first_order_all. Qed.

Lemma plug_none g t : bounds t = [] -> plug g t = t.
Proof.
  assert (A : forall l, Forall (fun t => bounds t = [] -> plug g t = t) l -> flat_map bounds l = [] -> List.map (plug g) l = l).
  { induction 1 as [|x l H F IH]; cbn; intros E; [reflexivity|]. apply app_eq_nil in E as [E1 E2]. rewrite H, IH; auto. }
  assert (R : forall es : list (ability * list ty), Forall (fun e => Forall (fun t => bounds t = [] -> plug g t = t) (snd e)) es ->
    flat_map (fun e => match e with (_, xs) => flat_map bounds xs end) es = [] ->
    List.map (fun e => match e with (a, xs) => (a, List.map (plug g) xs) end) es = es).
  { induction 1 as [|[a xs] l H F IH]; cbn; intros E; [reflexivity|]. apply app_eq_nil in E as [E1 E2].
    cbn in H. rewrite (A _ H E1), IH; auto. }
  induction t as [p|i|s i|v|d n args IH|ps r [es tl] c IHps IHr IHe|xs IH|c xs IHc IH|a r [es tl] IHa IHr IHe|] using ty_induct;
    intros E; try reflexivity; try discriminate.
  - cbn. f_equal. apply A; assumption.
  - change (flat_map bounds ps ++ bounds r ++ flat_map (fun e => match e with (_, xs) => flat_map bounds xs end) es ++ [] = []) in E.
    rewrite app_nil_r in E. apply app_eq_nil in E as [E1 E]. apply app_eq_nil in E as [E2 E3].
    cbn. f_equal; auto. f_equal. apply R; assumption.
  - cbn. f_equal. apply A; assumption.
  - change (bounds c ++ flat_map bounds xs = []) in E. apply app_eq_nil in E as [E1 E2]. cbn. f_equal; auto.
  - change (bounds a ++ bounds r ++ flat_map (fun e => match e with (_, xs) => flat_map bounds xs end) es ++ [] = []) in E.
    rewrite app_nil_r in E. apply app_eq_nil in E as [E1 E]. apply app_eq_nil in E as [E2 E3].
    cbn. f_equal; auto. f_equal. apply R; assumption.
Qed.

Lemma mono_schematic t : first_order t -> schematic (0, t).
Proof. intros H. split; [|intros _; exact H]. intros g _. cbn. rewrite plug_none; [exact H | apply fo_bounds, H]. Qed.

Lemma fill_first_order f t : (forall v, first_order (f v)) -> first_order t -> first_order (fill f t).
Proof.
  intros Hf.
  assert (A : forall l, Forall (fun t => first_order t -> first_order (fill f t)) l -> Forall first_order l -> Forall first_order (List.map (fill f) l)).
  { induction 1; intros G; inversion G; subst; constructor; auto. }
  induction t as [p|i|s i|v|d n args IH|ps r e c IHps IHr IHe|xs IH|c xs IHc IH|a r e IHa IHr IHe|] using ty_induct;
    intros F; try (destruct F; fail).
  - exact F.
  - apply Hf.
  - cbn in F |- *. rewrite first_order_all in *. auto.
  - destruct F as [F1 [F2 ->]]. cbn. rewrite first_order_all in *. auto.
  - cbn in F |- *. rewrite first_order_all in *. auto.
  - cbn in F |- *. rewrite first_order_all in *. destruct F. auto.
  - destruct F as [F1 [F2 ->]]. cbn. auto.
Qed.

Lemma plug_close g h t : first_order t -> (forall v, first_order (plug g (h v))) -> first_order (plug g (fill h t)).
Proof.
  intros F H. revert F.
  assert (A : forall l, Forall (fun t => first_order t -> first_order (plug g (fill h t))) l -> Forall first_order l ->
    Forall first_order (List.map (plug g) (List.map (fill h) l))).
  { induction 1; intros G; inversion G; subst; constructor; auto. }
  induction t as [p|i|s i|v|d n args IH|ps r e c IHps IHr IHe|xs IH|c xs IHc IH|a r e IHa IHr IHe|] using ty_induct;
    intros F; try (destruct F; fail).
  - exact F.
  - apply H.
  - cbn in F |- *. rewrite first_order_all in *. auto.
  - destruct F as [F1 [F2 ->]]. cbn. rewrite first_order_all in *. auto.
  - cbn in F |- *. rewrite first_order_all in *. auto.
  - cbn in F |- *. rewrite first_order_all in *. destruct F. auto.
  - destruct F as [F1 [F2 ->]]. cbn. auto.
Qed.

Lemma generalize_schematic excluded t : first_order t -> schematic (generalize_over excluded t).
Proof.
  intros F. unfold generalize_over. set (vs := filter _ _). split; cbn [fst snd].
  - intros g Hg. unfold close_over. apply plug_close; [exact F|]. intros v. destruct (position vs v) as [i|] eqn:E; [|exact I].
    cbn. apply Hg. apply (position_nth _ _ _ E).
  - intros E. destruct vs as [|v vs']; [|discriminate]. unfold close_over. apply fill_first_order; [|exact F]. intros w. exact I.
Qed.

Lemma plain_schematic sc : plain_sig sc -> schematic sc.
Proof.
  destruct sc as [n t]. intros [U [B F]]. cbn [fst snd] in *. split; cbn [fst snd].
  - intros g Hg. revert B F. clear U.
    assert (A : forall l, Forall (fun t => Forall (fun i => i < n) (bounds t) -> first_order (plug (fun _ => TPrim PNil) t) -> first_order (plug g t)) l ->
      Forall (fun i => i < n) (flat_map bounds l) -> Forall first_order (List.map (plug (fun _ => TPrim PNil)) l) -> Forall first_order (List.map (plug g) l)).
    { induction 1; cbn; intros B G; inversion G; subst; constructor; apply Forall_app in B as [B1 B2]; auto. }
    assert (R : forall (e : row) h k, (List.map (fun e => match e with (a, xs) => (a, List.map (plug h) xs) end) (fst e), snd e) = pure_row ->
      (List.map (fun e => match e with (a, xs) => (a, List.map (plug k) xs) end) (fst e), snd e) = pure_row).
    { intros [[|] ?] h k E; [exact E | discriminate]. }
    induction t as [p|i|s i|v|d m args IH|ps r e c IHps IHr IHe|xs IH|c xs IHc IH|a r e IHa IHr IHe|] using ty_induct;
      intros B F; try (destruct F; fail); try exact F.
    + apply Hg. inversion B; assumption.
    + cbn in F |- *. rewrite first_order_all in *. apply A; assumption.
    + cbn in B, F |- *. rewrite first_order_all in *. destruct F as [F1 [F2 F3]].
      apply Forall_app in B as [B1 B]. apply Forall_app in B as [B2 B3]. repeat split; auto. exact (R e _ _ F3).
    + cbn in F |- *. rewrite first_order_all in *. apply A; assumption.
    + cbn in B, F |- *. rewrite first_order_all in *. destruct F. apply Forall_app in B as [B1 B2]. auto.
    + cbn in B, F |- *. destruct F as [F1 [F2 F3]]. apply Forall_app in B as [B1 B]. apply Forall_app in B as [B2 B3].
      repeat split; auto. exact (R e _ _ F3).
  - intros ->. assert (X : bounds t = []) by (destruct (bounds t) as [|i l]; [reflexivity | inversion B; lia]).
    rewrite plug_none in F by exact X. exact F.
Qed.

Lemma mmap_length {A B} (f : A -> M B) l : forall st bs st', mmap f l st = (bs, st') -> List.length bs = List.length l.
Proof.
  induction l as [|a l IH]; intros st bs st' E; cbn [mmap] in E; [injection E as <- <-; reflexivity|].
  apply bnd_inv in E as [b [st1 [_ E]]]. apply bnd_inv in E as [bs' [st2 [E2 E]]]. injection E as <- <-. cbn. f_equal. eapply IH, E2.
Qed.

Lemma fom_instantiate sc : schematic sc -> fom first_order (instantiate_poly sc).
Proof.
  intros H st t st' F E. unfold instantiate_poly in E. apply bnd_inv in E as [ts [st1 [E1 E2]]]. injection E2 as <- <-.
  destruct (fom_fresh_for _ _ _ _ F E1) as [F1 [Ft G]]. split; [exact F1|]. split; [|exact G].
  apply H. intros i Hi. apply mmap_length in E1. rewrite seq_length in E1.
  apply (proj1 (Forall_forall _ _) Ft), nth_In. lia.
Qed.
Lemma fom_known sc : (forall s, sc = Some s -> schematic s) -> fom first_order (known sc).
Proof.
  intros H. destruct sc as [s|]; [apply fom_instantiate, H; reflexivity|]. cbn.
  eapply fom_bnd; [apply fom_guessed | intros; apply fom_fresh].
Qed.

Lemma look_schematic x D sc : env_fo D -> look x D = Some sc -> schematic sc.
Proof.
  intros F E. unfold look in E. destruct (List.find _ D) as [[k u]|] eqn:G; [|discriminate]. injection E as <-.
  apply find_some in G as [G _]. apply (proj1 (Forall_forall _ _) F _ G).
Qed.

Lemma fom_local_ref D i x : env_fo D -> fom first_order (local_ref D i x).
Proof.
  intros F. unfold local_ref. destruct (look x D) as [[[|n] body]|] eqn:E.
  - apply fom_ret. apply (look_schematic _ _ _ F E). reflexivity.
  - intros st t st' Fs E'. destruct (look i (i_refs st)) as [u|] eqn:El.
    + injection E' as <- <-. split; [exact Fs|]. split; [|apply grows_refl]. eapply look_fo; [apply (sf_refs _ Fs) | exact El].
    + destruct (instantiate_poly (S n, body) st) as [u st1] eqn:Ei. injection E' as <- <-.
      destruct (fom_instantiate _ (look_schematic _ _ _ F E) _ _ _ Fs Ei) as [F1 [Fu G]].
      destruct F1. split; [split; cbn; try assumption; constructor; assumption|]. split; [exact Fu|]. exact G.
  - eapply fom_bnd; [apply fom_guessed | intros; apply fom_fresh].
Qed.

Ltac fstep := eapply fom_bnd; [|intros ? ?].

Lemma fom_call t ts : first_order t -> Forall first_order ts -> fom first_order (infer_call t ts).
Proof.
  intros F Fs. unfold infer_call. fstep; [apply fom_fresh_for|]. fstep; [apply fom_fresh|].
  fstep; [apply (fom_if _ top)|].
  - fstep; [apply fom_fresh|]. fstep; [apply fom_fresh|]. apply fom_ret. exact I.
  - apply fom_ret. exact I.
  - fstep; [apply fom_eqn; [exact F | apply fo_fn; assumption]|].
    fstep; [|apply fom_ret; assumption]. apply fom_mzip. intros x y Ha Hb.
    apply fom_eqn; [apply (proj1 (Forall_forall _ _) H _ Ha) | apply (proj1 (Forall_forall _ _) Fs _ Hb)].
Qed.

Lemma fom_list_elem t : first_order t -> fom first_order (list_elem t).
Proof.
  intros F. assert (O : fom first_order (guessed Opened ;~ fresh)) by (fstep; [apply fom_guessed | apply fom_fresh]).
  unfold list_elem. destruct t as [| | | |[o ?] ? args| | |c args| |]; try exact O.
  - destruct o; try exact O. destruct args as [|a [|]]; try exact O. apply fom_ret. cbn in F. tauto.
  - destruct c as [| | | |[o ?] ? ?| | | | |]; try exact O. destruct o; try exact O. destruct args as [|a [|]]; try exact O.
    apply fom_ret. cbn in F. tauto.
Qed.

Section Decls.
  Variable fns ctors : nat -> option poly.
  Variable solver : list (ty * ty) -> option (nat -> ty).
  Variable pure : nat -> bool.
  Hypothesis Hfns : forall f sc, fns f = Some sc -> plain_sig sc.
  Hypothesis Hctors : forall c sc, ctors c = Some sc -> plain_sig sc.
  Hypothesis Hsolver : forall cs f, fo_pairs cs -> solver cs = Some f -> answers f cs.

  Lemma known_fn f : fom first_order (known (fns f)).
  Proof. apply fom_known. intros s E. apply plain_schematic. eapply Hfns, E. Qed.
  Lemma known_ctor c : fom first_order (known (ctors c)).
  Proof. apply fom_known. intros s E. apply plain_schematic. eapply Hctors, E. Qed.

  Lemma fom_pat p : fom first_order (infer_pat ctors p).
  Proof.
    induction p as [i|i x|i l|i c ps F|i ps F|i ps F|i ps r F|i p x IH] using pat_ind'; cbn [infer_pat].
    - fstep; [apply fom_fresh|]. fstep; [apply fom_record; assumption|]. apply fom_ret; assumption.
    - fstep; [apply fom_fresh|]. fstep; [apply fom_record; assumption|]. apply fom_ret; assumption.
    - fstep; [apply fom_record, fo_lit|]. apply fom_ret, fo_lit.
    - fstep; [apply known_ctor|]. fstep; [apply fom_record; assumption|].
      assert (O : fom first_order (match ps with [] => ret tt | _ => guessed Arity end ;~ ret a)).
      { fstep; [|apply fom_ret; assumption]. destruct ps; [apply (fom_ret top); exact I | apply fom_guessed]. }
      destruct a; try exact O. clear O. destruct (fo_params _ _ _ _ H) as [Fp Fr].
      fstep; [apply (fom_if _ top); [apply fom_ret; exact I | apply fom_guessed]|].
      fstep; [|apply fom_ret; assumption]. apply fom_mzip. intros p q Hp Hq. fstep; [apply (proj1 (Forall_forall _ _) F _ Hp)|].
      apply fom_eqn; [assumption | apply (proj1 (Forall_forall _ _) Fp _ Hq)].
    - fstep; [apply fom_mmap, F|]. fstep; [apply fom_record, fo_tuple; assumption|]. apply fom_ret, fo_tuple. assumption.
    - fstep; [apply fom_fresh|]. fstep; [apply (fom_mmap top)|].
      + revert F. apply Forall_impl. intros p Hp. fstep; [exact Hp|]. apply fom_eqn; assumption.
      + fstep; [apply fom_record, fo_list; assumption|]. apply fom_ret, fo_list. assumption.
    - fstep; [apply fom_fresh|]. fstep; [apply (fom_mmap top)|].
      + revert F. apply Forall_impl. intros p Hp. fstep; [exact Hp|]. apply fom_eqn; assumption.
      + fstep; [apply fom_record, fo_list; assumption|]. apply fom_ret, fo_list. assumption.
    - fstep; [exact IH|]. fstep; [apply fom_record; assumption|]. apply fom_ret; assumption.
  Qed.

  Lemma all_fo_concat l : Forall all_fo l -> all_fo (concat l).
  Proof. induction 1; cbn; [constructor|]. apply Forall_app. auto. Qed.

  Lemma fom_bind p : forall t, first_order t -> fom all_fo (bind_pat p t).
  Proof.
    induction p as [i|i x|i l|i c ps F|i ps F|i ps F|i ps r F|i p x IH] using pat_ind'; intros t Ht; cbn [bind_pat].
    - apply fom_ret. constructor.
    - apply fom_ret. constructor; [exact Ht | constructor].
    - apply fom_ret. constructor.
    - fstep; [apply (fom_mmap all_fo)|apply fom_ret, all_fo_concat; assumption].
      revert F. apply Forall_impl. intros p Hp. fstep; [apply fom_node|]. fstep; [|apply Hp; eassumption].
      destruct a; [apply fom_ret; exact H | fstep; [apply fom_guessed | apply fom_fresh]].
    - fstep; [instantiate (1 := Forall first_order)|].
      + destruct t; try (fstep; [apply fom_guessed | apply fom_fresh_for]). apply fom_ret, fo_components, Ht.
      + fstep; [|apply fom_ret, all_fo_concat; eassumption]. apply fom_mzip. intros p u Hp Hu.
        apply (proj1 (Forall_forall _ _) F _ Hp). apply (proj1 (Forall_forall _ _) H _ Hu).
    - fstep; [apply fom_list_elem, Ht|]. fstep; [apply (fom_mmap all_fo)|apply fom_ret, all_fo_concat; assumption].
      revert F. apply Forall_impl. intros p Hp. apply Hp. assumption.
    - fstep; [apply fom_list_elem, Ht|]. fstep; [apply (fom_mmap all_fo)|].
      + revert F. apply Forall_impl. intros p Hp. apply Hp. assumption.
      + apply fom_ret. apply Forall_app. split; [apply all_fo_concat; assumption|]. destruct r; constructor; [apply fo_list; assumption | constructor].
    - fstep; [apply IH, Ht|]. apply fom_ret. constructor; assumption.
  Qed.

  Lemma collect_fo nodes f p : all_fo nodes -> (forall v, first_order (f v)) -> forall t, first_order t -> all_fo (collect_pat nodes f p t).
  Proof.
    intros N Hf. induction p as [i|i x|i l|i c ps F|i ps F|i ps F|i ps r F|i p x IH] using pat_ind'; intros t Ht; cbn [collect_pat].
    all: assert (S : forall p, first_order (match look (pat_id p) nodes with Some t => fill f t | None => fill f t end))
      by (intros q; destruct (look (pat_id q) nodes) eqn:E; apply fill_first_order; auto; eapply look_fo; eauto).
    all: try (constructor; fail).
    all: try (constructor; [apply fill_first_order; assumption | constructor]; fail).
    all: try (assert (C : all_fo (concat (List.map (fun p => collect_pat nodes f p (match look (pat_id p) nodes with Some t => fill f t | None => fill f t end)) ps)))
      by (apply all_fo_concat, Forall_map; revert F; apply Forall_impl; intros q Hq; apply Hq, S)).
    - exact C.
    - exact C.
    - exact C.
    - apply Forall_app. split; [exact C|]. destruct r; constructor; [apply fill_first_order; assumption | constructor].
    - constructor; [apply fill_first_order; assumption|]. apply IH, fill_first_order; assumption.
  Qed.

  Lemma mono_fo bs : all_fo bs -> env_fo (mono bs).
  Proof. intros F. unfold env_fo, mono. apply Forall_map. revert F. apply Forall_impl. intros [x t]. apply mono_schematic. Qed.

  Lemma fom_bind_let D p t : env_fo D -> first_order t -> fom env_fo (bind_let solver pure D p t).
  Proof.
    intros FD Ft st D' st' F E. unfold bind_let in E. destruct (solver (rev (i_cs st))) as [f|] eqn:Es.
    - assert (An : answers f (rev (i_cs st))).
      { apply Hsolver; [|exact Es]. intros a b H. apply (sf_cs _ F). apply in_rev, H. }
      injection E as <- <-. split; [exact F|]. split; [|apply grows_refl].
      assert (C : all_fo (collect_pat (i_nodes st) f p (fill f t))).
      { apply collect_fo; [apply F | apply An | apply fill_first_order; [apply An | exact Ft]]. }
      apply Forall_app. split; [|exact FD]. destruct (pure (i_next st)); [|apply mono_fo, C].
      apply Forall_map. revert C. apply Forall_impl. intros [x u] Hu. apply generalize_schematic, Hu.
    - revert E. apply (fom_bnd all_fo env_fo); [apply fom_bind, Ft | | exact F]. intros bs Hb. apply fom_ret. apply Forall_app.
      split; [apply mono_fo, Hb | exact FD].
  Qed.

  Lemma fom_params ps : Forall (fun p : nat * option ty => plain_ann (snd p)) ps -> fom (Forall first_order) (param_types ps).
  Proof.
    intros F. unfold param_types. apply fom_mmap. revert F. apply Forall_impl. intros [x [t|]] H; [apply fom_ret, H | apply fom_fresh].
  Qed.
  Lemma params_fo (xs : list nat) ts : Forall first_order ts -> all_fo (combine xs ts).
  Proof. intros F. apply Forall_forall. intros [x t] H. apply in_combine_r in H. apply (proj1 (Forall_forall _ _) F _ H). Qed.

  Definition wf_all (es : list expr) : Prop :=
    (fix all (es : list expr) : Prop := match es with [] => True | e :: es => wf e /\ all es end) es.
  Lemma wf_all_forall es : wf_all es <-> Forall wf es.
  Proof.
    induction es as [|e es IH]; cbn; split; intros H; auto.
    - destruct H. constructor; [assumption | apply IH; assumption].
    - inversion H; subst. split; [assumption | apply IH; assumption].
  Qed.

  Lemma fom_infer e : wf e -> forall D, env_fo D -> fom first_order (infer fns ctors solver pure D e).
  Proof.
    induction e as [l|i x|f|c args IHc IHa|c args IHa|i ps b IH|es IH|es IH|k a b IHa IHb|ss v IHs IHv|s arms IHs IHa] using expr_ind';
      intros W D FD; cbn [infer].
    all: try (assert (AL : forall es, wf_all es -> Forall (fun e => wf e -> forall D, env_fo D -> fom first_order (infer fns ctors solver pure D e)) es ->
      Forall (fun e => fom first_order (infer fns ctors solver pure D e)) es)
      by (clear -FD; intros es W; rewrite wf_all_forall in W; induction 1; inversion W; subst; constructor; auto)).
    - apply fom_ret, fo_lit.
    - apply fom_local_ref, FD.
    - apply known_fn.
    - destruct W as [W1 W2]. fstep; [apply IHc; assumption|]. fstep; [apply fom_mmap, AL; eassumption|]. apply fom_call; assumption.
    - fstep; [apply known_ctor|]. destruct args as [|x args]; [apply fom_ret; assumption|].
      fstep; [apply fom_mmap, AL; eassumption|]. apply fom_call; assumption.
    - destruct W as [W1 [W2 W3]]. fstep; [apply fom_params, W2|].
      fstep; [apply IH; [exact W3|]; apply Forall_app; split; [apply mono_fo, params_fo; assumption | exact FD]|].
      fstep; [apply fom_record_lam, fo_fn; assumption|]. apply fom_ret, fo_fn; assumption.
    - fstep; [apply fom_mmap, AL; eassumption|]. apply fom_ret, fo_tuple. assumption.
    - fstep; [apply fom_fresh|]. fstep; [apply (fom_mmap top)|apply fom_ret, fo_list; assumption].
      pose proof (AL es W IH) as X. revert X. apply Forall_impl. intros e He. fstep; [exact He | apply fom_eqn; assumption].
    - fstep; [apply fom_guessed | apply fom_fresh].
    - clear AL. revert D FD W. induction IHs as [|[k e] ss H F IH]; intros D FD W; cbn [wf] in W; [apply IHv; assumption|].
      destruct W as [W1 [W2 W3]]. cbn [snd] in H. destruct k as [[p ann]|].
      + destruct W1 as [W1 W1']. fstep; [apply H; assumption|]. fstep; [instantiate (1 := first_order)|].
        * destruct ann; [fstep; [apply fom_eqn; assumption|]; apply fom_ret; exact W1' | apply fom_ret; assumption].
        * fstep; [apply fom_pat|]. fstep; [apply fom_eqn; assumption|]. fstep; [apply fom_bind_let; assumption|].
          apply IH; [assumption | exact W3].
      + fstep; [apply H; assumption|]. apply IH; [assumption | exact W3].
    - destruct W as [W1 W2]. fstep; [apply IHs; assumption|]. fstep; [apply fom_fresh|]. fstep; [apply (fom_mmap top)|apply fom_ret; assumption].
      clear AL IHs. induction IHa as [|[[p g] b] arms [Hg Hb] F IH]; [constructor|]. destruct W2 as [[Wp [Wg Wb]] W2]. constructor; [|apply IH, W2].
      cbn [snd fst] in *. fstep; [apply fom_pat|]. fstep; [apply fom_eqn; assumption|]. fstep; [apply fom_bind; assumption|].
      fstep; [destruct g; [apply fom_guessed | apply (fom_ret top); exact I]|].
      fstep; [apply Hb; [exact Wb|]; apply Forall_app; split; [apply mono_fo; assumption | exact FD]|]. apply fom_eqn; assumption.
  Qed.

  Lemma fom_convert p : forall t, first_order t -> fom top (convert_pat ctors p t).
  Proof.
    induction p as [i|i x|i l|i c ps F|i ps F|i ps F|i ps r F|i p x IH] using pat_ind'; intros t Ht; cbn [convert_pat].
    1-3: apply fom_ret; exact I.
    - fstep; [apply fom_node|]. fstep; [instantiate (1 := first_order); destruct a; [apply fom_ret; exact H | apply known_ctor]|].
      destruct a0; try (apply fom_eqn; assumption). destruct (fo_params _ _ _ _ H0) as [Fp Fr].
      fstep; [apply fom_eqn; assumption|]. fstep; [apply (fom_mzip top)|apply fom_ret; exact I].
      intros p q Hp Hq. apply (proj1 (Forall_forall _ _) F _ Hp). apply (proj1 (Forall_forall _ _) Fp _ Hq).
    - fstep; [instantiate (1 := Forall first_order)|].
      + destruct t; try apply fom_fresh_for. apply fom_ret, fo_components, Ht.
      + fstep; [apply (fom_mzip top)|apply fom_ret; exact I]. intros p u Hp Hu.
        apply (proj1 (Forall_forall _ _) F _ Hp). apply (proj1 (Forall_forall _ _) H _ Hu).
    - fstep; [apply fom_fresh|]. fstep; [apply fom_eqn; [exact Ht | apply fo_list; assumption]|].
      fstep; [apply (fom_mmap top)|apply fom_ret; exact I]. revert F. apply Forall_impl. intros p Hp. apply Hp. assumption.
    - fstep; [apply fom_fresh|]. fstep; [apply fom_eqn; [exact Ht | apply fo_list; assumption]|].
      fstep; [apply (fom_mmap top)|apply fom_ret; exact I]. revert F. apply Forall_impl. intros p Hp. apply Hp. assumption.
    - apply IH, Ht.
  Qed.

  Notation chk := (check fns ctors solver pure).
  Definition chk_ok (e : expr) : Prop := wf e -> forall D mode, env_fo D -> plain_ann mode -> fom first_order (chk D mode e).

  Lemma fom_expected mode t : plain_ann mode -> first_order t -> fom top (match mode with Some u => eqn t u | None => ret tt end).
  Proof. intros M Ft. destruct mode; [apply fom_eqn; assumption | apply fom_ret; exact I]. Qed.

  Lemma fom_check e : chk_ok e.
  Proof.
    induction e as [l|i x|f|c args IHc IHa|c args IHa|i ps b IH|es IH|es IH|k a b IHa IHb|ss v IHs IHv|s arms IHs IHa] using expr_ind';
      intros W D mode FD FM; cbn [check].
    all: assert (AL : forall es, wf_all es -> Forall chk_ok es -> Forall (fun e => fom first_order (chk D None e)) es)
      by (clear -FD; intros es W; rewrite wf_all_forall in W; induction 1; inversion W; subst; constructor; auto; apply H; auto; exact I).
    - fstep; [apply fom_ret, fo_lit|]. fstep; [apply fom_expected; assumption | apply fom_ret; assumption].
    - fstep; [apply (fom_infer (EVar i x)); assumption|]. fstep; [apply fom_expected; assumption | apply fom_ret; assumption].
    - fstep; [apply (fom_infer (EFn f)); assumption|]. fstep; [apply fom_expected; assumption | apply fom_ret; assumption].
    - fstep; [apply (fom_infer (ECall c args)); assumption|]. fstep; [apply fom_expected; assumption|].
      destruct W as [W1 W2]. fstep; [apply IHc; [assumption | assumption | exact I]|].
      fstep; [|apply fom_ret; assumption].
      assert (P : Forall first_order (match a1 with TFunc ps _ _ _ => ps | _ => [] end)).
      { destruct a1; try constructor. apply (fo_params _ _ _ _ H1). }
      revert P. generalize (match a1 with TFunc ps _ _ _ => ps | _ => [] end). clear -IHa W2 FD.
      change (wf_all args) in W2. rewrite wf_all_forall in W2. instantiate (1 := top).
      induction IHa as [|x args Hx F IH]; intros params P; [apply fom_ret; exact I|]. inversion W2; subst.
      fstep; [apply Hx; [assumption | assumption|]|].
      + destruct P as [|p ps Hp]; [exact I|]. destruct (closed p); [exact Hp | exact I].
      + apply IH; [assumption|]. destruct P; [constructor | assumption].
    - fstep; [apply (fom_infer (ECons c args)); assumption|]. fstep; [apply fom_expected; assumption|].
      fstep; [apply fom_mmap, AL; assumption|]. apply fom_ret; assumption.
    - destruct W as [W1 [W2 W3]]. fstep; [apply fom_params, W2|].
      assert (FE : env_fo (mono (combine (List.map fst ps) a) ++ D)) by (apply Forall_app; split; [apply mono_fo, params_fo; assumption | exact FD]).
      fstep; [apply fom_infer; assumption|]. fstep; [apply fom_fresh|]. fstep; [apply fom_eqn; assumption|].
      fstep; [instantiate (1 := top); destruct mode as [[]|]; try (apply fom_ret; exact I)|].
      { cbn in FM. rewrite first_order_all in FM. destruct FM as [M1 [M2 _]].
        fstep; [apply (fom_mzip top)|apply fom_eqn; assumption]. intros x y Hx Hy.
        apply fom_eqn; [apply (proj1 (Forall_forall _ _) H _ Hx) | apply (proj1 (Forall_forall _ _) M1 _ Hy)]. }
      fstep; [apply fom_lam_type|]. fstep; [instantiate (1 := top); destruct a4; [apply fom_eqn; [apply fo_fn; assumption | assumption] | apply fom_ret; exact I]|].
      fstep; [apply IH; [assumption | assumption | exact I]|]. apply fom_ret, fo_fn; assumption.
    - fstep; [apply (fom_infer (ETuple es)); assumption|]. fstep; [apply fom_expected; assumption|].
      fstep; [apply fom_mmap, AL; assumption|]. apply fom_ret; assumption.
    - fstep; [apply (fom_infer (EList es)); assumption|]. fstep; [apply fom_expected; assumption|].
      fstep; [apply fom_mmap, AL; assumption|]. apply fom_ret; assumption.
    - destruct W as [W1 W2]. assert (FB : first_order bool_ty) by discriminate.
      fstep; [apply fom_infer; assumption|]. fstep; [apply fom_infer; assumption|].
      fstep; [apply fom_eqn; assumption|]. fstep; [apply fom_eqn; assumption|]. fstep; [apply fom_expected; assumption|].
      fstep; [apply IHa; [assumption | assumption | exact I]|]. fstep; [apply IHb; [assumption | assumption | exact I]|].
      apply fom_ret; assumption.
    - fstep; [apply (fom_infer (EBlock ss v)); assumption|]. fstep; [apply fom_expected; assumption|].
      fstep; [instantiate (1 := first_order)|apply fom_ret; assumption]. clear AL H H0 a a0.
      revert D FD W. induction IHs as [|[k e] ss Hx F IH]; intros D FD W; cbn [wf] in W; [apply IHv; [assumption | assumption | exact I]|].
      destruct W as [W1 [W2 W3]]. cbn [snd] in Hx. destruct k as [[p ann]|].
      + destruct W1 as [W1 W1']. fstep; [apply Hx; assumption|].
        fstep; [apply fom_pat|]. fstep; [apply fom_eqn; assumption|]. fstep; [apply fom_bind_let; assumption|].
        apply IH; [assumption | exact W3].
      + fstep; [apply Hx; [assumption | assumption | exact I]|]. apply IH; [assumption | exact W3].
    - fstep; [apply (fom_infer (ECase s arms)); assumption|]. fstep; [apply fom_expected; assumption|].
      destruct W as [W1 W2]. fstep; [apply IHs; [assumption | assumption | exact I]|]. fstep; [apply (fom_mmap first_order)|apply fom_ret; assumption].
      clear AL IHs. induction IHa as [|[[p g] b] arms [Hg Hb] F IH]; [constructor|]. destruct W2 as [[Wp [Wg Wb]] W2]. constructor; [|apply IH, W2].
      cbn [snd fst] in *. fstep; [apply fom_pat|]. fstep; [apply fom_eqn; assumption|]. fstep; [apply fom_bind; assumption|].
      fstep; [apply fom_convert; assumption|].
      assert (FE : env_fo (mono a4 ++ D)) by (apply Forall_app; split; [apply mono_fo; assumption | exact FD]).
      fstep; [instantiate (1 := top); destruct g as [g|]; [|apply fom_ret; exact I]|].
      { fstep; [apply Hg; [exact Wg | exact FE | discriminate] | apply fom_ret; exact I]. }
      apply Hb; [exact Wb | exact FE | exact I].
  Qed.
End Decls.
