(** Row variables the solver allocates are new: nothing it knows mentions them. *)
From Verif Require Import UnifyModel UnifySpec SubstSpec SubstProofs EffectRowProofs UnifyComplete InternModel InternProofs.

(** Row variables of a row, a constraint and a solver's state. *)
Definition row_tails (r : row) : list nat :=
  flat_map (fun e : effect => flat_map tails (snd e)) (fst r) ++ opt_list (snd r).
Fixpoint constr_tails (c : constr) : list nat :=
  match c with
  | CType t1 t2 => tails t1 ++ tails t2
  | CRow r1 r2 => row_tails r1 ++ row_tails r2
  | CAnd cs => flat_map constr_tails cs
  end.
Inductive mentions (st : ust) (v : nat) : Prop :=
| in_type w t : tget (u_ts st) w = Some t -> In v (tails t) -> mentions st v
| in_row w r : rget (u_rs st) w = Some r -> In v (row_tails r) -> mentions st v
| bound_row r : rget (u_rs st) v = Some r -> mentions st v.

Definition Bt (n : nat) (t : ty) : Prop := Forall (fun v => v < n) (tails t).
Definition Be (n : nat) (e : effect) : Prop := Forall (Bt n) (snd e).
Definition Br (n : nat) (r : row) : Prop := Forall (Be n) (fst r) /\ (forall v, snd r = Some v -> v < n).

Lemma Br_tails n r : Br n r <-> Forall (fun v => v < n) (row_tails r).
Proof.
  unfold Br, row_tails. rewrite Forall_app, flat_map_forall. unfold Be, Bt.
  split; intros [H1 H2]; split.
  - eapply Forall_impl; [|exact H1]. intros e He. apply flat_map_forall. exact He.
  - destruct (snd r); cbn; repeat constructor. apply H2. reflexivity.
  - eapply Forall_impl; [|exact H1]. intros e He. apply flat_map_forall in He. exact He.
  - intros v E. rewrite E in H2. inversion H2; assumption.
Qed.
Lemma row_part (e : row) : flat_map (fun e0 : ability * list ty => let (_, xs) := e0 in flat_map tails xs) (fst e) ++ opt_list (snd e) = row_tails e.
Proof. unfold row_tails. f_equal. apply flat_map_ext. intros [a xs]. reflexivity. Qed.
Lemma tails_func ps r e c : tails (TFunc ps r e c) = flat_map tails ps ++ tails r ++ row_tails e.
Proof. rewrite <- row_part. reflexivity. Qed.
Lemma tails_cont a r e : tails (TCont a r e) = tails a ++ tails r ++ row_tails e.
Proof. rewrite <- row_part. reflexivity. Qed.

Lemma Bt_func n ps r e c : Bt n (TFunc ps r e c) <-> Forall (Bt n) ps /\ Bt n r /\ Br n e.
Proof. unfold Bt at 1. rewrite tails_func, !Forall_app, flat_map_forall, <- Br_tails. tauto. Qed.
Lemma Bt_cont n a r e : Bt n (TCont a r e) <-> Bt n a /\ Bt n r /\ Br n e.
Proof. unfold Bt at 1. rewrite tails_cont, !Forall_app, <- Br_tails. tauto. Qed.
Lemma Bt_named n d m xs : Bt n (TNamed d m xs) <-> Forall (Bt n) xs.
Proof. unfold Bt. rewrite <- flat_map_forall. reflexivity. Qed.
Lemma Bt_tuple n xs : Bt n (TTuple xs) <-> Forall (Bt n) xs.
Proof. unfold Bt. rewrite <- flat_map_forall. reflexivity. Qed.
Lemma Bt_app n c xs : Bt n (TApp c xs) <-> Bt n c /\ Forall (Bt n) xs.
Proof. unfold Bt at 1. change (tails (TApp c xs)) with (tails c ++ flat_map tails xs). rewrite Forall_app, flat_map_forall. tauto. Qed.
Lemma Bt_mono n m t : n <= m -> Bt n t -> Bt m t.
Proof. intros L. apply Forall_impl. intros; lia. Qed.
Lemma Bts_mono n m l : n <= m -> Forall (Bt n) l -> Forall (Bt m) l.
Proof. intros L. apply Forall_impl. intros t. apply Bt_mono, L. Qed.
Lemma Be_mono n m e : n <= m -> Be n e -> Be m e.
Proof. apply Bts_mono. Qed.
Lemma Bes_mono n m l : n <= m -> Forall (Be n) l -> Forall (Be m) l.
Proof. intros L. apply Forall_impl. intros t. apply Be_mono, L. Qed.
Lemma Br_mono n m r : n <= m -> Br n r -> Br m r.
Proof. intros L [A B]. split; [eapply Bes_mono; eassumption|]. intros v E. specialize (B v E). lia. Qed.

Definition inv (st : ust) : Prop :=
  (forall v t, tget (u_ts st) v = Some t -> Bt (u_next st) t) /\
  (forall v r, rget (u_rs st) v = Some r -> v < u_next st /\ Br (u_next st) r).

Lemma inv_mentions st : inv st <-> forall v, mentions st v -> v < u_next st.
Proof.
  split.
  - intros [T R] v M. destruct M as [w t E I|w r E I|r E].
    + exact (proj1 (Forall_forall _ _) (T w t E) v I).
    + destruct (R w r E) as [_ B]. apply Br_tails in B. exact (proj1 (Forall_forall _ _) B v I).
    + exact (proj1 (R v r E)).
  - intros H. split.
    + intros v t E. apply Forall_forall. intros w I. apply H. eapply in_type; eassumption.
    + intros v r E. split; [apply H; eapply bound_row; eassumption|]. apply Br_tails, Forall_forall.
      intros w I. apply H. eapply in_row; eassumption.
Qed.

(** ** Applying substitutions *)
Lemma rapply_Br n rs r : (forall v q, rget rs v = Some q -> Br n q) -> Br n r -> Br n (rapply rs r).
Proof.
  intros A. pose proof (rapply_loop rs r) as L. revert L. generalize (rapply rs r) as r'.
  generalize (@nil nat) as vs. generalize (Datatypes.S (List.length rs)) as fuel. intros fuel. revert r.
  induction fuel as [|fuel IH]; intros r vs r' H B; [discriminate|]. cbn [rloop] in H.
  destruct (snd r) as [v|] eqn:E; [|injection H as <-; exact B].
  destruct (rget rs v) as [q|] eqn:G; [|injection H as <-; exact B].
  destruct (existsb (Nat.eqb v) vs); [injection H as <-; exact B|].
  refine (IH _ _ _ H _). destruct (A v q G) as [Q1 Q2]. split; [|exact Q2]. cbn [fst].
  apply Forall_forall. intros e I. apply add_all_In in I as [I|I].
  - exact (proj1 (Forall_forall _ _) (proj1 B) e I).
  - exact (proj1 (Forall_forall _ _) Q1 e I).
Qed.

Lemma traverse_B {A} (f : A -> option A) (P Q : A -> Prop) l l' : (forall x y, f x = Some y -> P x -> Q y) ->
  otraverse f l = Some l' -> Forall P l -> Forall Q l'.
Proof.
  intros H T. apply otraverse_some in T. induction T as [|x y l l' E _ IH]; intros F; constructor; inversion F; subst; eauto.
Qed.
Lemma omap_B f n m r r' : (forall x y, f x = Some y -> Bt n x -> Bt m y) -> n <= m ->
  omap_row f r = Some r' -> Br n r -> Br m r'.
Proof.
  intros H L E [B1 B2]. apply omap_row_some in E as [T F]. split.
  - clear T B2. induction F as [|e e' l l' [_ G] _ IH]; constructor; inversion B1; subst; [|auto].
    unfold Be in *. clear - H G H2. induction G; constructor; inversion H2; subst; eauto.
  - intros v Ev. rewrite T in Ev. specialize (B2 v Ev). lia.
Qed.
Ltac split_obind :=
  repeat match goal with
  | H : obind _ _ = Some _ |- _ => apply obind_some in H; destruct H as [? [? H]]
  end.
Lemma tapply_B n ts : (forall v t, tget ts v = Some t -> Bt n t) ->
  forall fuel t r, tapply fuel ts [] t = Some r -> Bt n t -> Bt n r.
Proof.
  intros A. induction fuel as [|fuel IH]; intros t r H B; [discriminate|].
  assert (L : forall l l', otraverse (tapply fuel ts []) l = Some l' -> Forall (Bt n) l -> Forall (Bt n) l') by
    (intros l l'; apply traverse_B; exact IH).
  assert (R : forall e e', omap_row (tapply fuel ts []) (rapply [] e) = Some e' -> Br n e -> Br n e').
  { intros e e' E Be0. rewrite rapply_none in E. exact (omap_B _ n n _ _ IH (le_n n) E Be0). }
  destruct t as [p|i|sc i|v|d m args|ps q e c|xs|c xs|a q e|]; cbn [tapply] in H; cbv zeta in H;
    try (injection H as <-; exact B).
  - destruct (tget ts v) as [u|] eqn:E; [exact (IH u r H (A v u E))|]. injection H as <-. exact B.
  - split_obind. injection H as <-. apply Bt_named. apply Bt_named in B. eauto.
  - split_obind. injection H as <-. apply Bt_func. apply Bt_func in B as (B1 & B2 & B3). split; [eauto|split; eauto].
  - split_obind. injection H as <-. apply Bt_tuple. apply Bt_tuple in B. eauto.
  - split_obind. injection H as <-. apply Bt_app. apply Bt_app in B as (B1 & B2). split; eauto.
  - split_obind. injection H as <-. apply Bt_cont. apply Bt_cont in B as (B1 & B2 & B3). split; [eauto|split; eauto].
Qed.

(** ** Runs *)
Definition good {A} (N : nat) (m : U A) (Q : nat -> A -> Prop) : Prop :=
  forall st, inv st -> N <= u_next st ->
    let (r, st') := m st in inv st' /\ u_next st <= u_next st' /\
    match r with UOk a => Q (u_next st') a | _ => True end.
Definition top {A} : nat -> A -> Prop := fun _ _ => True.

Lemma good_bind {A B} N (m : U A) (f : A -> U B) Q R : good N m Q ->
  (forall a M, N <= M -> Q M a -> good M (f a) R) -> good N (ubind m f) R.
Proof.
  intros H K st I L. specialize (H st I L). unfold ubind. destruct (m st) as [[a|e|] st']; destruct H as (H1 & H2 & H3).
  - specialize (K a (u_next st') ltac:(lia) H3 st' H1 (le_n _)). destruct (f a st') as [x st'']. destruct K as (K1 & K2 & K3).
    split; [exact K1|]. split; [lia | exact K3].
  - split; [exact H1|]. split; [exact H2 | exact Logic.I].
  - split; [exact H1|]. split; [exact H2 | exact Logic.I].
Qed.
Lemma good_ret {A} N (a : A) (Q : nat -> A -> Prop) : (forall M, N <= M -> Q M a) -> good N (uret a) Q.
Proof. intros H st I L. cbn. auto. Qed.
Lemma good_error {A} N e (Q : nat -> A -> Prop) : good N (uerror e) Q.
Proof. intros st I L. cbn. auto. Qed.
Lemma good_log N e : good N (log e) top.
Proof. intros st I L. cbn. split; [exact I|]. unfold top. auto. Qed.
Lemma good_ask {A} N (f : ust -> option A) (Q : nat -> A -> Prop) :
  (forall st a, inv st -> N <= u_next st -> f st = Some a -> Q (u_next st) a) -> good N (ask f) Q.
Proof. intros H st I L. unfold ask. destruct (f st) eqn:E; [|auto]. split; [exact I|]. split; [apply le_n|]. exact (H st a I L E). Qed.
Lemma good_weaken {A} N M (m : U A) Q : N <= M -> good N m Q -> good M m Q.
Proof. intros L H st I L'. apply H; [exact I | lia]. Qed.
Lemma good_top {A} N (m : U A) Q : good N m Q -> good N m top.
Proof. intros H st I L. specialize (H st I L). destruct (m st) as [[a|e|] st']; unfold top; tauto. Qed.

Lemma good_bind_type N fuel v t : Bt N t -> good N (bind_type fuel v t) top.
Proof.
  intros B. eapply good_bind; [apply good_ask with (Q := top); intros; exact Logic.I|].
  intros o M L _. destruct o; [apply good_error|]. intros st [I1 I2] LM. split; [split|].
  - cbn [u_ts u_rs u_next]. intros w u E. destruct (Nat.eq_dec v w) as [->|D].
    + rewrite tget_insert_same in E. injection E as <-. eapply Bt_mono; [|exact B]. lia.
    + rewrite tget_insert_other in E by exact D. eauto.
  - exact I2.
  - split; [apply le_n | exact Logic.I].
Qed.
Lemma rget_insert_same rs v u : rget (minsert Nat.eqb rs v u) v = Some u.
Proof. apply (mget_insert_same Nat.eqb nat_decides). Qed.
Lemma rget_insert_other rs v u w : v <> w -> rget (minsert Nat.eqb rs v u) w = rget rs w.
Proof. apply (mget_insert_other Nat.eqb nat_decides). Qed.
Lemma good_bind_row N v r : v < N -> Br N r -> good N (bind_row v r) top.
Proof.
  intros V B st [I1 I2] LM. split; [split|].
  - exact I1.
  - cbn [u_ts u_rs u_next]. intros w u E. destruct (Nat.eq_dec v w) as [->|D].
    + rewrite rget_insert_same in E. injection E as <-. split; [lia|]. eapply Br_mono; [|exact B]. lia.
    + rewrite rget_insert_other in E by exact D. eauto.
  - split; [apply le_n | exact Logic.I].
Qed.
Lemma good_fresh N : good N fresh_row (fun M v => v < M /\ N <= v).
Proof.
  intros st [I1 I2] L. cbn. split; [split|].
  - cbn. intros v t E. eapply Bt_mono; [|exact (I1 v t E)]. lia.
  - cbn. intros v r E. destruct (I2 v r E) as [P Q]. split; [lia|]. eapply Br_mono; [|exact Q]. lia.
  - split; [lia|]. split; [lia | exact L].
Qed.

Lemma good_each2 N (f : ty -> ty -> U unit) : (forall M x y, N <= M -> Bt M x -> Bt M y -> good M (f x y) top) ->
  forall l l' M, N <= M -> Forall (Bt M) l -> Forall (Bt M) l' -> good M (each2 f l l') top.
Proof.
  intros H. induction l as [|x l IH]; intros [|y l'] M L A B; cbn; try (apply good_ret; intros; exact Logic.I).
  inversion A; inversion B; subst. eapply good_bind; [apply H; eassumption|].
  intros _ M' L' _. apply (IH l' M'); [lia| |]; eapply Bts_mono; eauto.
Qed.

Section Rows.
  Variables (rec : ty -> ty -> U unit) (fuel : nat).
  Hypothesis rec_ok : forall N t1 t2, Bt N t1 -> Bt N t2 -> good N (rec t1 t2) top.

  Lemma match_args_B N e1 e2 : Be N e1 -> Be N e2 -> good N (match_args rec fuel e1 e2) top.
  Proof.
    intros A B. eapply good_bind; [apply good_ask with (Q := top); intros; exact Logic.I|].
    intros ok M L _. destruct ok; [|apply good_ret; intros; exact Logic.I].
    eapply good_bind; [eapply (good_each2 N rec); [intros; apply rec_ok; assumption|exact L| |]; eapply Bts_mono; eassumption|].
    intros; apply good_ret; intros; exact Logic.I.
  Qed.
  Lemma check_arity_B N rep n l : good N (check_arity rep n l) top.
  Proof. unfold check_arity. destruct (List.find _ _); [apply good_error | apply good_ret; intros; exact Logic.I]. Qed.
  Lemma first_match_B f : (forall M e, Be M e -> f e = f e) -> forall l N,
    (forall M e, N <= M -> In e l -> good M (f e) top) -> good N (first_match f l) top.
  Proof.
    intros _. induction l as [|e l IH]; intros N H; cbn; [apply good_ret; intros; exact Logic.I|].
    eapply good_bind; [apply H; [apply le_n | left; reflexivity]|]. intros b M L _.
    destruct b; [apply good_ret; intros; exact Logic.I|]. apply IH. intros; apply H; [lia | right; assumption].
  Qed.
  Lemma sets_step_B N es2 r1 r2 e1 : Forall (Be N) es2 -> Be N e1 -> good N (sets_step rec fuel es2 r1 r2 e1) top.
  Proof.
    intros A B. unfold sets_step. cbv zeta.
    set (s := filter (fun e2 : effect => ability_eqb (fst e1) (fst e2)) es2).
    assert (S : Forall (Be N) s) by (apply Forall_forall; intros e I; apply filter_In in I as [I _]; exact (proj1 (Forall_forall _ _) A e I)).
    destruct s as [|e0 s0] eqn:Es; [apply good_error|]. rewrite <- Es. rewrite <- Es in S.
    eapply good_bind; [apply check_arity_B|]. intros _ M L _.
    eapply good_bind.
    - apply (first_match_B (match_args rec fuel e1)); [reflexivity|]. intros M' e' L' I. apply match_args_B.
      + eapply Be_mono; [|exact B]. lia.
      + eapply Be_mono; [|exact (proj1 (Forall_forall _ _) S e' I)]. lia.
    - intros b M' L' _. destruct b; [apply good_ret; intros; exact Logic.I | apply good_error].
  Qed.
  Lemma each_B f l : forall N, (forall M e, N <= M -> In e l -> good M (f e) top) -> good N (each f l) top.
  Proof.
    induction l as [|e l IH]; intros N H; cbn; [apply good_ret; intros; exact Logic.I|].
    eapply good_bind; [apply H; [apply le_n | left; reflexivity]|]. intros _ M L _. apply IH. intros; apply H; [lia | right; assumption].
  Qed.
  Lemma unify_sets_B N es1 es2 r1 r2 : Forall (Be N) es1 -> Forall (Be N) es2 -> good N (unify_sets rec fuel es1 es2 r1 r2) top.
  Proof.
    intros A B. unfold unify_sets. destruct (Nat.eqb _ _); [|apply good_error].
    eapply good_bind; [apply good_log|]. intros _ M L _. apply each_B. intros M' e L' I. apply sets_step_B.
    - eapply Bes_mono; [|exact B]. lia.
    - eapply Be_mono; [|exact (proj1 (Forall_forall _ _) A e I)]. lia.
  Qed.
  Lemma difference_loop_B l1 : forall l2 N, Forall (Be N) l1 -> Forall (Be N) l2 ->
    good N (difference_loop rec fuel l1 l2) (fun M l => Forall (Be M) l).
  Proof.
    induction l2 as [|e2 l2 IH]; intros N A B; cbn [difference_loop]; [apply good_ret; intros; constructor|].
    inversion B as [|? ? B1 B2]; subst. cbv zeta.
    eapply good_bind; [apply check_arity_B|]. intros _ M L _.
    eapply good_bind.
    - apply (first_match_B (fun e1 => match_args rec fuel e1 e2)); [reflexivity|]. intros M' e' L' I. apply filter_In in I as [I _]. apply match_args_B.
      + eapply Be_mono; [|exact (proj1 (Forall_forall _ _) A e' I)]. lia.
      + eapply Be_mono; [|exact B1]. lia.
    - intros b M' L' _. eapply good_bind; [apply IH; eapply Bes_mono; [|eassumption| |eassumption]; lia|].
      intros only M'' L'' H. apply good_ret. intros K LK. destruct b; [eapply Bes_mono; eassumption|].
      constructor; [eapply Be_mono; [|exact B1]; lia | eapply Bes_mono; eassumption].
  Qed.
  Definition Bf n (l : list (effect * bool)) := Forall (fun p => Be n (fst p)) l.
  Lemma Bf_mono n m l : n <= m -> Bf n l -> Bf m l.
  Proof. intros L. apply Forall_impl. intros p. apply Be_mono, L. Qed.
  Lemma split_match_B e1 : forall l N, Be N e1 -> Bf N l ->
    good N (split_match rec fuel e1 l) (fun M o => match o with Some l' => Bf M l' | None => True end).
  Proof.
    induction l as [|[e2 matched] l IH]; intros N A B; cbn [split_match]; [apply good_ret; intros; exact Logic.I|].
    fold (split_match rec fuel e1). inversion B as [|? ? B1 B2]; subst. cbn [fst] in B1.
    assert (T : forall M, N <= M -> good M (rest <- split_match rec fuel e1 l ;; uret (option_map (cons (e2, matched)) rest))
      (fun M o => match o with Some l' => Bf M l' | None => True end)).
    { intros M L. eapply good_bind; [apply IH; [eapply Be_mono; eassumption | eapply Bf_mono; eassumption]|].
      intros o M' L' H. apply good_ret. intros K LK. destruct o as [l'|]; cbn; [|exact Logic.I].
      constructor; [cbn; eapply Be_mono; [|exact B1]; lia | eapply Bf_mono; eassumption]. }
    destruct (negb _ || matched); [apply T, le_n|].
    eapply good_bind; [apply match_args_B; assumption|]. intros b M L _. destruct b; [|apply T, L].
    apply good_ret. intros K LK. constructor; [cbn; eapply Be_mono; [|exact B1]; lia | eapply Bf_mono; [|exact B2]; lia].
  Qed.
  Lemma split_loop_B : forall l1 l2 N, Forall (Be N) l1 -> Bf N l2 ->
    good N (split_loop rec fuel l1 l2) (fun M p => Forall (Be M) (fst p) /\ Bf M (snd p)).
  Proof.
    induction l1 as [|e1 l1 IH]; intros l2 N A B; cbn [split_loop].
    - apply good_ret. intros M L. split; [constructor | eapply Bf_mono; eassumption].
    - inversion A as [|? ? A1 A2]; subst. eapply good_bind; [apply check_arity_B|]. intros _ M L _.
      eapply good_bind; [apply split_match_B; [eapply Be_mono; eassumption | eapply Bf_mono; eassumption]|].
      intros m M' L' Hm. eapply good_bind.
      + apply IH; [eapply Bes_mono; [|exact A2]; lia|]. destruct m; [exact Hm | eapply Bf_mono; [|exact B]; lia].
      + intros [p1 p2] M'' L'' [P1 P2]. apply good_ret. intros K LK. cbn [fst snd] in *. split; [|eapply Bf_mono; eassumption].
        destruct m; [eapply Bes_mono; eassumption|]. constructor; [eapply Be_mono; [|exact A1]; lia | eapply Bes_mono; eassumption].
  Qed.
  Lemma split_effects_B l1 l2 N : Forall (Be N) l1 -> Forall (Be N) l2 ->
    good N (split_effects rec fuel l1 l2) (fun M p => Forall (Be M) (fst p) /\ Forall (Be M) (snd p)).
  Proof.
    intros A B. eapply good_bind; [apply split_loop_B; [exact A|]|].
    - unfold Bf. apply Forall_map. exact B.
    - intros [p1 p2] M L [P1 P2]. apply good_ret. intros K LK. cbn [fst snd] in *. split; [eapply Bes_mono; eassumption|].
      apply Forall_map, Forall_forall. intros p I. apply filter_In in I as [I _]. eapply Be_mono; [exact LK|].
      exact (proj1 (Forall_forall _ _) P2 p I).
  Qed.
  Lemma occurs_B N v r : good N (occurs_in_row fuel v r) top.
  Proof. apply good_ask. intros; exact Logic.I. Qed.

  Lemma unify_rows_B N r1 r2 : Br N r1 -> Br N r2 -> good N (unify_rows rec fuel r1 r2) top.
  Proof.
    intros A0 B0.
    assert (K : forall r M, N <= M -> Br N r -> good M (ask (fun st => omap_row (tapply fuel (u_ts st) []) (rapply (u_rs st) r))) Br).
    { intros r M LM HB. apply good_ask. intros st a [I1 I2] L E.
      refine (omap_B _ (u_next st) (u_next st) _ _ _ (le_n _) E _).
      - intros x y Ex. apply (tapply_B _ _ I1 fuel x y Ex).
      - apply rapply_Br; [intros v q Eq; apply (I2 v q Eq)|]. eapply Br_mono; [|exact HB]. lia. }
    eapply good_bind; [apply K; [apply le_n | exact A0]|]. clear A0. intros q1 M1 L1 A1.
    eapply good_bind; [apply K; [exact L1 | exact B0]|]. clear B0. intros q2 M2 L2 B2.
    assert (A2 : Br M2 q1) by (eapply Br_mono; [|exact A1]; lia). clear A1 K.
    destruct (row_eqb q1 q2); [apply good_ret; intros; exact Logic.I|].
    destruct (is_pure q1 && is_pure q2); [apply good_ret; intros; exact Logic.I|].
    destruct A2 as [A A'], B2 as [B B'].
    destruct (snd q1) as [v1|], (snd q2) as [v2|].
    - specialize (A' v1 eq_refl). specialize (B' v2 eq_refl).
      destruct (Nat.eqb v1 v2); [apply unify_sets_B; assumption|].
      eapply good_bind; [apply occurs_B|]. intros o1 M3 L3 _. destruct o1; [apply good_error|].
      eapply good_bind; [apply occurs_B|]. intros o2 M4 L4 _. destruct o2; [apply good_error|].
      eapply good_bind; [apply split_effects_B; eapply Bes_mono; [|exact A| |exact B]; lia|]. intros [p1 p2] M5 L5 [P1 P2]. cbn [fst snd] in *.
      eapply good_bind; [apply good_fresh|]. intros v3 M6 L6 [V3 _].
      eapply good_bind; [apply good_bind_row; [lia|]|].
      + split; [eapply Bes_mono; [|exact P2]; lia|]. cbn. intros w E. injection E as <-. exact V3.
      + intros _ M7 L7 _. apply good_bind_row; [lia|]. split; [eapply Bes_mono; [|exact P1]; lia|]. cbn. intros w E. injection E as <-. lia.
    - specialize (A' v1 eq_refl). eapply good_bind; [apply occurs_B|]. intros o M3 L3 _. destruct o; [apply good_error|].
      eapply good_bind.
      + unfold difference. eapply good_bind; [apply good_log|]. intros _ M4 L4 _. apply difference_loop_B; eapply Bes_mono; [|exact A| |exact B]; lia.
      + intros only M4 L4 H. cbv beta in H. destruct (Nat.eqb _ _); [|apply good_error]. apply good_bind_row; [lia|]. split; [exact H|]. cbn. discriminate.
    - specialize (B' v2 eq_refl). destruct (is_pure q1 && _); [apply good_log|].
      eapply good_bind; [apply occurs_B|]. intros o M3 L3 _. destruct o; [apply good_error|].
      eapply good_bind.
      + unfold difference. eapply good_bind; [apply good_log|]. intros _ M4 L4 _. apply difference_loop_B; eapply Bes_mono; [|exact B| |exact A]; lia.
      + intros only M4 L4 H. cbv beta in H. destruct (Nat.eqb _ _); [|apply good_error]. apply good_bind_row; [lia|]. split; [exact H|]. cbn. discriminate.
    - apply unify_sets_B; assumption.
  Qed.
End Rows.

Lemma unify_B fuel : forall N t1 t2, Bt N t1 -> Bt N t2 -> good N (unify fuel t1 t2) top.
Proof.
  induction fuel as [|fuel IH]; intros N t1 t2 A0 B0; cbn [unify]; [apply good_ask; discriminate|]. cbv zeta.
  assert (K : forall t M, N <= M -> Bt N t -> good M (ask (fun st => tapply fuel (u_ts st) [] t)) Bt).
  { intros t M LM HB. apply good_ask. intros st a [I1 I2] L E. apply (tapply_B _ _ I1 fuel t a E). eapply Bt_mono; [|exact HB]. lia. }
  eapply good_bind; [apply K; [apply le_n | exact A0]|]. clear A0. intros q1 M1 L1 A1.
  eapply good_bind; [apply K; [exact L1 | exact B0]|]. clear B0. intros q2 M2 L2 B.
  assert (A : Bt M2 q1) by (eapply Bt_mono; [|exact A1]; lia). clear A1 K.
  destruct (ty_eqb q1 q2); [apply good_ret; intros; exact Logic.I|].
  assert (E2 : forall l l' M, M2 <= M -> Forall (Bt M2) l -> Forall (Bt M2) l' -> good M (each2 (unify fuel) l l') top).
  { intros l l' M L X Y. apply (good_each2 M2); [intros; apply IH; assumption|exact L| |]; eapply Bts_mono; eassumption. }
  assert (E1 : forall x y M, M2 <= M -> Bt M2 x -> Bt M2 y -> good M (unify fuel x y) top).
  { intros x y M L X Y. apply IH; eapply Bt_mono; eassumption. }
  assert (ER : forall x y M, M2 <= M -> Br M2 x -> Br M2 y -> good M (unify_rows (unify fuel) fuel x y) top).
  { intros x y M L X Y. apply unify_rows_B; [intros; apply IH; assumption| |]; eapply Br_mono; eassumption. }
  destruct q1 as [p|i|sc i|v|d m args|ps q e c|xs|c xs|a q e|], q2 as [p'|i'|sc' i'|v'|d' m' args'|ps' q' e' c'|xs'|c' xs'|a' q' e'|];
    try (destruct p); try (destruct p');
    try (apply good_bind_type; assumption); try (apply good_error); try (apply good_log).
  - apply Bt_named in A, B. destruct (_ || _); [apply good_error | apply E2; auto].
  - apply Bt_func in A as (A1 & A2 & A3), B as (B1 & B2 & B3). destruct (negb _); [apply good_error|].
    eapply good_bind; [apply E2; auto|]. intros _ M L _. eapply good_bind; [apply E1; auto|]. intros _ M' L' _. apply ER; auto; lia.
  - apply Bt_tuple in A, B. destruct (negb _); [apply good_error | apply E2; auto].
  - apply Bt_app in A as (A1 & A2), B as (B1 & B2). eapply good_bind; [apply E1; auto|]. intros _ M L _.
    destruct (negb _); [apply good_error | apply E2; auto].
  - apply Bt_cont in A as (A1 & A2 & A3), B as (B1 & B2 & B3).
    eapply good_bind; [apply E1; auto|]. intros _ M L _. eapply good_bind; [apply E1; auto|]. intros _ M' L' _. apply ER; auto; lia.
Qed.

(** ** Constraints *)
Lemma constr_induct (P : constr -> Prop) : (forall t1 t2, P (CType t1 t2)) -> (forall r1 r2, P (CRow r1 r2)) ->
  (forall cs, Forall P cs -> P (CAnd cs)) -> forall c, P c.
Proof.
  intros H1 H2 H3. fix IH 1. intros [t1 t2|r1 r2|cs]; [apply H1|apply H2|]. apply H3.
  induction cs as [|c cs IHcs]; constructor; [apply IH | exact IHcs].
Qed.
Definition Bc (n : nat) (c : constr) : Prop := Forall (fun v => v < n) (constr_tails c).

Lemma attempt_B {A} (f : A -> U unit) l : forall N, (forall M x, N <= M -> In x l -> good M (f x) top) -> good N (attempt f l) top.
Proof.
  induction l as [|x l IH]; intros N H; cbn; fold (attempt f); [apply good_ret; intros; exact Logic.I|].
  assert (IH' : good N (attempt f l) top) by (apply IH; intros; apply H; [assumption | right; assumption]).
  intros st I L. pose proof (H N x (le_n _) (or_introl eq_refl) st I L) as Hx.
  destruct (f x st) as [[a|e|] st']; destruct Hx as (X1 & X2 & _).
  - specialize (IH' st' X1 ltac:(lia)). fold (attempt f). destruct (attempt f l st') as [o st'']. destruct IH' as (Y1 & Y2 & Y3). split; [exact Y1|]. split; [lia | exact Y3].
  - specialize (IH' st' X1 ltac:(lia)). fold (attempt f). destruct (attempt f l st') as [[a|e'|] st'']; destruct IH' as (Y1 & Y2 & Y3); (split; [exact Y1|]; split; [lia | exact Logic.I]).
  - split; [exact X1|]. split; [exact X2 | exact Logic.I].
Qed.
Lemma solve_constr_B fuel c : forall N, Bc N c -> good N (solve_constr fuel c) top.
Proof.
  induction c as [t1 t2|r1 r2|cs IH] using constr_induct; intros N B; unfold Bc in B; cbn [constr_tails] in B.
  - apply Forall_app in B as [B1 B2]. apply unify_B; assumption.
  - apply Forall_app in B as [B1 B2]. apply unify_rows_B; [apply unify_B| |]; apply Br_tails; assumption.
  - apply flat_map_forall in B. cbn [solve_constr]. apply attempt_B. intros M x L I.
    apply (proj1 (Forall_forall _ _) IH x I). eapply Forall_impl; [|exact (proj1 (Forall_forall _ _) B x I)]. cbn. intros; lia.
Qed.

Lemma fold_reserve {A} (f : nat -> A -> nat) (g : A -> list nat) l :
  Forall (fun x => forall n, n <= f n x /\ forall v, In v (g x) -> v < f n x) l ->
  forall n, n <= fold_left f l n /\ forall v, In v (flat_map g l) -> v < fold_left f l n.
Proof.
  induction 1 as [|x l H _ IH]; intros n; cbn; [split; [apply le_n | intros v []]|].
  destruct (H n) as [H1 H2]. destruct (IH (f n x)) as [I1 I2]. split; [lia|].
  intros v I. apply in_app_iff in I as [I|I]; [specialize (H2 v I); lia | exact (I2 v I)].
Qed.
Lemma reserve_row_ok n r : n <= reserve_row n r /\ forall v, In v (row_tails r) -> v < reserve_row n r.
Proof.
  unfold reserve_row. cbv zeta. set (n0 := match snd r with Some v => Nat.max n (S v) | None => n end).
  assert (L0 : n <= n0 /\ forall v, In v (opt_list (snd r)) -> v < n0).
  { unfold n0. destruct (snd r); cbn; [|split; [apply le_n | intros v []]]. split; [lia|]. intros v [<-|[]]. lia. }
  destruct (fold_reserve (fun next (e : effect) => fold_left reserve (snd e) next) (fun e : effect => flat_map tails (snd e)) (fst r)) with (n := n0) as [F1 F2].
  { apply Forall_forall. intros e _ m. apply fold_reserve. apply Forall_forall. intros t _ k. apply reserve_spec. }
  split; [lia|]. intros v I. unfold row_tails in I. apply in_app_iff in I as [I|I]; [exact (F2 v I)|]. destruct L0 as [_ L0]. specialize (L0 v I). lia.
Qed.
Lemma reserve_constr_ok c : forall n, n <= reserve_constr n c /\ forall v, In v (constr_tails c) -> v < reserve_constr n c.
Proof.
  induction c as [t1 t2|r1 r2|cs IH] using constr_induct; intros n; cbn [reserve_constr constr_tails].
  - destruct (reserve_spec n t1) as [A1 A2]. destruct (reserve_spec (reserve n t1) t2) as [B1 B2]. split; [lia|].
    intros v I. apply in_app_iff in I as [I|I]; [specialize (A2 v I); lia | auto].
  - destruct (reserve_row_ok n r1) as [A1 A2]. destruct (reserve_row_ok (reserve_row n r1) r2) as [B1 B2]. split; [lia|].
    intros v I. apply in_app_iff in I as [I|I]; [specialize (A2 v I); lia | auto].
  - apply fold_reserve. exact IH.
Qed.

Lemma solve_keeps_fresh fuel cs st r st' : inv st -> solve fuel cs st = (r, st') ->
  inv st' /\ u_next st <= u_next st' /\ forall v, In v (flat_map constr_tails cs) -> v < u_next st'.
Proof.
  intros [I1 I2] E. unfold solve in E.
  destruct (fold_reserve reserve_constr constr_tails cs) with (n := u_next st) as [F1 F2].
  { apply Forall_forall. intros c _. apply reserve_constr_ok. }
  set (n := fold_left reserve_constr cs (u_next st)) in *.
  assert (G : good n (attempt (solve_constr fuel) cs) top).
  { apply attempt_B. intros M c L I. apply solve_constr_B, Forall_forall. intros v V.
    assert (W : v < n) by (apply F2, in_flat_map; eauto). lia. }
  specialize (G (mkU (u_ts st) (u_rs st) n (u_log st))). rewrite E in G.
  destruct G as (G1 & G2 & _).
  - split; cbn; [intros v t Ev; eapply Bt_mono; [|exact (I1 v t Ev)]; exact F1|].
    intros v q Ev. destruct (I2 v q Ev) as [V Q]. split; [lia|]. eapply Br_mono; [|exact Q]. exact F1.
  - apply le_n.
  - cbn in G2. split; [exact G1|]. split; [lia|]. intros v V. specialize (F2 v V). lia.
Qed.

Lemma solve_fresh fuel cs st r st' : (forall v, mentions st v -> v < u_next st) -> solve fuel cs st = (r, st') ->
  (forall v, mentions st' v \/ mentions st v \/ In v (flat_map constr_tails cs) -> v < u_next st') /\ u_next st <= u_next st'.
Proof.
  intros I E. destruct (solve_keeps_fresh fuel cs st r st' (proj2 (inv_mentions st) I) E) as (A & B & C).
  split; [|exact B]. intros v [M|[M|M]]; [exact (proj1 (inv_mentions st') A v M) | specialize (I v M); lia | exact (C v M)].
Qed.
