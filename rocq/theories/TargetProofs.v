(** Proofs about conversion targets. *)
From Verif Require Import Base IrModel IrSpec IrTreeSpec IrWalkProofs IrMainProofs TargetModel TargetSpec.
From Coq Require Import Lia.

Lemma key_eqb_eq : forall a b, key_eqb a b = true <-> a = b.
Proof.
  intros [a1 a2] [b1 b2]. unfold key_eqb. cbn [fst snd]. rewrite Bool.andb_true_iff, !Nat.eqb_eq. split; [intros (-> & ->); reflexivity|intros [= -> ->]; auto].
Qed.
Lemma has_key_In : forall l k, has_key l k = true <-> In k l.
Proof. intros l k. unfold has_key. rewrite existsb_exists. split; [intros (x & H & E); apply key_eqb_eq in E; subst; exact H|intro H; exists k; split; [exact H|apply key_eqb_eq; reflexivity]]. Qed.
Lemma has_sym_In : forall l k, has_sym l k = true <-> In k l.
Proof. intros l k. unfold has_sym. rewrite existsb_exists. split; [intros (x & H & E); apply Nat.eqb_eq in E; subst; exact H|intro H; exists k; split; [exact H|apply Nat.eqb_eq; reflexivity]]. Qed.
Lemma find_In : forall K (eqb : K -> K -> bool) l k f, (forall a b, eqb a b = true <-> a = b) -> find eqb l k = Some f -> In (k, f) l.
Proof. intros K eqb l k f H. induction l as [|[k' g] l IH]; cbn; [discriminate|]. destruct (eqb k k') eqn:E; [intros [= ->]; apply H in E; subst; left; reflexivity|intro Q; right; apply IH, Q]. Qed.
Lemma find_None : forall K (eqb : K -> K -> bool) l k, (forall a b, eqb a b = true <-> a = b) -> find eqb l k = None -> forall f, ~ In (k, f) l.
Proof.
  intros K eqb l k H. induction l as [|[k' g] l IH]; cbn; [intros _ f []|]. destruct (eqb k k') eqn:E; [discriminate|]. intros Q f [[= -> ->]|R]; [|exact (IH Q f R)].
  assert (eqb k k = true) by (apply H; reflexivity). congruence.
Qed.

(** What a target records of its history. *)
Record records (h : list reg) (t : target) : Prop := {
  rc_ld : forall d, In (LegalDialect d) h <-> In d (legal_dialects t);
  rc_id : forall d, In (IllegalDialect d) h <-> In d (illegal_dialects t);
  rc_lo : forall d, In (LegalOp d) h <-> In d (legal_ops t);
  rc_io : forall d, In (IllegalOp d) h <-> In d (illegal_ops t);
  rc_rl : forall d, In (RecursiveLegalOp d) h <-> In d (recursive_legal_ops t);
  rc_rd : forall d, In (RecursiveDynamicOp d) h <-> In d (recursive_dynamic_ops t);
  rc_do : forall d f, In (DynamicOp d f) h <-> find key_eqb (dynamic_ops t) d = Some f;
  rc_dd : forall d f, In (DynamicDialect d f) h <-> find Nat.eqb (dynamic_dialects t) d = Some f;
  rc_du : forall f, In (DynamicUnknown f) h <-> dynamic_unknown t = Some f;
  rc_disj_o : forall k, In k (legal_ops t) -> In k (illegal_ops t) -> False;
  rc_disj_d : forall k, In k (legal_dialects t) -> In k (illegal_dialects t) -> False;
}.
Lemma records_new : records [] new_target.
Proof. constructor; cbn; try tauto; try (intros; split; [intros []|discriminate]). Qed.
Lemma cons_iff : forall A (r x : A) h (P : Prop), (In x h <-> P) -> (In x (r :: h) <-> (r = x \/ P)).
Proof. intros A r x h P H. cbn. rewrite H. reflexivity. Qed.
Lemma register_records : forall h t r t', records h t -> register t r = Some t' -> records (r :: h) t'.
Proof.
  intros h [ld id lo io rl rd dyo dyd du] r t' [H1 H2 H3 H4 H5 H6 H7 H8 H9 H10 H11] E. cbn [legal_dialects illegal_dialects legal_ops illegal_ops recursive_legal_ops recursive_dynamic_ops dynamic_ops dynamic_dialects dynamic_unknown] in *.
  assert (FK : forall k k' f, find key_eqb dyo k' = None -> (k' = k /\ f = f \/ True) -> find key_eqb ((k', f) :: dyo) k = if key_eqb k k' then Some f else find key_eqb dyo k) by reflexivity.
  destruct r as [d|d|k|k|k|k|k f|d f|f]; cbn [register] in E.
  - destruct (has_sym id d) eqn:E1, (has_sym ld d) eqn:E2; cbn in E; try discriminate. injection E as <-.
    constructor; cbn; intros; rewrite ?H1, ?H2, ?H3, ?H4, ?H5, ?H6, ?H7, ?H8, ?H9; try (split; [intros [Q|Q]; [discriminate|exact Q]|auto]); try (eapply H10; eassumption).
    + split; (intros [Q|Q]; [left; congruence|right; exact Q]).
    + destruct H as [<-|Q]; [apply has_sym_In in H0; congruence|eapply H11; eassumption].
  - destruct (has_sym ld d) eqn:E1, (has_sym id d) eqn:E2; cbn in E; try discriminate. injection E as <-.
    constructor; cbn; intros; rewrite ?H1, ?H2, ?H3, ?H4, ?H5, ?H6, ?H7, ?H8, ?H9; try (split; [intros [Q|Q]; [discriminate|exact Q]|auto]); try (eapply H10; eassumption).
    + split; (intros [Q|Q]; [left; congruence|right; exact Q]).
    + destruct H0 as [<-|Q]; [apply has_sym_In in H; congruence|eapply H11; eassumption].
  - destruct (has_key io k) eqn:E1, (has_key lo k) eqn:E2; cbn in E; try discriminate. injection E as <-.
    constructor; cbn; intros; rewrite ?H1, ?H2, ?H3, ?H4, ?H5, ?H6, ?H7, ?H8, ?H9; try (split; [intros [Q|Q]; [discriminate|exact Q]|auto]); try (eapply H11; eassumption).
    + split; (intros [Q|Q]; [left; congruence|right; exact Q]).
    + destruct H as [<-|Q]; [apply has_key_In in H0; congruence|eapply H10; eassumption].
  - destruct (has_key lo k) eqn:E1, (has_key io k) eqn:E2; cbn in E; try discriminate. injection E as <-.
    constructor; cbn; intros; rewrite ?H1, ?H2, ?H3, ?H4, ?H5, ?H6, ?H7, ?H8, ?H9; try (split; [intros [Q|Q]; [discriminate|exact Q]|auto]); try (eapply H11; eassumption).
    + split; (intros [Q|Q]; [left; congruence|right; exact Q]).
    + destruct H0 as [<-|Q]; [apply has_key_In in H; congruence|eapply H10; eassumption].
  - destruct (has_key lo k) eqn:E1, (has_key rl k) eqn:E2; cbn in E; try discriminate. injection E as <-.
    constructor; cbn; intros; rewrite ?H1, ?H2, ?H3, ?H4, ?H5, ?H6, ?H7, ?H8, ?H9; try (split; [intros [Q|Q]; [discriminate|exact Q]|auto]); try (eapply H11; eassumption); try (eapply H10; eassumption).
    split; (intros [Q|Q]; [left; congruence|right; exact Q]).
  - destruct (find key_eqb dyo k) eqn:E1; [|discriminate]. destruct (has_key rd k) eqn:E2; cbn in E; try discriminate. injection E as <-.
    constructor; cbn; intros; rewrite ?H1, ?H2, ?H3, ?H4, ?H5, ?H6, ?H7, ?H8, ?H9; try (split; [intros [Q|Q]; [discriminate|exact Q]|auto]); try (eapply H11; eassumption); try (eapply H10; eassumption).
    split; (intros [Q|Q]; [left; congruence|right; exact Q]).
  - destruct (find key_eqb dyo k) eqn:E1; [discriminate|]. injection E as <-.
    constructor; cbn; intros; rewrite ?H1, ?H2, ?H3, ?H4, ?H5, ?H6, ?H7, ?H8, ?H9; try (split; [intros [Q|Q]; [discriminate|exact Q]|auto]); try (eapply H11; eassumption); try (eapply H10; eassumption).
    destruct (key_eqb d k) eqn:Ek.
    + apply key_eqb_eq in Ek. subst d. split; [intros [[= ->]|Q]; [reflexivity|congruence]|intros [= ->]; left; reflexivity].
    + split; [intros [[= <- _]|Q]; [|exact Q]|auto]. assert (Q : key_eqb k k = true) by (apply key_eqb_eq; reflexivity). congruence.
  - destruct (find Nat.eqb dyd d) eqn:E1; [discriminate|]. injection E as <-.
    constructor; cbn; intros; rewrite ?H1, ?H2, ?H3, ?H4, ?H5, ?H6, ?H7, ?H8, ?H9; try (split; [intros [Q|Q]; [discriminate|exact Q]|auto]); try (eapply H11; eassumption); try (eapply H10; eassumption).
    destruct (Nat.eqb_spec d0 d) as [->|N].
    + split; [intros [[= ->]|Q]; [reflexivity|congruence]|intros [= ->]; left; reflexivity].
    + split; [intros [[= <- _]|Q]; [contradiction|exact Q]|auto].
  - destruct du; [discriminate|]. injection E as <-.
    constructor; cbn; intros; rewrite ?H1, ?H2, ?H3, ?H4, ?H5, ?H6, ?H7, ?H8, ?H9; try (split; [intros [Q|Q]; [discriminate|exact Q]|auto]); try (eapply H11; eassumption); try (eapply H10; eassumption).
    split; [intros [[= ->]|Q]; [reflexivity|discriminate]|intros [= ->]; left; reflexivity].
Qed.
Lemma records_perm : forall h h' t, (forall r, In r h <-> In r h') -> records h t -> records h' t.
Proof. intros h h' t H [H1 H2 H3 H4 H5 H6 H7 H8 H9 H10 H11]. constructor; try assumption; intros; rewrite <- H; auto. Qed.
Lemma register_all_records : forall rs h t t', records h t -> register_all t rs = Some t' -> records (rs ++ h) t'.
Proof.
  induction rs as [|r rs IH]; intros h t t' H E; cbn [register_all] in E; [injection E as <-; exact H|].
  destruct (register t r) as [t1|] eqn:E1; [|discriminate]. eapply records_perm; [|eapply IH; [eapply register_records; eassumption|exact E]].
  intro x. rewrite !in_app_iff. cbn [In]. tauto.
Qed.
Lemma registered_records : forall h t, register_all new_target h = Some t -> records h t.
Proof. intros h t H. rewrite <- (app_nil_r h). eapply register_all_records; [apply records_new|exact H]. Qed.

Lemma not_has_key : forall l k, has_key l k = false <-> ~ In k l.
Proof. intros l k. rewrite <- has_key_In. destruct (has_key l k); split; congruence. Qed.
Lemma not_has_sym : forall l k, has_sym l k = false <-> ~ In k l.
Proof. intros l k. rewrite <- has_sym_In. destruct (has_sym l k); split; congruence. Qed.
Lemma some_iff : forall (b : bool) A (x : A), (exists t', (if b then None else Some x) = Some t') <-> b = false.
Proof. intros [] A x; split; intros H; try discriminate; [destruct H as (y & H); discriminate|reflexivity|eexists; reflexivity]. Qed.
Lemma register_accepts : forall h t r, register_all new_target h = Some t -> (exists t', register t r = Some t') <-> acceptable h r.
Proof.
  intros h [ld id lo io rl rd dyo dyd du] r R. apply registered_records in R as [H1 H2 H3 H4 H5 H6 H7 H8 H9 H10 H11].
  cbn [legal_dialects illegal_dialects legal_ops illegal_ops recursive_legal_ops recursive_dynamic_ops dynamic_ops dynamic_dialects dynamic_unknown] in *.
  destruct r as [d|d|k|k|k|k|k f|d f|f]; cbn [register acceptable].
  - rewrite some_iff, Bool.orb_false_iff, !not_has_sym, H1, H2. tauto.
  - rewrite some_iff, Bool.orb_false_iff, !not_has_sym, H1, H2. tauto.
  - rewrite some_iff, Bool.orb_false_iff, !not_has_key, H3, H4. tauto.
  - rewrite some_iff, Bool.orb_false_iff, !not_has_key, H3, H4. tauto.
  - rewrite some_iff, Bool.orb_false_iff, Bool.negb_false_iff, not_has_key, has_key_In, H3, H5. tauto.
  - destruct (find key_eqb dyo k) as [g|] eqn:F.
    + rewrite some_iff, not_has_key, H6. split; [intro Q; split; [exists g; apply H7, F|exact Q]|tauto].
    + split; [intros (t' & Q); discriminate|]. intros ((g & Q) & _). apply H7 in Q. congruence.
  - destruct (find key_eqb dyo k) as [g|] eqn:F.
    + split; [intros (t' & Q); discriminate|]. intro Q. exfalso. apply (Q g), H7, F.
    + split; [intros _ g Q; apply H7 in Q; congruence|eexists; reflexivity].
  - destruct (find Nat.eqb dyd d) as [g|] eqn:F.
    + split; [intros (t' & Q); discriminate|]. intro Q. exfalso. apply (Q g), H8, F.
    + split; [intros _ g Q; apply H8 in Q; congruence|eexists; reflexivity].
  - destruct du as [g|].
    + split; [intros (t' & Q); discriminate|]. intro Q. exfalso. apply (Q g), H9. reflexivity.
    + split; [intros _ g Q; apply H9 in Q; congruence|eexists; reflexivity].
Qed.

Lemma subseq_refl : forall A (l : list A), subseq l l.
Proof. induction l; constructor; assumption. Qed.
Lemma subseq_nil : forall A (l : list A), subseq [] l.
Proof. induction l; constructor; assumption. Qed.
Lemma subseq_app : forall A (a b c d : list A), subseq a b -> subseq c d -> subseq (a ++ c) (b ++ d).
Proof. intros A a b c d H K. induction H; cbn [app]; [exact K|constructor; assumption|constructor; assumption]. Qed.
Lemma subseq_filter : forall A (p : A -> bool) a b, subseq a b -> subseq (filter p a) b.
Proof. intros A p a b H. induction H; cbn [filter]; [constructor|destruct (p x); constructor; assumption|constructor; assumption]. Qed.
Lemma subseq_flat_map : forall A B (f g : A -> list B) l, Forall (fun x => subseq (f x) (g x)) l -> subseq (flat_map f l) (flat_map g l).
Proof. intros A B f g l H. induction H; cbn [flat_map]; [constructor|apply subseq_app; assumption]. Qed.

Section proofs.
  Variables dialect name : nat -> nat.
  Notation K := (key_of dialect name).
  Notation rules := (rules dialect name).
  Notation has_legality := (has_legality dialect name).
  Notation recursively_legal := (recursively_legal dialect name).

  Lemma legality_exact : forall h t c o, register_all new_target h = Some t -> has_legality h c o (is_legal dialect name t c o).
  Proof.
    intros h t c o R. apply registered_records in R as [H1 H2 H3 H4 H5 H6 H7 H8 H9 H10 H11]. unfold is_legal, has_legality.
    assert (T0 : forall l, ~ rules h c o 0 l) by (intros l Q; inversion Q).
    destruct (decided (find key_eqb (dynamic_ops t) (K c o)) c o) as [r|] eqn:D1.
    { left. exists 1. split; [|intros m l' Hm; replace m with 0 by lia; apply T0]. unfold decided in D1. destruct (find key_eqb (dynamic_ops t) (K c o)) as [f|] eqn:F; [|discriminate]. apply H7 in F.
      destruct (f c o) eqn:Ef; cbn in D1; try discriminate; injection D1 as <-; [eapply r_dyn_op|eapply r_dyn_op']; eassumption. }
    assert (T1 : forall l, ~ rules h c o 1 l).
    { intros l Q. inversion Q as [f A B|f A B|A|A|f A B|f A B|A|A|f A B|f A B]; subst; apply H7 in A; unfold decided in D1; rewrite A, B in D1; discriminate. }
    destruct (has_key (legal_ops t) (K c o)) eqn:L2.
    { left. exists 2. apply has_key_In, H3 in L2. split; [apply r_op, L2|]. intros [|[|m]] l Hm; [apply T0|apply T1|lia]. }
    destruct (has_key (illegal_ops t) (K c o)) eqn:I2.
    { left. exists 2. apply has_key_In, H4 in I2. split; [apply r_op', I2|]. intros [|[|m]] l Hm; [apply T0|apply T1|lia]. }
    assert (T2 : forall l, ~ rules h c o 2 l).
    { intros l Q. inversion Q as [f A B|f A B|A|A|f A B|f A B|A|A|f A B|f A B]; subst; [apply H3, has_key_In in A|apply H4, has_key_In in A]; congruence. }
    destruct (decided (find Nat.eqb (dynamic_dialects t) (fst (K c o))) c o) as [r|] eqn:D3.
    { left. exists 3. split; [|intros [|[|[|m]]] l Hm; [apply T0|apply T1|apply T2|lia]]. unfold decided in D3. destruct (find Nat.eqb (dynamic_dialects t) (fst (K c o))) as [f|] eqn:F; [|discriminate]. apply H8 in F.
      destruct (f c o) eqn:Ef; cbn in D3; try discriminate; injection D3 as <-; [eapply r_dyn_dialect|eapply r_dyn_dialect']; eassumption. }
    assert (T3 : forall l, ~ rules h c o 3 l).
    { intros l Q. inversion Q as [f A B|f A B|A|A|f A B|f A B|A|A|f A B|f A B]; subst; apply H8 in A; unfold decided in D3; rewrite A, B in D3; discriminate. }
    destruct (has_sym (legal_dialects t) (fst (K c o))) eqn:L4.
    { left. exists 4. apply has_sym_In, H1 in L4. split; [apply r_dialect, L4|]. intros [|[|[|[|m]]]] l Hm; [apply T0|apply T1|apply T2|apply T3|lia]. }
    destruct (has_sym (illegal_dialects t) (fst (K c o))) eqn:I4.
    { left. exists 4. apply has_sym_In, H2 in I4. split; [apply r_dialect', I4|]. intros [|[|[|[|m]]]] l Hm; [apply T0|apply T1|apply T2|apply T3|lia]. }
    assert (T4 : forall l, ~ rules h c o 4 l).
    { intros l Q. inversion Q as [f A B|f A B|A|A|f A B|f A B|A|A|f A B|f A B]; subst; [apply H1, has_sym_In in A|apply H2, has_sym_In in A]; congruence. }
    destruct (decided (dynamic_unknown t) c o) as [r|] eqn:D5.
    { left. exists 5. split; [|intros [|[|[|[|[|m]]]]] l Hm; [apply T0|apply T1|apply T2|apply T3|apply T4|lia]]. unfold decided in D5. destruct (dynamic_unknown t) as [f|] eqn:F; [|discriminate]. assert (F2 : In (DynamicUnknown f) h) by (apply H9; reflexivity).
      destruct (f c o) eqn:Ef; cbn in D5; try discriminate; injection D5 as <-; [eapply r_unknown|eapply r_unknown']; eassumption. }
    right. split; [reflexivity|]. intros n l Q. inversion Q as [f A B|f A B|A|A|f A B|f A B|A|A|f A B|f A B]; subst; try (exact (T1 _ Q)); try (exact (T2 _ Q)); try (exact (T3 _ Q)); try (exact (T4 _ Q));
      apply H9 in A; unfold decided in D5; rewrite A, B in D5; discriminate.
  Qed.

  (** A tier never rules both ways. *)
  Lemma rules_functional : forall h t c o, register_all new_target h = Some t -> forall n l l', rules h c o n l -> rules h c o n l' -> l = l'.
  Proof.
    intros h t c o R. apply registered_records in R as [H1 H2 H3 H4 H5 H6 H7 H8 H9 H10 H11].
    intros n l l' A B. inversion A as [f A1 A2|f A1 A2|A1|A1|f A1 A2|f A1 A2|A1|A1|f A1 A2|f A1 A2]; subst;
      inversion B as [g B1 B2|g B1 B2|B1|B1|g B1 B2|g B1 B2|B1|B1|g B1 B2|g B1 B2]; subst; try reflexivity; exfalso;
      try (apply H7 in A1; apply H7 in B1; congruence); try (apply H8 in A1; apply H8 in B1; congruence); try (apply H9 in A1; apply H9 in B1; congruence);
      try (apply H3 in A1; apply H4 in B1; eauto); try (apply H4 in A1; apply H3 in B1; eauto); try (apply H1 in A1; apply H2 in B1; eauto); try (apply H2 in A1; apply H1 in B1; eauto).
  Qed.
  Lemma has_legality_functional : forall h t c o, register_all new_target h = Some t -> forall l l', has_legality h c o l -> has_legality h c o l' -> l = l'.
  Proof.
    intros h t c o R l l' [(n & A & B)|(-> & A)] [(m & A' & B')|(-> & A')].
    - assert (n = m) as ->. { destruct (Nat.lt_trichotomy n m) as [Q|[Q|Q]]; [exfalso; exact (B' _ _ Q A)|exact Q|exfalso; exact (B _ _ Q A')]. }
      eapply rules_functional; eassumption.
    - exfalso. exact (A' _ _ A).
    - exfalso. exact (A _ _ A').
    - reflexivity.
  Qed.
  Lemma legality_iff : forall h t c o l, register_all new_target h = Some t -> (is_legal dialect name t c o = l <-> has_legality h c o l).
  Proof.
    intros h t c o l R. pose proof (legality_exact h t c o R) as E. split; [intros <-; exact E|]. intro Q. eapply has_legality_functional; eassumption.
  Qed.
  Lemma legality_eqb_eq : forall a b, legality_eqb a b = true <-> a = b.
  Proof. intros [] []; cbn; split; congruence. Qed.
  Lemma recursively_legal_iff : forall h t c o, register_all new_target h = Some t -> (is_recursively_legal dialect name t c o = true <-> recursively_legal h c o).
  Proof.
    intros h t c o R. pose proof (registered_records h t R) as [H1 H2 H3 H4 H5 H6 H7 H8 H9 H10 H11]. unfold is_recursively_legal, recursively_legal.
    rewrite Bool.orb_true_iff, !Bool.andb_true_iff, !has_key_In, <- H6, <- H5, legality_eqb_eq, (legality_iff h t c o Legal R).
    assert (Q : match find key_eqb (dynamic_ops t) (K c o) with Some f => match f c o with DLegal => true | _ => false end | None => false end = true <-> rules h c o 1 Legal); [|rewrite Q; reflexivity].
    split.
    - destruct (find key_eqb (dynamic_ops t) (K c o)) as [f|] eqn:F; [|discriminate]. apply H7 in F. destruct (f c o) eqn:Ef; try discriminate. intros _. eapply r_dyn_op; eassumption.
    - intro A. inversion A as [f A1 A2| | | | | | | | |]; subst. apply H7 in A1. rewrite A1, A2. reflexivity.
  Qed.

  (** ** Verification *)
  Section walk.
    Variables (skip : nat -> bool).
    Fixpoint pruned (t : tree) : list nat := match t with Node o rs => o :: (if skip o then [] else inner pruned rs) end.
    Variables (A : Type) (step : list A -> nat -> list A).
    Let f (acc : list A) (o : nat) : list A * action unit := (step acc o, if skip o then Skip else Advance).
    Lemma run_skip : forall (l l' : list (nat * nat)) s n, n = length l -> run f s n (l ++ l') = run f s 0 l'.
    Proof. induction l as [|[o b] l IH]; intros l' s n ->; [reflexivity|]. cbn [app length run]. apply IH. reflexivity. Qed.
    Lemma inner_len : forall rs, length (inner marks rs) = length (inner preorder rs).
    Proof. intro rs. pose proof (marks_len (Node 0 rs)) as H. cbn in H. lia. Qed.
    Lemma run_pruned : forall t s l, run f s 0 (marks t ++ l) = run f (fold_left step (pruned t) s) 0 l.
    Proof.
      intro t. induction t as [o rs IH] using tree_induct. intros s l. cbn [marks app run pruned fold_left]. unfold f at 1. destruct (skip o) eqn:E.
      - cbn [fold_left]. apply run_skip. symmetry. apply inner_len.
      - rewrite !inner_trees. clear E. generalize (step s o) as s1. induction IH as [|t ts Ht _ IHts]; intro s1; [reflexivity|].
        cbn [flat_map]. rewrite <- app_assoc, Ht, IHts, fold_left_app. reflexivity.
    Qed.
    Lemma run_pruned_all : forall ts s, run f s 0 (flat_map marks ts) = Continued (fold_left step (flat_map pruned ts) s).
    Proof.
      induction ts as [|t ts IH]; intro s; [reflexivity|]. cbn [flat_map]. rewrite run_pruned, IH, fold_left_app. reflexivity.
    Qed.
  End walk.
  Lemma pruned_subseq : forall skip t, subseq (pruned skip t) (preorder t).
  Proof.
    intros skip t. induction t as [o rs IH] using tree_induct. cbn [pruned preorder]. apply ss_keep. destruct (skip o); [apply subseq_nil|]. rewrite !inner_trees. apply subseq_flat_map. exact IH.
  Qed.
  Lemma fold_collect : forall A B (p : A -> bool) (g : A -> B) l acc, fold_left (fun acc x => if p x then acc ++ [g x] else acc) l acc = acc ++ map g (filter p l).
  Proof.
    induction l as [|x l IH]; intro acc; cbn [fold_left filter map]; [symmetry; apply app_nil_r|]. rewrite IH. destruct (p x); [|reflexivity]. cbn [map]. rewrite <- app_assoc. reflexivity.
  Qed.
  Lemma root_in_pruned : forall skip t, In (root t) (pruned skip t).
  Proof. intros skip [o rs]. left. reflexivity. Qed.

  (** A directly nested operation is the root of a subtree, and conversely. *)
  Lemma tree_of_sub : forall c o rs, tree_of c (Node o rs) -> Forall (tree_of c) (trees rs) /\ (forall x, nested_in c x o <-> In x (map root (trees rs))).
  Proof.
    intros c o rs ((d & Ed & Er) & H). assert (F : Forall (tree_of c) (trees rs)).
    { apply nested_all. clear Er. induction rs as [|rb rs IH]; cbn in *; [exact I|]. destruct H as ((_ & Hb) & H). split; [|apply IH, H]. clear -Hb. induction (snd rb) as [|bt l IH]; cbn in *; [exact I|]. destruct Hb as ((_ & A) & B). split; [exact A|apply IH, B]. }
    split; [exact F|]. intro x. rewrite all_Forall, Forall_forall in H. unfold trees, inner. split.
    - intros (d' & r & rd & b & bd & E1 & E2 & E3 & E4 & E5 & E6). rewrite Ed in E1. injection E1 as <-. rewrite Er in E2. apply in_map_iff in E2 as (rb & <- & Hrb).
      destruct (H rb Hrb) as ((rd' & E3' & Eb) & Hbs). rewrite E3 in E3'. injection E3' as <-. rewrite Eb in E4. apply in_map_iff in E4 as (bt & <- & Hbt).
      rewrite all_Forall, Forall_forall in Hbs. destruct (Hbs bt Hbt) as ((bd' & E5' & Eo) & _). rewrite E5 in E5'. injection E5' as <-. rewrite Eo in E6.
      apply in_map_iff in E6 as (t & <- & Ht). apply in_map. apply in_flat_map. exists rb. split; [exact Hrb|]. apply in_flat_map. exists bt. split; [exact Hbt|]. rewrite flat_map_single. exact Ht.
    - intro Q. apply in_map_iff in Q as (t & <- & Ht). apply in_flat_map in Ht as (rb & Hrb & Ht). apply in_flat_map in Ht as (bt & Hbt & Ht). rewrite flat_map_single in Ht.
      destruct (H rb Hrb) as ((rd & E3 & Eb) & Hbs). rewrite all_Forall, Forall_forall in Hbs. destruct (Hbs bt Hbt) as ((bd & E5 & Eo) & _).
      exists d, (fst rb), rd, (fst bt), bd. repeat split; try assumption; [rewrite Er; apply in_map, Hrb|rewrite Eb; apply in_map, Hbt|rewrite Eo; apply in_map, Ht].
  Qed.

  Lemma pruned_looked : forall h t c, register_all new_target h = Some t -> forall tops ts, Forall (tree_of c) ts -> (forall o, In o tops <-> In o (map root ts)) ->
    forall x, In x (flat_map (pruned (is_recursively_legal dialect name t c)) ts) <-> looked_at dialect name h c tops x.
  Proof.
    intros h t c R tops ts F Htops x. set (skip := is_recursively_legal dialect name t c).
    assert (Skip : forall o, skip o = true <-> recursively_legal h c o) by (intro o; apply recursively_legal_iff, R).
    split.
    - intro Q. apply in_flat_map in Q as (u & Hu & Q). assert (L : looked_at dialect name h c tops (root u)) by (apply la_top, Htops, in_map, Hu).
      rewrite Forall_forall in F. specialize (F u Hu). clear Hu Htops ts. revert F L Q. induction u as [o rs IH] using tree_induct. intros F L [<-|Q]; [exact L|].
      destruct (skip o) eqn:Es; [destruct Q|]. destruct (tree_of_sub _ _ _ F) as (F' & N). rewrite inner_trees in Q. apply in_flat_map in Q as (v & Hv & Q). rewrite Forall_forall in IH, F'.
      apply (IH v Hv (F' v Hv)); [|exact Q]. eapply la_nested; [exact L| |apply N, in_map, Hv]. intro C. apply Skip in C. cbn in C. congruence.
    - intro L. induction L as [o Ho|x o L IHL Hn Hx].
      + apply Htops in Ho. apply in_map_iff in Ho as (u & <- & Hu). apply in_flat_map. exists u. split; [exact Hu|apply root_in_pruned].
      + apply in_flat_map in IHL as (u & Hu & Q). apply in_flat_map. exists u. split; [exact Hu|]. rewrite Forall_forall in F. specialize (F u Hu). clear Hu Htops L ts. revert F Q. induction u as [p rs IH] using tree_induct. intros F Q.
        destruct (tree_of_sub _ _ _ F) as (F' & N). cbn [pruned] in Q |- *. destruct Q as [<-|Q].
        * right. destruct (skip p) eqn:Es; [exfalso; apply Hn, Skip, Es|]. apply N in Hx. apply in_map_iff in Hx as (v & <- & Hv). rewrite inner_trees. apply in_flat_map. exists v. split; [exact Hv|apply root_in_pruned].
        * right. destruct (skip p) eqn:Es; [destruct Q|]. rewrite inner_trees in Q |- *. apply in_flat_map in Q as (v & Hv & Q). rewrite Forall_forall in IH, F'. apply in_flat_map. exists v. split; [exact Hv|]. apply (IH v Hv (F' v Hv)), Q.
  Qed.

  Lemma failed_iff : forall m l, failed m l = true <-> fails m l.
  Proof. intros [] []; cbn; split; try congruence; intro H; exfalso; apply H; reflexivity. Qed.

  Lemma verify_ok : forall h t c rb fuel m, register_all new_target h = Some t -> region_tree_of c rb -> (forall u, In u (region_trees rb) -> height u <= fuel) ->
    exists l, verify_mode dialect name fuel t c (fst rb) m = Some l /\
      (forall o k r, In (o, k, r) l <-> (looked_at dialect name h c (tops_of c rb) o /\ k = K c o /\ has_legality h c o r /\ fails m r)) /\
      subseq (map (fun x => fst (fst x)) l) (flat_map preorder (region_trees rb)).
  Proof.
    intros h t c rb fuel m R Ht Hh. unfold verify_mode.
    set (step := fun (acc : list (nat * key * legality)) o => if failed m (is_legal dialect name t c o) then acc ++ [(o, K c o, is_legal dialect name t c o)] else acc).
    change (fun acc o => (if failed m (is_legal dialect name t c o) then acc ++ [(o, K c o, is_legal dialect name t c o)] else acc, if is_recursively_legal dialect name t c o then Skip else Advance))
      with (fun acc o => (step acc o, if is_recursively_legal dialect name t c o then Skip else Advance (B := unit))).
    rewrite walk_region_run by assumption. rewrite run_pruned_all. eexists. split; [reflexivity|]. unfold step. rewrite fold_collect. cbn [app].
    assert (F : Forall (tree_of c) (region_trees rb)).
    { destruct Ht as (_ & Hb). rewrite all_Forall in Hb. apply Forall_forall. intros u Hu. unfold region_trees in Hu. apply in_flat_map in Hu as (bt & Hbt & Hu). rewrite Forall_forall in Hb. destruct (Hb bt Hbt) as (_ & A). rewrite all_Forall, Forall_forall in A. apply A, Hu. }
    pose proof (pruned_looked h t c R (tops_of c rb) (region_trees rb) F (fun o => iff_refl _)) as P.
    split; [|rewrite map_map; cbn [fst]; rewrite map_id; apply subseq_filter, subseq_flat_map, Forall_forall; intros u _; apply pruned_subseq].
    intros o k r. rewrite in_map_iff. split.
    - intros (o' & [= -> <- <-] & Q). apply filter_In in Q as (Q1 & Q2). split; [apply P, Q1|]. split; [reflexivity|]. split; [apply legality_exact, R|apply failed_iff, Q2].
    - intros (A & -> & B & C). apply (legality_iff h t c o r R) in B. exists o. split; [rewrite B; reflexivity|]. apply filter_In. split; [apply P, A|]. apply failed_iff. rewrite B. exact C.
  Qed.
End proofs.
