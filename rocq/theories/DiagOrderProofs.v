From Verif Require Import DiagOrderSpec.

Definition key (d : diagnostic) : list nat := phase_rank (in_phase d) :: start d :: stop d :: message d.
Lemma compare_key a b : compare_diagnostics a b = compare_bytes (key a) (key b).
Proof. unfold compare_diagnostics, key. cbn [compare_bytes]. destruct (phase_rank _ ?= _); cbn; try reflexivity. destruct (start a ?= start b); cbn; reflexivity. Qed.
Lemma rank_inj p q : phase_rank p = phase_rank q -> p = q.
Proof. destruct p, q; cbn; congruence. Qed.
Lemma rank_phase p q : phase_rank p < phase_rank q <-> earlier_phase p q.
Proof.
  assert (N : forall p, nth_error phases (phase_rank p) = Some p) by (intros []; reflexivity).
  assert (M : forall i p, nth_error phases i = Some p -> i = phase_rank p).
  { intros i x H. do 7 (destruct i as [|i]; [cbn in H; injection H as <-; reflexivity|]). cbn in H. destruct i; discriminate. }
  split; [intros L; exists (phase_rank p), (phase_rank q); auto|]. intros (i & j & L & A & B). apply M in A, B. lia.
Qed.

Fixpoint lex (a b : list nat) : Prop :=
  match a, b with [], _ :: _ => True | x :: a', y :: b' => x < y \/ x = y /\ lex a' b' | _, _ => False end.
Lemma compare_spec a : forall b, match compare_bytes a b with Eq => a = b | Lt => lex a b | Gt => lex b a end.
Proof.
  induction a as [|x a IH]; intros [|y b]; cbn; auto. specialize (IH b). destruct (Nat.compare_spec x y); cbn [then_with]; auto. subst y.
  destruct (compare_bytes a b); auto. congruence.
Qed.
Lemma lex_irrefl a : ~ lex a a.
Proof. induction a as [|x a IH]; cbn; [auto|]. intros [L|[_ L]]; [lia|auto]. Qed.
Lemma lex_trans a : forall b c, lex a b -> lex b c -> lex a c.
Proof.
  induction a as [|x a IH]; intros [|y b] [|z c]; cbn; auto; try contradiction. intros [L|[-> L]] [M|[-> M]]; try (left; lia). right. split; [reflexivity|]. eapply IH; eauto.
Qed.
Lemma lex_text a : forall b, lex a b <-> text_before a b.
Proof.
  induction a as [|x a IH]; intros b; cbn [lex].
  - destruct b as [|y b]; split; try contradiction.
    + intros [(z & c & E)|(w & c & d & u & v & E & _)]; [discriminate|destruct w; discriminate].
    + intros _. left. exists b, y. reflexivity.
    + auto.
  - destruct b as [|y b].
    + split; [contradiction|]. intros [(z & c & E)|(w & c & d & u & v & _ & E & _)]; [discriminate|destruct w; discriminate].
    + rewrite IH. split.
      * intros [L|[-> [(z & c & ->)|(w & c & d & u & v & -> & -> & L)]]].
        -- right. exists [], x, y, a, b. auto.
        -- left. exists z, c. reflexivity.
        -- right. exists (y :: w), c, d, u, v. auto.
      * intros [(z & c & E)|(w & c & d & u & v & E1 & E2 & L)].
        -- injection E as -> ->. right. split; [reflexivity|]. left. eauto.
        -- destruct w as [|q w]; injection E1 as -> ->; injection E2 as -> ->; [auto|]. right. split; [reflexivity|]. right. exists w, c, d, u, v. auto.
Qed.
Lemma before_key a b : before a b <-> lex (key a) (key b).
Proof.
  unfold before, key. cbn [lex]. rewrite rank_phase, lex_text. split; intros [H|[E H]]; auto; right; split; auto.
  - congruence.
  - apply rank_inj, E.
Qed.
Lemma same_key_eq a b : same_key a b <-> key a = key b.
Proof.
  unfold same_key, key. split; [intros (-> & -> & -> & ->); reflexivity|]. intros E. injection E as A B C D. apply rank_inj in A. auto.
Qed.
Lemma compare_before a b : match compare_diagnostics a b with Eq => same_key a b | Lt => before a b | Gt => before b a end.
Proof. rewrite compare_key. pose proof (compare_spec (key a) (key b)) as H. destruct (compare_bytes _ _); rewrite ?same_key_eq, ?before_key; exact H. Qed.

Definition le (a b : diagnostic) : Prop := ~ before b a.
Lemma le_trans a b c : le a b -> le b c -> le a c.
Proof.
  unfold le. rewrite !before_key. intros A B K. pose proof (compare_spec (key a) (key b)) as H. destruct (compare_bytes _ _); [rewrite H in K|..].
  - contradiction.
  - apply B. eapply lex_trans; eauto.
  - contradiction.
Qed.
Lemma le_both a b : le a b -> le b a -> same_key a b.
Proof. intros A B. pose proof (compare_before a b) as H. destruct (compare_diagnostics a b); [exact H|destruct (B H)|destruct (A H)]. Qed.
Lemma insert_perm x l : Permutation (insert x l) (x :: l).
Proof. induction l as [|y l IH]; cbn; [auto|]. destruct (compare_diagnostics x y); auto. rewrite IH. apply perm_swap. Qed.
Lemma sort_perm l : Permutation (sort l) l.
Proof. induction l as [|x l IH]; cbn; [auto|]. rewrite insert_perm, IH. reflexivity. Qed.
Lemma compare_le x y : compare_diagnostics x y <> Gt -> le x y.
Proof.
  intros N. pose proof (compare_before x y) as H. unfold le. rewrite before_key. destruct (compare_diagnostics x y); [| |congruence].
  - rewrite same_key_eq in H. rewrite H. apply lex_irrefl.
  - rewrite before_key in H. intros K. apply (lex_irrefl (key x)). eapply lex_trans; eauto.
Qed.
Lemma compare_gt x y : compare_diagnostics x y = Gt -> le y x.
Proof.
  intros E. pose proof (compare_before x y) as H. rewrite E in H. unfold le. rewrite before_key in *. intros K. apply (lex_irrefl (key x)). eapply lex_trans; eauto.
Qed.
Lemma insert_sorted x l : StronglySorted le l -> StronglySorted le (insert x l).
Proof.
  induction 1 as [|y l S IH F]; cbn; [repeat constructor|]. destruct (compare_diagnostics x y) eqn:E.
  1, 2: (constructor; [constructor; assumption|]; assert (L : le x y) by (apply compare_le; congruence); constructor; [exact L|];
         revert F; apply Forall_impl; intros z; apply le_trans, L).
  constructor; [exact IH|]. apply (Permutation_Forall (Permutation_sym (insert_perm x l))). constructor; [apply compare_gt, E|exact F].
Qed.
Lemma sort_sorted l : StronglySorted le (sort l).
Proof. induction l as [|x l IH]; cbn; [constructor|]. apply insert_sorted, IH. Qed.

Lemma sorted_unique l : forall l', StronglySorted le l -> StronglySorted le l' -> Permutation l l' -> (forall a b, In a l -> In b l -> same_key a b -> a = b) -> l = l'.
Proof.
  induction l as [|x l IH]; intros l' S S' P U; [apply Permutation_nil in P; congruence|].
  destruct l' as [|y l']; [apply Permutation_sym, Permutation_nil in P; discriminate|].
  assert (Iy : In y (x :: l)) by (apply (Permutation_in _ (Permutation_sym P)); cbn; auto).
  assert (Ix : In x (y :: l')) by (apply (Permutation_in _ P); cbn; auto).
  inversion S as [|? ? S1 F1]; subst. inversion S' as [|? ? S2 F2]; subst. rewrite Forall_forall in F1, F2.
  assert (E : x = y).
  { destruct Iy as [E|Iy]; [exact E|]. destruct Ix as [E|Ix]; [congruence|]. apply U; cbn; auto. apply le_both; auto. }
  subst y. f_equal. apply IH; auto; [apply (Permutation_cons_inv P)|]. intros a b Ia Ib. apply U; cbn; auto.
Qed.
Lemma sort_same l l' : Permutation l l' -> (forall a b, In a l -> In b l -> same_key a b -> a = b) -> sort l = sort l'.
Proof.
  intros P U. apply sorted_unique; try apply sort_sorted.
  - rewrite !sort_perm. exact P.
  - intros a b Ia Ib. apply U; eapply Permutation_in; eauto using sort_perm.
Qed.

(** Diagnostics of one key keep their order. *)
Lemma filter_insert f x l : (forall a b, f a = true -> f b = true -> same_key a b) -> filter f (insert x l) = filter f (x :: l).
Proof.
  intros H. induction l as [|y l IH]; [reflexivity|]. cbn [insert]. destruct (compare_diagnostics x y) eqn:E; try reflexivity.
  cbn [filter] in *. rewrite IH. destruct (f x) eqn:X, (f y) eqn:Y; try reflexivity. exfalso.
  pose proof (H x y X Y) as K. pose proof (compare_before x y) as C. rewrite E in C. apply before_key in C. apply same_key_eq in K. rewrite K in C. exact (lex_irrefl _ C).
Qed.
Lemma sort_stable f l : (forall a b, f a = true -> f b = true -> same_key a b) -> filter f (sort l) = filter f l.
Proof. intros H. induction l as [|x l IH]; [reflexivity|]. cbn [sort]. rewrite (filter_insert f x _ H). cbn [filter]. rewrite IH. reflexivity. Qed.

(** Whatever the ties, phases, places and texts come in the same order. *)
Definition key_le (a b : list nat) : Prop := ~ lex b a.
Lemma key_antisym a b : key_le a b -> key_le b a -> a = b.
Proof. intros A B. pose proof (compare_spec a b) as H. destruct (compare_bytes a b); [exact H|destruct (B H)|destruct (A H)]. Qed.
Lemma keys_unique l : forall l', StronglySorted key_le l -> StronglySorted key_le l' -> Permutation l l' -> l = l'.
Proof.
  induction l as [|x l IH]; intros l' S S' P; [apply Permutation_nil in P; congruence|].
  destruct l' as [|y l']; [apply Permutation_sym, Permutation_nil in P; discriminate|].
  assert (Iy : In y (x :: l)) by (apply (Permutation_in _ (Permutation_sym P)); cbn; auto).
  assert (Ix : In x (y :: l')) by (apply (Permutation_in _ P); cbn; auto).
  inversion S as [|? ? S1 F1]; subst. inversion S' as [|? ? S2 F2]; subst. rewrite Forall_forall in F1, F2.
  assert (E : x = y).
  { destruct Iy as [E|Iy]; [exact E|]. destruct Ix as [E|Ix]; [congruence|]. apply key_antisym; auto. }
  subst y. f_equal. apply IH; auto. apply (Permutation_cons_inv P).
Qed.
Lemma keys_sorted l : StronglySorted le l -> StronglySorted key_le (map key l).
Proof.
  induction 1 as [|x l S IH F]; cbn; constructor; [exact IH|]. rewrite Forall_map. revert F. apply Forall_impl. intros y. unfold le, key_le. rewrite before_key. auto.
Qed.
Lemma keys_forall l : forall l', map key l = map key l' -> Forall2 same_key l l'.
Proof. induction l as [|x l IH]; intros [|y l'] E; try discriminate; constructor; injection E as A B C D E; [apply same_key_eq; unfold key; congruence|apply IH, E]. Qed.
Lemma sort_same_keys l l' : Permutation l l' -> Forall2 same_key (sort l) (sort l').
Proof. intros P. apply keys_forall, keys_unique; try apply keys_sorted, sort_sorted. apply Permutation_map. rewrite !sort_perm. exact P. Qed.
