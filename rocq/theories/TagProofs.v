From Verif Require Import Base TagModel TagSpec.
Open Scope Z_scope.

Definition norm (z : Z) : Z := (z + 2 ^ 31) mod 2 ^ 32 - 2 ^ 31.

Lemma norm_add a b : norm (norm a + b) = norm (a + b).
Proof.
  unfold norm. f_equal.
  replace ((a + 2 ^ 31) mod 2 ^ 32 - 2 ^ 31 + b + 2 ^ 31) with ((a + 2 ^ 31) mod 2 ^ 32 + b) by ring.
  rewrite Z.add_mod_idemp_l by lia. f_equal. ring.
Qed.

Lemma norm_eq a b : norm a = norm b <-> (b - a) mod 2 ^ 32 = 0.
Proof.
  unfold norm. split; intros H.
  - assert (E : (a + 2 ^ 31) mod 2 ^ 32 = (b + 2 ^ 31) mod 2 ^ 32) by lia.
    replace (b - a) with ((b + 2 ^ 31) - (a + 2 ^ 31)) by ring.
    rewrite Zminus_mod, E, Z.sub_diag. reflexivity.
  - assert (E : (b + 2 ^ 31) mod 2 ^ 32 = (a + 2 ^ 31) mod 2 ^ 32); [|lia].
    replace (b + 2 ^ 31) with ((a + 2 ^ 31) + (b - a)) by ring.
    rewrite Zplus_mod, H, Z.add_0_r, Z.mod_mod by lia. reflexivity.
Qed.

Lemma step_norm c : i32_wrapping_add c 1 = norm (c + 1).
Proof. reflexivity. Qed.

Lemma calls_by_cons t u l : calls_by t (u :: l) = (if Nat.eqb t u then 1 else 0) + calls_by t l.
Proof. unfold calls_by. cbn [filter]. destruct (Nat.eqb t u); cbn [length]; lia. Qed.

Lemma calls_by_app t l1 l2 : calls_by t (l1 ++ l2) = calls_by t l1 + calls_by t l2.
Proof. unfold calls_by. rewrite filter_app, app_length. lia. Qed.

Lemma run_norm calls : forall s (c : nat -> Z), (forall u, s u = norm (c u)) ->
  forall i t, nth_error calls i = Some t ->
  nth_error (tag_run s calls) i = Some (norm (c t + calls_by t (firstn i calls))).
Proof.
  induction calls as [|u calls IH]; intros s c Hs i t Hi; [destruct i; discriminate|].
  cbn [tag_run tag_step next_tag]. destruct i as [|i]; cbn [nth_error firstn] in *.
  - inv Hi. rewrite Hs. unfold calls_by. cbn. f_equal. f_equal. lia.
  - rewrite (IH _ (fun v => if Nat.eqb v u then c v + 1 else c v)) with (t := t); [| |exact Hi].
    + f_equal. f_equal. rewrite calls_by_cons. destruct (Nat.eqb t u); lia.
    + intros v. cbn beta. destruct (Nat.eqb_spec v u) as [E|E].
      * rewrite E, step_norm, Hs, norm_add. reflexivity.
      * apply Hs.
Qed.

Lemma firstn_between {A} (l : list A) i j : (i <= j)%nat ->
  firstn j l = firstn i l ++ between i j l.
Proof.
  intros H. unfold between. rewrite <- (firstn_skipn i l) at 1.
  rewrite firstn_app. rewrite firstn_firstn, Nat.min_r by lia. f_equal.
  destruct (Nat.le_ge_cases i (length l)) as [Hl|Hl].
  - rewrite firstn_length, Nat.min_l by lia. reflexivity.
  - rewrite skipn_all2 by lia. rewrite !firstn_nil. reflexivity.
Qed.

Lemma tag_equal_iff_lemma calls i j t a b :
  (i <= j)%nat -> nth_error calls i = Some t -> nth_error calls j = Some t ->
  nth_error (tag_run threads_init calls) i = Some a ->
  nth_error (tag_run threads_init calls) j = Some b ->
  a = b <-> (calls_by t (between i j calls)) mod 2 ^ 32 = 0.
Proof.
  intros Hij Hi Hj Ha Hb.
  assert (H0 : forall u, threads_init u = norm ((fun _ => 0) u)) by reflexivity.
  rewrite (run_norm calls _ _ H0 i t Hi) in Ha. rewrite (run_norm calls _ _ H0 j t Hj) in Hb.
  inv Ha. inv Hb. rewrite norm_eq. rewrite (firstn_between calls i j Hij), calls_by_app.
  match goal with |- ?x mod _ = 0 <-> ?y mod _ = 0 => replace x with y by ring end. tauto.
Qed.

Lemma calls_between_pos calls i j t : (i < j)%nat -> nth_error calls i = Some t ->
  0 < calls_by t (between i j calls).
Proof.
  intros Hij Hi. unfold between. destruct (skipn i calls) as [|u rest] eqn:E.
  - assert (H : nth_error (skipn i calls) 0 = Some t).
    { rewrite nth_error_skipn. rewrite Nat.add_0_r. exact Hi. } rewrite E in H. discriminate.
  - assert (H : nth_error (skipn i calls) 0 = Some t).
    { rewrite nth_error_skipn. rewrite Nat.add_0_r. exact Hi. } rewrite E in H. cbn in H. inv H.
    destruct (j - i)%nat as [|k] eqn:Ek; [lia|]. cbn [firstn]. rewrite calls_by_cons, Nat.eqb_refl.
    unfold calls_by. lia.
Qed.

Lemma tags_distinct_lemma calls i j t a b :
  (i < j)%nat -> nth_error calls i = Some t -> nth_error calls j = Some t ->
  calls_by t (between i j calls) < 2 ^ 32 ->
  nth_error (tag_run threads_init calls) i = Some a ->
  nth_error (tag_run threads_init calls) j = Some b -> a <> b.
Proof.
  intros Hij Hi Hj Hc Ha Hb E.
  apply (tag_equal_iff_lemma calls i j t a b ltac:(lia) Hi Hj Ha Hb) in E.
  pose proof (calls_between_pos calls i j t Hij Hi) as Hp.
  rewrite Z.mod_small in E by lia. lia.
Qed.
