(** Proofs about the IR arena: invariants over edit histories. *)
From Verif Require Import Base IrModel IrSpec.
From Coq Require Import Lia.

Lemma nth_upd : forall A (l : list A) i f j,
  nth_error (upd l i f) j = if Nat.eqb j i then option_map f (nth_error l j) else nth_error l j.
Proof.
  intros A l i f j. unfold upd. destruct (nth_error l i) as [x|] eqn:E.
  - assert (Hi : i < length l) by (apply nth_error_Some; congruence).
    destruct (Nat.eqb_spec j i) as [->|Hne].
    + rewrite nth_error_app2 by (rewrite firstn_length; lia).
      rewrite firstn_length, Nat.min_l, Nat.sub_diag by lia. rewrite E. reflexivity.
    + destruct (Nat.lt_ge_cases j i).
      * rewrite nth_error_app1 by (rewrite firstn_length; lia). apply nth_error_firstn; lia.
      * rewrite nth_error_app2 by (rewrite firstn_length; lia).
        rewrite firstn_length, Nat.min_l by lia.
        destruct (j - i) as [|k] eqn:Ek; [lia|]. cbn [nth_error].
        rewrite nth_error_skipn. f_equal; lia.
  - destruct (Nat.eqb_spec j i) as [->|Hne]; [rewrite E|]; reflexivity.
Qed.

Lemma upd_len : forall A (l : list A) i f, length (upd l i f) = length l.
Proof.
  intros A l i f. unfold upd. destruct (nth_error l i) as [x|] eqn:E; [|reflexivity].
  assert (i < length l) by (apply nth_error_Some; congruence).
  rewrite app_length, firstn_length. cbn [length]. rewrite skipn_length. lia.
Qed.

Lemma fupd_same : forall A (m : nat -> A) k v, fupd m k v k = v.
Proof. intros. unfold fupd. rewrite Nat.eqb_refl. reflexivity. Qed.
Lemma fupd_other : forall A (m : nat -> A) k v j, j <> k -> fupd m k v j = m j.
Proof. intros. unfold fupd. destruct (Nat.eqb_spec j k); congruence. Qed.

Lemma nth_error_snoc : forall A (l : list A) x j,
  nth_error (l ++ [x]) j = if Nat.eqb j (length l) then Some x else nth_error l j.
Proof.
  intros. destruct (Nat.eqb_spec j (length l)) as [->|H].
  - rewrite nth_error_app2, Nat.sub_diag by lia. reflexivity.
  - destruct (Nat.lt_ge_cases j (length l)).
    + rewrite nth_error_app1 by lia. reflexivity.
    + rewrite nth_error_app2 by lia. destruct (j - length l) as [|k] eqn:E; [lia|].
      cbn [nth_error]. destruct k; cbn [nth_error]; symmetry; apply nth_error_None; lia.
Qed.

Lemma is_use_true : forall o i u, is_use o i u = true <-> u = (o, i).
Proof.
  intros o i [a b]. unfold is_use. cbn [fst snd]. rewrite Bool.andb_true_iff, !Nat.eqb_eq. split; [intros [-> ->]; reflexivity|intro H; inversion H; split; reflexivity].
Qed.

Definition use_dec : forall a b : use, {a = b} + {a <> b}.
Proof. decide equality; apply Nat.eq_dec. Qed.

Definition has (o i : nat) (l : list use) : bool := existsb (is_use o i) l.
Lemma has_spec : forall o i l, Bool.reflect (In (o, i) l) (has o i l).
Proof.
  intros o i l. apply Bool.iff_reflect. unfold has. rewrite existsb_exists. split.
  - intro H. exists (o, i). split; [exact H|apply is_use_true; reflexivity].
  - intros (x & H & E). apply is_use_true in E. subst. exact H.
Qed.

(** ** Uses *)
Definition rd (l : list op) (o i : nat) : option nat :=
  match nth_error l o with Some d => nth_error (o_operands d) i | None => None end.
Lemma reads_rd : forall c o i v, reads c o i v <-> rd (ops c) o i = Some v.
Proof.
  intros c o i v. unfold reads, rd. split.
  - intros (d & H & H'). rewrite H. exact H'.
  - destruct (nth_error (ops c) o) as [d|]; [|discriminate]. intro H. exists d. split; [reflexivity|exact H].
Qed.

Definition uok (l : list op) (u : nat -> list use) (dead : list nat) : Prop :=
  (forall v, NoDup (u v)) /\
  (forall v o i, In (o, i) (u v) <-> (~ In o dead /\ rd l o i = Some v)) /\
  (forall o, In o dead -> o < length l).

Lemma uok_exact : forall c dead, uok (ops c) (uses c) dead -> uses_exact c dead.
Proof.
  intros c dead (A & B & _) v. split; [apply A|]. intros o i. rewrite B, reads_rd. reflexivity.
Qed.

Lemma rd_upd_keep : forall l k f o i, (forall d, o_operands (f d) = o_operands d) -> rd (upd l k f) o i = rd l o i.
Proof.
  intros l k f o i H. unfold rd. rewrite nth_upd. destruct (Nat.eqb o k); [|reflexivity].
  destruct (nth_error l o); cbn [option_map]; [rewrite H|]; reflexivity.
Qed.

Lemma uok_upd_keep : forall l u dead k f, (forall d, o_operands (f d) = o_operands d) -> uok l u dead -> uok (upd l k f) u dead.
Proof.
  intros l u dead k f H (A & B & C). split; [exact A|split].
  - intros v o i. rewrite B, rd_upd_keep by exact H. reflexivity.
  - intros o Ho. rewrite upd_len. apply C, Ho.
Qed.

Lemma In_drop : forall u v o i w x, In x (drop_use u v o i w) <-> (In x (u w) /\ ~ (w = v /\ x = (o, i))).
Proof.
  intros u v o i w x. unfold drop_use, fupd. destruct (Nat.eqb_spec w v) as [->|Hne].
  - rewrite filter_In, Bool.negb_true_iff. split.
    + intros [H H']. split; [exact H|]. intros [_ ->]. rewrite (proj2 (is_use_true o i (o, i)) eq_refl) in H'. discriminate.
    + intros [H H']. split; [exact H|]. destruct (is_use o i x) eqn:E; [|reflexivity].
      apply is_use_true in E. exfalso. apply H'. split; [reflexivity|exact E].
  - split; [intro H; split; [exact H|intros [? _]; congruence]|intros [H _]; exact H].
Qed.
Lemma NoDup_drop : forall u v o i w, NoDup (u w) -> NoDup (drop_use u v o i w).
Proof.
  intros u v o i w H. unfold drop_use, fupd. destruct (Nat.eqb_spec w v) as [->|]; [apply NoDup_filter; exact H|exact H].
Qed.

Lemma In_push : forall u v o i w x, In x (push_use u v o i w) <-> (In x (u w) \/ (w = v /\ x = (o, i))).
Proof.
  intros u v o i w x. unfold push_use, fupd. destruct (Nat.eqb_spec w v) as [->|Hne].
  - rewrite in_app_iff. cbn [In]. intuition congruence.
  - intuition congruence.
Qed.
Lemma NoDup_snoc : forall A (l : list A) x, NoDup l -> ~ In x l -> NoDup (l ++ [x]).
Proof.
  intros A l x H Hx. induction H as [|y l Hy H IH]; cbn [app].
  - constructor; [intros []|constructor].
  - constructor.
    + rewrite in_app_iff. intros [K|[->|[]]]; [exact (Hy K)|apply Hx; left; reflexivity].
    + apply IH. intro K. apply Hx. right. exact K.
Qed.
Lemma NoDup_push : forall u v o i w, NoDup (u w) -> ~ In (o, i) (u v) -> NoDup (push_use u v o i w).
Proof.
  intros u v o i w H Hn. unfold push_use, fupd. destruct (Nat.eqb_spec w v) as [->|]; [apply NoDup_snoc; assumption|exact H].
Qed.

(** push_uses: appends one use per operand. *)
Lemma In_push_uses : forall vs u o idx w x,
  In x (push_uses u o idx vs w) <-> (In x (u w) \/ exists j, nth_error vs j = Some w /\ x = (o, idx + j)).
Proof.
  induction vs as [|v vs IH]; intros u o idx w x; cbn [push_uses].
  - split; [intro H; left; exact H|intros [H|(j & H & _)]; [exact H|destruct j; discriminate]].
  - rewrite IH, In_push. split.
    + intros [[H|[-> ->]]|(j & H & ->)].
      * left; exact H.
      * right. exists 0. split; [reflexivity|f_equal; lia].
      * right. exists (S j). split; [exact H|f_equal; lia].
    + intros [H|([|j] & H & ->)].
      * left; left; exact H.
      * cbn [nth_error] in H. inversion H; subst. left. right. split; [reflexivity|f_equal; lia].
      * right. exists j. split; [exact H|f_equal; lia].
Qed.
Lemma NoDup_push_uses : forall vs u o idx,
  (forall w, NoDup (u w)) -> (forall w i, idx <= i -> ~ In (o, i) (u w)) ->
  forall w, NoDup (push_uses u o idx vs w).
Proof.
  induction vs as [|v vs IH]; intros u o idx H Hn w; cbn [push_uses]; [apply H|].
  apply IH.
  - intro w'. apply NoDup_push; [apply H|apply Hn; lia].
  - intros w' i Hi. rewrite In_push. intros [K|[_ K]]; [exact (Hn w' i ltac:(lia) K)|inversion K; lia].
Qed.

Lemma link_regions_frame : forall rs c o c', link_regions c o rs = Some c' ->
  ops c' = ops c /\ vals c' = vals c /\ blocks c' = blocks c /\ uses c' = uses c /\ op_results c' = op_results c /\ block_args c' = block_args c.
Proof.
  induction rs as [|r rs IH]; intros c o c' H; cbn [link_regions] in H.
  - inversion H; subst. repeat split.
  - destruct (nth_error (regions c) r) as [rdd|]; [|discriminate]. destruct (r_parent rdd); [discriminate|].
    apply IH in H. exact H.
Qed.
Lemma link_blocks_frame : forall bs c r c', link_blocks c r bs = Some c' ->
  ops c' = ops c /\ vals c' = vals c /\ regions c' = regions c /\ uses c' = uses c /\ op_results c' = op_results c /\ block_args c' = block_args c.
Proof.
  induction bs as [|b bs IH]; intros c r c' H; cbn [link_blocks] in H.
  - inversion H; subst. repeat split.
  - destruct (nth_error (blocks c) b) as [bd|]; [|discriminate]. destruct (b_parent bd); [discriminate|].
    apply IH in H. exact H.
Qed.

Lemma rd_snoc : forall l d o i, rd (l ++ [d]) o i = if Nat.eqb o (length l) then nth_error (o_operands d) i else rd l o i.
Proof. intros. unfold rd. rewrite nth_error_snoc. destruct (Nat.eqb o (length l)); reflexivity. Qed.
Lemma rd_bound : forall l o i v, rd l o i = Some v -> o < length l.
Proof. intros l o i v H. unfold rd in H. destruct (nth_error l o) eqn:E; [|discriminate]. apply nth_error_Some. congruence. Qed.

Lemma uok_create : forall l u dead d, uok l u dead ->
  uok (l ++ [d]) (push_uses u (length l) 0 (o_operands d)) dead.
Proof.
  intros l u dead d (A & B & C). split; [|split].
  - apply NoDup_push_uses; [exact A|]. intros w i _ H. apply B in H as [_ H]. apply rd_bound in H. lia.
  - intros v o i. rewrite In_push_uses, rd_snoc. cbn [plus]. split.
    + intros [H|(j & H & E)].
      * apply B in H as [H1 H2]. split; [exact H1|]. pose proof (rd_bound _ _ _ _ H2).
        destruct (Nat.eqb_spec o (length l)); [lia|exact H2].
      * inversion E; subst. split; [intro K; apply C in K; lia|]. rewrite Nat.eqb_refl. exact H.
    + destruct (Nat.eqb_spec o (length l)) as [->|Hne]; intros [H1 H2].
      * right. exists i. split; [exact H2|reflexivity].
      * left. apply B. split; assumption.
  - intros o Ho. rewrite app_length. specialize (C _ Ho). lia.
Qed.

Lemma create_op_uok : forall c k vs ts rs ss c' o dead,
  create_op c k vs ts rs ss = Some (c', o) -> uok (ops c) (uses c) dead -> uok (ops c') (uses c') dead.
Proof.
  intros c k vs ts rs ss c' o dead H U. unfold create_op in H.
  destruct (link_regions _ _ rs) as [c2|] eqn:E; [|discriminate]. inversion H; subst; clear H.
  apply link_regions_frame in E as (E1 & E2 & E3 & E4 & E5 & E6). cbn [ops uses vals set_ops set_op_results set_vals set_uses] in *.
  rewrite E1, E4. apply (uok_create _ _ _ {| o_kind := k; o_operands := vs; o_result_types := ts; o_regions := rs; o_succs := ss; o_parent := None |}), U.
Qed.

Lemma rd_set_operands : forall l o g o' i,
  rd (upd l o (fun d => set_operands d (g d))) o' i =
  if Nat.eqb o' o then match nth_error l o with Some d => nth_error (g d) i | None => None end else rd l o' i.
Proof.
  intros l o g o' i. unfold rd. rewrite nth_upd. destruct (Nat.eqb_spec o' o) as [->|]; [|reflexivity].
  destruct (nth_error l o); reflexivity.
Qed.

Lemma set_op_operand_uok : forall c o i v c' dead,
  set_op_operand c o i v = Some c' -> ~ In o dead -> uok (ops c) (uses c) dead -> uok (ops c') (uses c') dead.
Proof.
  intros c o i v c' dead H Hl U. pose proof U as (A & B & C). unfold set_op_operand in H.
  destruct (nth_error (ops c) o) as [d|] eqn:Ed; [|discriminate].
  destruct (nth_error (o_operands d) i) as [old|] eqn:Ei; [|discriminate].
  destruct (Nat.eqb_spec old v) as [->|Hne]; inversion H; subst; clear H; [exact U|].
  cbn [ops uses set_ops set_uses].
  assert (Hrd : rd (ops c) o i = Some old) by (unfold rd; rewrite Ed; exact Ei).
  split; [|split].
  - intro w. apply NoDup_push; [apply NoDup_drop, A|]. rewrite In_drop. intros [K _]. apply B in K as [_ K]. congruence.
  - intros w o' j. rewrite In_push, In_drop, B, rd_set_operands. rewrite Ed.
    destruct (Nat.eqb_spec o' o) as [->|Ho].
    + rewrite nth_upd. destruct (Nat.eqb_spec j i) as [->|Hj].
      * rewrite Ei. cbn [option_map]. rewrite Hrd. split.
        -- intros [[[H1 H2] H3]|[-> _]]; [inversion H2; subst; exfalso; apply H3; split; reflexivity|split; [exact Hl|reflexivity]].
        -- intros [H1 H2]. inversion H2; subst. right. split; reflexivity.
      * assert (Hj' : nth_error (o_operands d) j = rd (ops c) o j) by (unfold rd; rewrite Ed; reflexivity). rewrite Hj'. split.
        -- intros [[H _]|[_ H]]; [exact H|inversion H; congruence].
        -- intro H. left. split; [exact H|]. intros [_ K]. inversion K; congruence.
    + split.
      * intros [[H _]|[_ H]]; [exact H|inversion H; congruence].
      * intro H. left. split; [exact H|]. intros [_ K]. inversion K; congruence.
  - intros x Hx. rewrite upd_len. apply C, Hx.
Qed.

Lemma push_op_operand_uok : forall c o v c' dead,
  push_op_operand c o v = Some c' -> ~ In o dead -> uok (ops c) (uses c) dead -> uok (ops c') (uses c') dead.
Proof.
  intros c o v c' dead H Hl (A & B & C). unfold push_op_operand in H.
  destruct (nth_error (ops c) o) as [d|] eqn:Ed; [|discriminate]. inversion H; subst; clear H.
  cbn [ops uses set_ops set_uses].
  assert (Hrd : forall j, rd (ops c) o j = nth_error (o_operands d) j) by (intro j; unfold rd; rewrite Ed; reflexivity).
  split; [|split].
  - intro w. apply NoDup_push; [apply A|]. intro K. apply B in K as [_ K]. rewrite Hrd in K.
    assert (length (o_operands d) < length (o_operands d)) by (apply nth_error_Some; congruence). lia.
  - intros w o' j. rewrite In_push, B, rd_set_operands, Ed. destruct (Nat.eqb_spec o' o) as [->|Ho].
    + rewrite nth_error_snoc, Hrd. destruct (Nat.eqb_spec j (length (o_operands d))) as [->|Hj].
      * rewrite (proj2 (nth_error_None (o_operands d) (length (o_operands d)))) by lia. split.
        -- intros [[_ K]|[-> _]]; [discriminate|split; [exact Hl|reflexivity]].
        -- intros [_ K]. inversion K; subst. right. split; reflexivity.
      * split; [intros [K|[_ K]]; [exact K|inversion K; congruence]|intro K; left; exact K].
    + split; [intros [K|[_ K]]; [exact K|inversion K; congruence]|intro K; left; exact K].
  - intros x Hx. rewrite upd_len. apply C, Hx.
Qed.

(** remove_op_operand *)
Lemma In_dec_first : forall l o k x, NoDup l -> In (o, k) l ->
  (In x (dec_first o k l) <-> (x = (o, k - 1) \/ (x <> (o, k) /\ In x l))).
Proof.
  induction l as [|y l IH]; intros o k x ND Hin; [destruct Hin|].
  inversion ND as [|? ? Hy ND']; subst. cbn [dec_first]. destruct (is_use o k y) eqn:E.
  - apply is_use_true in E. subst y. cbn [In]. split.
    + intros [<-|H]; [left; reflexivity|right; split; [intros ->; exact (Hy H)|right; exact H]].
    + intros [->|[H [<-|H']]]; [left; reflexivity|congruence|right; exact H'].
  - assert (Hne : y <> (o, k)) by (intros ->; rewrite (proj2 (is_use_true o k (o, k)) eq_refl) in E; discriminate).
    destruct Hin as [->|Hin]; [congruence|]. cbn [In]. rewrite (IH o k x ND' Hin). split.
    + intros [<-|[->|[H1 H2]]]; [right; split; [exact Hne|left; reflexivity]|left; reflexivity|right; split; [exact H1|right; exact H2]].
    + intros [->|[H1 [->|H2]]]; [right; left; reflexivity|left; reflexivity|right; right; split; assumption].
Qed.
Lemma NoDup_dec_first : forall l o k, NoDup l -> ~ In (o, k - 1) l -> NoDup (dec_first o k l).
Proof.
  induction l as [|y l IH]; intros o k ND Hn; cbn [dec_first]; [constructor|].
  inversion ND as [|? ? Hy ND']; subst. destruct (is_use o k y) eqn:E.
  - constructor; [intro K; apply Hn; right; exact K|exact ND'].
  - constructor.
    + intro K. destruct (in_dec use_dec (o, k) l) as [Hin|Hin].
      * apply (In_dec_first l o k y ND' Hin) in K. destruct K as [->|[_ K]]; [apply Hn; left; reflexivity|exact (Hy K)].
      * assert (Hid : dec_first o k l = l).
        { clear -Hin. induction l as [|z l IH]; [reflexivity|]. cbn [dec_first]. destruct (is_use o k z) eqn:E.
          - apply is_use_true in E. subst. exfalso. apply Hin. left; reflexivity.
          - f_equal. apply IH. intro K. apply Hin. right. exact K. }
        rewrite Hid in K. exact (Hy K).
    + apply IH; [exact ND'|intro K; apply Hn; right; exact K].
Qed.

(** State before processing old operand [k]: the operands from [i + 1] to [k - 1]
    have been moved down by one. *)
Definition shifted (old : list nat) (o i k : nat) (u0 u : nat -> list use) : Prop :=
  (forall w, NoDup (u w)) /\
  (forall w o' j, o' <> o -> (In (o', j) (u w) <-> In (o', j) (u0 w))) /\
  (forall w j, In (o, j) (u w) <->
     ((j < i /\ nth_error old j = Some w) \/ (i <= j /\ S j < k /\ nth_error old (S j) = Some w) \/ (k <= j /\ nth_error old j = Some w))).

Lemma shift_uses_ok : forall vs old o i k u0 u,
  vs = skipn k old -> i < k -> shifted old o i k u0 u -> shifted old o i (k + length vs) u0 (shift_uses u o k vs).
Proof.
  induction vs as [|v vs IH]; intros old o i k u0 u Hvs Hik Hs; cbn [shift_uses length].
  - rewrite Nat.add_0_r. exact Hs.
  - assert (Hv : nth_error old k = Some v) by (rewrite <- (Nat.add_0_r k), <- nth_error_skipn, <- Hvs; reflexivity).
    replace (k + S (length vs)) with (S k + length vs) by lia. apply IH.
    { rewrite <- (Nat.add_1_r k). rewrite Nat.add_comm. change (1 + k) with (S k).
      clear -Hvs. revert old Hvs. induction k as [|k IHk]; intros old H; [destruct old; cbn in *; inversion H; reflexivity|].
      destruct old as [|x old]; [discriminate|]. cbn [skipn] in *. apply IHk. exact H. }
    { lia. }
    destruct Hs as (A & B & C).
    assert (Hin : In (o, k) (u v)) by (apply C; right; right; split; [lia|exact Hv]).
    split; [|split].
    + intro w. unfold fupd. destruct (Nat.eqb_spec w v) as [->|]; [|apply A].
      apply NoDup_dec_first; [apply A|]. intro K. apply C in K. destruct K as [(K & _)|[(K1 & K2 & _)|(K & _)]]; lia.
    + intros w o' j Ho. unfold fupd. destruct (Nat.eqb_spec w v) as [->|]; [|apply B, Ho].
      rewrite In_dec_first by (apply A || exact Hin). rewrite <- (B v o' j Ho). split.
      * intros [K|[_ K]]; [inversion K; congruence|exact K].
      * intro K. right. split; [intro E; inversion E; congruence|exact K].
    + intros w j. unfold fupd. destruct (Nat.eqb_spec w v) as [->|Hne].
      * rewrite In_dec_first by (apply A || exact Hin). rewrite C. split.
        -- intros [K|[K1 K2]].
           ++ inversion K; subst. right; left. replace (S (k - 1)) with k by lia. repeat split; [lia|lia|exact Hv].
           ++ assert (j <> k) by congruence. destruct K2 as [K2|[(K2 & K3 & K4)|(K2 & K3)]]; [left; exact K2|right; left|right; right]; repeat split; try assumption; lia.
        -- intros [K|[(K1 & K2 & K3)|(K1 & K2)]].
           ++ right. split; [intro E; inversion E; lia|left; exact K].
           ++ destruct (Nat.eq_dec (S j) k) as [E|E].
              ** left. f_equal. lia.
              ** right. split; [intro E'; inversion E'; lia|]. right; left. repeat split; try assumption; lia.
           ++ right. split; [intro E'; inversion E'; lia|]. right; right. split; [lia|exact K2].
      * rewrite C. split.
        -- intros [K|[(K1 & K2 & K3)|(K1 & K2)]]; [left; exact K|right; left; repeat split; try assumption; lia|].
           right; right. split; [|exact K2]. destruct (Nat.eq_dec j k) as [->|]; [congruence|lia].
        -- intros [K|[(K1 & K2 & K3)|(K1 & K2)]]; [left; exact K| |right; right; split; [lia|exact K2]].
           destruct (Nat.eq_dec (S j) k) as [E|E]; [congruence|]. right; left. repeat split; try assumption; lia.
Qed.

Lemma remove_op_operand_uok : forall c o i c' dead,
  remove_op_operand c o i = Some c' -> ~ In o dead -> uok (ops c) (uses c) dead -> uok (ops c') (uses c') dead.
Proof.
  intros c o i c' dead H Hl (A & B & C). unfold remove_op_operand in H.
  destruct (nth_error (ops c) o) as [d|] eqn:Ed; [|discriminate].
  destruct (nth_error (o_operands d) i) as [v|] eqn:Ei; [|discriminate]. injection H as H; subst c'.
  cbn [ops uses set_ops set_uses].
  assert (Hrd : forall j, rd (ops c) o j = nth_error (o_operands d) j) by (intro j; unfold rd; rewrite Ed; reflexivity).
  assert (Hi : i < length (o_operands d)) by (apply nth_error_Some; congruence).
  pose proof (shift_uses_ok (skipn (S i) (o_operands d)) (o_operands d) o i (S i) (uses c) (drop_use (uses c) v o i) eq_refl (Nat.lt_succ_diag_r i)) as S.
  destruct S as (S1 & S2 & S3).
  { split; [|split].
    - intro w. apply NoDup_drop, A.
    - intros w o' j Ho. rewrite In_drop. split; [intros [K _]; exact K|intro K; split; [exact K|intros [_ E]; inversion E; congruence]].
    - intros w j. rewrite In_drop, B, Hrd. split.
      + intros [[_ K] Hn]. destruct (Nat.lt_trichotomy j i) as [Hj|[->|Hj]].
        * left. split; assumption.
        * exfalso. apply Hn. split; [congruence|reflexivity].
        * right; right. split; [lia|exact K].
      + intros [[K1 K2]|[(K1 & K2 & _)|(K1 & K2)]]; [|lia|].
        * split; [split; assumption|intros [_ E]; inversion E; lia].
        * split; [split; assumption|intros [_ E]; inversion E; lia]. }
  rewrite skipn_length in S3.
  split; [exact S1|split].
  - intros w o' j. rewrite rd_set_operands, Ed. destruct (Nat.eqb_spec o' o) as [->|Ho].
    + rewrite S3. destruct (Nat.lt_ge_cases j i) as [Hj|Hj].
      * rewrite nth_error_app1 by (rewrite firstn_length; lia). rewrite nth_error_firstn by lia. split.
        -- intros [[_ K]|[(K & _)|(K & _)]]; [split; assumption|lia|lia].
        -- intros [_ K]. left. split; assumption.
      * rewrite nth_error_app2 by (rewrite firstn_length; lia). rewrite firstn_length, Nat.min_l by lia.
        change (match o_operands d with [] => [] | _ :: l => skipn i l end) with (skipn (S i) (o_operands d)).
        rewrite nth_error_skipn. replace (S i + (j - i)) with (S j) by lia. split.
        -- intros [[K _]|[(_ & _ & K)|(K1 & K)]]; [lia|split; assumption|].
           assert (j < length (o_operands d)) by (apply nth_error_Some; congruence). lia.
        -- intros [_ K]. assert (S j < length (o_operands d)) by (apply nth_error_Some; congruence).
           right; left. repeat split; [lia|lia|exact K].
    + rewrite S2 by exact Ho. apply B.
  - intros x Hx. rewrite upd_len. apply C, Hx.
Qed.

(** remove_op *)
Lemma In_clear_uses : forall vs u o idx w x,
  In x (clear_uses u o idx vs w) <-> (In x (u w) /\ ~ exists j, nth_error vs j = Some w /\ x = (o, idx + j)).
Proof.
  induction vs as [|v vs IH]; intros u o idx w x; cbn [clear_uses].
  - split; [intro H; split; [exact H|intros (j & K & _); destruct j; discriminate]|intros [H _]; exact H].
  - rewrite IH, In_drop. split.
    + intros [[H1 H2] H3]. split; [exact H1|]. intros ([|j] & K & ->).
      * cbn [nth_error] in K. inversion K; subst. apply H2. split; [reflexivity|f_equal; lia].
      * apply H3. exists j. split; [exact K|f_equal; lia].
    + intros [H1 H2]. split; [split; [exact H1|]|].
      * intros [-> ->]. apply H2. exists 0. split; [reflexivity|f_equal; lia].
      * intros (j & K & ->). apply H2. exists (S j). split; [exact K|f_equal; lia].
Qed.
Lemma NoDup_clear_uses : forall vs u o idx w, NoDup (u w) -> NoDup (clear_uses u o idx vs w).
Proof.
  induction vs as [|v vs IH]; intros u o idx w H; cbn [clear_uses]; [exact H|]. apply IH, NoDup_drop, H.
Qed.

Lemma In_clear_of : forall c u k w o i, In (o, i) (clear_operand_uses_of c u k w) <-> (In (o, i) (u w) /\ ~ (o = k /\ rd (ops c) o i = Some w)).
Proof.
  intros c u k w o i. unfold clear_operand_uses_of, rd. destruct (nth_error (ops c) k) as [d|] eqn:E.
  - rewrite In_clear_uses. cbn [plus]. split; intros [H1 H2]; (split; [exact H1|]).
    + intros [-> K]. rewrite E in K. apply H2. exists i. split; [exact K|reflexivity].
    + intros (j & K1 & K2). inversion K2; subst. apply H2. split; [reflexivity|]. rewrite E. exact K1.
  - split; [intro H; split; [exact H|intros [-> K]; rewrite E in K; discriminate]|intros [H _]; exact H].
Qed.

Lemma In_clear_sub : forall c sub u w o i,
  In (o, i) (fold_left (clear_operand_uses_of c) sub u w) <-> (In (o, i) (u w) /\ ~ (In o sub /\ rd (ops c) o i = Some w)).
Proof.
  intros c sub. induction sub as [|k sub IH]; intros u w o i; cbn [fold_left].
  - split; [intro H; split; [exact H|intros [[] _]]|intros [H _]; exact H].
  - rewrite IH, In_clear_of. cbn [In]. split.
    + intros [[H1 H2] H3]. split; [exact H1|]. intros [[->|K] K']; [apply H2; split; [reflexivity|exact K']|apply H3; split; assumption].
    + intros [H1 H2]. split; [split; [exact H1|]|].
      * intros [-> K]. apply H2. split; [left; reflexivity|exact K].
      * intros [K K']. apply H2. split; [right; exact K|exact K'].
Qed.
Lemma NoDup_clear_sub : forall c sub u, (forall w, NoDup (u w)) -> forall w, NoDup (fold_left (clear_operand_uses_of c) sub u w).
Proof.
  intros c sub. induction sub as [|k sub IH]; intros u H w; cbn [fold_left]; [apply H|]. apply IH.
  intro w'. unfold clear_operand_uses_of. destruct (nth_error (ops c) k); [apply NoDup_clear_uses, H|apply H].
Qed.

(** Any walk only visits existing operations if it gets past them. *)
Lemma each_inv : forall S B A (P : S -> Prop) (w : S -> A -> wres S B) l s,
  (forall s a s', P s -> w s a = Continued s' -> P s') -> P s -> forall s', each w s l = Continued s' -> P s'.
Proof.
  intros S B A P w l. induction l as [|a l IH]; intros s Hw Hs s' H; cbn [each] in H.
  - inversion H; subst; exact Hs.
  - destruct (w s a) eqn:E; try discriminate. eapply IH; [exact Hw|eapply Hw; [exact Hs|exact E]|exact H].
Qed.

Lemma walk_collect_bound : forall fuel c o l l',
  (forall x, In x l -> x < length (ops c)) ->
  walk_op (B := Empty_set) fuel c (fun l x => (l ++ [x], Advance)) l o = Continued l' ->
  (forall x, In x l' -> x < length (ops c)).
Proof.
  induction fuel as [|n IH]; intros c o l l' Hl H; cbn [walk_op] in H; [discriminate|].
  destruct (nth_error (ops c) o) as [d|] eqn:E; [|discriminate].
  assert (Ho : o < length (ops c)) by (apply nth_error_Some; congruence).
  revert H. apply (each_inv _ _ _ (fun l => forall x, In x l -> x < length (ops c))).
  - intros s r s' Hs Hr. cbv beta in Hr. destruct (nth_error (regions c) r) as [rd'|]; [|discriminate].
    revert Hr. apply (each_inv _ _ _ (fun l => forall x, In x l -> x < length (ops c))); [|exact Hs].
    intros s1 b s1' Hs1 Hb. cbv beta in Hb. destruct (nth_error (blocks c) b) as [bd|]; [|discriminate].
    revert Hb. apply (each_inv _ _ _ (fun l => forall x, In x l -> x < length (ops c))); [|exact Hs1].
    intros s2 a s2' Hs2 Ha. eapply IH; [exact Hs2|exact Ha].
  - intros x Hx. apply in_app_iff in Hx. destruct Hx as [Hx|[<-|[]]]; [apply Hl, Hx|exact Ho].
Qed.

Lemma remove_op_uok : forall f c o c' sub dead,
  remove_op f c o = Some (c', sub) -> uok (ops c) (uses c) dead -> uok (ops c') (uses c') (dead ++ sub).
Proof.
  intros f c o c' sub dead H (A & B & C). unfold remove_op in H.
  destruct (nth_error (ops c) o) as [d|]; [|discriminate]. destruct (o_parent d); [discriminate|].
  destruct (forallb _ _); [|discriminate].
  destruct (walk_op _ _ _ _ _) as [l|l b|] eqn:E; try discriminate. inversion H; subst; clear H.
  cbn [ops uses set_uses]. split; [|split].
  - apply NoDup_clear_sub, A.
  - intros v o' i. rewrite In_clear_sub, B, in_app_iff. tauto.
  - intros x Hx. apply in_app_iff in Hx. destruct Hx as [Hx|Hx]; [apply C, Hx|].
    eapply walk_collect_bound; [|exact E|exact Hx]. intros y [].
Qed.

(** replace_all_uses *)
Lemma replace_fold : forall l c new, 
  let c' := fold_left (replace_one new) l c in
  (forall o i, rd (ops c') o i = if has o i l
                                 then match rd (ops c) o i with Some _ => Some new | None => None end
                                 else rd (ops c) o i) /\
  (forall w, uses c' w = if Nat.eqb w new then uses c new ++ l else uses c w) /\
  length (ops c') = length (ops c).
Proof.
  induction l as [|[a b] l IH]; intros c new c'.
  - subst c'. cbn [fold_left]. repeat split.
    + intro w. destruct (Nat.eqb_spec w new) as [->|]; [rewrite app_nil_r|]; reflexivity.
  - subst c'. cbn [fold_left]. destruct (IH (replace_one new c (a, b)) new) as (H1 & H2 & H3). split; [|split].
    + intros o i. rewrite H1. unfold replace_one. cbn [ops set_uses set_ops fst snd]. rewrite rd_set_operands.
      destruct (has_spec o i l) as [Hin|Hin]; destruct (has_spec o i (@cons use (a, b) l)) as [Hin'|Hin'].
      * destruct (Nat.eqb_spec o a) as [->|]; [|reflexivity]. unfold rd. destruct (nth_error (ops c) a) as [d|]; [|reflexivity].
        rewrite nth_upd. destruct (Nat.eqb i b); [|reflexivity]. destruct (nth_error (o_operands d) i); reflexivity.
      * exfalso. apply Hin'. right. exact Hin.
      * destruct Hin' as [E|K]; [|contradiction]. inversion E; subst. rewrite Nat.eqb_refl. unfold rd.
        destruct (nth_error (ops c) o) as [d|]; [|reflexivity]. rewrite nth_upd, Nat.eqb_refl. destruct (nth_error (o_operands d) i); reflexivity.
      * destruct (Nat.eqb_spec o a) as [->|]; [|reflexivity]. unfold rd. destruct (nth_error (ops c) a) as [d|]; [|reflexivity].
        rewrite nth_upd. destruct (Nat.eqb_spec i b) as [->|]; [|reflexivity]. exfalso. apply Hin'. left. reflexivity.
    + intro w. rewrite H2. unfold replace_one, push_use. cbn [uses set_uses set_ops fst snd].
      destruct (Nat.eqb_spec w new) as [->|Hw]; [rewrite fupd_same, <- app_assoc; reflexivity|rewrite fupd_other by exact Hw; reflexivity].
    + rewrite H3. unfold replace_one. cbn [ops set_uses set_ops]. apply upd_len.
Qed.

Lemma replace_all_char : forall c dead old new, old <> new -> uok (ops c) (uses c) dead ->
  let c' := replace_all_uses c old new in
  (forall o i, rd (ops c') o i = if has o i (uses c old) then Some new else rd (ops c) o i) /\
  (forall w, uses c' w = if Nat.eqb w new then uses c new ++ uses c old else if Nat.eqb w old then [] else uses c w) /\
  length (ops c') = length (ops c).
Proof.
  intros c dead old new Hne (A & B & C) c'. subst c'. unfold replace_all_uses.
  destruct (Nat.eqb_spec old new) as [|_]; [contradiction|].
  destruct (replace_fold (uses c old) (set_uses c (fupd (uses c) old [])) new) as (H1 & H2 & H3).
  cbn [ops uses set_uses] in *. split; [|split; [|exact H3]].
  - intros o i. rewrite H1. destruct (has_spec o i (uses c old)) as [Hin|]; [|reflexivity].
    apply B in Hin as [_ ->]. reflexivity.
  - intro w. rewrite H2. unfold fupd. destruct (Nat.eqb_spec w new) as [->|]; [|reflexivity].
    destruct (Nat.eqb_spec new old); [congruence|reflexivity].
Qed.

Lemma replace_all_uok : forall c dead old new, uok (ops c) (uses c) dead ->
  uok (ops (replace_all_uses c old new)) (uses (replace_all_uses c old new)) dead.
Proof.
  intros c dead old new U. destruct (Nat.eq_dec old new) as [->|Hne].
  { unfold replace_all_uses. rewrite Nat.eqb_refl. exact U. }
  destruct (replace_all_char c dead old new Hne U) as (H1 & H2 & H3). destruct U as (A & B & C). split; [|split].
  - intro w. rewrite H2. destruct (Nat.eqb_spec w new) as [->|]; [|destruct (Nat.eqb w old); [constructor|apply A]].
    assert (Hd : forall x, In x (uses c new) -> ~ In x (uses c old)).
    { intros [o i] K1 K2. apply B in K1 as [_ K1]. apply B in K2 as [_ K2]. congruence. }
    revert Hd. generalize (A new), (A old). generalize (uses c new) (uses c old). intros l1 l2 N1 N2 Hd.
    induction N1 as [|x l1 Hx N1 IH]; cbn [app]; [exact N2|]. constructor.
    + rewrite in_app_iff. intros [K|K]; [exact (Hx K)|exact (Hd x (or_introl eq_refl) K)].
    + apply IH. intros y Hy. apply Hd. right. exact Hy.
  - intros v o i. rewrite H2, H1. destruct (has_spec o i (uses c old)) as [Hin|Hin].
    + destruct (Nat.eqb_spec v new) as [->|Hv].
      * rewrite in_app_iff. split; [intros _; split; [apply B in Hin; tauto|reflexivity]|intros _; right; exact Hin].
      * destruct (Nat.eqb_spec v old) as [->|Hv'].
        -- split; [intros []|intros [_ K]; congruence].
        -- split; [|intros [_ K]; congruence]. intro K. apply B in K. apply B in Hin. destruct K, Hin; congruence.
    + destruct (Nat.eqb_spec v new) as [->|Hv].
      * rewrite in_app_iff, B. tauto.
      * destruct (Nat.eqb_spec v old) as [->|Hv'].
        -- rewrite <- B. split; [intros []|exact Hin].
        -- apply B.
  - intros x Hx. rewrite H3. apply C, Hx.
Qed.
