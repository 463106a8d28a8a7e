(** Ropes: lengths, flattening and equality; reading and slicing bytes. *)
From Coq Require Import Lia.
From Verif Require Import PreludeSpec PreludeIntProofs.
Local Open Scope Z_scope.

(** Strings whose leaves fit the 32-bit length and whose branches remember the
    length of their parts. *)
Fixpoint sound (s : rope) : Prop :=
  match s with
  | Leaf bs => sized bs
  | Branch l r n => sound l /\ sound r /\ n = Z.of_nat (length (text l ++ text r)) mod 2 ^ 32
  end.

Lemma sound_len : forall s, sound s -> rope_len s = Z.of_nat (length (text s)) mod 2 ^ 32.
Proof. intros [bs|l r n] H; cbn in *; auto. apply H. Qed.

Lemma built_sound : forall s, built s -> sound s.
Proof.
  induction 1 as [bs B|l r L IL R IR]; cbn [from_bytes concat sound]; auto.
  repeat split; auto. unfold nat_add. rewrite two32, !sound_len by auto.
  rewrite app_length, Nat2Z.inj_add. rewrite <- Z.add_mod by lia. reflexivity.
Qed.

Lemma built_len : forall s, built s -> rope_len s = Z.of_nat (length (text s)) mod 2 ^ 32.
Proof. intros s B. apply sound_len, built_sound, B. Qed.

(** What a cursor still has to read. *)
Fixpoint ahead (c : cursor) : list Z :=
  match c with
  | CursorDone => []
  | CursorPending s rest => text s ++ ahead rest
  | CursorChunk bs off n rest => take bs off n ++ ahead rest
  end.

Fixpoint fine (c : cursor) : Prop :=
  match c with
  | CursorDone => True
  | CursorPending s rest => sound s /\ fine rest
  | CursorChunk bs off n rest =>
      0 <= off /\ 0 < n /\ off + n <= Z.of_nat (length bs) < 2 ^ 32 /\ fine rest
  end.

(** How much of the string a cursor has still to visit. *)
Fixpoint weight (c : cursor) : nat :=
  match c with
  | CursorDone => 0
  | CursorPending s rest => nodes s + weight rest
  | CursorChunk _ _ _ rest => 1 + weight rest
  end.

Definition settled (c : cursor) : Prop :=
  match c with CursorPending _ _ => False | _ => True end.

Lemma take_all : forall bs, take bs 0 (Z.of_nat (length bs)) = bs.
Proof.
  intro bs. unfold take. rewrite Nat2Z.id. change (Z.to_nat 0) with 0%nat. cbn [skipn].
  apply firstn_all.
Qed.

Lemma next_ok : forall fuel c, fine c -> (weight c < fuel)%nat ->
  exists c', next_cursor fuel c = Done c' /\ fine c' /\ settled c' /\
    ahead c' = ahead c /\ (weight c' <= weight c)%nat.
Proof.
  induction fuel as [|fuel IH]; intros c F W; [lia|].
  cbn [next_cursor]. destruct c as [|s rest|bs off n rest].
  - exists CursorDone. cbn. auto.
  - destruct s as [bs|l r k]; cbn [fine weight nodes ahead text] in *.
    + destruct F as [[B S] F]. cbv zeta. rewrite len_small by auto.
      destruct (Z.eqb_spec (Z.of_nat (length bs)) 0) as [E|E].
      * destruct (IH rest F ltac:(lia)) as (c' & N & F' & T & A & W').
        exists c'. split; auto. split; auto. split; auto. split; [|lia].
        destruct bs; [exact A|cbn [length] in E; lia].
      * eexists. split; [reflexivity|]. cbn [fine settled ahead weight]. rewrite take_all.
        repeat split; auto; lia.
    + destruct F as [(SL & SR & _) F].
      destruct (IH (CursorPending l (CursorPending r rest))) as (c' & N & F' & T & A & W').
      { cbn. auto. } { cbn [weight]. lia. }
      exists c'. cbn [weight ahead] in *. rewrite A, app_assoc. repeat split; auto; lia.
  - exists (CursorChunk bs off n rest). cbn. auto.
Qed.

Lemma list_same_eq : forall a b, list_same a b = true <-> a = b.
Proof.
  induction a as [|x a IH]; intros [|y b]; cbn; split; intro H; try discriminate; auto.
  - apply andb_prop in H. destruct H as [H1 H2]. apply Z.eqb_eq in H1. apply IH in H2. congruence.
  - inversion H; subst. rewrite Z.eqb_refl. apply IH. reflexivity.
Qed.

Lemma take_length : forall bs i n, 0 <= i -> 0 <= n -> i + n <= Z.of_nat (length bs) ->
  length (take bs i n) = Z.to_nat n.
Proof. intros. unfold take. rewrite firstn_length, skipn_length. lia. Qed.

Lemma skipn_at : forall (l : list Z) k b, nth_error l k = Some b -> skipn k l = b :: skipn (S k) l.
Proof.
  induction l as [|x l IH]; intros [|k] b H; try discriminate.
  - inversion H; subst. reflexivity.
  - cbn [nth_error] in H. cbn [skipn]. apply IH in H. cbn [skipn] in H. exact H.
Qed.

Lemma loop_same : forall n a i b j, 0 <= i -> 0 <= j ->
  i + Z.of_nat n <= Z.of_nat (length a) < 2 ^ 32 -> j + Z.of_nat n <= Z.of_nat (length b) < 2 ^ 32 ->
  compare_loop n a i b j =
    Done (list_same (firstn n (skipn (Z.to_nat i) a)) (firstn n (skipn (Z.to_nat j) b))).
Proof.
  induction n as [|n IH]; intros a i b j I J A B; [reflexivity|].
  cbn [compare_loop].
  destruct (nth_error a (Z.to_nat i)) as [x|] eqn:X; [|apply nth_error_None in X; lia].
  destruct (nth_error b (Z.to_nat j)) as [y|] eqn:Y; [|apply nth_error_None in Y; lia].
  rewrite (skipn_at a _ x X), (skipn_at b _ y Y). cbn [firstn list_same].
  destruct (x =? y); cbn [andb]; [|reflexivity].
  unfold nat_add. rewrite two32, !Z.mod_small by lia.
  rewrite IH by lia.
  replace (Z.to_nat (i + 1)) with (S (Z.to_nat i)) by lia.
  replace (Z.to_nat (j + 1)) with (S (Z.to_nat j)) by lia. reflexivity.
Qed.

Lemma range_ok : forall t a i b j n, 0 <= i -> 0 <= j -> 0 <= n ->
  i + n <= Z.of_nat (length a) < 2 ^ 32 -> j + n <= Z.of_nat (length b) < 2 ^ 32 ->
  range_equal t a i b j n = Done (list_same (take a i n) (take b j n)).
Proof.
  intros t a i b j n I J N A B. destruct t; cbn [range_equal].
  - replace ((i + n <=? Z.of_nat (length a)) && (j + n <=? Z.of_nat (length b))) with true; auto.
    symmetry. apply andb_true_iff. split; apply Z.leb_le; lia.
  - rewrite loop_same by lia. reflexivity.
Qed.

(** A chunk split at a span. *)
Lemma skipn_add : forall (l : list Z) i n, skipn n (skipn i l) = skipn (i + n) l.
Proof.
  induction l as [|x l IH]; intros [|i] n; cbn; auto.
  destruct n; reflexivity.
Qed.

Lemma firstn_split : forall (l : list Z) p q, firstn (p + q) l = firstn p l ++ firstn q (skipn p l).
Proof.
  induction l as [|x l IH]; intros [|p] q; cbn; auto.
  - destruct q; reflexivity.
  - rewrite IH. reflexivity.
Qed.

Lemma take_split : forall bs i n k, 0 <= i -> 0 <= k <= n -> i + n <= Z.of_nat (length bs) ->
  take bs i n = take bs i k ++ take bs (i + k) (n - k).
Proof.
  intros bs i n k I K L. unfold take.
  replace (Z.to_nat n) with (Z.to_nat k + Z.to_nat (n - k))%nat by lia.
  rewrite firstn_split, skipn_add. repeat f_equal; lia.
Qed.

(** What is left of a chunk after a span has been read. *)
Lemma advance : forall fuel bs off n rest span, fine (CursorChunk bs off n rest) ->
  0 < span <= n -> (weight rest < fuel)%nat ->
  exists c', (if n =? span then next_cursor fuel rest
              else Done (CursorChunk bs (nat_add off span) (nat_sub n span) rest)) = Done c' /\
    fine c' /\ settled c' /\ take bs off n ++ ahead rest = take bs off span ++ ahead c' /\
    (weight c' <= 1 + weight rest)%nat /\ (span = n -> (weight c' <= weight rest)%nat).
Proof.
  intros fuel bs off n rest span (O & N & L & F) S W.
  destruct (Z.eqb_spec n span) as [->|E].
  - destruct (next_ok fuel rest F W) as (c' & X & F' & T & A & W').
    exists c'. rewrite A. repeat split; auto; lia.
  - eexists. split; [reflexivity|]. unfold nat_add, nat_sub. rewrite two32, !Z.mod_small by lia.
    cbn [fine settled ahead weight]. rewrite app_assoc, <- take_split by lia.
    repeat split; auto; lia.
Qed.

Lemma app_same : forall (a b c d : list Z), length a = length c -> a ++ b = c ++ d <-> a = c /\ b = d.
Proof.
  intros a b c d L. split.
  - revert c L. induction a as [|x a IH]; intros [|y c] L H; try discriminate; auto.
    inversion H; subst. destruct (IH c ltac:(cbn in L; lia) ltac:(auto)) as [-> ->]. auto.
  - intros [-> ->]. reflexivity.
Qed.

Lemma equal_ok : forall t fuel steps l r, fine l -> fine r -> settled l -> settled r ->
  (weight l + weight r < fuel)%nat -> (weight l + weight r < steps)%nat ->
  exists b, cursors_equal fuel steps t l r = Done b /\ (b = true <-> ahead l = ahead r).
Proof.
  intros t fuel. induction steps as [|steps IH]; intros l r FL FR SL SR W1 W2; [lia|].
  cbn [cursors_equal].
  destruct l as [|? ?|lb lo ln lrest], r as [|? ?|rb ro rn rrest]; try contradiction.
  - eexists. split; [reflexivity|]. cbn. tauto.
  - eexists. split; [reflexivity|]. cbn [ahead]. split; [discriminate|]. intro E.
    destruct FR as (O & N & L & _). pose proof (take_length rb ro rn O ltac:(lia) ltac:(lia)) as T.
    destruct (take rb ro rn); [cbn in T; lia|discriminate].
  - eexists. split; [reflexivity|]. cbn [ahead]. split; [discriminate|]. intro E.
    destruct FL as (O & N & L & _). pose proof (take_length lb lo ln O ltac:(lia) ltac:(lia)) as T.
    destruct (take lb lo ln); [cbn in T; lia|discriminate].
  - cbv zeta. set (span := if ln <? rn then ln else rn).
    assert (S : (0 < span <= ln) /\ (0 < span <= rn) /\ (span = ln \/ span = rn)).
    { cbn in FL, FR. unfold span. destruct (Z.ltb_spec ln rn); lia. }
    clearbody span. destruct S as (S1 & S2 & S3).
    pose proof FL as (LO & LN & LL & LF). pose proof FR as (RO & RN & RL & RF).
    rewrite range_ok by lia. cbn [bind].
    cbn [weight] in W1, W2.
    destruct (advance fuel lb lo ln lrest span FL S1 ltac:(lia)) as (l' & XL & FL' & SL' & AL & WL & WL').
    destruct (advance fuel rb ro rn rrest span FR S2 ltac:(lia)) as (r' & XR & FR' & SR' & AR & WR & WR').
    cbn [ahead]. rewrite AL, AR.
    pose proof (app_same (take lb lo span) (ahead l') (take rb ro span) (ahead r')
                  ltac:(rewrite !take_length by lia; reflexivity)) as J.
    destruct (list_same (take lb lo span) (take rb ro span)) eqn:Q.
    + apply list_same_eq in Q. rewrite XL. cbn [bind]. rewrite XR. cbn [bind].
      assert (WW : (weight l' + weight r' < 1 + weight lrest + (1 + weight rrest))%nat).
      { destruct S3 as [E|E]; [specialize (WL' E)|specialize (WR' E)]; lia. }
      destruct (IH l' r' FL' FR' SL' SR' ltac:(lia) ltac:(lia)) as (b & E & I).
      exists b. split; auto. rewrite J, I. tauto.
    + eexists. split; [reflexivity|]. split; [discriminate|]. rewrite J. intros [C _].
      apply list_same_eq in C. congruence.
Qed.

Lemma rope_equal_ok : forall fuel t l r, sound l -> sound r ->
  (nodes l + nodes r < fuel)%nat ->
  exists b, rope_equal fuel t l r = Done b /\ (b = true <-> text l = text r).
Proof.
  intros fuel t l r SL SR F. unfold rope_equal.
  destruct (next_ok fuel (CursorPending l CursorDone)) as (lc & -> & FL & TL & AL & WL).
  { cbn; auto. } { cbn [weight]; lia. }
  destruct (next_ok fuel (CursorPending r CursorDone)) as (rc & -> & FR & TR & AR & WR).
  { cbn; auto. } { cbn [weight]; lia. }
  cbn [bind]. cbn [weight ahead] in *. rewrite app_nil_r in *.
  destruct (equal_ok t fuel fuel lc rc FL FR TL TR ltac:(lia) ltac:(lia)) as (b & E & I).
  exists b. split; auto. rewrite I, AL, AR. reflexivity.
Qed.

Lemma string_eq_ok : forall fuel t l r, built l -> built r ->
  (nodes l + nodes r < fuel)%nat ->
  exists b, string_eq fuel t l r = Done b /\ (b = true <-> text l = text r).
Proof.
  intros fuel t l r BL BR F.
  pose proof (built_sound l BL) as SL. pose proof (built_sound r BR) as SR.
  unfold string_eq. cbv zeta.
  destruct (Z.eqb_spec (rope_len l) (rope_len r)) as [E|E].
  - pose proof (rope_equal_ok fuel t l r SL SR F) as Q.
    destruct l as [lb|? ? ?], r as [rb|? ? ?]; try exact Q.
    cbn in SL, SR. destruct SL as [_ L1], SR as [_ R1].
    cbn [rope_len] in *. rewrite !len_small in * by auto.
    rewrite range_ok by lia. eexists. split; [reflexivity|].
    rewrite list_same_eq, take_all. rewrite E, take_all. cbn. tauto.
  - eexists. split; [reflexivity|]. split; [discriminate|]. intro C. exfalso. apply E.
    rewrite !sound_len by auto. rewrite C. reflexivity.
Qed.

Lemma string_ne_ok : forall fuel t l r, built l -> built r ->
  (nodes l + nodes r < fuel)%nat ->
  exists b, string_ne fuel t l r = Done b /\ (b = true <-> text l <> text r).
Proof.
  intros fuel t l r BL BR F. destruct (string_eq_ok fuel t l r BL BR F) as (b & E & I).
  unfold string_ne. rewrite E. exists (negb b). split; [reflexivity|].
  destruct b; cbn; split; intros H; try discriminate; try congruence.
  - exfalso. apply H, I. reflexivity.
  - intro C. apply I in C. discriminate.
Qed.

(** Reading one byte. *)
Lemma get_ok : forall t bs i b, Forall is_byte bs -> Z.of_nat (length bs) <= 2 ^ 31 -> 0 <= i < 2 ^ 32 ->
  nth_error bs (Z.to_nat i) = Some b -> (t = Wasm \/ b < 128) ->
  bytes_get t bs i = Done (Some b).
Proof.
  intros t bs i b B L I H C. unfold bytes_get. rewrite len_small by lia.
  assert (Z.to_nat i < length bs)%nat by (apply nth_error_Some; congruence).
  replace (i <? Z.of_nat (length bs)) with true by (symmetry; apply Z.ltb_lt; lia).
  rewrite (get_at t bs i b) by (auto; try lia; destruct t; cbn; auto). cbn [bind].
  assert (is_byte b). { rewrite Forall_forall in B. apply B. eapply nth_error_In; eauto. }
  destruct C as [->|C]; [reflexivity|]. rewrite seen_low; auto. unfold is_byte in *. lia.
Qed.

Lemma get_past : forall t bs i, Z.of_nat (length bs) < 2 ^ 32 -> Z.of_nat (length bs) <= i ->
  bytes_get t bs i = Done None.
Proof.
  intros t bs i L I. unfold bytes_get. rewrite len_small by auto.
  replace (i <? Z.of_nat (length bs)) with false by (symmetry; apply Z.ltb_ge; lia). reflexivity.
Qed.

Lemma wasm_panics : forall bs i, Z.of_nat (length bs) <= i -> get_or_panic Wasm bs i = Trap.
Proof.
  intros bs i I. cbn. replace (i <? Z.of_nat (length bs)) with false by (symmetry; apply Z.ltb_ge; lia).
  reflexivity.
Qed.

Lemma native_strays : forall bs i, 0 <= i < 2 ^ 32 -> Z.of_nat (length bs) <= i ->
  get_or_panic Native bs i = Wild.
Proof.
  intros bs i I L. cbn. unfold sign_extend. change (2 ^ 32) with 4294967296 in I.
  destruct (Z.ltb_spec i 2147483648).
  - replace (i <? Z.of_nat (length bs)) with false by (symmetry; apply Z.ltb_ge; lia).
    rewrite andb_false_r. reflexivity.
  - unfold TWO32. replace (0 <=? i - 4294967296) with false by (symmetry; apply Z.leb_gt; lia). reflexivity.
Qed.

Lemma native_far : exists bs i b, Forall is_byte bs /\ Z.of_nat (length bs) < 2 ^ 32 /\
  nth_error bs (Z.to_nat i) = Some b /\ 0 <= i < 2 ^ 32 /\ bytes_get Native bs i = Wild.
Proof.
  assert (K : exists k, Z.of_nat k = 2 ^ 31) by (exists (Z.to_nat (2 ^ 31)); apply Z2Nat.id; lia).
  destruct K as (k & K). exists (49 :: repeat 120 k), (2 ^ 31), 120.
  assert (L : Z.of_nat (length (49 :: repeat 120 k)) = 2 ^ 31 + 1)
    by (cbn [length]; rewrite repeat_length, Nat2Z.inj_succ, K; reflexivity).
  split; [apply filled_bytes|]. rewrite L. split; [reflexivity|]. split; [|split; [lia|]].
  - replace (Z.to_nat (2 ^ 31)) with k by lia. destruct k as [|k]; [discriminate|].
    cbn [nth_error]. apply nth_error_repeat. lia.
  - unfold bytes_get. rewrite len_small by (rewrite L; reflexivity). rewrite L.
    change (2 ^ 31 <? 2 ^ 31 + 1) with true. cbv iota. cbn [get_or_panic].
    change (sign_extend 2147483648 TWO32 (2 ^ 31)) with (-2147483648). reflexivity.
Qed.

(** Slices. *)
Lemma take_clamped : forall bs s e, 0 <= s <= e -> e <= Z.of_nat (length bs) ->
  take bs s (e - s) = clamped bs s e.
Proof.
  intros bs s e S E. unfold take, clamped.
  replace (Z.to_nat (e - s)) with (Z.to_nat e - Z.to_nat s)%nat by lia.
  rewrite firstn_skipn_comm. repeat f_equal. lia.
Qed.

Lemma clamped_past : forall bs s e, Z.of_nat (length bs) <= e ->
  clamped bs s e = clamped bs s (Z.of_nat (length bs)).
Proof.
  intros bs s e E. unfold clamped. rewrite (firstn_all2 bs) by lia. rewrite Nat2Z.id, firstn_all. reflexivity.
Qed.

Lemma clamped_empty : forall bs s e, e <= s -> clamped bs s e = [].
Proof.
  intros bs s e E. unfold clamped. apply skipn_all2. rewrite firstn_length. lia.
Qed.

Lemma clamped_end : forall bs s e, Z.of_nat (length bs) <= s -> clamped bs s e = [].
Proof.
  intros bs s e E. unfold clamped. apply skipn_all2. rewrite firstn_length. lia.
Qed.

Lemma slice_ok : forall bs s e, Z.of_nat (length bs) < 2 ^ 32 -> 0 <= s -> 0 <= e ->
  bytes_slice bs s e = Done (clamped bs s e).
Proof.
  intros bs s e L S E. unfold bytes_slice. rewrite len_small by auto. cbv zeta.
  set (n := Z.of_nat (length bs)) in *. unfold slice_or_panic. fold n.
  assert (N : 0 <= n) by lia.
  destruct (Z.ltb_spec n s) as [A|A].
  - rewrite clamped_end by lia.
    assert (X : (if e <? n then n else if n <? e then n else e) = n).
    { destruct (Z.ltb_spec e n); auto. destruct (Z.ltb_spec n e); auto. lia. }
    rewrite X. rewrite Z.ltb_irrefl. cbn [orb].
    f_equal. unfold take. rewrite Z.sub_diag. reflexivity.
  - destruct (Z.ltb_spec e s) as [B|B].
    + rewrite Z.ltb_irrefl. replace (n <? s) with false by (symmetry; apply Z.ltb_ge; lia).
      cbn [orb]. rewrite clamped_empty by lia. f_equal. unfold take. rewrite Z.sub_diag. reflexivity.
    + destruct (Z.ltb_spec n e) as [C|C].
      * replace (n <? s) with false by (symmetry; apply Z.ltb_ge; lia).
        rewrite Z.ltb_irrefl. cbn [orb]. rewrite (clamped_past bs s e) by (fold n; lia). fold n.
        rewrite take_clamped by (fold n; lia). reflexivity.
      * replace (e <? s) with false by (symmetry; apply Z.ltb_ge; lia).
        replace (n <? e) with false by (symmetry; apply Z.ltb_ge; lia). cbn [orb].
        rewrite take_clamped by (fold n; lia). reflexivity.
Qed.

Lemma slice_panics : forall bs s e, slice_or_panic bs s e = Trap <->
  (e < s \/ Z.of_nat (length bs) < e).
Proof.
  intros bs s e. unfold slice_or_panic.
  destruct (Z.ltb_spec e s), (Z.ltb_spec (Z.of_nat (length bs)) e); cbn; split; intro X;
    auto; try discriminate; try lia.
Qed.

(** Strings beyond the 32-bit length. *)
Lemma huge_equal : exists bs, Forall is_byte bs /\ bs <> [] /\
  forall fuel, string_eq fuel Native (from_bytes bs) rope_empty = Done true.
Proof.
  assert (K : exists k, Z.of_nat k = 2 ^ 32 - 1) by (exists (Z.to_nat (2 ^ 32 - 1)); apply Z2Nat.id; lia).
  destruct K as (k & K). exists (49 :: repeat 120 k). split; [apply filled_bytes|].
  split; [discriminate|]. intro fuel. unfold string_eq. cbn [rope_len from_bytes rope_empty].
  assert (E : bytes_len (49 :: repeat 120 k) = 0).
  { unfold bytes_len. cbn [length]. rewrite repeat_length, Nat2Z.inj_succ, K. reflexivity. }
  rewrite E. change (bytes_len []) with 0. cbv zeta. change (0 =? 0) with true. cbv iota.
  cbn [range_equal].
  replace ((0 + 0 <=? Z.of_nat (length (49 :: repeat 120 k))) && (0 + 0 <=? Z.of_nat (length (@nil Z)))) with true.
  - reflexivity.
  - symmetry. apply andb_true_iff. split; apply Z.leb_le; cbn [length]; lia.
Qed.

Lemma high_byte : exists bs i, Forall is_byte bs /\
  nth_error bs (Z.to_nat i) = Some 255 /\ bytes_get Native bs i = Done (Some 4294967295).
Proof.
  exists [255], 0. split; [repeat constructor; unfold is_byte; lia|]. split; reflexivity.
Qed.

Lemma native_no_panic : exists bs i, 0 <= i < 2 ^ 32 /\ Z.of_nat (length bs) <= i /\
  get_or_panic Native bs i <> Trap.
Proof. exists [], 0. repeat split; try lia; try reflexivity; discriminate. Qed.
