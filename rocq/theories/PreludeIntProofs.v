(** Parsing and formatting of integers. *)
From Coq Require Import Lia.
From Verif Require Import PreludeSpec.
Local Open Scope Z_scope.

Lemma two32 : TWO32 = 2 ^ 32. Proof. reflexivity. Qed.

Lemma len_small : forall bs, Z.of_nat (length bs) < 2 ^ 32 -> bytes_len bs = Z.of_nat (length bs).
Proof.
  intros bs H. unfold bytes_len. rewrite two32. apply Z.mod_small. lia.
Qed.

Lemma to_bytes_text : forall s, to_bytes s = text s.
Proof. induction s; cbn; congruence. Qed.

(** Reading the byte that stands at an index. *)
Definition seen (t : target) (b : Z) : Z :=
  match t with Native => sign_extend 128 256 b mod TWO32 | Wasm => b end.

Definition readable (t : target) (bs : list Z) : Prop :=
  match t with Native => Z.of_nat (length bs) <= 2 ^ 31 | Wasm => True end.

Lemma get_at : forall t bs i b, 0 <= i -> nth_error bs (Z.to_nat i) = Some b ->
  readable t bs -> get_or_panic t bs i = Done (seen t b).
Proof.
  intros t bs i b H0 H R.
  assert (Z.to_nat i < length bs)%nat by (apply nth_error_Some; congruence).
  destruct t; cbn [get_or_panic seen].
  - cbn in R. change (2 ^ 31) with 2147483648 in R.
    unfold sign_extend at 1 2 3. replace (i <? 2147483648) with true by (symmetry; apply Z.ltb_lt; lia).
    cbv zeta.
    replace ((0 <=? i) && (i <? Z.of_nat (length bs))) with true
      by (symmetry; apply andb_true_iff; split; [apply Z.leb_le | apply Z.ltb_lt]; lia).
    rewrite H. reflexivity.
  - replace (i <? Z.of_nat (length bs)) with true by (symmetry; apply Z.ltb_lt; lia).
    rewrite H. reflexivity.
Qed.

Lemma seen_low : forall t b, 0 <= b < 128 -> seen t b = b.
Proof.
  intros t b H. destruct t; cbn; auto. unfold sign_extend.
  replace (b <? 128) with true by (symmetry; apply Z.ltb_lt; lia).
  rewrite two32. apply Z.mod_small. lia.
Qed.

Lemma seen_high : forall t b, 128 <= b <= 255 -> 128 <= seen t b.
Proof.
  intros t b H. destruct t; cbn; [|lia]. unfold sign_extend.
  replace (b <? 128) with false by (symmetry; apply Z.ltb_ge; lia).
  rewrite two32. replace (b - 256) with (b - 256 + 2 ^ 32 + (-1) * 2 ^ 32) by lia.
  rewrite Z.mod_add by lia. rewrite Z.mod_small; lia.
Qed.

Lemma seen_same : forall t b k, is_byte b -> 0 <= k < 128 -> (seen t b =? k) = (b =? k).
Proof.
  intros t b k B K. unfold is_byte in B. destruct (Z_lt_ge_dec b 128).
  - rewrite seen_low by lia. reflexivity.
  - pose proof (seen_high t b ltac:(lia)).
    destruct (Z.eqb_spec (seen t b) k), (Z.eqb_spec b k); lia.
Qed.

Lemma digit_of : forall t b, is_byte b ->
  (is_digit b /\ decimal_digit_or_invalid (seen t b) = b - 48) \/
  (~ is_digit b /\ decimal_digit_or_invalid (seen t b) = -1).
Proof.
  intros t b B. unfold decimal_digit_or_invalid, is_digit.
  repeat rewrite (seen_same t b) by (auto; lia).
  repeat match goal with |- context [b =? ?k] => destruct (Z.eqb_spec b k); [left; lia|] end.
  right. lia.
Qed.

Lemma digit_dec : forall b, is_digit b \/ ~ is_digit b.
Proof. intros b. unfold is_digit. lia. Qed.

Lemma digits_dec : forall bs, Forall is_digit bs \/ ~ Forall is_digit bs.
Proof.
  induction bs as [|b bs [IH|IH]].
  - left. constructor.
  - destruct (digit_dec b); [left; constructor; auto|right; intro F; inversion F; auto].
  - right. intro F; inversion F; auto.
Qed.

(** Bounds of the positional value. *)
Lemma magnitude_bound : forall ds, Forall is_digit ds ->
  0 <= magnitude ds < 10 ^ Z.of_nat (length ds).
Proof.
  induction 1 as [|d ds D _ IH]; cbn [magnitude length].
  - cbn. lia.
  - rewrite Nat2Z.inj_succ, Z.pow_succ_r by lia. unfold is_digit in D. nia.
Qed.

(** The digits read so far, followed by the rest. *)
Definition signed (neg : bool) (z : Z) : Z := if neg then - z else z.
Definition onto (neg : bool) (value : Z) (ds : list Z) : Z :=
  value * 10 ^ Z.of_nat (length ds) + signed neg (magnitude ds).

Definition aligned (neg : bool) (v : Z) : Prop :=
  if neg then INT_MIN <= v <= 0 else 0 <= v <= INT_MAX.

Definition last_word (neg over : bool) (value : Z) (suf : list Z) (r : parsed) : Prop :=
  (Forall is_digit suf /\
     ((over = true \/ ~ fits (onto neg value suf)) /\ r = PError OutOfRange \/
      over = false /\ fits (onto neg value suf) /\ r = POk (onto neg value suf)))
  \/ (~ Forall is_digit suf /\ r = PError InvalidSyntax).

Lemma fits_iff : forall v, fits v <-> INT_MIN <= v <= INT_MAX.
Proof. intros. unfold fits, INT_MIN, INT_MAX. lia. Qed.

Lemma overflow_step : forall neg v d, aligned neg v -> 0 <= d <= 9 ->
  decimal_step_overflows v d neg = true <-> ~ aligned neg (v * 10 + signed neg d).
Proof.
  intros neg v d A D. unfold decimal_step_overflows, aligned, signed, INT_MIN, INT_MAX in *.
  destruct neg.
  - destruct (Z.ltb_spec v (-214748364)); [split; intros; auto; lia|].
    destruct (Z.eqb_spec v (-214748364)).
    + subst. rewrite Z.ltb_lt. lia.
    + split; [discriminate|lia].
  - destruct (Z.ltb_spec 214748364 v); [split; intros; auto; lia|].
    destruct (Z.eqb_spec v 214748364).
    + subst. rewrite Z.ltb_lt. lia.
    + split; [discriminate|lia].
Qed.

Lemma onto_cons : forall neg v d ds,
  onto neg v (d :: ds) = onto neg (v * 10 + signed neg (d - 48)) ds.
Proof.
  intros. unfold onto. cbn [length magnitude]. rewrite Nat2Z.inj_succ, Z.pow_succ_r by lia.
  destruct neg; cbn [signed]; lia.
Qed.

(** Once out of range, further digits do not bring the number back. *)
Lemma beyond : forall (neg : bool) v ds, Forall is_digit ds ->
  (if neg then v <= 0 else 0 <= v) -> ~ aligned neg v -> ~ fits (onto neg v ds).
Proof.
  intros neg v ds D S A. rewrite fits_iff. unfold onto.
  pose proof (magnitude_bound ds D) as [M _].
  assert (1 <= 10 ^ Z.of_nat (length ds)) by (assert (0 < 10 ^ Z.of_nat (length ds)) by (apply Z.pow_pos_nonneg; lia); lia).
  unfold aligned in A. destruct neg; cbn [signed]; unfold INT_MIN, INT_MAX in *; nia.
Qed.

Lemma norm_ok : forall p z, INT_MIN <= z <= INT_MAX -> int_norm p z = Done z.
Proof.
  intros p z H. unfold int_norm.
  replace ((INT_MIN <=? z) && (z <=? INT_MAX)) with true; auto.
  symmetry. apply andb_true_iff. split; apply Z.leb_le; lia.
Qed.

Lemma scaled_ok : forall neg v d, aligned neg (v * 10 + signed neg d) -> 0 <= d <= 9 ->
  aligned neg v -> INT_MIN <= v * 10 <= INT_MAX.
Proof.
  intros neg v d A D V. unfold aligned, signed, INT_MIN, INT_MAX in *. destruct neg; lia.
Qed.

Lemma nth_mid : forall (pre : list Z) b suf, nth_error (pre ++ b :: suf) (length pre) = Some b.
Proof. intros. rewrite nth_error_app2, Nat.sub_diag by lia. reflexivity. Qed.

Lemma parse_suffix : forall t p suf pre fuel value neg over,
  Forall is_byte suf -> Z.of_nat (length (pre ++ suf)) < 2 ^ 32 -> readable t (pre ++ suf) ->
  (length suf < fuel)%nat -> aligned neg value ->
  exists r, parse_digits fuel t p (pre ++ suf) (Z.of_nat (length pre)) value neg over = Done r /\
    last_word neg over value suf r.
Proof.
  intros t p. induction suf as [|b suf IH]; intros pre fuel value neg over B L R F A.
  - destruct fuel as [|fuel]; [cbn in F; lia|]. rewrite app_nil_r in *. cbn [parse_digits].
    rewrite len_small, Z.eqb_refl by auto. eexists; split; [reflexivity|].
    left. split; [constructor|]. unfold onto. cbn [length magnitude].
    replace (value * 10 ^ Z.of_nat 0 + signed neg 0) with value
      by (change (10 ^ Z.of_nat 0) with 1; destruct neg; cbn; lia).
    destruct over; [left; auto|right]. split; auto. split; auto.
    rewrite fits_iff. unfold aligned, INT_MIN, INT_MAX in *. destruct neg; lia.
  - destruct fuel as [|fuel]; [cbn in F; lia|]. cbn [parse_digits length] in *.
    inversion B as [|? ? Bb Bs]; subst.
    rewrite len_small by auto. rewrite app_length in *. cbn [length] in *.
    destruct (Z.eqb_spec (Z.of_nat (length pre)) (Z.of_nat (length pre + S (length suf)))); [lia|].
    rewrite (get_at t _ _ b); [|lia|rewrite Nat2Z.id; apply nth_mid|
      destruct t; cbn in *; auto; rewrite app_length; cbn; auto].
    cbn [bind]. cbv zeta.
    replace (nat_add (Z.of_nat (length pre)) 1) with (Z.of_nat (length (pre ++ [b])))
      by (unfold nat_add; rewrite two32, Z.mod_small by lia; rewrite app_length; cbn; lia).
    replace (pre ++ b :: suf) with ((pre ++ [b]) ++ suf) in * by (rewrite <- app_assoc; reflexivity).
    assert (L' : Z.of_nat (length ((pre ++ [b]) ++ suf)) < 2 ^ 32)
      by (rewrite !app_length; cbn; lia).
    destruct (digit_of t b Bb) as [[D ->]|[D ->]].
    + assert (D9 : 0 <= b - 48 <= 9) by (unfold is_digit in D; lia).
      replace (b - 48 <? 0) with false by (symmetry; apply Z.ltb_ge; lia).
      destruct over.
      * destruct (IH (pre ++ [b]) fuel value neg true Bs L' R ltac:(lia) A) as (r & E & W).
        exists r. split; auto.
        destruct W as [(Ds & [(_ & ->)|(C & _)])|(Ds & ->)]; try discriminate.
        -- left. split; [constructor; auto|]. left. auto.
        -- right. split; auto. intro X; inversion X; auto.
      * destruct (decimal_step_overflows value (b - 48) neg) eqn:O.
        -- pose proof (proj1 (overflow_step neg value _ A D9) O) as N.
           destruct (IH (pre ++ [b]) fuel value neg true Bs L' R ltac:(lia) A) as (r & E & W).
           exists r. split; auto.
           destruct W as [(Ds & [(_ & ->)|(C & _)])|(Ds & ->)]; try discriminate.
           ++ left. split; [constructor; auto|]. left. split; auto. right.
              rewrite onto_cons. apply beyond; auto.
              unfold aligned, signed in *. destruct neg; lia.
           ++ right. split; auto. intro X; inversion X; auto.
        -- assert (N : aligned neg (value * 10 + signed neg (b - 48))).
           { destruct (decimal_step_overflows value (b - 48) neg) eqn:O'; [discriminate|].
             assert (~ ~ aligned neg (value * 10 + signed neg (b - 48))).
             { intro C. apply (overflow_step neg value _ A D9) in C. congruence. }
             unfold aligned, signed in *. destruct neg; unfold INT_MIN, INT_MAX in *; lia. }
           unfold int_mul. rewrite norm_ok by (eapply scaled_ok; eauto). cbn [bind].
           replace (if neg then int_sub p (value * 10) (b - 48) else int_add p (value * 10) (b - 48))
             with (Done (value * 10 + signed neg (b - 48))).
           2: { unfold int_sub, int_add, signed, aligned, INT_MIN, INT_MAX in *.
                destruct neg; rewrite norm_ok; auto; unfold INT_MIN, INT_MAX; try lia. }
           cbn [bind].
           destruct (IH (pre ++ [b]) fuel _ neg false Bs L' R ltac:(lia) N) as (r & E & W).
           exists r. split; [exact E|]. unfold last_word in *. rewrite onto_cons.
           destruct W as [(Ds & W)|(Ds & ->)].
           ++ left. split; [constructor; auto|]. exact W.
           ++ right. split; auto. intro X; inversion X; auto.
    + change (-1 <? 0) with true. cbv iota. eexists; split; [reflexivity|].
      right. split; auto. intro X; inversion X; auto.
Qed.

(** Numerals by their first byte. *)
Lemma numeral_plus : forall rest v, numeral (43 :: rest) v <-> digits rest /\ v = magnitude rest.
Proof.
  intros rest v. split.
  - intros (s & ds & D & E & ->). destruct s; cbn in E.
    + destruct D as [_ D]. subst. inversion D as [|? ? C]; subst. unfold is_digit in C. lia.
    + inversion E; subst. auto.
    + discriminate.
  - intros [D ->]. exists Plus, rest. auto.
Qed.

Lemma numeral_minus : forall rest v, numeral (45 :: rest) v <-> digits rest /\ v = - magnitude rest.
Proof.
  intros rest v. split.
  - intros (s & ds & D & E & ->). destruct s; cbn in E.
    + destruct D as [_ D]. subst. inversion D as [|? ? C]; subst. unfold is_digit in C. lia.
    + discriminate.
    + inversion E; subst. auto.
  - intros [D ->]. exists Minus, rest. auto.
Qed.

Lemma numeral_plain : forall b rest v, b <> 43 -> b <> 45 ->
  numeral (b :: rest) v <-> digits (b :: rest) /\ v = magnitude (b :: rest).
Proof.
  intros b rest v N1 N2. split.
  - intros (s & ds & D & E & ->). destruct s; cbn [sign_text app] in E.
    + subst. auto.
    + inversion E. congruence.
    + inversion E. congruence.
  - intros [D ->]. exists Unsigned, (b :: rest). auto.
Qed.

Lemma word_answer : forall neg bs ds r, ds <> [] ->
  (forall v, numeral bs v <-> digits ds /\ v = signed neg (magnitude ds)) ->
  last_word neg false 0 ds r -> answer bs r.
Proof.
  intros neg bs ds r N I W. unfold last_word in W.
  replace (onto neg 0 ds) with (signed neg (magnitude ds)) in W by (unfold onto; lia).
  destruct W as [(D & [([C|F] & ->)|(_ & F & ->)])|(D & ->)].
  - discriminate.
  - exists (signed neg (magnitude ds)). split; auto. apply I. repeat split; auto.
  - split; auto. apply I. repeat split; auto.
  - intros (v & V). apply I in V. destruct V as [[_ V] _]. auto.
Qed.

Lemma parse_answers : forall fuel t p s, Forall is_byte (text s) ->
  Z.of_nat (length (text s)) <= 2 ^ 31 -> (length (text s) < fuel)%nat ->
  exists r, int_parse fuel t p s = Done r /\ answer (text s) r.
Proof.
  intros fuel t p s B L F. unfold int_parse. rewrite to_bytes_text. cbv zeta.
  rewrite len_small by lia. destruct (text s) as [|b rest] eqn:E.
  - exists (PError InvalidSyntax). split; [reflexivity|].
    intros (v & sg & ds & [D _] & X & _). destruct sg, ds; try discriminate. congruence.
  - assert (R : readable t (b :: rest)) by (destruct t; cbn [readable]; auto).
    inversion B as [|? ? Bb Bs]; subst.
    replace (Z.of_nat (length (b :: rest)) =? 0) with false by (symmetry; apply Z.eqb_neq; cbn [length]; lia).
    rewrite (get_at t (b :: rest) 0 b) by (auto; lia). cbn [bind].
    rewrite !(seen_same t b) by (auto; lia).
    destruct (Z.eqb_spec b 43) as [->|N1]; [|destruct (Z.eqb_spec b 45) as [->|N2]].
    + unfold parse_after_sign. rewrite len_small by lia.
      destruct (Z.eqb_spec 1 (Z.of_nat (length (43 :: rest)))) as [X|X].
      * exists (PError InvalidSyntax). split; auto. intros (v & V). apply numeral_plus in V.
        destruct V as [[V _] _]. destruct rest; [congruence|cbn [length] in X; lia].
      * destruct (parse_suffix t p rest [43] fuel 0 false false) as (r & P & W); auto;
          try (cbn [app length] in *; lia).
        { cbn. unfold INT_MAX. lia. }
        exists r. split; [exact P|]. eapply word_answer; eauto.
        { destruct rest; [cbn in X; lia|discriminate]. }
        intro v. rewrite numeral_plus. reflexivity.
    + unfold parse_after_sign. rewrite len_small by lia.
      destruct (Z.eqb_spec 1 (Z.of_nat (length (45 :: rest)))) as [X|X].
      * exists (PError InvalidSyntax). split; auto. intros (v & V). apply numeral_minus in V.
        destruct V as [[V _] _]. destruct rest; [congruence|cbn [length] in X; lia].
      * destruct (parse_suffix t p rest [45] fuel 0 true false) as (r & P & W); auto;
          try (cbn [app length] in *; lia).
        { cbn. unfold INT_MIN. lia. }
        exists r. split; [exact P|]. eapply word_answer; eauto.
        { destruct rest; [cbn in X; lia|discriminate]. }
        intro v. rewrite numeral_minus. reflexivity.
    + destruct (parse_suffix t p (b :: rest) [] fuel 0 false false) as (r & P & W); auto;
        try (cbn [app length] in *; lia).
      { cbn. unfold INT_MAX. lia. }
      exists r. split; [exact P|]. eapply word_answer; eauto; [discriminate|].
      intro v. rewrite numeral_plain by auto. reflexivity.
Qed.

(** Answers are determined by the text. *)
Lemma numeral_unique : forall bs v w, numeral bs v -> numeral bs w -> v = w.
Proof.
  intros bs v w V W. destruct bs as [|b rest].
  - destruct V as (s & ds & [N _] & X & _). destruct s, ds; try discriminate. congruence.
  - destruct (Z.eq_dec b 43) as [->|N1].
    + apply numeral_plus in V, W. destruct V, W. congruence.
    + destruct (Z.eq_dec b 45) as [->|N2].
      * apply numeral_minus in V, W. destruct V, W. congruence.
      * apply numeral_plain in V, W; auto. destruct V, W. congruence.
Qed.

Lemma answer_unique : forall bs r q, answer bs r -> answer bs q -> r = q.
Proof.
  intros bs r q A B. destruct r as [v|[]], q as [w|[]]; cbn in *; try reflexivity; [|exfalso..].
  - destruct A as [A _], B as [B _]. f_equal. eapply numeral_unique; eauto.
  - destruct A as [A _]. apply B. eauto.
  - destruct A as [A F], B as (w & B & G). apply G. rewrite <- (numeral_unique _ _ _ A B). auto.
  - destruct B as [B _]. apply A. eauto.
  - destruct B as (w & B & _). apply A. eauto.
  - destruct B as [B F], A as (v & A & G). apply G. rewrite <- (numeral_unique _ _ _ B A). auto.
  - destruct A as (v & A & _). apply B. eauto.
Qed.

Lemma parse_exactly : forall fuel t p s r, Forall is_byte (text s) ->
  Z.of_nat (length (text s)) <= 2 ^ 31 -> (length (text s) < fuel)%nat ->
  int_parse fuel t p s = Done r <-> answer (text s) r.
Proof.
  intros fuel t p s r B L F. destruct (parse_answers fuel t p s B L F) as (q & E & A).
  rewrite E. split; intro H.
  - inversion H; subst. auto.
  - f_equal. eapply answer_unique; eauto.
Qed.

(** Formatting. *)
Lemma magnitude_snoc : forall ds d, magnitude (ds ++ [d]) = 10 * magnitude ds + (d - 48).
Proof.
  induction ds as [|x ds IH]; intro d.
  - cbn. lia.
  - cbn [app magnitude]. rewrite IH, app_length. cbn [length].
    replace (Z.of_nat (length ds + 1)) with (Z.succ (Z.of_nat (length ds))) by lia.
    rewrite Z.pow_succ_r by lia. lia.
Qed.

Lemma positive_digit : forall d, 0 <= d <= 9 -> positive_digit_string d = Leaf [d + 48].
Proof.
  intros d H. unfold positive_digit_string.
  repeat match goal with |- context [d =? ?k] => destruct (Z.eqb_spec d k); [subst; reflexivity|] end.
  replace d with 9 by lia. reflexivity.
Qed.

Lemma negative_digit : forall d, -9 <= d <= 0 -> negative_digit_string d = Leaf [48 - d].
Proof.
  intros d H. unfold negative_digit_string.
  repeat match goal with |- context [d =? ?k] => destruct (Z.eqb_spec d k); [subst; reflexivity|] end.
  replace d with (-9) by lia. reflexivity.
Qed.

Lemma div_ten : forall a, int_div a 10 = Done (Z.quot a 10).
Proof. intro a. unfold int_div. cbn [Z.eqb orb]. rewrite andb_false_r. reflexivity. Qed.

Lemma rem_ten : forall a, int_rem a 10 = Done (Z.rem a 10).
Proof. reflexivity. Qed.

(** A canonical row of digits. *)
Definition tidy (v : Z) (ds : list Z) : Prop :=
  digits ds /\ magnitude ds = v /\ hd_error ds <> Some 48.

Lemma tidy_one : forall d, 1 <= d <= 9 -> tidy d [d + 48].
Proof.
  intros d H. repeat split; try discriminate.
  - repeat constructor; unfold is_digit; lia.
  - cbn [magnitude length]. change (10 ^ Z.of_nat 0) with 1. lia.
  - cbn. intro C. inversion C. lia.
Qed.

Lemma tidy_more : forall v ds d, tidy v ds -> 0 <= d <= 9 -> tidy (10 * v + d) (ds ++ [d + 48]).
Proof.
  intros v ds d ([N D] & M & H) R. repeat split.
  - destruct ds; discriminate.
  - apply Forall_app. split; auto. repeat constructor; unfold is_digit; lia.
  - rewrite magnitude_snoc. lia.
  - destruct ds; [congruence|exact H].
Qed.

Lemma small_leaf : forall b, is_byte b -> built (Leaf [b]).
Proof.
  intros b B. apply (built_bytes [b]). split; [repeat constructor; apply B|]. reflexivity.
Qed.

Lemma format_up : forall n fuel v, 0 < v < 10 ^ Z.of_nat n -> (n <= fuel)%nat ->
  exists s, format_positive fuel v = Done s /\ tidy v (text s) /\ built s.
Proof.
  induction n as [|n IH]; intros fuel v V F.
  - cbn in V. lia.
  - destruct fuel as [|fuel]; [lia|]. cbn [format_positive].
    rewrite div_ten, rem_ten. cbn [bind]. cbv zeta.
    pose proof (Z.quot_rem' v 10) as Q. pose proof (Z.rem_bound_pos v 10 ltac:(lia) ltac:(lia)) as R.
    rewrite positive_digit by lia. destruct (Z.eqb_spec (Z.quot v 10) 0) as [E|E].
    + eexists. split; [reflexivity|]. rewrite E in Q. split; [|apply small_leaf; unfold is_byte; lia].
      replace v with (Z.rem v 10) at 1 by lia. apply tidy_one. lia.
    + assert (P : 0 < Z.quot v 10 < 10 ^ Z.of_nat n).
      { rewrite Nat2Z.inj_succ, Z.pow_succ_r in V by lia.
        pose proof (Z.quot_pos v 10 ltac:(lia) ltac:(lia)). lia. }
      destruct (IH fuel _ P ltac:(lia)) as (s & -> & T & B). cbn [bind].
      eexists. split; [reflexivity|]. split.
      * cbn [text concat]. rewrite Q at 1. apply tidy_more; auto. lia.
      * apply built_join; auto. apply small_leaf; unfold is_byte; lia.
Qed.

Lemma format_down : forall n fuel v, - 10 ^ Z.of_nat n < v < 0 -> (n <= fuel)%nat ->
  exists s, format_negative fuel v = Done s /\ tidy (- v) (text s) /\ built s.
Proof.
  induction n as [|n IH]; intros fuel v V F.
  - cbn in V. lia.
  - destruct fuel as [|fuel]; [lia|]. cbn [format_negative].
    rewrite div_ten, rem_ten. cbn [bind]. cbv zeta.
    pose proof (Z.quot_rem' v 10) as Q. pose proof (Z.rem_bound_pos_neg v 10 ltac:(lia) ltac:(lia)) as R.
    rewrite negative_digit by lia. destruct (Z.eqb_spec (Z.quot v 10) 0) as [E|E].
    + eexists. split; [reflexivity|]. rewrite E in Q. split; [|apply small_leaf; unfold is_byte; lia].
      replace (- v) with (- Z.rem v 10) by lia.
      replace (48 - Z.rem v 10) with (- Z.rem v 10 + 48) by lia. apply tidy_one. lia.
    + assert (P : - 10 ^ Z.of_nat n < Z.quot v 10 < 0).
      { rewrite Nat2Z.inj_succ, Z.pow_succ_r in V by lia. lia. }
      destruct (IH fuel _ P ltac:(lia)) as (s & -> & T & B). cbn [bind].
      eexists. split; [reflexivity|]. split.
      * cbn [text concat]. replace (- v) with (10 * (- Z.quot v 10) + - Z.rem v 10) by lia.
        replace (48 - Z.rem v 10) with (- Z.rem v 10 + 48) by lia. apply tidy_more; auto. lia.
      * apply built_join; auto. apply small_leaf; unfold is_byte; lia.
Qed.

Lemma to_string_canonical : forall fuel v, fits v -> (10 <= fuel)%nat ->
  exists s, int_to_string fuel v = Done s /\ canonical v (text s) /\ built s.
Proof.
  intros fuel v V F. rewrite fits_iff in V. unfold INT_MIN, INT_MAX in V.
  unfold int_to_string. destruct (Z.eqb_spec v 0) as [->|N0]; [|destruct (Z.ltb_spec v 0)].
  - eexists. split; [reflexivity|]. split; [|apply small_leaf; unfold is_byte; lia].
    exists Unsigned, [48]. repeat split; try discriminate; auto.
    repeat constructor; unfold is_digit; lia.
  - destruct (format_down 10 fuel v) as (s & -> & (D & M & H0) & B); auto.
    { change (10 ^ Z.of_nat 10) with 10000000000. lia. }
    eexists. split; [reflexivity|]. split.
    + exists Minus, (text s). repeat split; try apply D; auto.
      * cbn [number]. lia.
      * intro C. contradiction.
    + apply built_join; auto. apply small_leaf; unfold is_byte; lia.
  - destruct (format_up 10 fuel v) as (s & -> & (D & M & H0) & B); auto.
    { change (10 ^ Z.of_nat 10) with 10000000000. lia. }
    eexists. split; [reflexivity|]. split; auto.
    exists Unsigned, (text s). repeat split; try apply D; auto.
    intro C. contradiction.
Qed.

Lemma canonical_numeral : forall v bs, canonical v bs -> numeral bs v.
Proof. intros v bs (s & ds & D & E & N & _). exists s, ds. auto. Qed.

(** A number has one canonical text. *)
Lemma rows_same : forall a b, Forall is_digit a -> Forall is_digit b ->
  length a = length b -> magnitude a = magnitude b -> a = b.
Proof.
  induction a as [|x a IH]; intros [|y b] A B L M; try discriminate; auto.
  inversion A as [|? ? X A']; inversion B as [|? ? Y B']; subst.
  cbn [magnitude length] in *. inversion L as [L'].
  pose proof (magnitude_bound a A'). pose proof (magnitude_bound b B'). rewrite L' in *.
  assert (x = y) by nia. subst. f_equal. apply IH; auto. lia.
Qed.

Lemma row_length : forall a b, digits a -> digits b -> hd_error a <> Some 48 ->
  hd_error b <> Some 48 -> magnitude a = magnitude b -> ~ (length a < length b)%nat.
Proof.
  intros a b [_ A] [N B] HA HB M L. destruct b as [|y b]; [congruence|].
  inversion B as [|? ? Y B']; subst. cbn in HB. cbn [magnitude length] in *.
  pose proof (magnitude_bound a A). pose proof (magnitude_bound b B').
  assert (10 ^ Z.of_nat (length a) <= 10 ^ Z.of_nat (length b)) by (apply Z.pow_le_mono_r; lia).
  assert (y <> 48) by congruence. unfold is_digit in Y. nia.
Qed.

Lemma zero_row : forall a, digits a -> hd_error a <> Some 48 -> 0 < magnitude a.
Proof.
  intros [|x a] [N D] H; [congruence|]. inversion D as [|? ? X D']; subst.
  cbn [magnitude]. pose proof (magnitude_bound a D'). cbn in H.
  assert (x <> 48) by congruence. unfold is_digit in X. nia.
Qed.

Lemma canonical_unique : forall v bs cs, canonical v bs -> canonical v cs -> bs = cs.
Proof.
  intros v bs cs (s & ds & D & -> & N & S & Z0) (s' & es & E & -> & N' & S' & Z1).
  assert (s = s').
  { pose proof (magnitude_bound ds (proj2 D)). pose proof (magnitude_bound es (proj2 E)).
    destruct S as [->|[-> ?]], S' as [->|[-> ?]]; auto; cbn in *; lia. }
  subst s'. f_equal.
  assert (M : magnitude ds = magnitude es) by (destruct s; cbn in *; lia).
  assert (Dec : forall l : list Z, hd_error l = Some 48 \/ hd_error l <> Some 48).
  { intros [|x l]; [right; discriminate|]. destruct (Z.eq_dec x 48); [left; subst; auto|right; cbn; congruence]. }
  destruct (Dec ds) as [H|H], (Dec es) as [G|G].
  - rewrite (Z0 H), (Z1 G). reflexivity.
  - rewrite (Z0 H) in M. pose proof (zero_row es E G). cbn in M. lia.
  - rewrite (Z1 G) in M. pose proof (zero_row ds D H). cbn in M. lia.
  - apply rows_same; try apply D; try apply E; auto.
    pose proof (row_length ds es D E H G M).
    pose proof (row_length es ds E D G H (eq_sym M)). lia.
Qed.

(** Canonical texts are short. *)
Lemma built_bytes_ok : forall s, built s -> Forall is_byte (text s).
Proof. induction 1 as [bs [B _]|l r _ IL _ IR]; cbn; auto. apply Forall_app; auto. Qed.

Lemma canonical_short : forall v bs, fits v -> canonical v bs -> (length bs <= 11)%nat.
Proof.
  intros v bs V (s & ds & D & -> & N & _ & H0).
  assert (L : (length ds <= 10)%nat).
  { destruct ds as [|d ds]; [cbn; lia|]. destruct (Z.eq_dec d 48) as [->|Nd].
    - rewrite (H0 eq_refl). cbn. lia.
    - destruct D as [_ D]. inversion D as [|? ? X D']; subst. unfold is_digit in X.
      pose proof (magnitude_bound ds D').
      assert (Z.abs (number s (d :: ds)) = magnitude (d :: ds)).
      { pose proof (magnitude_bound (d :: ds) D). destruct s; cbn [number]; lia. }
      unfold fits in V. change (2 ^ 31) with 2147483648 in V. cbn [magnitude length] in *.
      destruct (le_lt_dec (S (length ds)) 10); auto. exfalso.
      assert (10 ^ 10 <= 10 ^ Z.of_nat (length ds)) by (apply Z.pow_le_mono_r; lia).
      change (10 ^ 10) with 10000000000 in *. nia. }
  rewrite app_length. destruct s; cbn [sign_text length]; lia.
Qed.

Lemma text_round_trip : forall fuel t p v s, fits v -> (12 <= fuel)%nat ->
  int_to_string fuel v = Done s -> int_parse fuel t p s = Done (POk v).
Proof.
  intros fuel t p v s V F E.
  destruct (to_string_canonical fuel v V ltac:(lia)) as (s' & E' & C & B).
  rewrite E in E'. inversion E'; subst s'.
  pose proof (canonical_short v _ V C).
  apply parse_exactly; [apply built_bytes_ok; auto|change (2 ^ 31) with 2147483648; lia|lia|].
  split; auto. apply canonical_numeral. auto.
Qed.

Lemma no_overflow : forall fuel t s, Forall is_byte (text s) ->
  Z.of_nat (length (text s)) <= 2 ^ 31 -> (length (text s) < fuel)%nat ->
  int_parse fuel t Trapping s = int_parse fuel t Wrapping s.
Proof.
  intros fuel t s B L F.
  destruct (parse_answers fuel t Trapping s B L F) as (r & -> & A).
  symmetry. apply parse_exactly; auto.
Qed.

(** A text too long for its 32-bit length. *)
Lemma one_parsed : forall bs n, bytes_len bs = 1 -> (0 <? Z.of_nat (length bs)) = true ->
  nth_error bs 0 = Some 49 -> int_parse (S (S n)) Native Wrapping (Leaf bs) = Done (POk 1).
Proof.
  intros bs n L P H. unfold int_parse. cbn [to_bytes]. cbv zeta. rewrite L. change (1 =? 0) with false. cbv iota.
  assert (G : get_or_panic Native bs 0 = Done 49).
  { cbn [get_or_panic]. change (sign_extend 2147483648 TWO32 0) with 0. cbv zeta. rewrite P.
    change (Z.to_nat 0) with 0%nat. rewrite H. reflexivity. }
  rewrite G. cbn [bind]. change (49 =? 43) with false. change (49 =? 45) with false. cbv iota.
  cbn [parse_digits]. rewrite L. change (0 =? 1) with false. cbv iota. rewrite G.
  reflexivity.
Qed.

Lemma no_numeral : forall k, (0 < k)%nat -> ~ exists v, numeral (49 :: repeat 120 k) v.
Proof.
  intros k K (v & V). apply numeral_plain in V; try lia.
  destruct V as [[_ D] _]. inversion D as [|? ? _ D']; subst. rewrite Forall_forall in D'.
  assert (X : In 120 (repeat 120 k)) by (destruct k; [lia|cbn; auto]).
  apply D' in X. unfold is_digit in X. lia.
Qed.

Lemma filled_bytes : forall k, Forall is_byte (49 :: repeat 120 k).
Proof.
  intro k. constructor; [unfold is_byte; lia|]. apply Forall_forall. intros x X.
  apply repeat_spec in X. subst. unfold is_byte. lia.
Qed.

Lemma filled_len : forall k, Z.of_nat k = 2 ^ 32 -> bytes_len (49 :: repeat 120 k) = 1.
Proof.
  intros k K. unfold bytes_len. cbn [length]. rewrite repeat_length, Nat2Z.inj_succ, K. reflexivity.
Qed.

Lemma prefix_parsed : exists bs, Forall is_byte bs /\
  (forall n, int_parse (S (S n)) Native Wrapping (Leaf bs) = Done (POk 1)) /\
  ~ exists v, numeral bs v.
Proof.
  assert (K : exists k, Z.of_nat k = 2 ^ 32) by (exists (Z.to_nat (2 ^ 32)); apply Z2Nat.id; lia).
  destruct K as (k & K). exists (49 :: repeat 120 k). split; [apply filled_bytes|]. split.
  - intro n. apply one_parsed; [apply filled_len; auto| |reflexivity].
    apply Z.ltb_lt. cbn [length]. lia.
  - apply no_numeral. lia.
Qed.
