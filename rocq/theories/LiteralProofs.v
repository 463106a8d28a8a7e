(** Lemmas about literals. *)
From Verif Require Import LiteralModel LiteralSpec.
Local Open Scope list_scope.

(** * Slices *)
Lemma width_pos c : 1 <= width c.
Proof. unfold width. repeat break_if; lia. Qed.
Lemma len_app a b : len (a ++ b) = len a + len b.
Proof. unfold len. rewrite map_app, list_sum_app. reflexivity. Qed.
Lemma len_cons c a : len (c :: a) = width c + len a.
Proof. reflexivity. Qed.
Lemma split_at_app a b : split_at (a ++ b) (len a) = Some (a, b).
Proof.
  induction a as [|c a IH]; [destruct b; reflexivity|].
  rewrite len_cons. pose proof (width_pos c) as W. cbn [app].
  destruct (width c + len a) eqn:E; [lia|]. cbn [split_at]. rewrite <- E.
  destruct (Nat.ltb_spec (width c + len a) (width c)); [lia|].
  replace (width c + len a - width c) with (len a) by lia. rewrite IH. reflexivity.
Qed.
Lemma get_mid a b c n m : n = len a -> m = len a + len b -> get (a ++ b ++ c) n m = Some b.
Proof.
  intros -> ->. unfold get. destruct (Nat.ltb_spec (len a + len b) (len a)); [lia|].
  rewrite app_assoc, <- len_app, split_at_app, split_at_app. reflexivity.
Qed.
Lemma get_from_app a b n : n = len a -> get_from (a ++ b) n = Some b.
Proof. intros ->. unfold get_from. rewrite split_at_app. reflexivity. Qed.
Lemma len_repeat n : len (repeat (ch "#") n) = n.
Proof. induction n; [reflexivity|]. cbn [repeat]. rewrite len_cons, IHn. reflexivity. Qed.

(** * Trimming *)
Lemma trim_start_id c r : whitespace c = false -> trim_start (c :: r) = c :: r.
Proof. intros H. cbn. rewrite H. reflexivity. Qed.
Lemma trim_id a m b t :
  t = a :: m -> rev t = b :: rev (removelast t) -> whitespace a = false -> whitespace b = false -> trim t = t.
Proof.
  intros -> E A B. unfold trim. rewrite trim_start_id by exact A. rewrite E, trim_start_id by exact B.
  rewrite <- E, rev_involutive. reflexivity.
Qed.
Lemma last_rev (l : list N) b : rev (l ++ [b]) = b :: rev (removelast (l ++ [b])).
Proof. rewrite removelast_last, rev_app_distr. reflexivity. Qed.
Lemma trim_ends a m b : whitespace a = false -> whitespace b = false -> trim (a :: m ++ [b]) = a :: m ++ [b].
Proof. intros A B. eapply trim_id; [reflexivity| |exact A|exact B]. exact (last_rev (a :: m) b). Qed.
Lemma trim_one a : whitespace a = false -> trim [a] = [a].
Proof. intros A. unfold trim. cbn. rewrite A. cbn. rewrite A. reflexivity. Qed.

(** * Digits *)
Lemma digit_char c d r : digit c d -> (d < r)%N -> (r <= 16)%N -> to_digit r c = Some d.
Proof.
  intros H L R. destruct H as [d D|d D|d D]; unfold to_digit.
  - destruct (N.leb_spec 48 (48 + d)), (N.leb_spec (48 + d) 57); try lia. cbn [andb].
    replace (48 + d - 48)%N with d by lia. destruct (N.ltb_spec d r); [reflexivity|lia].
  - destruct (N.leb_spec (97 + (d - 10)) 57); [lia|]. rewrite andb_false_r.
    destruct (N.leb_spec 97 (97 + (d - 10))), (N.leb_spec (97 + (d - 10)) 122); try lia. cbn [andb].
    replace (97 + (d - 10) - 97 + 10)%N with d by lia. destruct (N.ltb_spec d r); [reflexivity|lia].
  - destruct (N.leb_spec (65 + (d - 10)) 57); [lia|]. rewrite andb_false_r.
    destruct (N.leb_spec 97 (65 + (d - 10))); [lia|]. cbn [andb].
    destruct (N.leb_spec 65 (65 + (d - 10))), (N.leb_spec (65 + (d - 10)) 90); try lia. cbn [andb].
    replace (65 + (d - 10) - 65 + 10)%N with d by lia. destruct (N.ltb_spec d r); [reflexivity|lia].
Qed.
Lemma char_digit c d r : to_digit r c = Some d -> (r <= 16)%N -> digit c d /\ (d < r)%N.
Proof.
  unfold to_digit. intros E R.
  destruct ((48 <=? c) && (c <=? 57))%N eqn:A.
  { destruct (N.ltb_spec (c - 48) r); inv E. apply andb_true_iff in A as [A1 A2].
    apply N.leb_le in A1, A2. split; [|assumption]. replace c with (48 + (c - 48))%N at 1 by lia. constructor. lia. }
  destruct ((97 <=? c) && (c <=? 122))%N eqn:B.
  { destruct (N.ltb_spec (c - 97 + 10) r); inv E. apply andb_true_iff in B as [B1 B2].
    apply N.leb_le in B1, B2. split; [|assumption].
    replace c with (97 + (c - 97 + 10 - 10))%N at 1 by lia. constructor. lia. }
  destruct ((65 <=? c) && (c <=? 90))%N eqn:C; [|discriminate].
  destruct (N.ltb_spec (c - 65 + 10) r); inv E. apply andb_true_iff in C as [C1 C2].
  apply N.leb_le in C1, C2. split; [|assumption].
  replace c with (65 + (c - 65 + 10 - 10))%N at 1 by lia. constructor. lia.
Qed.
Lemma digit_fun c d e : digit c d -> digit c e -> d = e.
Proof. intros A B. inversion A; inversion B; lia. Qed.
Lemma digit_range c d : digit c d -> (48 <= c <= 57 \/ 97 <= c <= 102 \/ 65 <= c <= 70)%N /\ (d < 16)%N.
Proof. intros H. destruct H; lia. Qed.

Lemma radix_le b : (2 <= radix b <= 16)%N.
Proof. destruct b; cbn; lia. Qed.

(** Digits without the underscores. *)
Lemma digits_from_ok limit r cs ds acc :
  (2 <= r <= 16)%N -> Forall2 (fun c d => digit c d /\ (d < r)%N) cs ds -> (acc < limit)%N ->
  digits_from limit r acc cs =
    (let v := acc * r ^ N.of_nat (List.length ds) + value r ds in if v <? limit then Some v else None)%N.
Proof.
  intros R F. revert acc. induction F as [|c d cs ds [D L] F IH]; intros acc A; cbv zeta.
  - cbn [digits_from value List.length N.of_nat]. rewrite N.pow_0_r.
    replace (acc * 1 + 0)%N with acc by lia. destruct (N.ltb_spec acc limit); [reflexivity|lia].
  - cbn [digits_from value List.length]. rewrite (digit_char c d r D L) by lia.
    rewrite Nat2N.inj_succ, N.pow_succ_r'.
    set (p := (r ^ N.of_nat (List.length ds))%N) in *.
    assert (P : (1 <= p)%N) by (subst p; apply N.lt_pred_le, N.lt_le_trans with 1%N; [reflexivity|]; clear -R; induction (List.length ds); [reflexivity|]; rewrite Nat2N.inj_succ, N.pow_succ_r'; nia).
    assert (Q : (acc * (r * p) + (d * p + value r ds) = (acc * r + d) * p + value r ds)%N) by lia.
    rewrite Q.
    destruct (N.leb_spec limit (acc * r)).
    + destruct (N.ltb_spec ((acc * r + d) * p + value r ds) limit); [nia|reflexivity].
    + destruct (N.leb_spec limit (acc * r + d)).
      * destruct (N.ltb_spec ((acc * r + d) * p + value r ds) limit); [nia|reflexivity].
      * rewrite IH by assumption. reflexivity.
Qed.
Lemma from_radix_ok limit r cs ds :
  (2 <= r <= 16)%N -> Forall2 (fun c d => digit c d /\ (d < r)%N) cs ds -> ds <> [] -> (0 < limit)%N ->
  from_str_radix limit r cs = (if value r ds <? limit then Some (value r ds) else None)%N.
Proof.
  intros R F NE L. pose proof (digits_from_ok limit r cs ds 0 R F L) as E. cbv zeta in E.
  rewrite N.mul_0_l, N.add_0_l in E. rewrite <- E. clear E.
  destruct F as [|c d cs ds [D _] F]; [congruence|].
  assert (P : (c =? ch "+")%N = false /\ (c =? ch "-")%N = false)
    by (apply digit_range in D as [D _]; split; apply N.eqb_neq; cbv; intros ->; lia).
  destruct P as [P M]. unfold from_str_radix. rewrite P, M. destruct cs; reflexivity.
Qed.
Lemma digits_from_only limit r cs acc v :
  (r <= 16)%N -> digits_from limit r acc cs = Some v -> exists ds, Forall2 (fun c d => digit c d /\ (d < r)%N) cs ds.
Proof.
  intros R. revert acc. induction cs as [|c cs IH]; intros acc E; [exists []; constructor|].
  cbn in E. destruct (to_digit r c) as [d|] eqn:D; [|discriminate].
  destruct (limit <=? acc * r)%N; [discriminate|]. destruct (limit <=? acc * r + d)%N; [discriminate|].
  destruct (IH _ E) as [ds F]. exists (d :: ds). constructor; [exact (char_digit _ _ _ D R)|exact F].
Qed.
Lemma from_radix_only limit r cs v :
  (2 <= r <= 16)%N -> ~ In (ch "+") cs -> (0 < limit)%N -> from_str_radix limit r cs = Some v ->
  exists ds, Forall2 (fun c d => digit c d /\ (d < r)%N) cs ds /\ ds <> [] /\ v = value r ds.
Proof.
  intros R P L E. assert (D : digits_from limit r 0 cs = Some v /\ cs <> []).
  { unfold from_str_radix in E. destruct cs as [|c cs]; [discriminate|].
    assert (Q : (c =? ch "+")%N = false) by (apply N.eqb_neq; intros ->; apply P; left; reflexivity).
    rewrite Q in E. destruct cs; [destruct (c =? ch "-")%N; [discriminate|]|]; (split; [exact E|discriminate]). }
  destruct D as [D NE]. destruct (digits_from_only _ _ _ _ _ (proj2 R) D) as [ds F].
  exists ds. split; [exact F|]. split.
  - intros ->. inversion F; subst. congruence.
  - rewrite (digits_from_ok limit r cs ds 0 R F L) in D. cbv zeta in D.
    rewrite N.mul_0_l, N.add_0_l in D. destruct (_ <? _)%N in D; congruence.
Qed.

Lemma digits_drop b cs ds :
  digits b cs ds -> Forall2 (fun c d => digit c d /\ (d < radix b)%N) (drop_underscores cs) ds.
Proof.
  induction 1 as [|c d cs ds D L H IH|cs ds H IH]; [constructor| |].
  - unfold drop_underscores. cbn [filter].
    assert (U : (c =? ch "_")%N = false) by (apply digit_range in D as [D _]; apply N.eqb_neq; cbv; intros ->; lia).
    rewrite U. cbn [negb]. constructor; [split; assumption|exact IH].
  - exact IH.
Qed.
Lemma drop_digits b cs ds :
  Forall2 (fun c d => digit c d /\ (d < radix b)%N) (drop_underscores cs) ds -> digits b cs ds.
Proof.
  revert ds. induction cs as [|c cs IH]; intros ds F.
  - inversion F. constructor.
  - unfold drop_underscores in F. cbn [filter] in F. destruct (c =? ch "_")%N eqn:U; cbn [negb] in F.
    + apply N.eqb_eq in U. rewrite U. apply underscore, IH, F.
    + inversion F as [|? d ? ds' [D L] F']; subst. constructor; [assumption..|]. apply IH, F'.
Qed.

Lemma lits : (lit "0b" = [48; 98] /\ lit "0B" = [48; 66] /\ lit "0o" = [48; 111] /\ lit "0O" = [48; 79] /\
  lit "0x" = [48; 120] /\ lit "0X" = [48; 88] /\ lit "" = [])%N.
Proof. repeat split. Qed.

Lemma starts_two a b t :
  starts_with [a; b] t = match t with c :: d :: _ => (a =? c)%N && (b =? d)%N | _ => false end.
Proof.
  unfold starts_with. destruct t as [|c [|d t]]; cbn; try destruct (a =? c)%N; try reflexivity.
  destruct (b =? d)%N; reflexivity.
Qed.

Lemma no_prefix cs ds : digits Decimal cs ds -> forall a, (a = 98 \/ a = 66 \/ a = 111 \/ a = 79 \/ a = 120 \/ a = 88)%N ->
  starts_with [48%N; a] cs = false.
Proof.
  intros D a A. rewrite starts_two. destruct cs as [|x [|y cs]]; try reflexivity.
  assert (Y : y <> a).
  { assert (H : exists es, digits Decimal (y :: cs) es)
      by (inversion D; subst; eexists; eassumption).
    destruct H as [es H]. inversion H as [|? d ? ? G L|]; subst; [|lia].
    cbn [radix] in L. destruct G; lia. }
  destruct (N.eqb_spec a y); [congruence|]. apply andb_false_r.
Qed.

Lemma nat_literal_ok t v : nat_literal t v -> parse_nat_literal t = (if v <? 2 ^ 64 then Some v else None)%N.
Proof.
  intros (b & p & cs & ds & P & -> & D & NE & ->).
  pose proof (digits_drop _ _ _ D) as F.
  pose proof (from_radix_ok u64_values (radix b) _ ds (radix_le b) F NE eq_refl) as E.
  destruct lits as (L1 & L2 & L3 & L4 & L5 & L6 & L7).
  unfold parse_nat_literal. rewrite L1, L2, L3, L4, L5, L6.
  destruct b; cbn [prefixes] in P; cbn [In] in P;
    repeat match goal with H : _ \/ _ |- _ => destruct H as [H|H] | H : False |- _ => destruct H end; subst p;
    rewrite ?L1, ?L2, ?L3, ?L4, ?L5, ?L6, ?L7;
    try (rewrite !starts_two; cbn [app]; cbv [N.eqb Pos.eqb andb orb]; cbn [skipn]; exact E).
  cbn [app]. rewrite !(no_prefix cs ds D) by tauto. cbn [orb]. exact E.
Qed.

Lemma starts_split p t : starts_with p t = true -> exists r, t = p ++ r.
Proof.
  unfold starts_with. destruct (strip_prefix p t) as [r|] eqn:E; [|discriminate]. intros _. exists r.
  revert t E. induction p as [|a p IH]; intros t E; cbn in E; [inv E; reflexivity|].
  destruct t as [|b t]; [discriminate|]. destruct (N.eqb_spec a b) as [->|]; [|discriminate].
  rewrite (IH _ E). reflexivity.
Qed.

Lemma drop_in c cs : In c (drop_underscores cs) -> In c cs.
Proof. intros H. apply filter_In in H. tauto. Qed.

Lemma nat_literal_only t v : ~ In (ch "+") t -> parse_nat_literal t = Some v -> nat_literal t v.
Proof.
  intros P E. unfold parse_nat_literal in E.
  assert (K : forall b p cs, In p (prefixes b) -> t = lit p ++ cs ->
    from_str_radix u64_values (radix b) (drop_underscores cs) = Some v -> nat_literal t v).
  { intros b p cs I -> G.
    destruct (from_radix_only u64_values _ _ _ (radix_le b) (fun H => P (in_or_app _ _ _ (or_intror (drop_in _ _ H)))) eq_refl G) as (ds & F & NE & ->).
    exists b, p, cs, ds. split; [exact I|]. split; [reflexivity|]. split; [exact (drop_digits _ _ _ F)|].
    split; [exact NE|reflexivity]. }
  destruct (starts_with (lit "0b") t) eqn:A1.
  { apply starts_split in A1 as [cs ->]. apply (K Binary "0b"%string cs); [cbn; tauto|reflexivity|exact E]. }
  destruct (starts_with (lit "0B") t) eqn:A2.
  { apply starts_split in A2 as [cs ->]. apply (K Binary "0B"%string cs); [cbn; tauto|reflexivity|exact E]. }
  destruct (starts_with (lit "0o") t) eqn:A3.
  { apply starts_split in A3 as [cs ->]. apply (K Octal "0o"%string cs); [cbn; tauto|reflexivity|exact E]. }
  destruct (starts_with (lit "0O") t) eqn:A4.
  { apply starts_split in A4 as [cs ->]. apply (K Octal "0O"%string cs); [cbn; tauto|reflexivity|exact E]. }
  destruct (starts_with (lit "0x") t) eqn:A5.
  { apply starts_split in A5 as [cs ->]. apply (K Hexadecimal "0x"%string cs); [cbn; tauto|reflexivity|exact E]. }
  destruct (starts_with (lit "0X") t) eqn:A6.
  { apply starts_split in A6 as [cs ->]. apply (K Hexadecimal "0X"%string cs); [cbn; tauto|reflexivity|exact E]. }
  apply (K Decimal ""%string t); [cbn; tauto|reflexivity|exact E].
Qed.

(** * Integers *)
Lemma digits_last b cs ds : digits b cs ds -> ds <> [] -> exists m c, cs = m ++ [c] /\ whitespace c = false.
Proof.
  intros D NE. assert (NC : cs <> []) by (intros ->; inversion D; subst; congruence).
  destruct (exists_last NC) as (m & c & ->). exists m, c. split; [reflexivity|].
  clear NC NE. revert ds D. induction m as [|a m IH]; intros ds D; cbn [app] in D.
  - inversion D; subst; [|reflexivity].
    match goal with H : digit _ _ |- _ => apply digit_range in H as [H _] end.
    unfold whitespace. repeat (apply orb_false_iff; split); try (apply N.eqb_neq; lia);
      apply andb_false_iff; rewrite !N.leb_gt; lia.
  - inversion D; subst; eapply IH; eassumption.
Qed.
Lemma nat_last t v : nat_literal t v -> exists m c, t = m ++ [c] /\ whitespace c = false.
Proof.
  intros (b & p & cs & ds & _ & -> & D & NE & _). destruct (digits_last _ _ _ D NE) as (m & c & -> & W).
  exists (lit p ++ m), c. rewrite app_assoc. split; [reflexivity|exact W].
Qed.
Lemma sign_plus t : sign_of (lit "+" ++ t) = (false, t).
Proof. reflexivity. Qed.
Lemma sign_minus t : sign_of (lit "-" ++ t) = (true, t).
Proof. reflexivity. Qed.
Lemma int_literal_ok t z : int_literal t z ->
  parse_int_literal t = (if (- 2 ^ 63 <=? z) && (z <? 2 ^ 63) then Some z else None)%Z.
Proof.
  intros I. assert (T : trim t = t).
  { destruct I as [t v V|t v V]; destruct (nat_last _ _ V) as (m & c & -> & W);
      (apply (trim_ends _ m c); [reflexivity|exact W]). }
  unfold parse_int_literal. cbv zeta. rewrite T. unfold i64_try_from, i64_min, i64_max.
  destruct I as [t v V|t v V]; rewrite ?sign_plus, ?sign_minus; [change (lit "+" ++ t) with (43%N :: t)|change (lit "-" ++ t) with (45%N :: t)];
    rewrite (nat_literal_ok _ _ V); clear T;
    change (2 ^ 63)%Z with 9223372036854775808%Z; change (2 ^ 64)%N with 18446744073709551616%N;
    change (2 ^ 63 - 1)%N with 9223372036854775807%N; change (9223372036854775807 + 1)%N with 9223372036854775808%N;
    change (- (9223372036854775808))%Z with (-9223372036854775808)%Z;
    destruct (N.ltb_spec v 18446744073709551616).
  - destruct (N.leb_spec v 9223372036854775807), (Z.leb_spec (-9223372036854775808) (Z.of_N v)),
      (Z.ltb_spec (Z.of_N v) 9223372036854775808); cbn [andb]; try reflexivity; lia.
  - destruct (Z.leb_spec (-9223372036854775808) (Z.of_N v)),
      (Z.ltb_spec (Z.of_N v) 9223372036854775808); cbn [andb]; try reflexivity; lia.
  - destruct (N.ltb_spec 9223372036854775808 v), (N.eqb_spec v 9223372036854775808),
      (Z.leb_spec (-9223372036854775808) (- Z.of_N v)),
      (Z.ltb_spec (- Z.of_N v) 9223372036854775808); cbn [andb]; try reflexivity; try lia.
    subst v. reflexivity.
  - destruct (Z.leb_spec (-9223372036854775808) (- Z.of_N v)),
      (Z.ltb_spec (- Z.of_N v) 9223372036854775808); cbn [andb]; try reflexivity; lia.
Qed.
Lemma pattern_int_same t : pattern_int_literal t = parse_int_literal t.
Proof.
  unfold pattern_int_literal, parse_int_literal. cbv zeta. destruct (trim t); [reflexivity|].
  destruct (sign_of _) as [neg rest]. destruct (parse_nat_literal rest) as [v|]; [|reflexivity].
  destruct neg; [|reflexivity].
  destruct (N.leb_spec v i64_max), (N.ltb_spec (i64_max + 1) v), (N.eqb_spec v (i64_max + 1)); try reflexivity; lia.
Qed.

(** * UTF-8 *)
Lemma encode_same c : encode_utf8 c = utf8 c.
Proof.
  unfold encode_utf8, utf8. rewrite !N.leb_antisym.
  destruct (N.ltb_spec c 128), (N.ltb_spec 127 c); try lia; cbn [negb]; [reflexivity|].
  destruct (N.ltb_spec c 2048), (N.ltb_spec 2047 c); try lia; cbn [negb]; [reflexivity|].
  destruct (N.ltb_spec c 65536), (N.ltb_spec 65535 c); try lia; cbn [negb]; reflexivity.
Qed.
Lemma bytes_same t : as_bytes t = flat_map utf8 t.
Proof. unfold as_bytes. induction t; cbn; [reflexivity|]. rewrite encode_same, IHt. reflexivity. Qed.

Lemma cont_mod c : continues (128 + c mod 64) = true.
Proof.
  unfold continues. pose proof (N.mod_lt c 64). destruct (N.leb_spec 128 (128 + c mod 64)), (N.ltb_spec (128 + c mod 64) 192); try lia; reflexivity.
Qed.
Lemma decode_char c l : scalar c -> from_utf8 (utf8 c ++ l) = option_map (cons c) (from_utf8 l).
Proof.
  intros S. unfold utf8.
  destruct (N.leb_spec c 127) as [A|A].
  { cbn [app from_utf8]. destruct (N.ltb_spec c 128); [reflexivity|lia]. }
  destruct (N.leb_spec c 2047) as [B|B].
  { cbn [app from_utf8]. destruct (N.ltb_spec (192 + c / 64) 128); [lia|]. rewrite cont_mod. cbn [negb].
    destruct (N.leb_spec 194 (192 + c / 64)), (N.ltb_spec (192 + c / 64) 224); try lia. cbn [andb].
    do 2 f_equal. lia. }
  destruct (N.leb_spec c 65535) as [C|C].
  { cbn [app from_utf8]. destruct (N.ltb_spec (224 + c / 4096) 128); [lia|]. rewrite !cont_mod. cbn [negb].
    destruct (N.ltb_spec (224 + c / 4096) 224); [lia|]. rewrite andb_false_r.
    destruct (N.leb_spec 224 (224 + c / 4096)), (N.ltb_spec (224 + c / 4096) 240); try lia. cbn [andb].
    destruct ((224 + c / 4096 =? 224)%N && (128 + c / 64 mod 64 <? 160)%N
      || (224 + c / 4096 =? 237)%N && (160 <=? 128 + c / 64 mod 64)%N) eqn:E.
    - exfalso. unfold scalar in S. apply orb_true_iff in E as [E|E]; apply andb_true_iff in E as [E1 E2];
        apply N.eqb_eq in E1; [apply N.ltb_lt in E2|apply N.leb_le in E2]; lia.
    - do 2 f_equal. lia. }
  cbn [app from_utf8]. unfold scalar in S. destruct (N.ltb_spec (240 + c / 262144) 128); [lia|].
  rewrite !cont_mod. cbn [negb].
  destruct (N.ltb_spec (240 + c / 262144) 224); [lia|]. rewrite andb_false_r.
  destruct (N.ltb_spec (240 + c / 262144) 240); [lia|]. rewrite andb_false_r.
  destruct (N.leb_spec 240 (240 + c / 262144)), (N.ltb_spec (240 + c / 262144) 245); try lia. cbn [andb].
  destruct ((240 + c / 262144 =? 240)%N && (128 + c / 4096 mod 64 <? 144)%N
      || (240 + c / 262144 =? 244)%N && (144 <=? 128 + c / 4096 mod 64)%N) eqn:E.
  - exfalso. apply orb_true_iff in E as [E|E]; apply andb_true_iff in E as [E1 E2];
      apply N.eqb_eq in E1; [apply N.ltb_lt in E2|apply N.leb_le in E2]; lia.
  - do 2 f_equal. lia.
Qed.
Lemma decode_all cs : Forall scalar cs -> from_utf8 (flat_map utf8 cs) = Some cs.
Proof.
  induction 1 as [|c cs S F IH]; [reflexivity|]. cbn [flat_map]. rewrite decode_char by exact S.
  rewrite IH. reflexivity.
Qed.
Lemma continues_range b : negb (continues b) = false -> (128 <= b < 192)%N.
Proof.
  unfold continues. intros E. apply negb_false_iff, andb_true_iff in E as [A B].
  apply N.leb_le in A. apply N.ltb_lt in B. lia.
Qed.
Lemma decoded cs l : from_utf8 l = Some cs -> l = flat_map utf8 cs /\ Forall scalar cs.
Proof.
  remember (List.length l) as n eqn:L. assert (L' : List.length l <= n) by lia. clear L.
  revert l L' cs. induction n as [|n IH]; intros l L cs E.
  { destruct l; [inv E; split; constructor|cbn in L; lia]. }
  assert (STEP : forall c k r, (exists w, l = w ++ r /\ w = utf8 c /\ w <> []) -> scalar c ->
    option_map (cons c) (from_utf8 r) = Some k -> k = cs -> l = flat_map utf8 cs /\ Forall scalar cs).
  { intros c k r (w & -> & W & NE) S O ->. destruct (from_utf8 r) as [k|] eqn:F; [|discriminate]. inv O.
    assert (List.length r <= n).
    { destruct (utf8 c); [congruence|]. cbn [app List.length] in L. rewrite app_length in L. lia. }
    destruct (IH r ltac:(assumption) k F) as [-> A]. split; [reflexivity|constructor; assumption]. }
  destruct l as [|a l]; [inv E; split; constructor|]. cbn [from_utf8] in E.
  destruct (N.ltb_spec a 128) as [A|A].
  { apply (STEP a cs l); [|unfold scalar; lia|exact E|reflexivity]. exists [a]. split; [reflexivity|].
    split; [|discriminate]. unfold utf8. destruct (N.leb_spec a 127); [reflexivity|lia]. }
  destruct l as [|b l]; [discriminate|].
  destruct (negb (continues b)) eqn:CB; [discriminate|]. apply continues_range in CB.
  destruct ((194 <=? a) && (a <? 224))%N eqn:T2.
  { apply andb_true_iff in T2 as [T T']. apply N.leb_le in T. apply N.ltb_lt in T'.
    eapply (STEP _ cs l); [|unfold scalar|exact E|reflexivity]; [|lia].
    exists [a; b]. split; [reflexivity|]. split; [|discriminate]. unfold utf8.
    destruct (N.leb_spec ((a - 192) * 64 + (b - 128)) 127); [lia|].
    destruct (N.leb_spec ((a - 192) * 64 + (b - 128)) 2047); [|lia]. repeat f_equal; lia. }
  destruct l as [|c l]; [discriminate|].
  destruct (negb (continues c)) eqn:CC; [discriminate|]. apply continues_range in CC.
  destruct ((224 <=? a) && (a <? 240))%N eqn:T3.
  { apply andb_true_iff in T3 as [T T']. apply N.leb_le in T. apply N.ltb_lt in T'.
    match type of E with (if ?g then _ else _) = _ => destruct g eqn:G end; [discriminate|].
    apply orb_false_iff in G as [G1 G2].
    assert (B1 : a = 224%N -> (160 <= b)%N) by (intros ->; cbn [N.eqb Pos.eqb andb] in G1; apply N.ltb_ge in G1; lia).
    assert (B2 : a = 237%N -> (b < 160)%N) by (intros ->; cbn [N.eqb Pos.eqb andb] in G2; apply N.leb_gt in G2; lia).
    clear G1 G2 T2.
    eapply (STEP _ cs l); [|unfold scalar|exact E|reflexivity]; [|lia].
    exists [a; b; c]. split; [reflexivity|]. split; [|discriminate]. unfold utf8.
    destruct (N.leb_spec ((a - 224) * 4096 + (b - 128) * 64 + (c - 128)) 127); [lia|].
    destruct (N.leb_spec ((a - 224) * 4096 + (b - 128) * 64 + (c - 128)) 2047); [lia|].
    destruct (N.leb_spec ((a - 224) * 4096 + (b - 128) * 64 + (c - 128)) 65535); [|lia].
    repeat f_equal; lia. }
  destruct l as [|d l]; [discriminate|].
  destruct (negb (continues d)) eqn:CD; [discriminate|]. apply continues_range in CD.
  destruct ((240 <=? a) && (a <? 245))%N eqn:T4; [|discriminate].
  apply andb_true_iff in T4 as [T T']. apply N.leb_le in T. apply N.ltb_lt in T'.
  match type of E with (if ?g then _ else _) = _ => destruct g eqn:G end; [discriminate|].
  apply orb_false_iff in G as [G1 G2].
  assert (B1 : a = 240%N -> (144 <= b)%N) by (intros ->; cbn [N.eqb Pos.eqb andb] in G1; apply N.ltb_ge in G1; lia).
  assert (B2 : a = 244%N -> (b < 144)%N) by (intros ->; cbn [N.eqb Pos.eqb andb] in G2; apply N.leb_gt in G2; lia).
  clear G1 G2 T2 T3.
  eapply (STEP _ cs l); [|unfold scalar|exact E|reflexivity]; [|lia].
  exists [a; b; c; d]. split; [reflexivity|]. split; [|discriminate]. unfold utf8.
  set (v := ((a - 240) * 262144 + (b - 128) * 4096 + (c - 128) * 64 + (d - 128))%N) in *.
  destruct (N.leb_spec v 127); [lia|]. destruct (N.leb_spec v 2047); [lia|]. destruct (N.leb_spec v 65535); [lia|].
  assert (V1 : (240 + v / 262144 = a)%N) by (subst v; lia).
  assert (V2 : (128 + v / 4096 mod 64 = b)%N) by (subst v; lia).
  assert (V3 : (128 + v / 64 mod 64 = c)%N) by (subst v; lia).
  assert (V4 : (128 + v mod 64 = d)%N) by (subst v; lia).
  rewrite V1, V2, V3, V4. reflexivity.
Qed.
