From Verif Require Import Base ArithModel ArithSpec.
Open Scope Z_scope.

Lemma pow_pos' w : 0 <= w -> 0 < 2 ^ w.
Proof. intros; apply Z.pow_pos_nonneg; lia. Qed.
Lemma pow_split w : 1 <= w -> 2 ^ w = 2 * 2 ^ (w - 1).
Proof. intros. rewrite <- Z.pow_succ_r by lia. f_equal; lia. Qed.

Lemma wrap_eq v w : 1 <= w <= 128 -> - 2 ^ 127 <= v < 2 ^ 127 ->
  wrap_signed_to_width v w = (v + 2 ^ (w - 1)) mod 2 ^ w - 2 ^ (w - 1).
Proof.
  intros Hw Hv. unfold wrap_signed_to_width.
  destruct (Z.eqb_spec w 128) as [->|Hne].
  - change (128 - 1) with 127. rewrite Z.mod_small by lia. lia.
  - set (s := 128 - w). unfold to_i128. rewrite Z.shiftl_mul_pow2, Z.shiftr_div_pow2 by lia.
    assert (E1 : 2 ^ 128 = 2 ^ w * 2 ^ s) by (rewrite <- Z.pow_add_r by lia; f_equal; lia).
    assert (E2 : 2 ^ 127 = 2 ^ (w - 1) * 2 ^ s) by (rewrite <- Z.pow_add_r by lia; f_equal; lia).
    rewrite E1, E2. rewrite <- Z.mul_add_distr_r.
    pose proof (pow_pos' s ltac:(lia)) as Hs. pose proof (pow_pos' w ltac:(lia)) as Hp.
    rewrite Z.mul_mod_distr_r by lia. rewrite <- Z.mul_sub_distr_r. apply Z.div_mul. lia.
Qed.

Lemma pattern_wrap v w : 1 <= w <= 128 -> - 2 ^ 127 <= v < 2 ^ 127 ->
  pattern w (wrap_signed_to_width v w) = pattern w v.
Proof.
  intros Hw Hv. rewrite wrap_eq by assumption. unfold pattern.
  rewrite Zminus_mod_idemp_l. f_equal. lia.
Qed.

Lemma to_i128_range z : - 2 ^ 127 <= to_i128 z < 2 ^ 127.
Proof. unfold to_i128. pose proof (Z.mod_pos_bound (z + 2 ^ 127) (2 ^ 128) ltac:(lia)). lia. Qed.
Lemma to_i128_id z : - 2 ^ 127 <= z < 2 ^ 127 -> to_i128 z = z.
Proof. intros. unfold to_i128. rewrite Z.mod_small by lia. lia. Qed.
Lemma pattern_to_i128 w z : 1 <= w <= 128 -> pattern w (to_i128 z) = pattern w z.
Proof.
  intros Hw. unfold pattern, to_i128.
  assert (E : 2 ^ 128 = 2 ^ w * 2 ^ (128 - w)) by (rewrite <- Z.pow_add_r by lia; f_equal; lia).
  pose proof (Z.div_mod (z + 2 ^ 127) (2 ^ 128) ltac:(lia)) as D.
  set (m := (z + 2 ^ 127) mod 2 ^ 128) in *. set (k := (z + 2 ^ 127) / 2 ^ 128) in *.
  replace (m - 2 ^ 127) with (z + (- (k * 2 ^ (128 - w))) * 2 ^ w) by (rewrite E in D; lia).
  apply Z.mod_add. pose proof (pow_pos' w); lia.
Qed.
Lemma pattern_fold w z : 1 <= w <= 128 -> pattern w (wrap_signed_to_width (to_i128 z) w) = pattern w z.
Proof. intros. rewrite pattern_wrap by (try apply to_i128_range; lia). apply pattern_to_i128; lia. Qed.

Lemma pattern_idem w z : pattern w (pattern w z) = pattern w z.
Proof. unfold pattern. apply Zmod_mod. Qed.
Lemma pattern_range w z : 0 <= w -> 0 <= pattern w z < 2 ^ w.
Proof. intros. apply Z.mod_pos_bound, pow_pos'; assumption. Qed.
Lemma pattern_small w z : 0 <= z < 2 ^ w -> pattern w z = z.
Proof. intros. apply Z.mod_small; assumption. Qed.

Lemma pattern_add w a b : pattern w (pattern w a + pattern w b) = pattern w (a + b).
Proof. unfold pattern. symmetry; apply Zplus_mod. Qed.
Lemma pattern_sub w a b : pattern w (pattern w a - pattern w b) = pattern w (a - b).
Proof. unfold pattern. symmetry; apply Zminus_mod. Qed.
Lemma pattern_mul w a b : pattern w (pattern w a * pattern w b) = pattern w (a * b).
Proof. unfold pattern. symmetry; apply Zmult_mod. Qed.

Lemma bit_pattern w z n : 0 <= w -> 0 <= n -> Z.testbit (pattern w z) n = (n <? w) && Z.testbit z n.
Proof.
  intros Hw Hn. unfold pattern. destruct (Z.ltb_spec n w).
  - apply Z.mod_pow2_bits_low. lia.
  - cbn [andb]. apply Z.mod_pow2_bits_high. lia.
Qed.
Lemma pattern_land w a b : 0 <= w -> Z.land (pattern w a) (pattern w b) = pattern w (Z.land a b).
Proof. intros. apply Z.bits_inj'. intros n Hn. rewrite Z.land_spec, !bit_pattern, Z.land_spec by lia. destruct (n <? w), (Z.testbit a n), (Z.testbit b n); reflexivity. Qed.
Lemma pattern_lor w a b : 0 <= w -> Z.lor (pattern w a) (pattern w b) = pattern w (Z.lor a b).
Proof. intros. apply Z.bits_inj'. intros n Hn. rewrite Z.lor_spec, !bit_pattern, Z.lor_spec by lia. destruct (n <? w), (Z.testbit a n), (Z.testbit b n); reflexivity. Qed.
Lemma pattern_lxor w a b : 0 <= w -> Z.lxor (pattern w a) (pattern w b) = pattern w (Z.lxor a b).
Proof. intros. apply Z.bits_inj'. intros n Hn. rewrite Z.lxor_spec, !bit_pattern, Z.lxor_spec by lia. destruct (n <? w), (Z.testbit a n), (Z.testbit b n); reflexivity. Qed.

Lemma signed_pattern w c : 1 <= w -> - 2 ^ (w - 1) <= c < 2 ^ (w - 1) -> signed w (pattern w c) = c.
Proof.
  intros Hw Hc. pose proof (pow_split w Hw) as E. pose proof (pow_pos' (w - 1) ltac:(lia)) as P. unfold signed, pattern.
  destruct (Z.lt_ge_cases c 0) as [Hn|Hn].
  - assert (M : c mod 2 ^ w = c + 2 ^ w).
    { symmetry. apply Z.mod_unique with (q := -1); lia. }
    rewrite M. destruct (Z.ltb_spec (c + 2 ^ w) (2 ^ (w - 1))); lia.
  - rewrite Z.mod_small by lia. destruct (Z.ltb_spec c (2 ^ (w - 1))); lia.
Qed.
Lemma pattern_zero w c : 1 <= w -> - 2 ^ (w - 1) <= c < 2 ^ (w - 1) -> (pattern w c =? 0) = (c =? 0).
Proof.
  intros Hw Hc. pose proof (signed_pattern w c Hw Hc) as S.
  destruct (Z.eqb_spec c 0) as [->|Hne]; [apply Z.eqb_eq; unfold pattern; apply Zmod_0_l|].
  apply Z.eqb_neq. intros E. rewrite E in S. unfold signed in S.
  pose proof (pow_pos' (w - 1) ltac:(lia)). destruct (Z.ltb_spec 0 (2 ^ (w - 1))); lia.
Qed.

Lemma u128_mask w c : 1 <= w <= 128 -> Z.land (to_u128 c) (width_mask w) = pattern w c.
Proof.
  intros Hw. apply Z.bits_inj'. intros n Hn. rewrite Z.land_spec, bit_pattern by lia.
  unfold to_u128, width_mask.
  assert (L : forall k, 0 <= k -> Z.testbit (2 ^ k - 1) n = (n <? k)).
  { intros k Hk. rewrite Z.sub_1_r, <- Z.ones_equiv, Z.testbit_ones_nonneg by lia. reflexivity. }
  assert (B : Z.testbit (c mod 2 ^ 128) n = (n <? 128) && Z.testbit c n) by (apply (bit_pattern 128 c n); lia).
  rewrite B. destruct (Z.eqb_spec w 128) as [->|Hne].
  - rewrite L by lia. destruct (n <? 128), (Z.testbit c n); reflexivity.
  - rewrite L by lia. destruct (Z.ltb_spec n 128), (Z.ltb_spec n w), (Z.testbit c n); try reflexivity; lia.
Qed.

Lemma width_range t w : core_int_width t = Some w -> 1 <= w <= 128.
Proof.
  unfold core_int_width. destruct (_ || _); [discriminate|]. destruct (rt_name t) as [|c r]; [discriminate|].
  destruct (Ascii.eqb _ _); [|discriminate]. destruct (parse_u32 r) as [x|]; [|discriminate].
  destruct ((1 <=? x) && (x <=? 128)) eqn:E; [|discriminate]. intros H; injection H as <-. lia.
Qed.

Lemma is_const_spec o v : is_const o v = true <-> o_const o = Some v.
Proof. unfold is_const. destruct (o_const o) as [c|]; [rewrite Z.eqb_eq; split; congruence | split; discriminate]. Qed.

Lemma run_const w env o c : o_const o = Some c -> run w env o = pattern w c.
Proof. unfold run. intros ->. reflexivity. Qed.
Lemma run_range w env o : 0 <= w -> 0 <= run w env o < 2 ^ w.
Proof. intros. unfold run. destruct (o_const o); apply pattern_range; assumption. Qed.

Lemma overflow_spec a b w : 1 <= w <= 128 -> - 2 ^ (w - 1) <= a < 2 ^ (w - 1) -> - 2 ^ (w - 1) <= b < 2 ^ (w - 1) ->
  sdiv_traps w (pattern w a) (pattern w b) = (b =? 0) || is_signed_overflow a b w.
Proof.
  intros Hw Ha Hb. unfold sdiv_traps. rewrite pattern_zero, !signed_pattern by (assumption || lia).
  f_equal. unfold is_signed_overflow.
  replace (if w =? 128 then - 2 ^ 127 else - 2 ^ (w - 1)) with (- 2 ^ (w - 1)) by (destruct (Z.eqb_spec w 128) as [->|]; reflexivity).
  destruct (b =? -1); cbn [negb]; [apply andb_true_r | apply andb_false_r].
Qed.

Lemma both_Some l r a b : both l r = Some (a, b) -> o_const l = Some a /\ o_const r = Some b.
Proof. unfold both, bind. destruct (o_const l), (o_const r); intros H; try discriminate. injection H as <- <-. auto. Qed.

Lemma signed_const_Some f l r t w res : core_int_width t = Some w -> signed_const f l r [t] = Some res ->
  exists a b, o_const l = Some a /\ o_const r = Some b /\ res = ArithConst (wrap_signed_to_width (to_i128 (f a b)) w).
Proof.
  intros Hw. unfold signed_const, bind, res_width. destruct (both l r) as [[a b]|] eqn:E; [|discriminate].
  rewrite Hw. cbn [fst snd]. intros H; injection H as <-. apply both_Some in E. destruct E. exists a, b. auto.
Qed.

Lemma sub0 w z : pattern w (z - 0) = pattern w z. Proof. f_equal; lia. Qed.

Lemma fold_sound_lemma o l r t w env res :
  core_int_width t = Some w ->
  (signed_division o -> canonical_const w l /\ canonical_const w r) ->
  fold o [l; r] [t] = Some res ->
  exec o w (run w env l) (run w env r) = Some (run_result w env res).
Proof.
  intros Hw Hcan Hf. pose proof (width_range _ _ Hw) as R.
  pose proof (run_range w env l ltac:(lia)) as Rl. pose proof (run_range w env r ltac:(lia)) as Rr.
  assert (P0 : pattern w 0 = 0) by (unfold pattern; apply Zmod_0_l).
  assert (Pm1 : pattern w (-1) = 2 ^ w - 1).
  { unfold pattern. symmetry. apply Z.mod_unique with (q := -1); lia. }
  assert (Pr : forall x, 0 <= x < 2 ^ w -> pattern w x = x) by (intros; apply pattern_small; assumption).
  assert (Ones : forall x, 0 <= x < 2 ^ w -> Z.land x (2 ^ w - 1) = x).
  { intros x Hx. rewrite Z.sub_1_r, <- Z.ones_equiv, Z.land_ones by lia. apply Z.mod_small; lia. }
  assert (OnesOr : forall x, 0 <= x < 2 ^ w -> Z.lor x (2 ^ w - 1) = 2 ^ w - 1).
  { intros x Hx. apply Z.bits_inj'. intros n Hn. rewrite Z.lor_spec.
    rewrite Z.sub_1_r, <- Z.ones_equiv, Z.testbit_ones_nonneg by lia.
    destruct (Z.ltb_spec n w); [apply orb_true_r|]. rewrite orb_false_r.
    rewrite <- (Pr x Hx). rewrite bit_pattern by lia. destruct (Z.ltb_spec n w); [lia | reflexivity]. }
  destruct o; cbn [fold] in Hf; cbn [exec].
  - unfold fold_addi in Hf. destruct (is_const r 0) eqn:E1; [|destruct (is_const l 0) eqn:E2].
    + injection Hf as <-. apply is_const_spec in E1. rewrite (run_const _ _ _ _ E1), P0, Z.add_0_r. cbn [run_result]. f_equal; apply Pr; assumption.
    + injection Hf as <-. apply is_const_spec in E2. rewrite (run_const _ _ _ _ E2), P0, Z.add_0_l. cbn [run_result]. f_equal; apply Pr; assumption.
    + destruct (signed_const_Some _ _ _ _ _ _ Hw Hf) as (a & b & A & B & ->). cbn [run_result].
      rewrite (run_const _ _ _ _ A), (run_const _ _ _ _ B), pattern_fold by lia. f_equal. apply pattern_add.
  - unfold fold_subi in Hf. destruct (is_const r 0) eqn:E1.
    + injection Hf as <-. apply is_const_spec in E1. rewrite (run_const _ _ _ _ E1), P0, sub0. cbn [run_result]. f_equal; apply Pr; assumption.
    + destruct (signed_const_Some _ _ _ _ _ _ Hw Hf) as (a & b & A & B & ->). cbn [run_result].
      rewrite (run_const _ _ _ _ A), (run_const _ _ _ _ B), pattern_fold by lia. f_equal. apply pattern_sub.
  - unfold fold_muli in Hf. destruct (is_const r 0 || is_const l 0) eqn:E0; [|destruct (is_const r 1) eqn:E1; [|destruct (is_const l 1) eqn:E2]].
    + injection Hf as <-. cbn [run_result]. apply orb_true_iff in E0. destruct E0 as [E0|E0]; apply is_const_spec in E0; rewrite (run_const _ _ _ _ E0), P0, ?Z.mul_0_r, ?Z.mul_0_l, P0; reflexivity.
    + injection Hf as <-. apply is_const_spec in E1. rewrite (run_const _ _ _ _ E1). cbn [run_result].
      rewrite <- (Pr (run w env l) Rl) at 1. rewrite pattern_mul, Z.mul_1_r. f_equal; apply Pr; assumption.
    + injection Hf as <-. apply is_const_spec in E2. rewrite (run_const _ _ _ _ E2). cbn [run_result].
      rewrite <- (Pr (run w env r) Rr) at 1. rewrite pattern_mul, Z.mul_1_l. f_equal; apply Pr; assumption.
    + destruct (signed_const_Some _ _ _ _ _ _ Hw Hf) as (a & b & A & B & ->). cbn [run_result].
      rewrite (run_const _ _ _ _ A), (run_const _ _ _ _ B), pattern_fold by lia. f_equal. apply pattern_mul.
  - destruct (Hcan (or_introl eq_refl)) as [Cl Cr].
    unfold fold_signed_div, bind, res_width in Hf. destruct (both l r) as [[a b]|] eqn:E; [|discriminate]. cbn [fst snd] in Hf.
    apply both_Some in E. destruct E as [A B]. unfold canonical_const in Cl, Cr. rewrite A in Cl. rewrite B in Cr.
    destruct (b =? 0) eqn:B0; [discriminate|]. rewrite Hw in Hf. destruct (is_signed_overflow a b w) eqn:Ov; [discriminate|].
    injection Hf as <-. cbn [run_result]. rewrite (run_const _ _ _ _ A), (run_const _ _ _ _ B), overflow_spec, B0, Ov by assumption.
    cbn [orb]. rewrite pattern_fold, !signed_pattern by (assumption || lia). reflexivity.
  - unfold fold_unsigned_div, bind, res_width in Hf. destruct (both l r) as [[a b]|] eqn:E; [|discriminate]. cbn [fst snd] in Hf.
    apply both_Some in E. destruct E as [A B]. rewrite Hw in Hf. cbn zeta in Hf. rewrite !u128_mask in Hf by assumption.
    rewrite (run_const _ _ _ _ A), (run_const _ _ _ _ B).
    pose proof (pattern_range w a ltac:(lia)). pose proof (pattern_range w b ltac:(lia)).
    destruct (Z.eqb_spec (pattern w b) 0) as [|Hb]; [discriminate|]. injection Hf as <-. cbn [run_result].
    rewrite pattern_fold by assumption. f_equal. symmetry. apply Pr. split; [apply Z.div_pos; lia|].
    apply Z.le_lt_trans with (pattern w a); [apply Z.div_le_upper_bound; nia | lia].
  - destruct (Hcan (or_intror eq_refl)) as [Cl Cr].
    unfold fold_signed_div, bind, res_width in Hf. destruct (both l r) as [[a b]|] eqn:E; [|discriminate]. cbn [fst snd] in Hf.
    apply both_Some in E. destruct E as [A B]. unfold canonical_const in Cl, Cr. rewrite A in Cl. rewrite B in Cr.
    destruct (b =? 0) eqn:B0; [discriminate|]. rewrite Hw in Hf. destruct (is_signed_overflow a b w) eqn:Ov; [discriminate|].
    injection Hf as <-. cbn [run_result]. rewrite (run_const _ _ _ _ A), (run_const _ _ _ _ B), overflow_spec, B0, Ov by assumption.
    cbn [orb]. rewrite pattern_fold, !signed_pattern by (assumption || lia). reflexivity.
  - unfold fold_unsigned_div, bind, res_width in Hf. destruct (both l r) as [[a b]|] eqn:E; [|discriminate]. cbn [fst snd] in Hf.
    apply both_Some in E. destruct E as [A B]. rewrite Hw in Hf. cbn zeta in Hf. rewrite !u128_mask in Hf by assumption.
    rewrite (run_const _ _ _ _ A), (run_const _ _ _ _ B).
    pose proof (pattern_range w a ltac:(lia)). pose proof (pattern_range w b ltac:(lia)).
    destruct (Z.eqb_spec (pattern w b) 0) as [|Hb]; [discriminate|]. injection Hf as <-. cbn [run_result].
    rewrite pattern_fold by assumption. f_equal. symmetry. apply Pr.
    pose proof (Z.mod_pos_bound (pattern w a) (pattern w b) ltac:(lia)). lia.
  - unfold fold_and in Hf. destruct (is_const r 0 || is_const l 0) eqn:E0; [|destruct (is_const r (-1)) eqn:E1; [|destruct (is_const l (-1)) eqn:E2]].
    + injection Hf as <-. cbn [run_result]. apply orb_true_iff in E0. destruct E0 as [E0|E0]; apply is_const_spec in E0; rewrite (run_const _ _ _ _ E0), P0, ?Z.land_0_r, ?Z.land_0_l; reflexivity.
    + injection Hf as <-. apply is_const_spec in E1. rewrite (run_const _ _ _ _ E1), Pm1. cbn [run_result]. f_equal. apply Ones; assumption.
    + injection Hf as <-. apply is_const_spec in E2. rewrite (run_const _ _ _ _ E2), Pm1, Z.land_comm. cbn [run_result]. f_equal. apply Ones; assumption.
    + destruct (signed_const_Some _ _ _ _ _ _ Hw Hf) as (a & b & A & B & ->). cbn [run_result].
      rewrite (run_const _ _ _ _ A), (run_const _ _ _ _ B), pattern_fold by lia. f_equal. apply pattern_land; lia.
  - unfold fold_or in Hf. destruct (is_const r 0) eqn:E1; [|destruct (is_const l 0) eqn:E2; [|destruct (is_const r (-1) || is_const l (-1)) eqn:E0]].
    + injection Hf as <-. apply is_const_spec in E1. rewrite (run_const _ _ _ _ E1), P0, Z.lor_0_r. reflexivity.
    + injection Hf as <-. apply is_const_spec in E2. rewrite (run_const _ _ _ _ E2), P0, Z.lor_0_l. reflexivity.
    + injection Hf as <-. cbn [run_result]. rewrite Pm1. apply orb_true_iff in E0. destruct E0 as [E0|E0]; apply is_const_spec in E0; rewrite (run_const _ _ _ _ E0), Pm1.
      * f_equal. apply OnesOr; assumption.
      * rewrite Z.lor_comm. f_equal. apply OnesOr; assumption.
    + destruct (signed_const_Some _ _ _ _ _ _ Hw Hf) as (a & b & A & B & ->). cbn [run_result].
      rewrite (run_const _ _ _ _ A), (run_const _ _ _ _ B), pattern_fold by lia. f_equal. apply pattern_lor; lia.
  - unfold fold_xor in Hf. destruct (is_const r 0) eqn:E1; [|destruct (is_const l 0) eqn:E2].
    + injection Hf as <-. apply is_const_spec in E1. rewrite (run_const _ _ _ _ E1), P0, Z.lxor_0_r. reflexivity.
    + injection Hf as <-. apply is_const_spec in E2. rewrite (run_const _ _ _ _ E2), P0, Z.lxor_0_l. reflexivity.
    + destruct (signed_const_Some _ _ _ _ _ _ Hw Hf) as (a & b & A & B & ->). cbn [run_result].
      rewrite (run_const _ _ _ _ A), (run_const _ _ _ _ B), pattern_fold by lia. f_equal. apply pattern_lxor; lia.
Qed.

Lemma fold_trap_lemma o l r t w env :
  core_int_width t = Some w ->
  (signed_division o -> canonical_const w l /\ canonical_const w r) ->
  exec o w (run w env l) (run w env r) = None -> fold o [l; r] [t] = None.
Proof.
  intros Hw Hc He. destruct (fold o [l; r] [t]) as [res|] eqn:E; [|reflexivity].
  rewrite (fold_sound_lemma o l r t w env res Hw Hc E) in He. discriminate.
Qed.

Lemma fold_complete_lemma o l r t w env a b v :
  core_int_width t = Some w -> o_const l = Some a -> o_const r = Some b ->
  (signed_division o -> canonical_const w l /\ canonical_const w r) ->
  exec o w (run w env l) (run w env r) = Some v -> exists res, fold o [l; r] [t] = Some res.
Proof.
  intros Hw A B Hc He. pose proof (width_range _ _ Hw) as R.
  assert (SC : forall f, exists res, signed_const f l r [t] = Some res).
  { intros f. unfold signed_const, both, bind, res_width. rewrite A, B, Hw. eauto. }
  rewrite (run_const _ _ _ _ A), (run_const _ _ _ _ B) in He.
  destruct o; cbn [fold exec] in *;
    unfold fold_addi, fold_subi, fold_muli, fold_and, fold_or, fold_xor, fold_signed_div, fold_unsigned_div, both, bind, res_width;
    repeat match goal with |- exists _, (if ?b then _ else _) = _ => destruct b eqn:?; eauto end; eauto;
    rewrite ?A, ?B, ?Hw; cbn [fst snd];
    try (destruct (Hc (or_introl eq_refl)) as [Cl Cr]); try (destruct (Hc (or_intror eq_refl)) as [Cl Cr]);
    try (unfold canonical_const in Cl, Cr; rewrite A in Cl; rewrite B in Cr;
         rewrite overflow_spec in He by assumption;
         destruct (b =? 0); [discriminate He|]; destruct (is_signed_overflow a b w); [discriminate He|]; eauto).
  all: cbn zeta; rewrite !u128_mask by assumption; destruct (pattern w b =? 0); [discriminate He | eauto].
Qed.

Lemma fold_canonical_lemma o l r t w v : core_int_width t = Some w ->
  fold o [l; r] [t] = Some (ArithConst v) -> - 2 ^ (w - 1) <= v < 2 ^ (w - 1).
Proof.
  intros Hw Hf. pose proof (width_range _ _ Hw) as R.
  pose proof (pow_pos' (w - 1) ltac:(lia)) as P.
  assert (W : forall z, - 2 ^ (w - 1) <= wrap_signed_to_width (to_i128 z) w < 2 ^ (w - 1)).
  { intros z. rewrite wrap_eq by (try apply to_i128_range; lia). pose proof (pow_split w ltac:(lia)).
    pose proof (Z.mod_pos_bound (to_i128 z + 2 ^ (w - 1)) (2 ^ w) ltac:(lia)). lia. }
  assert (SC : forall f, signed_const f l r [t] = Some (ArithConst v) -> - 2 ^ (w - 1) <= v < 2 ^ (w - 1)).
  { intros f H. destruct (signed_const_Some _ _ _ _ _ _ Hw H) as (a & b & _ & _ & E). injection E as ->. apply W. }
  destruct o; cbn [fold] in Hf;
    unfold fold_addi, fold_subi, fold_muli, fold_and, fold_or, fold_xor, fold_signed_div, fold_unsigned_div in Hf;
    repeat match type of Hf with (if ?b then _ else _) = _ => destruct b eqn:?; try discriminate Hf end;
    try (injection Hf as <-; lia); try (eapply SC; eassumption).
  all: unfold bind, res_width in Hf; destruct (both l r) as [[a b]|]; [|discriminate]; cbn [fst snd] in Hf; rewrite Hw in Hf; cbn zeta in Hf;
    repeat match type of Hf with (if ?b then _ else _) = _ => destruct b eqn:?; try discriminate Hf end;
    injection Hf as <-; apply W.
Qed.

Lemma noncanonical_division_lemma : exists l r t w env res,
  core_int_width t = Some w /\ i128_const l /\ i128_const r /\
  fold Divsi [l; r] [t] = Some res /\
  exec Divsi w (run w env l) (run w env r) <> Some (run_result w env res).
Proof.
  exists (cst 255), (cst 2), (core_i "i8"), 8, (fun _ => 0), (ArithConst 127).
  split; [reflexivity|]. split; [unfold i128_const; cbn; lia|]. split; [unfold i128_const; cbn; lia|].
  split; [reflexivity|]. vm_compute. discriminate.
Qed.
Lemma noncanonical_trap_lemma : exists l r t w env res,
  core_int_width t = Some w /\ i128_const l /\ i128_const r /\
  exec Divsi w (run w env l) (run w env r) = None /\ fold Divsi [l; r] [t] = Some res.
Proof.
  exists (cst 5), (cst 256), (core_i "i8"), 8, (fun _ => 0), (ArithConst 0).
  split; [reflexivity|]. split; [unfold i128_const; cbn; lia|]. split; [unfold i128_const; cbn; lia|].
  split; reflexivity.
Qed.
Lemma bool_payload_lemma : exists l r v,
  (o_const l = Some 0 \/ o_const l = Some 1) /\ (o_const r = Some 0 \/ o_const r = Some 1) /\
  fold Or [l; r] [core_i "i1"] = Some (ArithConst v) /\ v <> 0 /\ v <> 1 /\
  fold_if_branch (cst v) (core_i "i1") = None.
Proof. exists (cst 1), (cst 1), (-1). repeat split; auto; try discriminate. Qed.
Lemma plus_width_lemma : exists s, s <> ""%string /\ core_int_width (core_i (String.append "i+" s)) = Some 32.
Proof. exists "32"%string. split; [discriminate | reflexivity]. Qed.

From Coq Require Import Decimal DecimalString DecimalNat.

Lemma of_uint_acc_le d : forall a, (a <= Nat.of_uint_acc d a)%nat.
Proof.
  assert (T : forall a, Nat.tail_mul 10 a = (10 * a)%nat).
  { intros a. rewrite <- Nat.tail_mul_spec. reflexivity. }
  induction d as [|d IH|d IH|d IH|d IH|d IH|d IH|d IH|d IH|d IH|d IH]; intros a; cbn [Nat.of_uint_acc]; [lia|..];
    (eapply Nat.le_trans; [|apply IH]); rewrite T; lia.
Qed.

Lemma parse_digits_uint d : forall a, Z.of_nat a < 2 ^ 32 ->
  parse_digits (Z.of_nat a) (NilEmpty.string_of_uint d) =
  (if Z.of_nat (Nat.of_uint_acc d a) <? 2 ^ 32 then Some (Z.of_nat (Nat.of_uint_acc d a)) else None).
Proof.
  assert (T : forall a, Nat.tail_mul 10 a = (10 * a)%nat).
  { intros a. rewrite <- Nat.tail_mul_spec. reflexivity. }
  assert (Step : forall k d, (forall a, Z.of_nat a < 2 ^ 32 -> parse_digits (Z.of_nat a) (NilEmpty.string_of_uint d) =
     (if Z.of_nat (Nat.of_uint_acc d a) <? 2 ^ 32 then Some (Z.of_nat (Nat.of_uint_acc d a)) else None)) ->
     forall a, (if 10 * Z.of_nat a + Z.of_nat k <? 2 ^ 32 then parse_digits (10 * Z.of_nat a + Z.of_nat k) (NilEmpty.string_of_uint d) else None) =
     (if Z.of_nat (Nat.of_uint_acc d (k + 10 * a)) <? 2 ^ 32 then Some (Z.of_nat (Nat.of_uint_acc d (k + 10 * a))) else None)).
  { intros k e IH a. destruct (Z.ltb_spec (10 * Z.of_nat a + Z.of_nat k) (2 ^ 32)) as [H|H].
    - replace (10 * Z.of_nat a + Z.of_nat k) with (Z.of_nat (k + 10 * a)) in * by lia. apply IH. exact H.
    - pose proof (of_uint_acc_le e (k + 10 * a)). destruct (Z.ltb_spec (Z.of_nat (Nat.of_uint_acc e (k + 10 * a))) (2 ^ 32)); [lia|reflexivity]. }
  induction d as [|d IH|d IH|d IH|d IH|d IH|d IH|d IH|d IH|d IH|d IH]; intros a Ha;
    cbn [NilEmpty.string_of_uint Nat.of_uint_acc parse_digits].
  { destruct (Z.ltb_spec (Z.of_nat a) (2 ^ 32)); [reflexivity|lia]. }
  all: rewrite T; cbn zeta.
  - exact (Step 0%nat d IH a).
  - exact (Step 1%nat d IH a).
  - exact (Step 2%nat d IH a).
  - exact (Step 3%nat d IH a).
  - exact (Step 4%nat d IH a).
  - exact (Step 5%nat d IH a).
  - exact (Step 6%nat d IH a).
  - exact (Step 7%nat d IH a).
  - exact (Step 8%nat d IH a).
  - exact (Step 9%nat d IH a).
Qed.

Lemma width_name_lemma n :
  core_int_width (core_i (String.append "i" (NilZero.string_of_uint (Nat.to_uint n)))) =
  if (1 <=? n)%nat && (n <=? 128)%nat then Some (Z.of_nat n) else None.
Proof.
  unfold core_int_width, core_i. cbn [rt_dialect rt_name rt_plain String.append].
  change (negb (String.eqb "core" "core") || negb true) with false. cbv iota.
  rewrite Ascii.eqb_refl.
  assert (E : parse_u32 (NilZero.string_of_uint (Nat.to_uint n)) =
    if Z.of_nat n <? 2 ^ 32 then Some (Z.of_nat n) else None).
  { pose proof (Unsigned.of_to n) as O. unfold Nat.of_uint in O.
    pose proof (parse_digits_uint (Nat.to_uint n) 0 ltac:(lia)) as P. rewrite O in P. rewrite <- P.
    destruct (Nat.to_uint n) eqn:Hu; reflexivity. }
  rewrite E. destruct (Z.ltb_spec (Z.of_nat n) (2 ^ 32)) as [H|H].
  - destruct (Nat.leb_spec 1 n), (Z.leb_spec 1 (Z.of_nat n)); try lia; cbn [andb]; try reflexivity.
    destruct (Nat.leb_spec n 128), (Z.leb_spec (Z.of_nat n) 128); try lia; reflexivity.
  - destruct (Nat.leb_spec n 128); [lia|]. rewrite andb_false_r. reflexivity.
Qed.
