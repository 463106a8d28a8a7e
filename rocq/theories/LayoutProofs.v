From Verif Require Import Base LayoutModel LayoutSpec.
Open Scope N_scope.

Definition align_ok (a : N) : Prop := a = 1 \/ a = 2 \/ a = 4 \/ a = 8.

Lemma type_align_ok t : align_ok (falign t) /\ 1 <= fsize t <= 8.
Proof.
  unfold falign, fsize, type_size_align, align_ok.
  repeat match goal with |- context [if ?b then _ else _] => destruct b end; cbn [fst snd]; lia.
Qed.

(** Masking off the low bits of a u32. *)
Lemma land_not_ones x k : x < 2 ^ 32 -> k <= 32 ->
  N.land x (N.lxor (2 ^ 32 - 1) (2 ^ k - 1)) = x - x mod 2 ^ k.
Proof.
  intros Hx Hk.
  replace (2 ^ 32 - 1) with (N.ones 32) by reflexivity.
  assert (Hones : 2 ^ k - 1 = N.ones k) by (rewrite N.ones_equiv; lia).
  rewrite Hones.
  assert (Hm : x mod 2 ^ k = N.land x (N.ones k)) by (rewrite N.land_ones; reflexivity).
  rewrite Hm.
  rewrite N.sub_nocarry_ldiff.
  - apply N.bits_inj. intros i. rewrite N.land_spec, N.lxor_spec, N.ldiff_spec, N.land_spec.
    destruct (N.lt_ge_cases i 32) as [Hi|Hi].
    + rewrite (N.ones_spec_low 32 i Hi). destruct (N.testbit x i), (N.testbit (N.ones k) i); reflexivity.
    + assert (Hxi : N.testbit x i = false).
      { destruct (N.eq_dec x 0) as [->|Hnz]; [apply N.bits_0|]. apply N.bits_above_log2.
        apply N.log2_lt_pow2; [lia|]. eapply N.lt_le_trans; [exact Hx|]. apply N.pow_le_mono_r; lia. }
      rewrite Hxi. reflexivity.
  - apply N.bits_inj. intros i. rewrite N.ldiff_spec, N.land_spec, N.bits_0.
    destruct (N.testbit x i), (N.testbit (N.ones k) i); reflexivity.
Qed.

Lemma align_up_spec off a : align_ok a -> off + a <= 2 ^ 32 ->
  off <= align_up off a /\ (align_up off a) mod a = 0 /\ align_up off a < off + a /\
  (forall x, off <= x -> x mod a = 0 -> align_up off a <= x).
Proof.
  intros Ha Hb.
  assert (E : align_up off a = (off + a - 1) - (off + a - 1) mod a).
  { unfold align_up. assert (Hu : u32 (u32 (off + a) + (2 ^ 32 - 1)) = off + a - 1).
    { unfold u32. destruct (N.eq_dec (off + a) (2 ^ 32)) as [Eq|Ne].
      - rewrite Eq, N.mod_same by lia. cbn [N.add]. rewrite N.mod_small; lia.
      - rewrite (N.mod_small (off + a)) by lia.
        assert (1 <= a) by (unfold align_ok in Ha; lia).
        replace (off + a + (2 ^ 32 - 1)) with (off + a - 1 + 1 * 2 ^ 32) by lia.
        rewrite N.mod_add by lia. apply N.mod_small. lia. }
    rewrite Hu. unfold u32_not.
    destruct Ha as [->|[->|[->| ->]]].
    - change (1 - 1) with (2 ^ 0 - 1). rewrite land_not_ones by lia. reflexivity.
    - change (2 - 1) with (2 ^ 1 - 1). rewrite land_not_ones by lia. reflexivity.
    - change (4 - 1) with (2 ^ 2 - 1). rewrite land_not_ones by lia. reflexivity.
    - change (8 - 1) with (2 ^ 3 - 1). rewrite land_not_ones by lia. reflexivity. }
  rewrite E. clear E.
  destruct Ha as [->|[->|[->| ->]]].
  - rewrite N.mod_1_r. repeat split; try lia.
  - repeat split; try lia; intros; lia.
  - repeat split; try lia; intros; lia.
  - repeat split; try lia; intros; lia.
Qed.

Lemma placed_limit_ge fields : forall start offs limit, placed start fields offs limit -> start <= limit.
Proof.
  induction fields as [|f fields IH]; intros start [|o offs] limit H; cbn [placed] in H; try contradiction; [exact H|].
  destruct H as (H1 & _ & H2). apply IH in H2. lia.
Qed.

Lemma placed_weaken fields : forall start offs l l', l <= l' -> placed start fields offs l -> placed start fields offs l'.
Proof.
  induction fields as [|f fields IH]; intros start [|o offs] l l' Hl H; cbn [placed] in *; try contradiction; [lia|].
  destruct H as (H1 & H2 & H3). repeat split; auto. eapply IH; eassumption.
Qed.

Lemma max_falign_ok fields : forall m, align_ok m -> align_ok (max_falign m fields).
Proof.
  induction fields as [|f fields IH]; intros m Hm; cbn; [exact Hm|]. apply IH.
  destruct (type_align_ok f) as [Hf _]. unfold align_ok in *. lia.
Qed.

Lemma layout_fields_max fields : forall off m, snd (layout_fields off m fields) = max_falign m fields.
Proof.
  induction fields as [|f fields IH]; intros off m; [reflexivity|]. cbn [layout_fields].
  change (max_falign m (f :: fields)) with (max_falign (N.max m (snd (type_size_align f))) fields).
  destruct (type_size_align f) as [sz al]. cbn [snd].
  specialize (IH (u32 (align_up off al + sz)) (N.max m al)).
  destruct (layout_fields _ _ fields) as [[offs e] mm]. exact IH.
Qed.

(** The loop places the fields, with the least possible offsets and end. *)
Lemma layout_fields_placed fields : forall start m start' offs' limit,
  start <= start' -> placed start' fields offs' limit -> limit <= 2 ^ 32 - 8 ->
  let '(offs, e, _) := layout_fields start m fields in
  placed start fields offs e /\ pointwise_le offs offs' /\ e <= limit.
Proof.
  induction fields as [|f fields IH]; intros start m start' [|o' offs'] limit Hs Hp Hl;
    cbn [placed layout_fields] in *; try contradiction.
  - repeat split; [lia | constructor | lia].
  - destruct Hp as (H1 & H2 & H3).
    destruct (type_align_ok f) as [Ha Hsz].
    unfold falign, fsize in *. destruct (type_size_align f) as [sz al] eqn:Ef. cbn [fst snd] in *.
    pose proof (placed_limit_ge _ _ _ _ H3) as Hlim.
    assert (Hal : 1 <= al <= 8) by (unfold align_ok in Ha; lia).
    destruct (align_up_spec start al Ha ltac:(lia)) as (A1 & A2 & A3 & A4).
    specialize (A4 o' ltac:(lia) H2).
    assert (Hu : u32 (align_up start al + sz) = align_up start al + sz) by (unfold u32; apply N.mod_small; lia).
    rewrite Hu.
    specialize (IH (align_up start al + sz) (N.max m al) (o' + sz) offs' limit ltac:(lia) H3 Hl).
    destruct (layout_fields (align_up start al + sz) (N.max m al) fields) as [[offs e] mm].
    destruct IH as (P1 & P2 & P3). cbn [placed].
    repeat split; auto. constructor; assumption.
Qed.

Lemma struct_layout_lemma fields : (exists offs', placed 0 fields offs' (2 ^ 32 - 8)) ->
  let l := compute_struct_layout fields in
  placed 0 fields (field_offsets l) (total_size l) /\
  (total_size l) mod (alignment l) = 0 /\
  alignment l = max_falign 1 fields /\
  (forall offs' limit, placed 0 fields offs' limit ->
     pointwise_le (field_offsets l) offs' /\
     (limit mod alignment l = 0 -> total_size l <= limit)).
Proof.
  intros [w Hw]. unfold compute_struct_layout.
  pose proof (layout_fields_placed fields 0 1 0 w (2 ^ 32 - 8) ltac:(lia) Hw ltac:(lia)) as H.
  pose proof (layout_fields_max fields 0 1) as Hm.
  destruct (layout_fields 0 1 fields) as [[offs e] m] eqn:El. cbn [snd] in Hm. cbn [field_offsets total_size alignment].
  destruct H as (P1 & P2 & P3).
  assert (Ha : align_ok m) by (rewrite Hm; apply max_falign_ok; left; reflexivity).
  assert (Hm8 : m <= 8) by (unfold align_ok in Ha; lia).
  destruct (align_up_spec e m Ha ltac:(lia)) as (A1 & A2 & A3 & A4).
  split; [eapply placed_weaken; [exact A1 | exact P1]|]. split; [exact A2|]. split; [exact Hm|].
  intros offs' limit Hp. destruct (N.le_gt_cases limit (2 ^ 32 - 8)) as [Hle|Hgt].
  - pose proof (layout_fields_placed fields 0 1 0 offs' limit ltac:(lia) Hp Hle) as H'.
    rewrite El in H'. destruct H' as (_ & Q2 & Q3). split; [exact Q2|].
    intros Hmod. apply A4; assumption.
  - split.
    + (* offsets do not depend on the limit *)
      clear - P1 Hp El Hw P3 Hm8 Ha.
      assert (G : forall fs st st' mm off1 off2 l1 l2 ee mx, layout_fields st mm fs = (off1, ee, mx) ->
                  placed st fs off1 l1 -> l1 <= 2 ^ 32 - 8 -> st <= st' -> placed st' fs off2 l2 ->
                  pointwise_le off1 off2).
      { clear. induction fs as [|f fs IH]; intros st st' mm off1 off2 l1 l2 ee mx E H1 Hb Hs H2.
        - destruct off1; cbn in H1; [|contradiction]. destruct off2; cbn in H2; [constructor|contradiction].
        - destruct off1 as [|o1 off1]; cbn [placed] in H1; [contradiction|].
          destruct off2 as [|o2 off2]; cbn [placed] in H2; [contradiction|].
          destruct H1 as (B1 & B2 & B3). destruct H2 as (C1 & C2 & C3).
          cbn [layout_fields] in E. destruct (type_align_ok f) as [Ha Hsz].
          unfold falign, fsize in *. destruct (type_size_align f) as [sz al] eqn:Ef. cbn [fst snd] in *.
          destruct (layout_fields (u32 (align_up st al + sz)) (N.max mm al) fs) as [[o e] m] eqn:E2.
          inversion E; subst o1 off1 ee mx. clear E.
          pose proof (placed_limit_ge _ _ _ _ B3) as Hlim.
          assert (Hal : 1 <= al <= 8) by (unfold align_ok in Ha; lia).
          destruct (align_up_spec st al Ha ltac:(lia)) as (A1 & A2 & A3 & A4).
          specialize (A4 o2 ltac:(lia) C2).
          assert (Hu : u32 (align_up st al + sz) = align_up st al + sz) by (unfold u32; apply N.mod_small; lia).
          rewrite Hu in E2. constructor; [exact A4|].
          apply (IH (align_up st al + sz) (o2 + sz) _ o off2 l1 l2 _ _ E2 B3 Hb ltac:(lia) C3). }
      exact (G fields 0 0 1 offs offs' e limit e m El P1 P3 ltac:(lia) Hp).
    + intros _. assert (Hm0 : (2 ^ 32 - 8) mod m = 0) by (destruct Ha as [->|[->|[->| ->]]]; reflexivity).
      specialize (A4 (2 ^ 32 - 8) P3 Hm0). lia.
Qed.

(** ** Enums *)
Lemma layout_fields_max8 fields : snd (layout_fields 0 8 fields) = 8.
Proof.
  rewrite layout_fields_max. assert (forall m, m = 8 -> max_falign m fields = 8) as H; [|apply H; reflexivity].
  induction fields as [|f fields IH]; intros m Hm; cbn; [exact Hm|]. apply IH.
  destruct (type_align_ok f) as [Hf _]. unfold align_ok in Hf. lia.
Qed.

Lemma layout_variants_spec vs : forall idx ms, Forall variant_fits vs -> ms <= 2 ^ 32 - 16 ->
  let '(ls, m, ma) := layout_variants idx ms 8 vs in
  ma = 8 /\ ms <= m <= 2 ^ 32 - 16 /\ (ms mod 8 = 0 -> m mod 8 = 0) /\
  length ls = length vs /\
  forall i nm fields, nth_error vs i = Some (nm, fields) -> exists v, nth_error ls i = Some v /\
    vname v = nm /\ tag_value v = u32 (idx + N.of_nat i) /\
    placed 0 fields (v_offsets v) (fields_size v) /\ fields_size v <= m /\
    (fields_size v) mod 8 = 0 /\
    (forall offs' limit, placed 0 fields offs' limit -> limit <= 2 ^ 32 - 8 -> pointwise_le (v_offsets v) offs').
Proof.
  induction vs as [|[nm fields] vs IH]; intros idx ms Hf Hms; cbn [layout_variants].
  - repeat split; try lia. intros [|i] ? ? H; discriminate.
  - apply Forall_cons_iff in Hf as [[w Hw] Hf]. cbn [snd] in Hw.
    pose proof (layout_fields_placed fields 0 8 0 w (2 ^ 32 - 16) ltac:(lia) Hw ltac:(lia)) as H.
    pose proof (layout_fields_max8 fields) as Hm8.
    assert (Hmin : forall offs' limit, placed 0 fields offs' limit -> limit <= 2 ^ 32 - 8 ->
              let '(offs, _, _) := layout_fields 0 8 fields in pointwise_le offs offs').
    { intros offs' limit Hp Hlim. pose proof (layout_fields_placed fields 0 8 0 offs' limit ltac:(lia) Hp Hlim) as H2.
      destruct (layout_fields 0 8 fields) as [[a b] c]. tauto. }
    destruct (layout_fields 0 8 fields) as [[offs e] m]. cbn [snd] in Hm8. subst m.
    destruct H as (P1 & P2 & P3).
    destruct (align_up_spec e 8 ltac:(unfold align_ok; lia) ltac:(lia)) as (A1 & A2 & A3 & A4).
    assert (Hfs : align_up e 8 <= 2 ^ 32 - 16) by (apply A4; [lia | reflexivity]).
    specialize (IH (idx + 1) (N.max ms (align_up e 8)) Hf ltac:(lia)).
    destruct (layout_variants (idx + 1) (N.max ms (align_up e 8)) 8 vs) as [[ls m] ma].
    destruct IH as (I1 & I2 & I3 & I4 & I5). split; [exact I1|]. split; [lia|]. split.
    { intros Hz. apply I3. destruct (N.max_spec ms (align_up e 8)) as [[_ ->]|[_ ->]]; assumption. }
    split; [cbn [length]; lia|].
    intros [|i] nm' fields' Hi; cbn [nth_error] in *.
    + inv Hi. eexists. split; [reflexivity|]. cbn [vname tag_value v_offsets fields_size].
      split; [reflexivity|]. split; [f_equal; lia|].
      split; [eapply placed_weaken; [exact A1 | exact P1]|]. split; [lia|]. split; [exact A2|].
      exact Hmin.
    + destruct (I5 i nm' fields' Hi) as (v & V1 & V2 & V3 & V4). exists v. split; [exact V1|].
      split; [exact V2|]. split; [rewrite V3; f_equal; lia | exact V4].
Qed.

Lemma enum_layout_lemma vs : Forall variant_fits vs -> N.of_nat (List.length vs) <= 2 ^ 32 ->
  let l := compute_enum_layout vs in
  tag_offset l + tag_size l <= fields_offset l /\
  e_alignment l = 8 /\ (e_total_size l) mod 8 = 0 /\ fields_offset l <= e_total_size l /\
  length (variants l) = length vs /\
  forall i nm fields, nth_error vs i = Some (nm, fields) -> exists v, nth_error (variants l) i = Some v /\
    vname v = nm /\ tag_value v = N.of_nat i /\
    placed 0 fields (v_offsets v) (fields_size v) /\
    fields_offset l + fields_size v <= e_total_size l.
Proof.
  intros Hf Hn. unfold compute_enum_layout.
  pose proof (layout_variants_spec vs 0 0 Hf ltac:(lia)) as H.
  destruct (layout_variants 0 0 8 vs) as [[ls m] ma].
  cbn [tag_offset tag_size fields_offset e_alignment e_total_size variants].
  destruct H as (I1 & I2 & I3 & I4 & I5).
  assert (Hu : u32 (8 + m) = 8 + m) by (unfold u32; apply N.mod_small; lia). rewrite Hu.
  specialize (I3 eq_refl).
  split; [lia|]. split; [exact I1|]. split; [lia|]. split; [lia|]. split; [exact I4|].
  intros i nm fields Hi. destruct (I5 i nm fields Hi) as (v & V1 & V2 & V3 & V4 & V5 & _).
  exists v. split; [exact V1|]. split; [exact V2|]. split.
  - rewrite V3. assert (i < length vs)%nat by (apply nth_error_Some; congruence).
    unfold u32. rewrite N.mod_small; lia.
  - split; [exact V4 | lia].
Qed.

Lemma find_nodup (ls : list variant_layout) : NoDup (map vname ls) -> forall i v, nth_error ls i = Some v ->
  find (fun x => String.eqb (vname x) (vname v)) ls = Some v.
Proof.
  induction ls as [|x ls IH]; intros Hnd i v Hi; [destruct i; discriminate|].
  cbn [map] in Hnd. apply NoDup_cons_iff in Hnd as [Hnin Hnd]. cbn [find]. destruct i as [|i]; cbn in Hi.
  - inv Hi. rewrite String.eqb_refl. reflexivity.
  - destruct (String.eqb_spec (vname x) (vname v)) as [E|E].
    + exfalso. apply Hnin. rewrite E. apply in_map. eapply nth_error_In. exact Hi.
    + eapply IH; eassumption.
Qed.

Lemma find_variant_lemma vs : Forall variant_fits vs -> N.of_nat (List.length vs) <= 2 ^ 32 ->
  NoDup (map fst vs) -> forall i nm fields, nth_error vs i = Some (nm, fields) ->
  exists v, find_variant_layout (compute_enum_layout vs) nm = Some v /\
    nth_error (variants (compute_enum_layout vs)) i = Some v /\ tag_value v = N.of_nat i.
Proof.
  intros Hf Hn Hnd i nm fields Hi.
  pose proof (enum_layout_lemma vs Hf Hn) as H. cbv zeta in H.
  destruct H as (_ & _ & _ & _ & Hlen & Hall).
  assert (Hnames : map vname (variants (compute_enum_layout vs)) = map fst vs).
  { apply list_eq_nth_error. intros j. rewrite !nth_error_map.
    destruct (nth_error vs j) as [[n f]|] eqn:Ej.
    - destruct (Hall j n f Ej) as (v & V1 & V2 & _). rewrite V1. cbn. congruence.
    - assert (Hnone : nth_error (variants (compute_enum_layout vs)) j = None).
      { apply nth_error_None. rewrite Hlen. apply nth_error_None. exact Ej. }
      rewrite Hnone. reflexivity. }
  destruct (Hall i nm fields Hi) as (v & V1 & V2 & V3 & _). exists v.
  split; [|split; assumption]. unfold find_variant_layout. rewrite <- V2.
  eapply find_nodup; [rewrite Hnames; exact Hnd | exact V1].
Qed.

Lemma tags_distinct_enum vs : Forall variant_fits vs -> N.of_nat (List.length vs) <= 2 ^ 32 ->
  forall i j v w, nth_error (variants (compute_enum_layout vs)) i = Some v ->
  nth_error (variants (compute_enum_layout vs)) j = Some w -> tag_value v = tag_value w -> i = j.
Proof.
  intros Hf Hn i j v w Hv Hw E.
  pose proof (enum_layout_lemma vs Hf Hn) as H. cbv zeta in H. destruct H as (_ & _ & _ & _ & Hlen & Hall).
  assert (Hi : (i < length vs)%nat) by (rewrite <- Hlen; apply nth_error_Some; congruence).
  assert (Hj : (j < length vs)%nat) by (rewrite <- Hlen; apply nth_error_Some; congruence).
  destruct (nth_error vs i) as [[n f]|] eqn:Ei; [|apply nth_error_None in Ei; lia].
  destruct (nth_error vs j) as [[n' f']|] eqn:Ej; [|apply nth_error_None in Ej; lia].
  destruct (Hall i n f Ei) as (v' & V1 & _ & V3 & _). destruct (Hall j n' f' Ej) as (w' & W1 & _ & W3 & _).
  rewrite V1 in Hv. rewrite W1 in Hw. inv Hv. inv Hw. lia.
Qed.

Lemma scalar_storage_lemma n b : In (n, b) scalar_bits ->
  b <= 8 * fsize (core n) /\ fsize (core n) <= 8 /\ falign (core n) = fsize (core n) /\
  (b <> 1 -> 8 * fsize (core n) = b).
Proof.
  intros H. unfold scalar_bits in H. cbn [In] in H.
  repeat match type of H with _ \/ _ => destruct H as [H|H] end; try contradiction;
    injection H as <- <-; vm_compute; repeat split; try discriminate; intros; try reflexivity; congruence.
Qed.
