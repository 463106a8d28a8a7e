From Coq Require FinFun.
From Verif Require Import LayoutSpec LayoutProofs RttiModel RttiSpec RttiProofs.
Open Scope N_scope.

(** ** Enums *)

Fixpoint total (vrs : list (N * list N)) : nat :=
  match vrs with [] => 0%nat | (_, offs) :: vrs => (List.length offs + total vrs)%nat end.

Lemma nodup_app {A} (a b : list A) : NoDup a -> NoDup b -> (forall x, In x a -> ~ In x b) -> NoDup (a ++ b).
Proof.
  induction a as [|x a IH]; intros Ha Hb H; [exact Hb|]. inversion Ha as [|y ys Hx Ha']; subst. cbn. constructor.
  - intros Hi. apply in_app_or in Hi as [Hi|Hi]; [exact (Hx Hi)|]. apply (H x (or_introl eq_refl) Hi).
  - apply IH; [exact Ha'|exact Hb|]. intros y Hy. apply H. right. exact Hy.
Qed.

Lemma chains_numbers vrs : forall fresh,
  let '(b, ss, f) := chains vrs fresh in
  (fresh <= f)%nat /\ List.length b = (2 * total vrs)%nat /\ List.length ss = List.length vrs /\ NoDup (numbers b) /\
  (forall i, In i (numbers b) -> (fresh <= i < f)%nat).
Proof.
  induction vrs as [|[t offs] vrs IH]; intros fresh; cbn [chains].
  - cbn. repeat split; try lia; try contradiction. constructor.
  - pose proof (chain_numbers (rev offs) fresh 1) as C. destruct (chain (rev offs) fresh 1) as [[b s] f1].
    specialize (IH f1). destruct (chains vrs f1) as [[b2 ss] f2]. destruct C as (C1 & C2 & C3 & C4 & _).
    destruct IH as (I1 & I2 & I3 & I4 & I5). rewrite rev_length in *. cbn [total List.length].
    split; [lia|]. split; [rewrite app_length; lia|]. split; [lia|]. unfold numbers in *. rewrite map_app. split.
    + apply nodup_app; [exact C3|exact I4|]. intros x Hx Hy. apply C4 in Hx. apply I5 in Hy. lia.
    + intros i Hi. apply in_app_or in Hi as [Hi|Hi]; [apply C4 in Hi|apply I5 in Hi]; lia.
Qed.

Lemma chains_run r m s n vrs : run 1 r m 1 = Freed [] s -> forall fresh,
  let '(b, ss, _) := chains vrs fresh in
  (forall i x, In (i, x) b -> find_block r i = Some x) -> (1 + 2 * total vrs <= n)%nat ->
  Forall2 (fun v st => run n r m st = Freed (nonnull m (snd v)) s) vrs ss.
Proof.
  intros H1. induction vrs as [|[t offs] vrs IH]; intros fresh; cbn [chains]; [constructor|].
  pose proof (chain_run r m (rev offs) fresh 1 1 [] s) as C. destruct (chain (rev offs) fresh 1) as [[b st] f1].
  specialize (IH f1). destruct (chains vrs f1) as [[b2 ss] f2]. cbn [total]. intros Hb Hn. constructor.
  - cbn [snd]. rewrite rev_involutive, app_nil_r, rev_length in C. eapply run_mono; [apply C; [|exact H1]|lia].
    intros i x Hi. apply Hb. apply in_or_app. left. exact Hi.
  - apply IH; [|lia]. intros i x Hi. apply Hb. apply in_or_app. right. exact Hi.
Qed.

Fixpoint offsets_of (w : Z) (vrs : list (N * list N)) : list N :=
  match vrs with [] => [] | (t, offs) :: vrs => if Z.eqb w (Z.of_N t) then offs else offsets_of w vrs end.

Lemma tag_tests_numbers vrs : forall ss fresh, List.length ss = List.length vrs ->
  let '(b, no, f) := tag_tests vrs ss fresh in
  f = (fresh + List.length vrs)%nat /\ List.length b = List.length vrs /\ NoDup (numbers b) /\
  (forall i, In i (numbers b) -> (fresh <= i < f)%nat).
Proof.
  induction vrs as [|[t offs] vrs IH]; intros [|s ss] fresh Hl; cbn in Hl; try discriminate; cbn [tag_tests].
  - cbn. repeat split; try lia; try contradiction. constructor.
  - specialize (IH ss fresh ltac:(lia)). destruct (tag_tests vrs ss fresh) as [[b no] f1]. destruct IH as (I1 & I2 & I3 & I4).
    cbn [List.length numbers map fst]. split; [lia|]. split; [lia|]. split.
    + constructor; [|exact I3]. intros Hi. apply I4 in Hi. lia.
    + intros i [Hi|Hi]; [lia|]. apply I4 in Hi. lia.
Qed.

Lemma tag_tests_run r m s n vrs : run n r m 1 = Freed [] s -> forall ss fresh,
  Forall2 (fun v st => run n r m st = Freed (nonnull m (snd v)) s) vrs ss ->
  let '(b, no, _) := tag_tests vrs ss fresh in
  (forall i x, In (i, x) b -> find_block r i = Some x) ->
  run (n + List.length vrs) r m no = Freed (nonnull m (offsets_of (m 0) vrs)) s.
Proof.
  intros H1. induction vrs as [|[t offs] vrs IH]; intros ss fresh HF; inversion HF as [|? st ? ss' E HF']; subst; cbn [tag_tests].
  - intros _. cbn. rewrite Nat.add_0_r. exact H1.
  - specialize (IH ss' fresh HF'). destruct (tag_tests vrs ss' fresh) as [[b no] f1]. intros Hb.
    cbn [List.length]. rewrite Nat.add_succ_r.
    rewrite (run_tag _ r m f1 t st no); [|apply Hb; left; reflexivity]. cbn [offsets_of].
    destruct (Z.eqb (m 0) (Z.of_N t)).
    + cbn [snd] in E. eapply run_mono; [exact E|lia].
    + apply IH. intros i x Hi. apply Hb. right. exact Hi.
Qed.

Lemma release_enum_run vars m :
  let l := enum_layout_of vars in
  release_object (release_enum vars) m =
  Freed (nonnull m (offsets_of (m 0) (variants_with_ptrs (fields_offset l) vars (variants l)))) (e_total_size l + RC_HEADER_SIZE).
Proof.
  intros l. unfold release_enum. fold l. destruct (variants_with_ptrs (fields_offset l) vars (variants l)) as [|[t offs] vrs]; [reflexivity|].
  pose proof (chains_numbers ((t, offs) :: vrs) 2) as Hn.
  pose proof (fun r s n H => chains_run r m s n ((t, offs) :: vrs) H 2) as Hc.
  destruct (chains ((t, offs) :: vrs) 2) as [[b ss] f]. destruct Hn as (N1 & N2 & N3 & N4 & N5).
  destruct ss as [|s0 ss]; [discriminate|]. cbn in N3.
  pose proof (tag_tests_numbers vrs ss f ltac:(lia)) as Ht.
  pose proof (fun r s n H => tag_tests_run r m s n vrs H ss f) as Hr.
  destruct (tag_tests vrs ss f) as [[tests no] f2]. destruct Ht as (T1 & T2 & T3 & T4).
  set (d := Dealloc (e_total_size l + RC_HEADER_SIZE)).
  set (r := (0%nat, Tag t s0 no) :: tests ++ b ++ [(1%nat, d)]).
  assert (Hnd : NoDup (numbers r)).
  { unfold r, numbers in *. cbn [map fst]. rewrite !map_app. cbn [map fst].
    assert (B : NoDup (map fst b ++ [1%nat])).
    { apply nodup_app; [exact N4|constructor; [intros []|constructor]|]. intros x Hx [E|[]]. apply N5 in Hx. lia. }
    assert (B' : forall x, In x (map fst b ++ [1%nat]) -> (1 <= x < f)%nat).
    { intros x Hx. apply in_app_or in Hx as [Hx|[Hx|[]]]; [apply N5 in Hx; lia|lia]. }
    constructor.
    - intros Hi. apply in_app_or in Hi as [Hi|Hi]; [apply T4 in Hi|apply B' in Hi]; lia.
    - apply nodup_app; [exact T3|exact B|]. intros x Hx Hy. apply T4 in Hx. apply B' in Hy. lia. }
  assert (Hin : forall i x, In (i, x) r -> find_block r i = Some x) by (apply find_in; exact Hnd).
  assert (H1 : run 1 r m 1 = Freed [] (e_total_size l + RC_HEADER_SIZE)).
  { cbn [run]. rewrite (Hin 1%nat d); [reflexivity|]. unfold r. right. apply in_or_app. right. apply in_or_app. right. left. reflexivity. }
  set (n := (1 + 2 * total ((t, offs) :: vrs))%nat) in *.
  assert (HF : Forall2 (fun v st => run n r m st = Freed (nonnull m (snd v)) (e_total_size l + RC_HEADER_SIZE)) ((t, offs) :: vrs) (s0 :: ss)).
  { apply (Hc r _ n H1); [|lia]. intros i x Hi. apply Hin. unfold r. right. apply in_or_app. right. apply in_or_app. left. exact Hi. }
  inversion HF as [|? ? ? ? HF0 HF']; subst. cbn [snd] in HF0.
  assert (Hn1 : run n r m 1 = Freed [] (e_total_size l + RC_HEADER_SIZE)) by (eapply run_mono; [exact H1|lia]).
  assert (Htests : run (n + List.length vrs) r m no = Freed (nonnull m (offsets_of (m 0) vrs)) (e_total_size l + RC_HEADER_SIZE)).
  { apply (Hr r _ n Hn1 HF'). intros i x Hi. apply Hin. unfold r. right. apply in_or_app. left. exact Hi. }
  assert (Hlen : List.length r = (S (List.length vrs + n))%nat).
  { unfold r. cbn [List.length]. rewrite !app_length. cbn [List.length]. lia. }
  unfold release_object. rewrite Hlen. rewrite (run_tag _ r m 0 t s0 no); [|reflexivity]. cbn [offsets_of].
  destruct (Z.eqb (m 0) (Z.of_N t)).
  - eapply run_mono; [exact HF0|lia].
  - eapply run_mono; [exact Htests|lia].
Qed.

Lemma offsets_of_variant base vars : forall ls i nm ts v, NoDup (map tag_value ls) ->
  List.length ls = List.length vars ->
  nth_error vars i = Some (nm, ts) -> nth_error ls i = Some v ->
  offsets_of (Z.of_N (tag_value v)) (variants_with_ptrs base vars ls) = variant_offsets base ts (v_offsets v).
Proof.
  assert (Absent : forall vars ls w, ~ In w (map tag_value ls) -> offsets_of (Z.of_N w) (variants_with_ptrs base vars ls) = []).
  { induction vars0 as [|[nm ts] vars0 IH]; intros [|v ls] w H; cbn [variants_with_ptrs]; try reflexivity.
    cbn in H. assert (H' : ~ In w (map tag_value ls)) by tauto. specialize (IH ls w H').
    destruct (variant_offsets base ts (v_offsets v)); [exact IH|]. cbn [offsets_of].
    destruct (Z.eqb_spec (Z.of_N w) (Z.of_N (tag_value v))) as [E|_]; [|exact IH]. apply N2Z.inj in E. exfalso. apply H. left. auto. }
  induction vars as [|[nm0 ts0] vars IH]; intros [|v0 ls] i nm ts v Hd Hl Hi Hj; try (destruct i; discriminate).
  cbn in Hd. inversion Hd as [|x xs Hx Hd']; subst. cbn [variants_with_ptrs]. destruct i as [|i]; cbn in Hi, Hj.
  - injection Hi as -> ->. injection Hj as ->. destruct (variant_offsets base ts (v_offsets v)) as [|o offs].
    + apply Absent. exact Hx.
    + cbn [offsets_of]. rewrite Z.eqb_refl. reflexivity.
  - assert (E : tag_value v0 <> tag_value v).
    { intros E. apply Hx. rewrite E. apply in_map. eapply nth_error_In. exact Hj. }
    cbn in Hl. specialize (IH ls i nm ts v Hd' ltac:(lia) Hi Hj).
    destruct (variant_offsets base ts0 (v_offsets v0)); [exact IH|]. cbn [offsets_of].
    destruct (Z.eqb_spec (Z.of_N (tag_value v)) (Z.of_N (tag_value v0))) as [E'|_]; [apply N2Z.inj in E'; congruence|exact IH].
Qed.

Lemma variant_lemma vars i nm ts vs m : Forall (fun v => small (snd v)) vars -> N.of_nat (List.length vars) <= 2 ^ 32 ->
  NoDup (map fst vars) -> nth_error vars i = Some (nm, ts) -> List.length vs = List.length ts ->
  exists size m' ws, new_variant vars nm vs m = Some (size, m') /\
    release_object (release_enum vars) m' = Freed ws size /\ selected pointer_type ts vs ws.
Proof.
  intros Hs Hn Hd Hi Hl.
  set (nv := map (fun v => (fst v, map native (snd v))) vars).
  assert (Hfit : Forall variant_fits nv).
  { unfold nv. rewrite Forall_map. eapply Forall_impl; [|exact Hs]. intros [n0 t0] H. cbn [fst snd] in *.
    apply small_variant_fits. unfold small in *. rewrite map_length. exact H. }
  assert (Hn' : N.of_nat (List.length nv) <= 2 ^ 32) by (unfold nv; rewrite map_length; exact Hn).
  assert (Hd' : NoDup (map fst nv)) by (unfold nv; rewrite map_map; exact Hd).
  assert (Hi' : nth_error nv i = Some (nm, map native ts)) by (unfold nv; rewrite nth_error_map, Hi; reflexivity).
  destruct (find_variant_lemma nv Hfit Hn' Hd' i nm _ Hi') as (v & F1 & F2 & F3).
  pose proof (enum_layout_lemma nv Hfit Hn') as L. cbv zeta in L. destruct L as (L1 & L2 & L3 & L4 & L5 & L6).
  pose proof (tags_distinct_enum nv Hfit Hn') as Hdist.
  set (l := compute_enum_layout nv) in *.
  assert (El : enum_layout_of vars = l) by reflexivity.
  set (base := fields_offset l) in *.
  set (m' := stores (store m 0 (Z.of_N (tag_value v))) (map (fun o => base + o) (v_offsets v)) vs).
  exists (e_total_size l + RC_HEADER_SIZE), m'. eexists.
  destruct (L6 i nm _ Hi') as (v' & V1 & V2 & V3 & V4 & V5). rewrite F2 in V1. injection V1 as <-.
  destruct (placed_nodup _ _ _ _ V4) as [Pd Pl]. rewrite map_length in Pl.
  split.
  - unfold new_variant. rewrite El. rewrite F1. reflexivity.
  - pose proof (release_enum_run vars m') as R. cbv zeta in R. rewrite El in R. fold base in R. split; [exact R|].
    assert (Hb : base = 8) by (unfold base, l, compute_enum_layout; destruct (layout_variants 0 0 8 nv) as [[? ?] ?]; reflexivity).
    assert (Hm0 : m' 0 = Z.of_N (tag_value v)).
    { unfold m'. rewrite stores_other; [reflexivity|]. intros H. apply in_map_iff in H as (o & Ho & _). lia. }
    rewrite Hm0.
    rewrite (offsets_of_variant base vars (variants l) i nm ts v).
    + apply variant_offsets_selected; [exact Pl|].
      assert (G : Forall2 (fun o w => m' o = w) (map (fun o => base + o) (v_offsets v)) vs).
      { apply stores_read; [|rewrite map_length; lia]. apply FinFun.Injective_map_NoDup; [|exact Pd]. intros a b E. lia. }
      clearbody m'. remember (v_offsets v) as offs eqn:E. clear - G. revert vs G. induction offs as [|o offs IH]; intros vs G; inversion G; subst; constructor; auto.
    + apply NoDup_nth_error. intros a b Ha E. rewrite map_length in Ha. rewrite !nth_error_map in E.
      destruct (nth_error (variants l) a) as [x|] eqn:Ea; [|apply nth_error_None in Ea; lia].
      destruct (nth_error (variants l) b) as [y|] eqn:Eb; [|discriminate]. cbn in E. injection E as E.
      exact (Hdist a b x y Ea Eb E).
    + rewrite L5. unfold nv. apply map_length.
    + exact Hi.
    + exact F2.
Qed.

(** ** Declared types *)

Lemma selected_iff {T U} (f : U -> T) (P : T -> Prop) (Q : U -> Prop) us : (forall u, In u us -> P (f u) <-> Q u) -> forall vs ws,
  selected P (map f us) vs ws -> selected Q us vs ws.
Proof.
  induction us as [|u us IH]; intros H vs ws HS; cbn [map] in HS; inversion HS; subst.
  - constructor.
  - apply selected_take; [apply H; [left; reflexivity|assumption]|assumption|]. apply IH; [|assumption]. intros x Hx. apply H. right. exact Hx.
  - apply selected_null. apply IH; [|assumption]. intros x Hx. apply H. right. exact Hx.
  - apply selected_skip; [intros Hq; match goal with H' : ~ P _ |- _ => apply H' end; apply H; [left; reflexivity|exact Hq]|].
    apply IH; [|assumption]. intros x Hx. apply H. right. exact Hx.
Qed.

Lemma field_type_cases a :
  (field_type a = anyref /\ object_annotation a) \/ (field_type a = core "bytes" /\ bytes_annotation a) \/
  ((field_type a = core "i32" \/ field_type a = core "f64" \/ field_type a = core "i1" \/ field_type a = core "nil") /\ scalar_annotation a).
Proof.
  unfold object_annotation, bytes_annotation, scalar_annotation.
  induction a as [n| |c IH|]; cbn [field_type head_name].
  - repeat match goal with |- context [String.eqb n ?s] => destruct (String.eqb_spec n s) as [->|?]; cbn [orb] end.
    all: try (right; right; split; [tauto|]; eexists; split; [reflexivity|]; cbn; tauto).
    + right. left. split; reflexivity.
    + left. split; [reflexivity|]. split; [intros (s & E & H)|congruence]. injection E as <-. cbn in H.
      repeat (destruct H as [H|H]; [congruence|]). exact H.
  - left. split; [reflexivity|]. split; [intros (s & E & _)|]; discriminate.
  - exact IH.
  - left. split; [reflexivity|]. split; [intros (s & E & _)|]; discriminate.
Qed.

Lemma declared_pointer a : pointer_type (field_type a) <-> bytes_annotation a.
Proof.
  rewrite <- native_ptr_spec. destruct (field_type_cases a) as [[-> H]|[[-> H]|[Hc H]]].
  - split; [discriminate|]. intros E. destruct H as [_ H]. contradiction.
  - split; auto.
  - split.
    + destruct Hc as [-> | [-> | [-> | ->]]]; discriminate.
    + unfold bytes_annotation. destruct H as (n & E & Hn). rewrite E. intros E'. injection E' as ->. cbn in Hn.
      repeat (destruct Hn as [Hn|Hn]; [discriminate|]). destruct Hn.
Qed.

Lemma retained_declared anns : forall vs, List.length vs = List.length anns ->
  selected object_annotation anns vs (retained (map field_type anns) vs).
Proof.
  induction anns as [|a anns IH]; intros [|v vs] Hl; cbn in Hl; try discriminate; [constructor|].
  cbn [map retained]. specialize (IH vs ltac:(lia)). destruct (field_type_cases a) as [[-> H]|[[-> H]|[Hc H]]].
  - cbn [native convert_type is_anyref_type]. change (is_anyref_type (native anyref)) with true. cbn [andb].
    destruct (Z.eqb_spec v 0) as [->|Hv]; cbn [negb].
    + apply selected_null. exact IH.
    + apply selected_take; assumption.
  - change (is_anyref_type (native (core "bytes"))) with false. cbn [andb]. apply selected_skip; [|exact IH]. intros [_ H']. contradiction.
  - assert (E : is_anyref_type (native (field_type a)) = false) by (destruct Hc as [-> | [-> | [-> | ->]]]; reflexivity).
    rewrite E. cbn [andb]. apply selected_skip; [|exact IH]. intros [H' _]. contradiction.
Qed.

Lemma selected_none {T} (P : T -> Prop) ts : (forall t, In t ts -> ~ P t) -> forall vs ws, selected P ts vs ws -> ws = [].
Proof.
  intros H vs ws HS. induction HS; auto.
  - exfalso. eapply H; [left; reflexivity|eassumption].
  - apply IHHS. intros x Hx. apply H. right. exact Hx.
  - apply IHHS. intros x Hx. apply H. right. exact Hx.
Qed.

(** ** Indices *)

Definition rinv (seen : list nat) (r : rtti_map) : Prop :=
  NoDup (map fst (type_to_idx r)) /\ NoDup (map snd (type_to_idx r)) /\
  (forall t, In t (map fst (type_to_idx r)) <-> In t seen) /\
  (forall t i, In (t, i) (type_to_idx r) -> RTTI_USER_START <= i < next_idx r) /\
  next_idx r = RTTI_USER_START + N.of_nat (List.length (type_to_idx r)).

Lemma rtti_get_in l t i : rtti_get l t = Some i -> In (t, i) l.
Proof.
  induction l as [|[u j] l IH]; cbn; [discriminate|]. destruct (Nat.eqb_spec u t) as [->|_].
  - intros H. injection H as ->. left. reflexivity.
  - intros H. right. exact (IH H).
Qed.
Lemma rtti_get_none l t : rtti_get l t = None <-> ~ In t (map fst l).
Proof.
  induction l as [|[u j] l IH]; cbn; [split; [intros _ []|reflexivity]|]. destruct (Nat.eqb_spec u t) as [->|Hn].
  - split; [discriminate|]. intros H. exfalso. apply H. left. reflexivity.
  - rewrite IH. tauto.
Qed.

Lemma insert_inv seen r t : rinv seen r -> rinv (t :: seen) (get_or_insert r t).
Proof.
  intros (I1 & I2 & I3 & I4 & I5). unfold get_or_insert. destruct (rtti_get (type_to_idx r) t) as [i|] eqn:E.
  - apply rtti_get_in in E. split; [exact I1|]. split; [exact I2|]. split; [|split; [exact I4|exact I5]].
    intros u. rewrite I3. cbn. split; [tauto|]. intros [<-|H]; [|exact H]. apply I3. apply in_map_iff. exists (t, i). auto.
  - apply rtti_get_none in E. unfold rinv. cbn [type_to_idx next_idx map fst snd]. split; [constructor; assumption|]. split.
    + constructor; [|exact I2]. intros H. apply in_map_iff in H as ([u j] & E' & H). apply I4 in H. cbn [snd] in E'. lia.
    + split; [intros u; cbn; rewrite I3; tauto|]. split; [|cbn [List.length]; lia]. intros u i [H|H].
      * injection H as <- <-. lia.
      * apply I4 in H. lia.
Qed.

Lemma collect_inv ts : forall seen r, rinv seen r -> exists seen', (forall t, In t seen' <-> In t ts \/ In t seen) /\ rinv seen' (fold_left get_or_insert ts r).
Proof.
  induction ts as [|t ts IH]; intros seen r H; cbn [fold_left].
  - exists seen. split; [cbn; tauto|exact H].
  - destruct (IH (t :: seen) _ (insert_inv seen r t H)) as (s & Hs & Hr). exists s. split; [|exact Hr].
    intros u. rewrite Hs. cbn. tauto.
Qed.

Lemma indices_lemma ts :
  let idx := rtti_get (type_to_idx (collect_types ts)) in
  (forall t, In t ts <-> exists i, idx t = Some i) /\
  (forall t i, idx t = Some i -> 32 <= i < 32 + N.of_nat (List.length ts)) /\
  (forall t u i, idx t = Some i -> idx u = Some i -> t = u).
Proof.
  intros idx. destruct (collect_inv ts [] rtti_new) as (seen & Hs & I1 & I2 & I3 & I4 & I5).
  { unfold rinv. cbn [rtti_new type_to_idx next_idx map]. split; [constructor|]. split; [constructor|]. split; [intros t; cbn; tauto|]. split; [intros t i []|reflexivity]. }
  fold (collect_types ts) in *. set (r := collect_types ts) in *.
  assert (Hin : forall t, In t (map fst (type_to_idx r)) <-> In t ts) by (intros t; rewrite I3, Hs; cbn; tauto).
  split; [|split].
  - intros t. rewrite <- Hin. unfold idx. destruct (rtti_get (type_to_idx r) t) as [i|] eqn:E.
    + split; [intros _; exists i; reflexivity|]. intros _. apply rtti_get_in in E. apply in_map_iff. exists (t, i). auto.
    + apply rtti_get_none in E. split; [contradiction|intros (i & H); discriminate].
  - intros t i H. apply rtti_get_in in H. apply I4 in H. unfold RTTI_USER_START in *.
    assert (List.length (type_to_idx r) <= List.length ts)%nat; [|lia].
    rewrite <- (map_length fst). apply NoDup_incl_length; [exact I1|]. intros x Hx. apply Hin. exact Hx.
  - intros t u i Ht Hu. apply rtti_get_in in Ht. apply rtti_get_in in Hu. clear - I2 Ht Hu.
    induction (type_to_idx r) as [|[a b] l IH]; [destruct Ht|]. cbn in I2. inversion I2 as [|x xs Hx Hn]; subst.
    destruct Ht as [Et|Ht], Hu as [Eu|Hu].
    + congruence.
    + injection Et as -> ->. exfalso. apply Hx. apply in_map_iff. exists (u, i). auto.
    + injection Eu as -> ->. exfalso. apply Hx. apply in_map_iff. exists (t, i). auto.
    + exact (IH Hn Ht Hu).
Qed.
