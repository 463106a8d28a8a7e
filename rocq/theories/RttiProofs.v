From Verif Require Import LayoutSpec LayoutProofs RttiModel RttiSpec.
Open Scope N_scope.
Notation core := RttiModel.core.

(** ** Regions *)

Lemma run_mono r m : forall n n' i l s, run n r m i = Freed l s -> (n <= n')%nat -> run n' r m i = Freed l s.
Proof.
  induction n as [|n IH]; intros n' i l s H Hn; [discriminate|].
  destruct n' as [|n']; [lia|]. cbn [run] in *.
  destruct (find_block r i) as [[off a b|off nx|t a b|nx|sz]|]; try discriminate.
  - eapply IH; [exact H|lia].
  - destruct (run n r m nx) as [l1 s1| |] eqn:E; try discriminate. rewrite (IH n' nx l1 s1 E); [exact H|lia].
  - eapply IH; [exact H|lia].
  - eapply IH; [exact H|lia].
  - exact H.
Qed.

Lemma run_check n r m i off a b : find_block r i = Some (Check off a b) ->
  run (S n) r m i = run n r m (if Z.eqb (m off) 0 then a else b).
Proof. intros H. cbn [run]. rewrite H. reflexivity. Qed.
Lemma run_release n r m i off nx l s : find_block r i = Some (Release off nx) -> run n r m nx = Freed l s ->
  run (S n) r m i = Freed (m off :: l) s.
Proof. intros H E. cbn [run]. rewrite H, E. reflexivity. Qed.
Lemma run_tag n r m i t a b : find_block r i = Some (Tag t a b) ->
  run (S n) r m i = run n r m (if Z.eqb (m 0) (Z.of_N t) then a else b).
Proof. intros H. cbn [run]. rewrite H. reflexivity. Qed.

Definition numbers (r : region) : list nat := map fst r.

Lemma find_in r : NoDup (numbers r) -> forall i b, In (i, b) r -> find_block r i = Some b.
Proof.
  induction r as [|[j c] r IH]; intros Hn i b Hi; [destruct Hi|]. cbn in Hn. inversion Hn as [|x xs Hj Hr]; subst.
  cbn [find_block]. destruct Hi as [E|Hi].
  - injection E as -> ->. rewrite Nat.eqb_refl. reflexivity.
  - destruct (Nat.eqb_spec j i) as [->|_].
    + exfalso. apply Hj. apply in_map_iff. exists (i, b). auto.
    + exact (IH Hr i b Hi).
Qed.

Definition nonnull (m : memory) (offs : list N) : list Z := filter (fun v => negb (Z.eqb v 0)) (map m offs).

Lemma chain_app a : forall b fresh next,
  chain (a ++ b) fresh next =
  let '(b1, s1, f1) := chain a fresh next in let '(b2, s2, f2) := chain b f1 s1 in (b1 ++ b2, s2, f2).
Proof.
  induction a as [|o a IH]; intros b fresh next; cbn [app chain].
  - destruct (chain b fresh next) as [[b2 s2] f2]. reflexivity.
  - rewrite IH. destruct (chain a (S (S fresh)) (S fresh)) as [[b1 s1] f1].
    destruct (chain b f1 s1) as [[b2 s2] f2]. reflexivity.
Qed.

Lemma chain_numbers offs : forall fresh next,
  let '(b, s, f) := chain offs fresh next in
  f = (fresh + 2 * List.length offs)%nat /\ List.length b = (2 * List.length offs)%nat /\ NoDup (numbers b) /\
  (forall i, In i (numbers b) -> (fresh <= i < f)%nat) /\ (offs = [] -> s = next).
Proof.
  induction offs as [|o offs IH]; intros fresh next; cbn [chain].
  - cbn. split; [lia|]. split; [reflexivity|]. split; [constructor|]. split; [intros i []|reflexivity].
  - specialize (IH (S (S fresh)) (S fresh)). destruct (chain offs (S (S fresh)) (S fresh)) as [[b s] f].
    destruct IH as (Hf & Hl & Hd & Hr & _). cbn [numbers map fst List.length] in *.
    split; [lia|]. split; [lia|]. split.
    + constructor; [|constructor; [|exact Hd]].
      * intros [E|E]; [lia|]. apply Hr in E. lia.
      * intros E. apply Hr in E. lia.
    + split; [|intros E; discriminate]. intros i [E|[E|E]]; [lia|lia|]. apply Hr in E. lia.
Qed.

(** Running the checks: the words that are not null, in order. *)
Lemma chain_run r m offs : forall fresh next n l s,
  let '(b, start, _) := chain offs fresh next in
  (forall i x, In (i, x) b -> find_block r i = Some x) ->
  run n r m next = Freed l s ->
  run (n + 2 * List.length offs) r m start = Freed (nonnull m (rev offs) ++ l) s.
Proof.
  induction offs as [|o offs IH]; intros fresh next n l s; cbn [chain].
  - intros _ H. cbn. rewrite Nat.add_0_r. exact H.
  - specialize (IH (S (S fresh)) (S fresh) (S (S n)) (nonnull m [o] ++ l) s).
    destruct (chain offs (S (S fresh)) (S fresh)) as [[b start] f].
    intros Hb Hrun. cbn [List.length]. replace (n + 2 * S (List.length offs))%nat with (S (S n) + 2 * List.length offs)%nat by lia.
    rewrite IH.
    + f_equal. unfold nonnull. cbn [rev]. rewrite map_app, filter_app, <- app_assoc. reflexivity.
    + intros i x Hi. apply Hb. right. right. exact Hi.
    + assert (Hc : find_block r (S fresh) = Some (Check o next fresh)) by (apply Hb; right; left; reflexivity).
      assert (Hr : find_block r fresh = Some (Release o next)) by (apply Hb; left; reflexivity).
      cbn [run]. rewrite Hc. unfold nonnull. cbn [map filter]. destruct (Z.eqb_spec (m o) 0) as [E|E]; cbn [negb app].
      * apply (run_mono r m n (S n)); [exact Hrun|lia].
      * cbn [run]. rewrite Hr, Hrun. reflexivity.
Qed.

(** ** Structs *)

Lemma release_struct_run fields m :
  let l := compute_struct_layout (map (fun f => native (snd f)) fields) in
  release_object (release_struct fields) m =
  Freed (nonnull m (struct_offsets fields (field_offsets l))) (total_size l + RC_HEADER_SIZE).
Proof.
  intros l. unfold release_struct. fold l. destruct (struct_offsets fields (field_offsets l)) as [|o offs]; [reflexivity|].
  cbn [rev]. rewrite chain_app. pose proof (chain_numbers (rev offs) 2 1) as Hn.
  pose proof (fun r n l' s' => chain_run r m (rev offs) 2 1 n l' s') as Hc.
  destruct (chain (rev offs) 2 1) as [[b1 s1] f1]. cbn [chain]. destruct Hn as (Hf & Hl & Hd & Hr & _).
  rewrite rev_length in *.
  set (d := Dealloc (total_size l + RC_HEADER_SIZE)).
  assert (E : rev (b1 ++ [(f1, Release o s1); (S f1, Check o s1 f1)]) ++ [(1%nat, d)] =
    (S f1, Check o s1 f1) :: (f1, Release o s1) :: rev b1 ++ [(1%nat, d)]).
  { rewrite rev_app_distr. reflexivity. }
  rewrite E. set (r := (0%nat, Check o s1 f1) :: (f1, Release o s1) :: rev b1 ++ [(1%nat, d)]).
  assert (Hnd : NoDup (numbers r)).
  { unfold r, numbers. cbn [map fst]. rewrite map_app, map_rev. cbn [map fst].
    assert (H1 : NoDup (rev (map fst b1) ++ [1%nat])).
    { apply NoDup_rev in Hd. unfold numbers in Hd. rewrite <- (rev_involutive (rev (map fst b1) ++ [1%nat])).
      apply NoDup_rev. rewrite rev_app_distr, rev_involutive. cbn. constructor.
      - intros H. apply Hr in H. lia.
      - rewrite <- (rev_involutive (map fst b1)). apply NoDup_rev. exact Hd. }
    assert (H2 : forall i, In i (rev (map fst b1) ++ [1%nat]) -> (1 <= i < f1)%nat).
    { intros i Hi. apply in_app_or in Hi as [Hi|[Hi|[]]]; [|lia]. apply in_rev in Hi. apply Hr in Hi. lia. }
    constructor; [|constructor; [|exact H1]].
    - intros [Hi|Hi]; [lia|]. apply H2 in Hi. lia.
    - intros Hi. apply H2 in Hi. lia. }
  assert (H1 : run 1 r m 1 = Freed [] (total_size l + RC_HEADER_SIZE)).
  { cbn [run]. rewrite (find_in r Hnd 1%nat d); [reflexivity|]. unfold r. right. right. apply in_or_app. right. left. reflexivity. }
  assert (Hstart : run (1 + 2 * List.length offs) r m s1 = Freed (nonnull m offs) (total_size l + RC_HEADER_SIZE)).
  { rewrite (Hc r 1%nat [] (total_size l + RC_HEADER_SIZE)); [rewrite app_nil_r, rev_involutive; reflexivity| |exact H1].
    intros i x Hi. apply find_in; [exact Hnd|]. unfold r. right. right. apply in_or_app. left. apply -> in_rev. exact Hi. }
  assert (Hlen : List.length r = (2 * List.length offs + 3)%nat).
  { unfold r. cbn [List.length]. rewrite app_length, rev_length. cbn [List.length]. lia. }
  unfold release_object. rewrite Hlen.
  replace (S (2 * List.length offs + 3)) with (S (S (2 + 2 * List.length offs))) by lia.
  assert (F0 : find_block r 0 = Some (Check o s1 f1)) by reflexivity.
  assert (F1 : find_block r f1 = Some (Release o s1)).
  { apply find_in; [exact Hnd|]. unfold r. right. left. reflexivity. }
  rewrite (run_check _ _ _ _ _ _ _ F0). unfold nonnull. cbn [map filter]. destruct (Z.eqb_spec (m o) 0) as [Ez|Ez]; cbn [negb].
  - eapply run_mono; [exact Hstart|lia].
  - apply (run_release _ _ _ _ _ _ _ _ F1). apply (run_mono r m _ (2 + 2 * List.length offs) s1 _ _ Hstart). lia.
Qed.

(** ** Memory *)

Lemma stores_other vs : forall m offs o, ~ In o offs -> stores m offs vs o = m o.
Proof.
  induction vs as [|v vs IH]; intros m [|x offs] o H; cbn [stores]; try reflexivity.
  rewrite IH; [|intros Hi; apply H; right; exact Hi]. unfold store. destruct (N.eqb_spec o x) as [->|_]; [|reflexivity].
  exfalso. apply H. left. reflexivity.
Qed.

Lemma stores_read offs : forall m vs, NoDup offs -> List.length vs = List.length offs ->
  Forall2 (fun o v => stores m offs vs o = v) offs vs.
Proof.
  induction offs as [|o offs IH]; intros m [|v vs] Hd Hl; cbn in Hl; try discriminate; [constructor|].
  inversion Hd as [|x xs Ho Hd']; subst. cbn [stores]. constructor.
  - rewrite stores_other by exact Ho. unfold store. rewrite N.eqb_refl. reflexivity.
  - apply IH; [exact Hd'|lia].
Qed.

Lemma placed_above fields : forall start offs limit, placed start fields offs limit -> forall o, In o offs -> start <= o.
Proof.
  induction fields as [|f fields IH]; intros start [|x offs] limit H o Ho; cbn [placed] in H; try contradiction.
  destruct H as (H1 & _ & H2). destruct Ho as [->|Ho]; [exact H1|].
  specialize (IH _ _ _ H2 o Ho). lia.
Qed.

Lemma placed_nodup fields : forall start offs limit, placed start fields offs limit ->
  NoDup offs /\ List.length offs = List.length fields.
Proof.
  induction fields as [|f fields IH]; intros start [|x offs] limit H; cbn [placed] in H; try contradiction.
  - split; [constructor|reflexivity].
  - destruct H as (_ & _ & H2). destruct (IH _ _ _ H2) as [Hd Hl]. split; [|cbn; lia].
    constructor; [|exact Hd]. intros Hx. pose proof (placed_above _ _ _ _ H2 x Hx). destruct (type_align_ok f) as [_ Hs]. lia.
Qed.

Lemma nonnull_cons m o offs : nonnull m (o :: offs) = if Z.eqb (m o) 0 then nonnull m offs else m o :: nonnull m offs.
Proof. unfold nonnull. cbn [map filter]. destruct (Z.eqb (m o) 0); reflexivity. Qed.

Lemma is_true t d n : is t d n = true <-> dialect t = d /\ tname t = n.
Proof. unfold is. rewrite andb_true_iff, !String.eqb_eq. tauto. Qed.

Lemma native_ptr_spec t : is_native_ptr t = true <-> pointer_type t.
Proof.
  unfold is_native_ptr, native, convert_type, pointer_type, pointer_types.
  destruct t as [d n]. unfold is. cbn [dialect tname].
  split.
  - intros H. repeat match type of H with
      | context [String.eqb ?a ?b] => is_var a; destruct (String.eqb_spec a b); subst; cbn in H; try discriminate
      end; cbn; auto 12.
  - intros [->|H].
    + cbn. destruct (String.eqb n "int"), (String.eqb n "nat"), (String.eqb n "bool"); reflexivity.
    + repeat (destruct H as [H|H]; [injection H as <- <-; reflexivity|]). destruct H.
Qed.

(** ** What is released *)

Definition released_field (f : string * ty) : Prop := fst f <> "func_ptr"%string /\ pointer_type (snd f).

Lemma struct_offsets_selected m fields : forall offs vs, List.length offs = List.length fields ->
  Forall2 (fun o v => m o = v) offs vs -> selected released_field fields vs (nonnull m (struct_offsets fields offs)).
Proof.
  induction fields as [|[nm t] fields IH]; intros [|o offs] vs Hl H; try discriminate; inversion H as [|? v ? vs' E H']; subst.
  - constructor.
  - cbn [struct_offsets]. cbn in Hl. specialize (IH offs vs' ltac:(lia) H').
    destruct (String.eqb_spec nm "func_ptr") as [->|Hn].
    + apply selected_skip; [|exact IH]. intros [E _]. apply E. reflexivity.
    + destruct (is_native_ptr t) eqn:Ep.
      * rewrite nonnull_cons. destruct (Z.eqb_spec (m o) 0) as [Ez|Ez].
        -- rewrite Ez. apply selected_null. exact IH.
        -- apply selected_take; [|exact Ez|exact IH]. split; [exact Hn|]. apply native_ptr_spec. exact Ep.
      * apply selected_skip; [|exact IH]. intros [_ E]. cbn in E. apply native_ptr_spec in E. congruence.
Qed.

Lemma variant_offsets_selected m base ts : forall offs vs, List.length offs = List.length ts ->
  Forall2 (fun o v => m (base + o) = v) offs vs -> selected pointer_type ts vs (nonnull m (variant_offsets base ts offs)).
Proof.
  induction ts as [|t ts IH]; intros [|o offs] vs Hl H; try discriminate; inversion H as [|? v ? vs' E H']; subst.
  - constructor.
  - cbn [variant_offsets]. cbn in Hl. specialize (IH offs vs' ltac:(lia) H'). destruct (is_native_ptr t) eqn:Ep.
    + rewrite nonnull_cons. destruct (Z.eqb_spec (m (base + o)) 0) as [Ez|Ez].
      * rewrite Ez. apply selected_null. exact IH.
      * apply selected_take; [|exact Ez|exact IH]. apply native_ptr_spec. exact Ep.
    + apply selected_skip; [|exact IH]. intros E'. apply native_ptr_spec in E'. congruence.
Qed.

(** Small types fit: eight bytes for each field. *)
Lemma placed_eights (fields : list ty) : forall k limit, 8 * (k + N.of_nat (List.length fields)) <= limit ->
  placed (8 * k) fields (map (fun i => 8 * (k + N.of_nat i)) (seq 0 (List.length fields))) limit.
Proof.
  assert (Weak : forall fields start start' offs limit, start' <= start -> placed start fields offs limit -> placed start' fields offs limit).
  { intros [|f fs] start start' [|o offs] limit Hs H; cbn [placed] in *; try contradiction; [lia|].
    destruct H as (H1 & H2 & H3). repeat split; [lia|exact H2|exact H3]. }
  induction fields as [|f fields IH]; intros k limit H; cbn [placed seq map List.length]; [cbn [List.length] in H; lia|].
  cbn [List.length] in H. split; [lia|]. split.
  - destruct (type_align_ok f) as [Ha _]. unfold align_ok in Ha.
    replace (8 * (k + N.of_nat 0)) with (8 * k) by lia.
    destruct Ha as [-> | [-> | [-> | ->]]].
    + apply N.mod_1_r.
    + replace (8 * k) with ((4 * k) * 2) by lia. apply N.mod_mul. lia.
    + replace (8 * k) with ((2 * k) * 4) by lia. apply N.mod_mul. lia.
    + rewrite N.mul_comm. apply N.mod_mul. lia.
  - apply (Weak fields (8 * (k + 1))).
    + destruct (type_align_ok f) as [_ Hs]. lia.
    + rewrite <- seq_shift, map_map. replace (map (fun x => 8 * (k + N.of_nat (S x))) (seq 0 (List.length fields)))
        with (map (fun i => 8 * (k + 1 + N.of_nat i)) (seq 0 (List.length fields))) by (apply map_ext; intros; lia).
      apply IH. lia.
Qed.

Lemma small_struct_fits (fields : list ty) : small fields -> struct_fits fields.
Proof. intros H. eexists. apply (placed_eights fields 0). unfold small in H. lia. Qed.
Lemma small_variant_fits nm (fields : list ty) : small fields -> variant_fits (nm, fields).
Proof. intros H. eexists. apply (placed_eights fields 0). cbn [snd]. unfold small in H. lia. Qed.

Lemma struct_lemma fields vs m size m' : small fields -> List.length vs = List.length fields ->
  new_struct fields vs m = (size, m') ->
  exists ws, release_object (release_struct fields) m' = Freed ws size /\ selected released_field fields vs ws.
Proof.
  intros Hs Hl H. unfold new_struct in H. injection H as <- <-.
  set (l := compute_struct_layout (map (fun f => native (snd f)) fields)).
  pose proof (release_struct_run fields (stores m (field_offsets l) vs)) as R. cbv zeta in R. fold l in R.
  eexists. split; [exact R|].
  assert (Hfit : struct_fits (map (fun f => native (snd f)) fields)).
  { apply small_struct_fits. unfold small in *. rewrite map_length. exact Hs. }
  pose proof (struct_layout_lemma _ Hfit) as L. cbv zeta in L. fold l in L. destruct L as (L & _).
  destruct (placed_nodup _ _ _ _ L) as [Hd Hlen]. rewrite map_length in Hlen.
  apply struct_offsets_selected; [exact Hlen|]. apply stores_read; [exact Hd|lia].
Qed.
