(** Proofs about the evidence model. *)
From Verif Require Import Base EvidenceModel EvidenceSpec.
Open Scope Z_scope.

Definition bs_inv (ms : evidence) (target : Z) (base size : nat) : Prop :=
  (1 <= size)%nat /\ (base + size <= length ms)%nat /\
  (base = 0%nat \/ exists m, nth_error ms base = Some m /\ ability_id m <= target) /\
  (forall i m, (base + size <= i)%nat -> nth_error ms i = Some m -> target < ability_id m).

Lemma bs_loop_spec ms target : strictly_sorted ms ->
  forall fuel base size, (size <= S fuel)%nat -> bs_inv ms target base size ->
  exists b, bs_loop fuel ms target base size = Some b /\ bs_inv ms target b 1.
Proof.
  intros Hs fuel. induction fuel as [|fuel IH]; intros base size Hf Hinv;
    cbn [bs_loop]; destruct (Nat.leb_spec size 1) as [Hle|Hgt].
  - exists base. split; [reflexivity|]. destruct Hinv as [H1 H2].
    replace 1%nat with size by lia. split; assumption.
  - lia.
  - exists base. split; [reflexivity|]. destruct Hinv as [H1 H2].
    replace 1%nat with size by lia. split; assumption.
  - destruct Hinv as (H1 & H2 & H3 & H4).
    set (half := Nat.div size 2).
    assert (Hh : (1 <= half)%nat /\ (half < size)%nat) by (subst half; lia).
    destruct (nth_error ms (base + half)) as [m|] eqn:Em.
    2:{ apply nth_error_None in Em. lia. }
    apply IH; [lia|].
    destruct (Z.gtb_spec (ability_id m) target) as [Hg|Hg].
    + split; [lia|]. split; [lia|]. split; [exact H3|].
      intros i mi Hi Ei.
      destruct (Nat.eq_dec i (base + half)) as [->|Hne].
      * rewrite Em in Ei. inv Ei. lia.
      * assert (Hlt : (base + half < i)%nat) by (subst half; lia).
        pose proof (Hs _ _ _ _ Em Ei Hlt). lia.
    + split; [lia|]. split; [lia|]. split.
      * right. exists m. split; [exact Em | lia].
      * intros i mi Hi Ei. apply (H4 i mi); [lia | exact Ei].
Qed.

(** What the search returns on sorted input. *)
Lemma binary_search_spec ms target : strictly_sorted ms ->
  match binary_search ms target with
  | BsOk i => exists m, nth_error ms i = Some m /\ ability_id m = target
  | BsErr p => (p <= length ms)%nat /\
               (forall i m, (i < p)%nat -> nth_error ms i = Some m -> ability_id m < target) /\
               (forall i m, (p <= i)%nat -> nth_error ms i = Some m -> target < ability_id m)
  | BsStuck => False
  end.
Proof.
  intros Hs. destruct (Nat.eq_dec (length ms) 0) as [H0|Hn0].
  - destruct ms; [|discriminate]. cbn.
    repeat split; try lia; intros [|i] m _ E; discriminate.
  - assert (Hbs : binary_search ms target =
      match bs_loop (length ms) ms target 0 (length ms) with
      | None => BsStuck
      | Some base =>
          match nth_error ms base with
          | None => BsStuck
          | Some m => if ability_id m =? target then BsOk base
                      else if ability_id m <? target then BsErr (base + 1)
                      else BsErr base
          end
      end) by (destruct ms; [exfalso; apply Hn0; reflexivity | reflexivity]).
    rewrite Hbs. clear Hbs. set (n := length ms).
    assert (Hn : (1 <= n)%nat) by (subst n; lia).
    destruct (bs_loop_spec ms target Hs n 0%nat n)
      as (b & Eb & Hb1 & Hb2 & Hb3 & Hb4).
    + lia.
    + split; [lia|]. split; [subst n; lia|]. split; [left; reflexivity|].
      intros i m Hi Ei. exfalso.
      assert (nth_error ms i = None) by (apply nth_error_None; subst n; lia). congruence.
    + rewrite Eb. destruct (nth_error ms b) as [mb|] eqn:Emb.
      2:{ apply nth_error_None in Emb. lia. }
      destruct (Z.eqb_spec (ability_id mb) target) as [He|Hne].
      * exists mb. split; [exact Emb | exact He].
      * destruct (Z.ltb_spec (ability_id mb) target) as [Hl|Hg].
        -- split; [lia|]. split.
           ++ intros i m Hi Ei. destruct (Nat.eq_dec i b) as [->|Hib].
              ** rewrite Emb in Ei. inv Ei. exact Hl.
              ** assert (Hlt : (i < b)%nat) by lia.
                 pose proof (Hs _ _ _ _ Ei Emb Hlt). lia.
           ++ intros i m Hi Ei. apply (Hb4 i m); [lia | exact Ei].
        -- assert (Hb0 : b = 0%nat).
           { destruct Hb3 as [H0|(m' & Em' & Hm')]; [exact H0|].
             assert (m' = mb) by congruence. subst m'. lia. }
           subst b. split; [lia|]. split; [intros; lia|].
           intros i m Hi Ei. destruct (Nat.eq_dec i 0) as [->|Hi0].
           ++ rewrite Emb in Ei. inv Ei. lia.
           ++ apply (Hb4 i m); [lia | exact Ei].
Qed.

Lemma nth_vec_insert {A} (l : list A) p x i : (p <= length l)%nat ->
  nth_error (vec_insert l p x) i =
  if (i <? p)%nat then nth_error l i
  else if (i =? p)%nat then Some x else nth_error l (i - 1).
Proof.
  intros Hp. unfold vec_insert.
  destruct (Nat.ltb_spec i p) as [Hi|Hi].
  - rewrite nth_error_app1 by (rewrite firstn_length; lia). apply nth_error_firstn. exact Hi.
  - rewrite nth_error_app2 by (rewrite firstn_length; lia).
    rewrite firstn_length, Nat.min_l by exact Hp.
    destruct (Nat.eqb_spec i p) as [->|Hne].
    + rewrite Nat.sub_diag. reflexivity.
    + destruct (i - p)%nat as [|k] eqn:Ek; [lia|]. cbn [nth_error].
      rewrite nth_error_skipn. f_equal. lia.
Qed.

Lemma nth_vec_set {A} (l : list A) p x i : (p < length l)%nat ->
  nth_error (vec_set l p x) i = if (i =? p)%nat then Some x else nth_error l i.
Proof.
  intros Hp. unfold vec_set.
  destruct (Nat.eqb_spec i p) as [->|Hne].
  - rewrite nth_error_app2 by (rewrite firstn_length; lia).
    rewrite firstn_length, Nat.min_l by lia. rewrite Nat.sub_diag. reflexivity.
  - destruct (Nat.lt_ge_cases i p) as [Hi|Hi].
    + rewrite nth_error_app1 by (rewrite firstn_length; lia). apply nth_error_firstn. exact Hi.
    + rewrite nth_error_app2 by (rewrite firstn_length; lia).
      rewrite firstn_length, Nat.min_l by lia.
      destruct (i - p)%nat as [|k] eqn:Ek; [lia|]. cbn [nth_error].
      rewrite nth_error_skipn. f_equal. lia.
Qed.

Lemma extend_sorted ev m : strictly_sorted ev -> strictly_sorted (evidence_extend ev m).
Proof.
  intros Hs. pose proof (binary_search_spec _ (ability_id m) Hs) as Hb.
  unfold evidence_extend. destruct (binary_search ev (ability_id m)) as [p|p|].
  - destruct Hb as (mo & Emo & Hid).
    assert (Hp : (p < length ev)%nat) by (apply nth_error_Some; congruence).
    intros i j a b Ea Eb Hij. rewrite nth_vec_set in Ea, Eb by exact Hp.
    destruct (Nat.eqb_spec i p) as [->|Hi]; destruct (Nat.eqb_spec j p) as [->|Hj].
    + lia.
    + inv Ea. rewrite <- Hid. exact (Hs _ _ _ _ Emo Eb Hij).
    + inv Eb. rewrite <- Hid. exact (Hs _ _ _ _ Ea Emo Hij).
    + exact (Hs _ _ _ _ Ea Eb Hij).
  - destruct Hb as (Hp & Hlo & Hhi).
    intros i j a b Ea Eb Hij. rewrite nth_vec_insert in Ea, Eb by exact Hp.
    destruct (Nat.ltb_spec i p) as [Hi|Hi]; destruct (Nat.ltb_spec j p) as [Hj|Hj].
    + exact (Hs _ _ _ _ Ea Eb Hij).
    + pose proof (Hlo _ _ Hi Ea).
      destruct (Nat.eqb_spec j p) as [->|Hjp].
      * inv Eb. lia.
      * assert (target_lt : ability_id m < ability_id b) by (apply (Hhi (j - 1)%nat); [lia | exact Eb]).
        lia.
    + lia.
    + destruct (Nat.eqb_spec i p) as [->|Hip]; destruct (Nat.eqb_spec j p) as [->|Hjp]; try lia.
      * inv Ea. apply (Hhi (j - 1)%nat); [lia | exact Eb].
      * apply (Hs (i - 1)%nat (j - 1)%nat); [exact Ea | exact Eb | lia].
  - destruct Hb.
Qed.

(** Lookup is characterised by membership. *)
Lemma lookup_iff ev id m : strictly_sorted ev ->
  evidence_lookup ev id = Some m <-> In m ev /\ ability_id m = id.
Proof.
  intros Hs. pose proof (binary_search_spec _ (id) Hs) as Hb.
  unfold evidence_lookup. destruct (binary_search ev id) as [p|p|].
  - destruct Hb as (mo & Emo & Hid). rewrite Emo. split.
    + intros E. inv E. split; [exact (nth_error_In _ _ Emo) | reflexivity].
    + intros [Hin Him]. apply In_nth_error in Hin as [j Ej].
      destruct (Nat.lt_trichotomy p j) as [H|[->|H]].
      * pose proof (Hs _ _ _ _ Emo Ej H). lia.
      * congruence.
      * pose proof (Hs _ _ _ _ Ej Emo H). lia.
  - destruct Hb as (Hp & Hlo & Hhi). split; [discriminate|].
    intros [Hin Him]. apply In_nth_error in Hin as [j Ej].
    destruct (Nat.lt_ge_cases j p) as [H|H].
    + pose proof (Hlo _ _ H Ej). lia.
    + pose proof (Hhi _ _ H Ej). lia.
  - destruct Hb.
Qed.

Lemma extend_in ev m x : strictly_sorted ev ->
  In x (evidence_extend ev m) <-> x = m \/ (In x ev /\ ability_id x <> ability_id m).
Proof.
  intros Hs. pose proof (binary_search_spec _ (ability_id m) Hs) as Hb.
  unfold evidence_extend. destruct (binary_search ev (ability_id m)) as [p|p|].
  - destruct Hb as (mo & Emo & Hid).
    assert (Hp : (p < length ev)%nat) by (apply nth_error_Some; congruence).
    split.
    + intros Hin. apply In_nth_error in Hin as [j Ej]. rewrite nth_vec_set in Ej by exact Hp.
      destruct (Nat.eqb_spec j p) as [Hjp|Hjp].
      * inv Ej. left. reflexivity.
      * right. split; [exact (nth_error_In _ _ Ej)|]. rewrite <- Hid.
        destruct (Nat.lt_ge_cases j p) as [H|H].
        -- pose proof (Hs _ _ _ _ Ej Emo H). lia.
        -- assert (H' : (p < j)%nat) by lia. pose proof (Hs _ _ _ _ Emo Ej H'). lia.
    + intros [->|[Hin Hne]].
      * apply nth_error_In with p. rewrite nth_vec_set by exact Hp. rewrite Nat.eqb_refl. reflexivity.
      * apply In_nth_error in Hin as [j Ej]. apply nth_error_In with j.
        rewrite nth_vec_set by exact Hp.
        destruct (Nat.eqb_spec j p) as [->|Hjp]; [|exact Ej].
        rewrite Emo in Ej. inv Ej. congruence.
  - destruct Hb as (Hp & Hlo & Hhi). split.
    + intros Hin. apply In_nth_error in Hin as [j Ej]. rewrite nth_vec_insert in Ej by exact Hp.
      destruct (Nat.ltb_spec j p) as [H|H].
      * right. split; [exact (nth_error_In _ _ Ej)|]. pose proof (Hlo _ _ H Ej). lia.
      * destruct (Nat.eqb_spec j p) as [Hjp|Hjp].
        -- inv Ej. left. reflexivity.
        -- right. split; [exact (nth_error_In _ _ Ej)|].
           assert (ability_id m < ability_id x) by (apply (Hhi (j - 1)%nat); [lia | exact Ej]). lia.
    + intros [->|[Hin Hne]].
      * apply nth_error_In with p. rewrite nth_vec_insert by exact Hp.
        rewrite Nat.ltb_irrefl, Nat.eqb_refl. reflexivity.
      * apply In_nth_error in Hin as [j Ej].
        destruct (Nat.lt_ge_cases j p) as [H|H].
        -- apply nth_error_In with j. rewrite nth_vec_insert by exact Hp.
           destruct (Nat.ltb_spec j p); [exact Ej | lia].
        -- apply nth_error_In with (S j). rewrite nth_vec_insert by exact Hp.
           destruct (Nat.ltb_spec (S j) p); [lia|].
           destruct (Nat.eqb_spec (S j) p); [lia|].
           replace (S j - 1)%nat with j by lia. exact Ej.
  - destruct Hb.
Qed.

Lemma lookup_extend ev m id : strictly_sorted ev ->
  evidence_lookup (evidence_extend ev m) id =
  if ability_id m =? id then Some m else evidence_lookup ev id.
Proof.
  intros Hs. pose proof (extend_sorted _ m Hs) as Hs'.
  assert (Hopt : forall (o1 o2 : option marker),
             (forall x, o1 = Some x <-> o2 = Some x) -> o1 = o2).
  { intros [x|] [y|] H; try reflexivity.
    - symmetry. apply H. reflexivity.
    - symmetry. apply H. reflexivity.
    - apply H. reflexivity. }
  apply Hopt. intros x. rewrite lookup_iff by exact Hs'. rewrite extend_in by exact Hs.
  destruct (Z.eqb_spec (ability_id m) id) as [He|Hne].
  - split.
    + intros [[->|[_ Hx]] Hid]; [reflexivity | congruence].
    + intros E. inv E. split; [left|]; reflexivity.
  - rewrite lookup_iff by exact Hs. split.
    + intros [[->|[Hin Hx]] Hid]; [congruence | split; assumption].
    + intros [Hin Hid]. split; [right; split; [exact Hin | congruence] | exact Hid].
Qed.

(** Relation between a concrete heap and an abstract one. *)
Definition rel (ev : evidence) (hs : handlers) : Prop :=
  strictly_sorted ev /\ forall id, evidence_lookup ev id = spec_lookup hs id.

Lemma rel_empty : rel evidence_new [].
Proof. split; [intros [|i] j a b E; discriminate | reflexivity]. Qed.

Lemma rel_extend ev hs m : rel ev hs -> rel (evidence_extend ev m) (m :: hs).
Proof.
  intros [Hs Hl]. split; [apply extend_sorted; exact Hs|].
  intros id. rewrite lookup_extend by exact Hs. unfold spec_lookup; cbn [find].
  destruct (ability_id m =? id); [reflexivity | apply Hl].
Qed.

Lemma Forall2_nth {A B} (R : A -> B -> Prop) l1 l2 : Forall2 R l1 l2 ->
  forall i, match nth_error l1 i, nth_error l2 i with
            | Some a, Some b => R a b | None, None => True | _, _ => False end.
Proof.
  intros H. induction H as [|a b l1 l2 Hab _ IH]; intros [|i]; simpl; auto. apply IH.
Qed.

Lemma run_rel cs : forall heap sheap, Forall2 rel heap sheap ->
  match ffi_run heap cs, spec_run sheap cs with
  | Some h, Some s => Forall2 rel h s
  | None, None => True
  | _, _ => False
  end.
Proof.
  induction cs as [|c cs IH]; intros heap sheap H; cbn [ffi_run spec_run].
  - exact H.
  - destruct c as [|src m]; cbn [ffi_step].
    + apply IH. apply Forall2_app; [exact H|]. constructor; [exact rel_empty | constructor].
    + pose proof (Forall2_nth _ _ _ H src) as Hn.
      destruct (nth_error heap src) as [ev|], (nth_error sheap src) as [hs|]; try contradiction.
      * apply IH. apply Forall2_app; [exact H|].
        constructor; [apply rel_extend; exact Hn | constructor].
      * exact I.
Qed.

Lemma evidence_refines_spec_lemma cs heap :
  ffi_run [] cs = Some heap ->
  exists sheap, spec_run [] cs = Some sheap /\ length sheap = length heap /\
    forall p hs, nth_error sheap p = Some hs ->
    forall id, ffi_lookup heap p id = spec_lookup hs id.
Proof.
  intros Hr. pose proof (run_rel cs _ _ (Forall2_nil rel)) as H. rewrite Hr in H.
  destruct (spec_run [] cs) as [sheap|]; [|contradiction].
  exists sheap. split; [reflexivity|]. split; [symmetry; exact (Forall2_len _ _ _ H)|].
  intros p hs Hp id. unfold ffi_lookup. pose proof (Forall2_nth _ _ _ H p) as Hn. rewrite Hp in Hn.
  destruct (nth_error heap p) as [ev|]; [|contradiction]. apply Hn.
Qed.

Lemma evidence_always_sorted_lemma cs heap p ev :
  ffi_run [] cs = Some heap -> nth_error heap p = Some ev -> strictly_sorted ev.
Proof.
  intros Hr Hp. pose proof (run_rel cs _ _ (Forall2_nil rel)) as H. rewrite Hr in H.
  destruct (spec_run [] cs) as [sheap|]; [|contradiction].
  pose proof (Forall2_nth _ _ _ H p) as Hn. rewrite Hp in Hn.
  destruct (nth_error sheap p) as [hs|]; [apply Hn | contradiction].
Qed.

Lemma ffi_run_prefix cs : forall heap heap', ffi_run heap cs = Some heap' ->
  exists added, heap' = heap ++ added.
Proof.
  induction cs as [|c cs IH]; intros heap heap' H; cbn [ffi_run] in H.
  - inv H. exists []. symmetry. apply app_nil_r.
  - destruct (ffi_step heap c) as [h1|] eqn:E1; [|discriminate].
    apply IH in H as [added ->].
    assert (exists x, h1 = heap ++ [x]) as [x ->].
    { destruct c as [|src m]; cbn [ffi_step] in E1.
      - inv E1. eexists; reflexivity.
      - destruct (nth_error heap src); inv E1. eexists; reflexivity. }
    exists (x :: added). rewrite <- app_assoc. reflexivity.
Qed.

Lemma evidence_persistent_lemma cs cs' heap heap' p ev :
  ffi_run [] cs = Some heap -> ffi_run heap cs' = Some heap' ->
  nth_error heap p = Some ev -> nth_error heap' p = Some ev.
Proof.
  intros _ H Hp. apply ffi_run_prefix in H as [added ->].
  rewrite nth_error_app1; [exact Hp | apply nth_error_Some; congruence].
Qed.
