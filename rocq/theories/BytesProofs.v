From Verif Require Import Base BytesModel BytesSpec.
Open Scope N_scope.

(** The concrete heap represents the abstract contents. *)
Definition obj_ok (h : heap) (o : bobj) (c : list byte) : Prop :=
  blen o = size c /\
  match bptr o with
  | None => c = []
  | Some (b, off) => exists data, nth_error (bufs h) b = Some data /\
                     off + size c <= size data /\ sub data off (size c) = c
  end.
Definition heap_rep (h : heap) (cs : list (list byte)) : Prop := Forall2 (obj_ok h) (objs h) cs.

Lemma Forall2_nth_error {A B} (R : A -> B -> Prop) l1 l2 : Forall2 R l1 l2 ->
  forall i, match nth_error l1 i, nth_error l2 i with
            | Some a, Some b => R a b | None, None => True | _, _ => False end.
Proof.
  intros H. induction H as [|a b l1 l2 Hab _ IH]; intros [|i]; simpl; auto. apply IH.
Qed.

Lemma sub_length l s n : s + n <= size l -> size (sub l s n) = n.
Proof. unfold sub, size. intros H. rewrite firstn_length, skipn_length. lia. Qed.

Lemma firstn_firstn_min {A} (l : list A) n m : (n <= m)%nat -> firstn n (firstn m l) = firstn n l.
Proof. intros H. rewrite firstn_firstn. f_equal. lia. Qed.

Lemma skipn_skipn {A} (l : list A) : forall n m, skipn n (skipn m l) = skipn (n + m) l.
Proof.
  induction l as [|a l IH]; intros n m.
  - rewrite !skipn_nil. reflexivity.
  - destruct m as [|m]; [rewrite Nat.add_0_r; reflexivity|].
    rewrite Nat.add_succ_r. cbn [skipn]. apply IH.
Qed.

Lemma skipn_firstn {A} (l : list A) : forall n m, skipn n (firstn m l) = firstn (m - n) (skipn n l).
Proof.
  induction l as [|a l IH]; intros n m.
  - rewrite firstn_nil, !skipn_nil, firstn_nil. reflexivity.
  - destruct n as [|n]; destruct m as [|m]; cbn [skipn firstn]; try reflexivity.
    + rewrite Nat.sub_succ. apply IH.
Qed.

Lemma sub_sub l o n s m : s + m <= n -> sub (sub l o n) s m = sub l (o + s) m.
Proof.
  unfold sub. intros H. rewrite skipn_firstn, firstn_firstn_min, skipn_skipn by lia.
  f_equal. f_equal. lia.
Qed.

Lemma sub_all l : sub l 0 (size l) = l.
Proof. unfold sub, size. cbn [N.to_nat]. rewrite Nnat.Nat2N.id. apply firstn_all. Qed.

Lemma sub_nil s n : sub [] s n = [].
Proof. unfold sub. rewrite skipn_nil, firstn_nil. reflexivity. Qed.

Lemma sub_zero l s : sub l s 0 = [].
Proof. reflexivity. Qed.

Lemma mem_read_ok h o c : obj_ok h o c -> mem_read h (bptr o) (blen o) = Some c.
Proof.
  intros [Hl Hp]. unfold mem_read. destruct (bptr o) as [[b off]|].
  - destruct Hp as (data & Hd & Hb & Hs). rewrite Hd, Hl. fold (size data).
    destruct (N.leb_spec (off + size c) (size data)) as [_|Hbad]; [|lia].
    f_equal. exact Hs.
  - subst c. rewrite Hl. reflexivity.
Qed.

Lemma mem_read_range h o c s n : obj_ok h o c -> s + n <= size c -> n <> 0 ->
  mem_read h (ptr_add (bptr o) s) n = Some (sub c s n).
Proof.
  intros [Hl Hp] Hr Hn. unfold mem_read, ptr_add. destruct (bptr o) as [[b off]|].
  - destruct Hp as (data & Hd & Hb & Hs). rewrite Hd. fold (size data).
    destruct (N.leb_spec (off + s + n) (size data)) as [_|Hbad]; [|lia].
    f_equal. rewrite <- Hs. rewrite sub_sub by exact Hr. reflexivity.
  - subst c. unfold size in Hr. cbn in Hr. lia.
Qed.

Lemma obj_ok_more_bufs h o c data objs' :
  obj_ok h o c -> obj_ok {| bufs := bufs h ++ [data]; objs := objs' |} o c.
Proof.
  intros [Hl Hp]. split; [exact Hl|]. destruct (bptr o) as [[b off]|]; [|exact Hp].
  destruct Hp as (d & Hd & Hb & Hs). exists d. split; [|split; assumption].
  cbn [bufs]. rewrite nth_error_app1; [exact Hd | apply nth_error_Some; congruence].
Qed.

Lemma obj_ok_objs h o c objs' : obj_ok h o c -> obj_ok {| bufs := bufs h; objs := objs' |} o c.
Proof. intros H. exact H. Qed.

Lemma Forall2_impl {A B} (R R' : A -> B -> Prop) l1 l2 :
  (forall a b, R a b -> R' a b) -> Forall2 R l1 l2 -> Forall2 R' l1 l2.
Proof. intros Hi H. induction H; constructor; auto. Qed.

Lemma rep_new_buf h cs c : heap_rep h cs -> c <> [] ->
  heap_rep (new_obj (fst (new_buf h c)) (snd (new_buf h c)) (size c)) (cs ++ [c]).
Proof.
  intros H Hc. unfold heap_rep, new_obj, new_buf in *. cbn [fst snd bufs objs].
  apply Forall2_app.
  - eapply Forall2_impl; [|exact H]. intros o x Ho. apply obj_ok_more_bufs. exact Ho.
  - constructor; [|constructor]. split; [reflexivity|]. cbn [bptr].
    exists c. cbn [bufs]. rewrite nth_error_app2, Nat.sub_diag by lia.
    split; [reflexivity|]. split; [lia|]. apply sub_all.
Qed.

Lemma rep_new_empty h cs : heap_rep h cs -> heap_rep (new_obj h None 0) (cs ++ [[]]).
Proof.
  intros H. unfold heap_rep, new_obj in *. cbn [objs]. apply Forall2_app; [exact H|].
  constructor; [|constructor]. split; reflexivity.
Qed.

Lemma size_app x y : size (x ++ y) = size x + size y.
Proof. unfold size. rewrite app_length. lia. Qed.

Lemma size_zero x : size x = 0 -> x = [].
Proof. unfold size. destruct x; cbn [length]; [reflexivity | lia]. Qed.

Lemma copy_part_ok h o c : obj_ok h o c -> copy_part h o = Some c.
Proof.
  intros Ho. pose proof Ho as [Hl Hp]. unfold copy_part.
  destruct (N.eqb_spec (blen o) 0) as [E|E].
  - rewrite Hl in E. apply size_zero in E. subst c. reflexivity.
  - destruct (bptr o) as [p|] eqn:Ep.
    + rewrite <- Ep. apply mem_read_ok. exact Ho.
    + subst c. cbn in Hl. lia.
Qed.

Lemma update_nth_rep h objs0 cs a : Forall2 (obj_ok h) objs0 cs ->
  Forall2 (obj_ok h) (update_nth objs0 a retain_obj) cs.
Proof.
  intros H. revert a. induction H as [|o c l1 l2 Ho Hl IH]; intros a; cbn [update_nth].
  - constructor.
  - destruct a as [|a]; constructor; auto.
    all: first [exact Ho | assumption | apply IH].
Qed.

Lemma bstep_refines h cs o : heap_rep h cs ->
  match bstep h o, sstep cs o with
  | Ret h', Ret cs' => heap_rep h' cs'
  | Abort, Abort => True
  | UB, UB => True
  | _, _ => False
  end.
Proof.
  intros H. pose proof (Forall2_nth_error _ _ _ H) as Hn. destruct o as [c|a b|a s e]; cbn [bstep sstep].
  - unfold allocate_bytes. destruct c as [|x c].
    + cbn. apply rep_new_empty. exact H.
    + fold (size (x :: c)). destruct (N.ltb_spec MAX_ALLOC (size (x :: c))) as [_|_]; [exact I|].
      apply (rep_new_buf h cs (x :: c) H). discriminate.
  - unfold bytes_concat. pose proof (Hn a) as Ha. pose proof (Hn b) as Hb.
    destruct (nth_error (objs h) a) as [oa|], (nth_error cs a) as [x|]; try contradiction; [|exact I].
    destruct (nth_error (objs h) b) as [ob|], (nth_error cs b) as [y|]; try contradiction; [|exact I].
    pose proof Ha as [Hla _]. pose proof Hb as [Hlb _].
    rewrite Hla, Hlb, <- size_app.
    destruct (N.leb_spec (2 ^ 64) (size (x ++ y))) as [Hov|Hov].
    + destruct (N.ltb_spec MAX_ALLOC (size (x ++ y))) as [_|Hm]; [exact I|].
      unfold MAX_ALLOC in Hm. lia.
    + destruct (N.ltb_spec 0 (size (x ++ y))) as [Hpos|Hz].
      * destruct (N.ltb_spec MAX_ALLOC (size (x ++ y))) as [_|_]; [exact I|].
        rewrite (copy_part_ok _ _ _ Ha), (copy_part_ok _ _ _ Hb).
        apply (rep_new_buf h cs (x ++ y) H). intros E. rewrite E in Hpos. cbn in Hpos. lia.
      * assert (Hnil : size (x ++ y) = 0) by lia. pose proof (size_zero _ Hnil) as E.
        rewrite E in *. cbn. apply rep_new_empty. exact H.
  - unfold bytes_slice. pose proof (Hn a) as Ha.
    destruct (nth_error (objs h) a) as [oa|], (nth_error cs a) as [x|]; try contradiction; [|exact I].
    pose proof Ha as [Hla Hpa]. rewrite Hla.
    destruct (N.ltb_spec e s) as [Hes|Hes]; destruct (N.leb_spec s e) as [Hse|Hse]; try lia; cbn [orb andb].
    + exact I.
    + destruct (N.ltb_spec (size x) e) as [He|He]; destruct (N.leb_spec e (size x)) as [He'|He']; try lia.
      * unfold heap_rep, new_obj. cbn [objs bufs]. apply Forall2_app.
        -- apply (update_nth_rep h). exact H.
        -- constructor; [|constructor]. split; cbn [blen bptr].
           ++ rewrite sub_length by lia. reflexivity.
           ++ destruct (N.ltb_spec 0 (e - s)) as [Hpos|Hz].
              ** destruct (bptr oa) as [[b off]|].
                 --- destruct Hpa as (data & Hd & Hb & Hs). exists data. cbn [bufs].
                     split; [exact Hd|]. rewrite sub_length by lia. split; [lia|].
                     rewrite <- Hs. rewrite sub_sub by lia. reflexivity.
                 --- subst x. apply sub_nil.
              ** replace (e - s) with 0 by lia. apply sub_zero.
Qed.

Lemma brun_refines ops : forall h cs, heap_rep h cs ->
  match brun h ops, srun cs ops with
  | Ret h', Ret cs' => heap_rep h' cs'
  | Abort, Abort => True
  | UB, UB => True
  | _, _ => False
  end.
Proof.
  induction ops as [|o ops IH]; intros h cs H; cbn [brun srun]; [exact H|].
  pose proof (bstep_refines h cs o H) as Hs.
  destruct (bstep h o), (sstep cs o); try contradiction; try exact I. apply IH. exact Hs.
Qed.

Lemma rep_empty : heap_rep heap_empty [].
Proof. constructor. Qed.

Lemma bytes_refine_lists_lemma ops :
  match brun heap_empty ops, srun [] ops with
  | Ret h, Ret cs => length (objs h) = length cs /\
                     forall i, content_of h i = nth_error cs i
  | Abort, Abort => True
  | UB, UB => True
  | _, _ => False
  end.
Proof.
  pose proof (brun_refines ops _ _ rep_empty) as H.
  destruct (brun heap_empty ops) as [h| |], (srun [] ops) as [cs| |]; try contradiction; try exact I.
  split; [exact (Forall2_len _ _ _ H)|].
  intros i. pose proof (Forall2_nth_error _ _ _ H i) as Hi. unfold content_of.
  destruct (nth_error (objs h) i) as [o|], (nth_error cs i) as [c|]; try contradiction; [|reflexivity].
  apply mem_read_ok. exact Hi.
Qed.

Lemma rep_of_run ops h : brun heap_empty ops = Ret h -> exists cs, srun [] ops = Ret cs /\ heap_rep h cs.
Proof.
  intros E. pose proof (brun_refines ops _ _ rep_empty) as H. rewrite E in H.
  destruct (srun [] ops) as [cs| |]; try contradiction. exists cs. split; [reflexivity | exact H].
Qed.

Lemma rep_obj h cs i c : heap_rep h cs -> content_of h i = Some c ->
  exists o, nth_error (objs h) i = Some o /\ obj_ok h o c.
Proof.
  intros H Hc. unfold content_of in Hc. pose proof (Forall2_nth_error _ _ _ H i) as Hi.
  destruct (nth_error (objs h) i) as [o|]; [|discriminate].
  destruct (nth_error cs i) as [c'|]; [|contradiction].
  rewrite (mem_read_ok _ _ _ Hi) in Hc. inv Hc. exists o. split; [reflexivity | exact Hi].
Qed.

Lemma bytes_len_lemma ops h i c :
  brun heap_empty ops = Ret h -> content_of h i = Some c ->
  bytes_len h i = Ret (size c mod 2 ^ 32).
Proof.
  intros Hr Hc. apply rep_of_run in Hr as (cs & _ & H).
  destruct (rep_obj h cs i c H Hc) as (o & Ho & [Hl _]).
  unfold bytes_len. rewrite Ho, Hl. reflexivity.
Qed.

Lemma list_eqb_spec l1 : forall l2, list_eqb l1 l2 = true <-> l1 = l2.
Proof.
  induction l1 as [|x l1 IH]; intros [|y l2]; cbn [list_eqb].
  - tauto.
  - split; discriminate.
  - split; discriminate.
  - rewrite andb_true_iff, Z.eqb_eq, IH. split.
    + intros [-> ->]. reflexivity.
    + intros E. inv E. split; reflexivity.
Qed.

Lemma range_equal_lemma ops h i j ci cj si sj n :
  brun heap_empty ops = Ret h -> content_of h i = Some ci -> content_of h j = Some cj ->
  si < 2 ^ 32 -> sj < 2 ^ 32 -> n < 2 ^ 32 ->
  exists r, bytes_range_equal h i si j sj n = Ret r /\ (r = 0 \/ r = 1) /\
    (r = 1 <-> si + n <= size ci /\ sj + n <= size cj /\ sub ci si n = sub cj sj n).
Proof.
  intros Hr Hi Hj Bi Bj Bn. apply rep_of_run in Hr as (cs & _ & H).
  destruct (rep_obj h cs i ci H Hi) as (oi & Hoi & Hki).
  destruct (rep_obj h cs j cj H Hj) as (oj & Hoj & Hkj).
  pose proof Hki as [Hli _]. pose proof Hkj as [Hlj _].
  unfold bytes_range_equal. rewrite Hoi, Hoj.
  destruct (N.leb_spec (2 ^ 64) (si + n)) as [Hb|_]; [lia|].
  destruct (N.leb_spec (2 ^ 64) (sj + n)) as [Hb|_]; [lia|].
  rewrite Hli, Hlj.
  destruct (N.ltb_spec (size ci) (si + n)) as [Hc|Hc]; cbn [orb].
  { exists 0. split; [reflexivity|]. split; [left; reflexivity|]. split; [discriminate|]. lia. }
  destruct (N.ltb_spec (size cj) (sj + n)) as [Hd|Hd].
  { exists 0. split; [reflexivity|]. split; [left; reflexivity|]. split; [discriminate|]. lia. }
  destruct (N.eqb_spec n 0) as [->|Hn].
  { exists 1. split; [reflexivity|]. split; [right; reflexivity|]. rewrite !sub_zero. split; [|reflexivity].
    intros _. split; [lia|]. split; [lia | reflexivity]. }
  rewrite (mem_read_range _ _ _ _ _ Hki Hc Hn), (mem_read_range _ _ _ _ _ Hkj Hd Hn).
  destruct (list_eqb (sub ci si n) (sub cj sj n)) eqn:E.
  - apply list_eqb_spec in E. exists 1. split; [reflexivity|]. split; [right; reflexivity|].
    split; [intros _; split; [exact Hc|]; split; [exact Hd | exact E] | reflexivity].
  - exists 0. split; [reflexivity|]. split; [left; reflexivity|].
    split; [discriminate|]. intros (_ & _ & E'). apply list_eqb_spec in E'. congruence.
Qed.

(** Reference counts: 1 plus the slices taken from the value. *)
Lemma nth_update_nth {A} (l : list A) (f : A -> A) : forall a i,
  nth_error (update_nth l a f) i =
  if Nat.eqb a i then option_map f (nth_error l i) else nth_error l i.
Proof.
  induction l as [|x l IH]; intros a i; cbn [update_nth].
  - destruct i; destruct (Nat.eqb a _); reflexivity.
  - destruct a as [|a]; destruct i as [|i]; cbn [nth_error Nat.eqb]; try reflexivity. apply IH.
Qed.

Lemma length_update_nth {A} (l : list A) (f : A -> A) : forall a, length (update_nth l a f) = length l.
Proof. induction l as [|x l IH]; intros [|a]; cbn; auto. Qed.

Lemma bstep_objs h o h' : bstep h o = Ret h' ->
  exists new, refcount new = 1 /\
  objs h' = match o with OpSlice a _ _ => update_nth (objs h) a retain_obj | _ => objs h end ++ [new] /\
  (forall a s e, o = OpSlice a s e -> (a < length (objs h))%nat).
Proof.
  destruct o as [c|a b|a s e]; cbn [bstep].
  - unfold allocate_bytes. destruct c as [|x c]; [|destruct (MAX_ALLOC <? _); [discriminate|]];
      intros E; inv E; eexists; (split; [|split; [reflexivity|]]; [reflexivity | discriminate]).
  - unfold bytes_concat. destruct (nth_error (objs h) a) as [oa|]; [|discriminate].
    destruct (nth_error (objs h) b) as [ob|]; [|discriminate].
    destruct (2 ^ 64 <=? _); [discriminate|]. destruct (0 <? _).
    + destruct (MAX_ALLOC <? _); [discriminate|].
      destruct (copy_part h oa); [|discriminate]. destruct (copy_part h ob); [|discriminate].
      intros E; inv E; eexists; (split; [|split; [reflexivity|]]; [reflexivity | discriminate]).
    + intros E; inv E; eexists; (split; [|split; [reflexivity|]]; [reflexivity | discriminate]).
  - unfold bytes_slice. destruct (nth_error (objs h) a) as [oa|] eqn:Ea; [|discriminate].
    destruct (_ || _); [discriminate|]. intros E; inv E. eexists.
    split; [|split; [reflexivity|]]; [reflexivity|].
    intros a' s' e' E. inv E. apply nth_error_Some. congruence.
Qed.

Lemma refcount_counts ops : forall h h', brun h ops = Ret h' ->
  (length (objs h) <= length (objs h'))%nat /\
  forall i o', nth_error (objs h') i = Some o' ->
    match nth_error (objs h) i with
    | Some o => refcount o < 2 ^ 32 -> refcount o' = (refcount o + slices_of i ops) mod 2 ^ 32
    | None => (length (objs h) <= i)%nat -> refcount o' = (1 + slices_of i ops) mod 2 ^ 32
    end.
Proof.
  induction ops as [|op ops IH]; intros h h' H; cbn [brun] in H.
  - inv H. split; [lia|]. intros i o' E. rewrite E. intros Hb. cbn [slices_of].
    rewrite N.add_0_r. symmetry. apply N.mod_small. exact Hb.
  - destruct (bstep h op) as [h1| |] eqn:E1; try discriminate.
    destruct (bstep_objs _ _ _ E1) as (new & Hnew & Hobjs & Hin).
    assert (Hlen : length (objs h1) = S (length (objs h))).
    { rewrite Hobjs, app_length. cbn. destruct op; rewrite ?length_update_nth; lia. }
    destruct (IH _ _ H) as [IHl IHc]. split; [lia|].
    intros i o' Ei. specialize (IHc i o' Ei).
    assert (Hstep : slices_of i (op :: ops) =
              match op with OpSlice a _ _ => (if Nat.eqb a i then 1 else 0) | _ => 0 end + slices_of i ops).
    { destruct op; cbn [slices_of]; lia. }
    rewrite Hstep.
    destruct (Nat.lt_ge_cases i (length (objs h))) as [Hlt|Hge].
    + destruct (nth_error (objs h) i) as [o|] eqn:Eo.
      2:{ apply nth_error_None in Eo. lia. }
      intros Hb. rewrite Hobjs in IHc.
      rewrite nth_error_app1 in IHc by (destruct op; rewrite ?length_update_nth; lia).
      destruct op as [c|a b|a s e].
      * rewrite Eo in IHc. rewrite (IHc Hb). reflexivity.
      * rewrite Eo in IHc. rewrite (IHc Hb). reflexivity.
      * rewrite nth_update_nth, Eo in IHc. destruct (Nat.eqb a i).
        -- cbn [option_map] in IHc. unfold retain_obj in IHc; cbn [refcount] in IHc.
           rewrite IHc by (apply N.mod_lt; lia).
           rewrite N.add_mod_idemp_l by lia. f_equal. lia.
        -- rewrite (IHc Hb). reflexivity.
    + destruct (nth_error (objs h) i) as [o|] eqn:Eo.
      { assert (nth_error (objs h) i = None) by (apply nth_error_None; lia). congruence. }
      intros _.
      assert (Hz : match op with OpSlice a _ _ => (if Nat.eqb a i then 1 else 0) | _ => 0 end = 0).
      { destruct op as [c|a b|a s e]; try reflexivity.
        specialize (Hin a s e eq_refl). destruct (Nat.eqb_spec a i); [lia | reflexivity]. }
      rewrite Hz. destruct (Nat.eq_dec i (length (objs h))) as [Heq|Hne].
      * rewrite Hobjs in IHc.
        assert (Hl : length (match op with OpSlice a _ _ => update_nth (objs h) a retain_obj | _ => objs h end)
                     = length (objs h)) by (destruct op; rewrite ?length_update_nth; reflexivity).
        rewrite nth_error_app2 in IHc by lia. rewrite Hl, Heq, Nat.sub_diag in IHc. cbn [nth_error] in IHc.
        rewrite Heq. rewrite IHc; rewrite Hnew; [f_equal | lia].
      * destruct (nth_error (objs h1) i) as [o1|] eqn:Eo1.
        { assert (nth_error (objs h1) i = None) by (apply nth_error_None; lia). congruence. }
        rewrite IHc by lia. f_equal.
Qed.

Lemma slice_refcounts_lemma ops h i o :
  brun heap_empty ops = Ret h -> nth_error (objs h) i = Some o ->
  refcount o = (1 + slices_of i ops) mod 2 ^ 32.
Proof.
  intros Hr Hi. destruct (refcount_counts ops _ _ Hr) as [_ H]. specialize (H i o Hi).
  destruct i; cbn [heap_empty objs nth_error length] in H; apply H; lia.
Qed.
