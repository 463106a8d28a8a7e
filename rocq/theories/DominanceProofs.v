From Verif Require Import Base DominanceModel DominanceSpec.

Lemma mem_In x l : mem x l = true <-> In x l.
Proof.
  unfold mem. rewrite existsb_exists. split.
  - intros [y [H E]]. apply Nat.eqb_eq in E. subst. exact H.
  - intros H. exists x. split; [exact H | apply Nat.eqb_refl].
Qed.
Lemma mem_false x l : mem x l = false <-> ~ In x l.
Proof. rewrite <- mem_In. destruct (mem x l); split; intros; congruence. Qed.

Lemma mem_cons x a l : mem x (a :: l) = Nat.eqb x a || mem x l.
Proof. reflexivity. Qed.
Lemma lsum_cons a l : list_sum (a :: l) = a + list_sum l.
Proof. reflexivity. Qed.

Lemma filter_len {A} (f : A -> bool) l : length (filter f l) <= length l.
Proof. induction l as [|a l IH]; cbn [filter length]; [lia|]. destruct (f a); cbn [length]; lia. Qed.

Lemma path_in blocks succ a l b : path blocks succ a l b -> In b blocks.
Proof. intros H; inv H; assumption. Qed.
Lemma path_last blocks succ a l b : path blocks succ a l b -> In b l.
Proof. intros H; inv H; [left; reflexivity | apply in_or_app; right; left; reflexivity]. Qed.
Lemma path_first blocks succ a l b : path blocks succ a l b -> In a l.
Proof. intros H; induction H as [|l b c H IH]; [left; reflexivity | apply in_or_app; left; exact IH]. Qed.

Section Graph.
Context (blocks : list block) (succ : block -> list block).

Definition reaches (a b : block) := exists l, path blocks succ a l b.

(** ** Reachability worklist *)
Definition todo (seen : list block) : nat :=
  list_sum (map (fun b => if mem b seen then 0 else length (succ b)) blocks).

Lemma todo_visit seen b : In b blocks -> mem b seen = false ->
  todo (b :: seen) + length (succ b) <= todo seen.
Proof.
  unfold todo. intros Hin Hs.
  assert (G : forall bs, list_sum (map (fun c => if mem c (b :: seen) then 0 else length (succ c)) bs)
             <= list_sum (map (fun c => if mem c seen then 0 else length (succ c)) bs)).
  { induction bs as [|c bs IH]; [reflexivity|]. cbn [map]. rewrite !lsum_cons, mem_cons.
    destruct (Nat.eqb c b); cbn [orb]; destruct (mem c seen); lia. }
  induction blocks as [|c bs IH]; [contradiction|].
  cbn [map]. rewrite !lsum_cons, mem_cons.
  destruct Hin as [->|Hin].
  - specialize (G bs). rewrite Hs, Nat.eqb_refl. cbn [orb]. lia.
  - specialize (IH Hin). destruct (Nat.eqb c b); cbn [orb]; destruct (mem c seen); lia.
Qed.

Lemma reach_loop_term fuel : forall pending seen, incl pending blocks ->
  length pending + todo seen <= fuel -> exists r, reach_loop fuel blocks succ pending seen = Some r.
Proof.
  induction fuel as [|fuel IH]; intros pending seen Hin Hf; destruct pending as [|b rest]; cbn [reach_loop].
  - eauto.
  - cbn [length] in Hf. lia.
  - eauto.
  - cbn [length] in Hf. destruct (mem b seen) eqn:E.
    + apply IH; [|lia]. intros x Hx; apply Hin; right; exact Hx.
    + apply IH.
      * intros x Hx. apply in_app_or in Hx. destruct Hx as [Hx|Hx]; [|apply Hin; right; exact Hx].
        apply in_rev in Hx. apply filter_In in Hx. apply mem_In. apply Hx.
      * assert (Hb : In b blocks) by (apply Hin; left; reflexivity).
        pose proof (todo_visit seen b Hb E). rewrite app_length, rev_length.
        pose proof (filter_len (fun s => mem s blocks) (succ b)). lia.
Qed.

Lemma reach_loop_inv entry fuel : forall pending seen r,
  reach_loop fuel blocks succ pending seen = Some r ->
  (forall b, In b pending -> reaches entry b) -> (forall b, In b seen -> reaches entry b) ->
  NoDup seen ->
  (forall b c, In b seen -> In c (succ b) -> In c blocks -> In c seen \/ In c pending) ->
  NoDup r /\ (forall b, In b r -> reaches entry b) /\
  (forall b c, In b r -> In c (succ b) -> In c blocks -> In c r) /\
  (forall b, In b seen \/ In b pending -> In b r).
Proof.
  induction fuel as [|fuel IH]; intros pending seen r H Hp Hs Hnd Hcl; destruct pending as [|b rest]; cbn [reach_loop] in H.
  1,3: injection H as <-; repeat split; auto;
    [intros b c Hb Hc Hin; destruct (Hcl b c Hb Hc Hin) as [?|[]]; assumption | intros b [?|[]]; assumption].
  { discriminate. }
  destruct (mem b seen) eqn:E.
  - apply mem_In in E. destruct (IH _ _ _ H) as (A & B & C & D).
    + intros x Hx; apply Hp; right; exact Hx.
    + exact Hs.
    + exact Hnd.
    + intros x c Hx Hc Hin. destruct (Hcl x c Hx Hc Hin) as [?|[<-|?]]; auto.
    + repeat split; auto. intros x [Hx|[<-|Hx]]; apply D; auto.
  - apply mem_false in E. destruct (IH _ _ _ H) as (A & B & C & D).
    + intros x Hx. apply in_app_or in Hx. destruct Hx as [Hx|Hx]; [|apply Hp; right; exact Hx].
      apply in_rev, filter_In in Hx. destruct Hx as [Hx1 Hx2]. apply mem_In in Hx2.
      destruct (Hp b (or_introl eq_refl)) as [l Hl]. exists (l ++ [x]). econstructor; eassumption.
    + intros x [<-|Hx]; [apply Hp; left; reflexivity | apply Hs; exact Hx].
    + constructor; assumption.
    + intros x c [<-|Hx] Hc Hin.
      * right. apply in_or_app. left. apply -> in_rev. apply filter_In. split; [exact Hc | apply mem_In; exact Hin].
      * destruct (Hcl x c Hx Hc Hin) as [?|[<-|?]]; [left; right; assumption | left; left; reflexivity | right; apply in_or_app; right; assumption].
    + repeat split; auto. intros x [Hx|[<-|Hx]]; apply D; [left; right; assumption | left; left; reflexivity | right; apply in_or_app; right; assumption].
Qed.

Lemma reach_loop_exact entry fuel r : In entry blocks ->
  reach_loop fuel blocks succ [entry] [] = Some r -> NoDup r /\ forall b, In b r <-> reaches entry b.
Proof.
  intros Hin H. destruct (reach_loop_inv entry _ _ _ _ H) as (A & B & C & D).
  - intros b [<-|[]]. exists [entry]. constructor. exact Hin.
  - intros b [].
  - constructor.
  - intros b c [].
  - split; [exact A|]. intros b; split; [apply B|]. intros [l Hl].
    induction Hl as [|l b c Hl IH Hc Hcb].
    + apply D. right; left; reflexivity.
    + eapply C; eassumption.
Qed.

(** ** Predecessors *)
Lemma preds_In p b : In p (preds blocks succ b) <-> In b blocks /\ In p blocks /\ In b (succ p).
Proof.
  unfold preds. destruct (mem b blocks) eqn:E.
  - apply mem_In in E. rewrite in_flat_map. split.
    + intros [q [Hq Hp]]. apply in_map_iff in Hp. destruct Hp as [x [-> Hx]]. apply filter_In in Hx.
      destruct Hx as [Hx1 Hx2]. apply Nat.eqb_eq in Hx2. subst. auto.
    + intros (_ & Hp & Hs). exists p. split; [exact Hp|]. apply in_map_iff. exists b. split; [reflexivity|].
      apply filter_In. split; [exact Hs | apply Nat.eqb_refl].
  - apply mem_false in E. split; [intros [] | intros [H _]; contradiction].
Qed.

(** ** The data-flow iteration *)
Context (entry : block) (reach : list block).
Context (Hentry : In entry blocks) (Hreach : forall b, In b reach <-> reaches entry b) (Hnd : NoDup reach).

Definition rpreds b := filter (fun p => mem p reach) (preds blocks succ b).

Lemma rpreds_In p b : In p (rpreds b) <-> In p reach /\ In b blocks /\ In b (succ p).
Proof.
  unfold rpreds. rewrite filter_In, preds_In, mem_In. split; [tauto|].
  intros (A & B & C). repeat split; auto. apply Hreach in A. destruct A as [l A]. eapply path_in; eassumption.
Qed.

Lemma rpreds_nonempty b : In b reach -> b <> entry -> rpreds b <> [].
Proof.
  intros Hb Hne E. apply Hreach in Hb. destruct Hb as [l Hl]. inv Hl; [congruence|].
  assert (In b0 (rpreds b)).
  { apply rpreds_In. repeat split; auto. apply Hreach. exists l0. assumption. }
  rewrite E in H2. contradiction.
Qed.

Lemma inter_In (d : doms) rest : forall start x,
  In x (fold_left (fun nx p => filter (fun y => mem y (d p)) nx) rest start) <->
  In x start /\ forall p, In p rest -> In x (d p).
Proof.
  induction rest as [|q rest IH]; intros start x; cbn [fold_left].
  - split; [intros H; split; [exact H | intros p []] | tauto].
  - rewrite IH, filter_In, mem_In. split.
    + intros [[A B] C]. split; [exact A|]. intros p [<-|Hp]; auto.
    + intros [A B]. split; [split; [exact A | apply B; left; reflexivity] | intros p Hp; apply B; right; exact Hp].
Qed.
Lemma inter_NoDup (d : doms) rest : forall start, NoDup start ->
  NoDup (fold_left (fun nx p => filter (fun y => mem y (d p)) nx) rest start).
Proof. induction rest as [|q rest IH]; intros start H; cbn [fold_left]; [exact H|]. apply IH, NoDup_filter, H. Qed.

Lemma next_In d b first rest x : In x (next_doms d b first rest) <->
  x = b \/ (forall p, In p (first :: rest) -> In x (d p)).
Proof.
  unfold next_doms. set (i := fold_left _ _ _).
  assert (Hi : In x i <-> (forall p, In p (first :: rest) -> In x (d p))).
  { unfold i. rewrite inter_In. split.
    - intros [A B] p [<-|Hp]; auto.
    - intros H. split; [apply H; left; reflexivity | intros p Hp; apply H; right; exact Hp]. }
  destruct (mem b i) eqn:E.
  - rewrite Hi. split; [tauto|]. intros [->|H]; [|exact H]. apply Hi. apply mem_In; exact E.
  - cbn [In]. rewrite Hi. split; [intros [<-|H]; auto | intros [->|H]; auto].
Qed.
Lemma next_NoDup d b first rest : NoDup (d first) -> NoDup (next_doms d b first rest).
Proof.
  intros H. unfold next_doms. set (i := fold_left _ _ _). assert (NoDup i) by (apply inter_NoDup; exact H).
  destruct (mem b i) eqn:E; [assumption|]. constructor; [apply mem_false; exact E | assumption].
Qed.

Lemma set_eqb_spec a b : set_eqb a b = true <-> forall x, In x a <-> In x b.
Proof.
  unfold set_eqb. rewrite andb_true_iff, !forallb_forall. split.
  - intros [A B] x; split; intros H; apply mem_In; auto.
  - intros H; split; intros x Hx; apply mem_In, H, Hx.
Qed.

Definition total (d : doms) := list_sum (map (fun b => length (d b)) reach).

Record inv (d : doms) : Prop := {
  inv_entry : forall x, In x (d entry) <-> x = entry;
  inv_nodup : forall b, NoDup (d b);
  inv_complete : forall x b, dominates_spec blocks succ entry x b -> In x (d b);
  inv_post : forall b, In b reach -> b <> entry -> forall x,
     (x = b \/ forall p, In p (rpreds b) -> In x (d p)) -> In x (d b);
}.

Lemma total_set d b l : In b reach -> total (set_doms d b l) + length (d b) = total d + length l.
Proof.
  unfold total. clear Hreach. intros Hin. revert Hnd Hin. induction reach as [|c r IH]; intros Hn Hin; [contradiction|].
  inv Hn. cbn [map]. rewrite !lsum_cons.
  unfold set_doms at 1. destruct (Nat.eqb_spec c b) as [->|Hne].
  - assert (E : map (fun b0 => length (set_doms d b l b0)) r = map (fun b0 => length (d b0)) r).
    { apply map_ext_in. intros x Hx. unfold set_doms. destruct (Nat.eqb_spec x b) as [->|]; [contradiction | reflexivity]. }
    rewrite E. lia.
  - destruct Hin as [->|Hin]; [congruence|]. specialize (IH H2 Hin). lia.
Qed.

Lemma dom_step x b p : dominates_spec blocks succ entry x b -> x <> b -> In p (rpreds b) ->
  dominates_spec blocks succ entry x p.
Proof.
  intros [_ Hd] Hne Hp. apply rpreds_In in Hp. destruct Hp as (Hpr & Hb & Hs).
  split; [apply Hreach; exact Hpr|]. intros l Hl.
  assert (Hl' : path blocks succ entry (l ++ [b]) b) by (econstructor; eassumption).
  apply Hd in Hl'. apply in_app_or in Hl'. destruct Hl' as [?|[?|[]]]; [assumption|congruence].
Qed.

Lemma sweep_block_inv s b : inv (sw_doms s) -> sw_valid (sweep_block blocks succ entry reach s b) = sw_valid s /\
  inv (sw_doms (sweep_block blocks succ entry reach s b)) /\
  (sw_changed s = true -> sw_changed (sweep_block blocks succ entry reach s b) = true) /\
  ((sw_doms (sweep_block blocks succ entry reach s b) = sw_doms s /\
    sw_changed (sweep_block blocks succ entry reach s b) = sw_changed s /\
    (In b reach -> b <> entry -> forall x, In x (sw_doms s b) <-> x = b \/ forall p, In p (rpreds b) -> In x (sw_doms s p))) \/
   (sw_changed (sweep_block blocks succ entry reach s b) = true /\
    total (sw_doms (sweep_block blocks succ entry reach s b)) < total (sw_doms s))).
Proof.
  intros Hinv. unfold sweep_block.
  destruct (Nat.eqb b entry || negb (mem b reach)) eqn:E.
  { split; [reflexivity|]. split; [exact Hinv|]. split; [auto|]. left. repeat split; auto; intros;
    exfalso; apply orb_true_iff in E; destruct E as [E|E];
      [apply Nat.eqb_eq in E; contradiction | apply negb_true_iff, mem_false in E; contradiction
      |apply Nat.eqb_eq in E; contradiction | apply negb_true_iff, mem_false in E; contradiction]. }
  apply orb_false_iff in E. destruct E as [E1 E2]. apply Nat.eqb_neq in E1.
  apply negb_false_iff, mem_In in E2.
  pose proof (rpreds_nonempty b E2 E1) as Hne. fold (rpreds b).
  destruct (rpreds b) as [|first rest] eqn:Ep; [congruence|].
  destruct (set_eqb (next_doms (sw_doms s) b first rest) (sw_doms s b)) eqn:Eq.
  - split; [reflexivity|]. split; [exact Hinv|]. split; [auto|]. left. split; [reflexivity|]. split; [reflexivity|].
    intros _ _ x. rewrite set_eqb_spec in Eq. rewrite <- (Eq x). rewrite next_In. reflexivity.
  - cbn [sw_doms sw_changed sw_valid]. split; [reflexivity|].
    set (nx := next_doms (sw_doms s) b first rest) in *.
    assert (Hsub : forall x, In x nx -> In x (sw_doms s b)).
    { intros x Hx. apply (inv_post _ Hinv b E2 E1). rewrite Ep. apply next_In. exact Hx. }
    assert (Hsubd : forall c x, In x (set_doms (sw_doms s) b nx c) -> In x (sw_doms s c)).
    { intros c x. unfold set_doms. destruct (Nat.eqb_spec c b) as [->|]; auto. }
    assert (Hndx : NoDup nx) by (apply next_NoDup, (inv_nodup _ Hinv)).
    split.
    { constructor.
      - intros x. unfold set_doms. destruct (Nat.eqb_spec entry b) as [<-|]; [congruence|]. apply (inv_entry _ Hinv).
      - intros c. unfold set_doms. destruct (Nat.eqb c b); [exact Hndx | apply (inv_nodup _ Hinv)].
      - intros x c Hd. unfold set_doms. destruct (Nat.eqb_spec c b) as [->|]; [|apply (inv_complete _ Hinv); exact Hd].
        apply next_In. destruct (Nat.eq_dec x b) as [->|Hx]; [left; reflexivity|right].
        intros p Hp. apply (inv_complete _ Hinv). apply (dom_step x b p Hd Hx). rewrite Ep. exact Hp.
      - intros c Hc Hce x Hx. unfold set_doms at 1. destruct (Nat.eqb_spec c b) as [->|Hcb].
        + apply next_In. destruct Hx as [->|Hx]; [left; reflexivity|right].
          intros p Hp. apply Hsubd, Hx. rewrite Ep. exact Hp.
        + apply (inv_post _ Hinv c Hc Hce). destruct Hx as [->|Hx]; [left; reflexivity|right].
          intros p Hp. apply Hsubd, Hx, Hp. }
    split; [auto|]. right. split; [reflexivity|].
    pose proof (total_set (sw_doms s) b nx E2) as Ht.
    assert (Hlt : length nx < length (sw_doms s b)).
    { destruct (Nat.lt_ge_cases (length nx) (length (sw_doms s b))) as [?|Hge]; [assumption|exfalso].
      assert (Hinc : incl (sw_doms s b) nx) by (apply NoDup_length_incl; [exact Hndx | exact Hge | exact Hsub]).
      assert (set_eqb nx (sw_doms s b) = true); [|congruence].
      apply set_eqb_spec. intros x; split; [apply Hsub | apply Hinc]. }
    lia.
Qed.

Lemma sweep_changed_mono bs : forall s, inv (sw_doms s) -> sw_changed s = true ->
  sw_changed (fold_left (sweep_block blocks succ entry reach) bs s) = true.
Proof.
  induction bs as [|b bs IH]; intros s Hi Hc; cbn [fold_left]; [exact Hc|].
  destruct (sweep_block_inv s b Hi) as (_ & Hi' & Hm & _). apply IH; [exact Hi' | apply Hm, Hc].
Qed.

Lemma sweep_inv bs : forall s, inv (sw_doms s) ->
  let s' := fold_left (sweep_block blocks succ entry reach) bs s in
  sw_valid s' = sw_valid s /\ inv (sw_doms s') /\ total (sw_doms s') <= total (sw_doms s) /\
  (sw_changed s' = false -> sw_doms s' = sw_doms s /\
     forall b, In b bs -> In b reach -> b <> entry -> forall x, In x (sw_doms s b) <-> x = b \/ forall p, In p (rpreds b) -> In x (sw_doms s p)) /\
  (sw_changed s = false -> sw_changed s' = true -> total (sw_doms s') < total (sw_doms s)).
Proof.
  induction bs as [|b bs IH]; intros s Hi; cbn [fold_left].
  - cbn zeta. split; [reflexivity|]. split; [exact Hi|]. split; [lia|]. split; [intros _; split; [reflexivity|]; intros b []|].
    congruence.
  - cbn zeta. destruct (sweep_block_inv s b Hi) as (Hv & Hi' & Hm & Hc).
    destruct (IH _ Hi') as (Jv & Ji & Jt & Jn & Jc). cbn zeta in *.
    set (s1 := sweep_block blocks succ entry reach s b) in *.
    set (s2 := fold_left (sweep_block blocks succ entry reach) bs s1) in *.
    split; [congruence|]. split; [exact Ji|].
    destruct Hc as [(C1 & C2 & C3)|[C1 C2]].
    + rewrite C1 in *. split; [lia|]. split.
      * intros Hf. destruct (Jn Hf) as [K1 K2]. split; [exact K1|].
        intros c [<-|Hcin] Hr Hne; [apply C3; assumption | apply K2; assumption].
      * intros Hf Ht. apply Jc; congruence.
    + split; [lia|]. split.
      * intros Hf. exfalso. assert (sw_changed s2 = true) by (apply sweep_changed_mono; assumption). congruence.
      * intros _ _. lia.
Qed.

Lemma dom_loop_term fuel : forall d v, inv d -> total d < fuel ->
  exists r, dom_loop fuel blocks succ entry reach d v = Some r.
Proof.
  induction fuel as [|fuel IH]; intros d v Hi Hf; [lia|]. cbn [dom_loop].
  destruct (sweep_inv blocks {| sw_doms := d; sw_changed := false; sw_valid := v |} Hi) as (_ & Ji & Jt & _ & Jc).
  cbn zeta in *. set (s' := fold_left _ _ _) in *. cbn [sw_doms sw_changed] in *.
  destruct (sw_changed s') eqn:E; [|eauto]. apply IH; [exact Ji|]. specialize (Jc eq_refl eq_refl). lia.
Qed.

Definition fixed (d : doms) := forall b, In b reach -> b <> entry ->
  forall x, In x (d b) <-> x = b \/ forall p, In p (rpreds b) -> In x (d p).

Lemma dom_loop_fixed fuel : forall d v d' v', inv d -> dom_loop fuel blocks succ entry reach d v = Some (d', v') ->
  inv d' /\ v' = v /\ fixed d'.
Proof.
  induction fuel as [|fuel IH]; intros d v d' v' Hi H; [discriminate|]. cbn [dom_loop] in H.
  destruct (sweep_inv blocks {| sw_doms := d; sw_changed := false; sw_valid := v |} Hi) as (Jv & Ji & Jt & Jn & Jc).
  cbn zeta in *. set (s' := fold_left _ _ _) in *. cbn [sw_doms sw_changed sw_valid] in *.
  destruct (sw_changed s') eqn:E.
  - destruct (IH _ _ _ _ Ji H) as (A & B & C). repeat split; try apply A; try apply C; auto; congruence.
  - destruct (Jn eq_refl) as [K1 K2]. injection H as <- <-. split; [exact Ji|]. split; [exact Jv|].
    rewrite K1. intros b Hb Hne. apply K2; auto. apply Hreach in Hb. destruct Hb as [l Hl]. eapply path_in; eassumption.
Qed.

Lemma init_inv : inv (init_doms entry reach).
Proof.
  constructor; unfold init_doms.
  - intros x. rewrite Nat.eqb_refl. cbn [In]. split; [intros [<-|[]]; reflexivity | auto].
  - intros b. destruct (Nat.eqb b entry); [constructor; [intros [] | constructor] | exact Hnd].
  - intros x b [[l Hl] Hd]. destruct (Nat.eqb_spec b entry) as [->|Hne].
    + left. assert (In x [entry]) by (apply Hd; constructor; exact Hentry).
      destruct H as [?|[]]; assumption.
    + apply Hreach. pose proof (Hd l Hl) as Hx. clear Hd Hne. induction Hl as [H|l b c Hl IH Hc Hcb].
      * destruct Hx as [<-|[]]. exists [entry]. constructor. exact H.
      * apply in_app_or in Hx. destruct Hx as [Hx|[<-|[]]]; [apply IH; exact Hx|].
        exists (l ++ [c]). econstructor; eassumption.
  - intros b Hb Hne x. destruct (Nat.eqb_spec b entry) as [->|_]; [congruence|].
    intros [->|Hx]; [exact Hb|].
    pose proof (rpreds_nonempty b Hb Hne) as Hp. destruct (rpreds b) as [|p ps]; [congruence|].
    specialize (Hx p (or_introl eq_refl)). destruct (Nat.eqb p entry); [|exact Hx].
    destruct Hx as [<-|[]]. apply Hreach. exists [entry]. constructor. exact Hentry.
Qed.

Lemma fixed_sound d : inv d -> fixed d -> forall x b, In b reach -> In x (d b) -> dominates_spec blocks succ entry x b.
Proof.
  intros Hi Hf x b Hb Hx. split; [apply Hreach; exact Hb|]. intros l Hl. revert Hx. clear Hb.
  induction Hl as [H|l b c Hl IH Hc Hcb]; intros Hx.
  - apply (inv_entry _ Hi) in Hx. left; congruence.
  - apply in_or_app. destruct (Nat.eq_dec x c) as [->|Hne]; [right; left; reflexivity|].
    assert (Hbr : In b reach) by (apply Hreach; exists l; exact Hl).
    destruct (Nat.eq_dec c entry) as [->|Hce].
    + apply (inv_entry _ Hi) in Hx. congruence.
    + assert (Hcr : In c reach) by (apply Hreach; exists (l ++ [c]); econstructor; eassumption).
      apply (Hf c Hcr Hce) in Hx. destruct Hx as [?|Hx]; [congruence|]. left. apply IH, Hx.
      apply rpreds_In. auto.
Qed.

End Graph.

Lemma compute_spec_lemma fuel blocks succ t : compute fuel blocks succ = Some t ->
  match blocks with
  | [] => forall b d, is_reachable t b = false /\ dominates t d b = false
  | entry :: _ =>
     (forall b, is_reachable t b = true <-> exists l, path blocks succ entry l b) /\
     (forall d b, dominates t d b = true <-> dominates_spec blocks succ entry d b)
  end /\
  (is_valid t = true <-> forall b s, In b blocks -> In s (succ b) -> In s blocks).
Proof.
  intros H. unfold compute, reachable_set in H.
  assert (Hv : edges_valid blocks succ = true <-> (forall b s, In b blocks -> In s (succ b) -> In s blocks)).
  { unfold edges_valid. rewrite forallb_forall. split.
    - intros A b s Hb Hs. specialize (A b Hb). rewrite forallb_forall in A. apply mem_In, A, Hs.
    - intros A b Hb. apply forallb_forall. intros s Hs. apply mem_In. eapply A; eassumption. }
  destruct blocks as [|entry bs].
  - injection H as <-. split; [intros b d; split; reflexivity|]. exact Hv.
  - set (blocks := entry :: bs) in *. assert (He : In entry blocks) by (left; reflexivity).
    destruct (reach_loop fuel blocks succ [entry] []) as [reach|] eqn:Er; [|discriminate].
    destruct (reach_loop_exact blocks succ entry fuel reach He Er) as [Hnd Hr].
    destruct (dom_loop fuel blocks succ entry reach (init_doms entry reach) (edges_valid blocks succ)) as [[d v]|] eqn:Ed; [|discriminate].
    injection H as <-.
    destruct (dom_loop_fixed blocks succ entry reach He Hr Hnd fuel _ _ _ _ (init_inv blocks succ entry reach He Hr Hnd) Ed) as (Hi & -> & Hf).
    unfold is_reachable, dominates, is_valid. cbn [t_reachable t_doms t_valid].
    split; [|exact Hv]. split.
    + intros b. rewrite mem_In. apply Hr.
    + intros x b. destruct (mem b reach) eqn:E.
      * apply mem_In in E. rewrite mem_In. split.
        -- intros Hx. apply (fixed_sound blocks succ entry reach Hr d Hi Hf); assumption.
        -- intros Hx. apply (inv_complete _ _ _ _ _ Hi). exact Hx.
      * apply mem_false in E. split; [discriminate|]. intros [Hx _]. apply Hr in Hx. contradiction.
Qed.

Lemma compute_term_lemma blocks succ : exists n, forall fuel, n <= fuel -> exists t, compute fuel blocks succ = Some t.
Proof.
  destruct blocks as [|entry bs]; [exists 0; intros; eexists; reflexivity|].
  set (blocks := entry :: bs). assert (He : In entry blocks) by (left; reflexivity).
  exists (S (1 + todo blocks succ [] + length blocks * (length blocks + 1))). intros fuel Hf.
  unfold compute, reachable_set. fold blocks. cbn beta iota. unfold blocks at 1.
  destruct (reach_loop_term blocks succ fuel [entry] []) as [reach Er].
  { intros x [<-|[]]; exact He. }
  { cbn [length]. lia. }
  rewrite Er.
  destruct (reach_loop_exact blocks succ entry fuel reach He Er) as [Hnd Hr].
  assert (Hlen : length reach <= length blocks).
  { apply NoDup_incl_length; [exact Hnd|]. intros x Hx. apply Hr in Hx. destruct Hx as [l Hl]. eapply path_in; eassumption. }
  unfold blocks at 1.
  destruct (dom_loop_term blocks succ entry reach He Hr Hnd fuel (init_doms entry reach) (edges_valid blocks succ) (init_inv blocks succ entry reach He Hr Hnd)) as [[d v] Ed].
  - assert (total reach (init_doms entry reach) <= length reach * (length reach + 1)).
    { assert (G : forall rs, total rs (init_doms entry reach) <= length rs * (length reach + 1)).
      { unfold total. induction rs as [|b rs IH]; [reflexivity|]. cbn [map length]. rewrite lsum_cons.
        unfold init_doms at 1. destruct (Nat.eqb b entry); cbn [length]; lia. }
      apply G. }
    assert (length reach * (length reach + 1) <= length blocks * (length blocks + 1)) by (apply Nat.mul_le_mono; lia).
    lia.
  - rewrite Ed. eauto.
Qed.

Lemma preds_count_lemma blocks succ b p : NoDup blocks -> In b blocks -> In p blocks ->
  count_occ Nat.eq_dec (preds blocks succ b) p = count_occ Nat.eq_dec (succ p) b.
Proof.
  intros Hnd Hb Hp. unfold preds. rewrite (proj2 (mem_In b blocks) Hb). clear Hb.
  assert (K : forall q l, count_occ Nat.eq_dec (map (fun _ : nat => q) l) p = if Nat.eq_dec q p then length l else 0).
  { intros q l. induction l as [|x l IH]; cbn [map count_occ length]; destruct (Nat.eq_dec q p); auto. }
  assert (L : forall l, length (filter (Nat.eqb b) l) = count_occ Nat.eq_dec l b).
  { induction l as [|x l IH]; cbn [filter count_occ length]; [reflexivity|].
    destruct (Nat.eq_dec x b) as [->|Hne]; [rewrite Nat.eqb_refl; cbn [length]; lia|].
    destruct (Nat.eqb_spec b x); [congruence|exact IH]. }
  induction blocks as [|q bs IH]; [contradiction|]. cbn [flat_map]. rewrite count_occ_app, K, L. inv Hnd.
  destruct (Nat.eq_dec q p) as [->|Hne].
  - assert (Z0 : count_occ Nat.eq_dec (flat_map (fun p0 => map (fun _ : nat => p0) (filter (Nat.eqb b) (succ p0))) bs) p = 0).
    { apply count_occ_not_In. intros Hin. apply in_flat_map in Hin. destruct Hin as [r [Hr Hin]].
      apply in_map_iff in Hin. destruct Hin as [x [-> _]]. contradiction. }
    etransitivity; [apply (f_equal (Nat.add _) Z0) | apply Nat.add_0_r].
  - destruct Hp as [->|Hp]; [congruence|]. apply IH; assumption.
Qed.
