From Verif Require Import Base IrModel IrSpec IrTreeSpec IrProofs IrInvProofs IrWalkProofs IrMainProofs DceModel DceSpec.

Lemma member_In : forall x l, member x l = true <-> In x l.
Proof.
  intros x l. unfold member. rewrite existsb_exists. split.
  - intros (y & H & E). apply Nat.eqb_eq in E as ->. exact H.
  - intro H. exists x. split; [exact H|apply Nat.eqb_refl].
Qed.
Lemma member_not : forall x l, member x l = false <-> ~ In x l.
Proof. intros x l. rewrite <- member_In. destruct (member x l); split; congruence. Qed.

Lemma filter_all : forall A (f : A -> bool) l, (forall x, In x l -> f x = true) -> filter f l = l.
Proof.
  intros A f l H. induction l as [|x l IH]; [reflexivity|]. cbn [filter]. rewrite (H x (or_introl eq_refl)). f_equal. apply IH. intros y Hy. apply H. right; exact Hy.
Qed.

(** ** Monotonicity *)
Lemma prunes_refl : forall c, prunes c c [].
Proof.
  intro c. constructor; try reflexivity.
  - intro o. destruct (nth_error (ops c) o); reflexivity.
  - intro b. destruct (nth_error (blocks c) b) as [d|]; [|reflexivity]. cbn [option_map]. f_equal. destruct d as [a l p]. unfold set_bops. cbn. f_equal.
    induction l as [|x l IH]; [reflexivity|]. cbn. f_equal. exact IH.
Qed.
Lemma prunes_op : forall c c' R o d', prunes c c' R -> nth_error (ops c') o = Some d' ->
  exists d, nth_error (ops c) o = Some d /\ o_kind d' = o_kind d /\ o_operands d' = o_operands d /\ o_regions d' = o_regions d /\ o_succs d' = o_succs d.
Proof.
  intros c c' R o d' P H. rewrite (pr_ops _ _ _ P) in H. destruct (nth_error (ops c) o) as [d|]; [|discriminate]. cbn in H. injection H as <-.
  exists d. destruct (member o R); repeat split.
Qed.
Lemma prunes_op_fwd : forall c c' R o d, prunes c c' R -> nth_error (ops c) o = Some d ->
  exists d', nth_error (ops c') o = Some d' /\ o_kind d' = o_kind d /\ o_operands d' = o_operands d /\ o_regions d' = o_regions d /\ o_succs d' = o_succs d.
Proof.
  intros c c' R o d P H. rewrite (pr_ops _ _ _ P), H. cbn. eexists. split; [reflexivity|]. destruct (member o R); repeat split.
Qed.
Lemma prunes_block : forall c c' R b d', prunes c c' R -> nth_error (blocks c') b = Some d' ->
  exists d, nth_error (blocks c) b = Some d /\ b_ops d' = filter (fun o => negb (member o R)) (b_ops d).
Proof.
  intros c c' R b d' P H. rewrite (pr_blocks _ _ _ P) in H. destruct (nth_error (blocks c) b) as [d|]; [|discriminate]. cbn in H. injection H as <-.
  exists d. split; reflexivity.
Qed.
Lemma prunes_block_fwd : forall c c' R b d, prunes c c' R -> nth_error (blocks c) b = Some d ->
  exists d', nth_error (blocks c') b = Some d' /\ b_ops d' = filter (fun o => negb (member o R)) (b_ops d).
Proof. intros c c' R b d P H. rewrite (pr_blocks _ _ _ P), H. cbn. eexists. split; reflexivity. Qed.

Lemma prunes_nested : forall c c' R x y, prunes c c' R -> nested_in c' x y -> nested_in c x y.
Proof.
  intros c c' R x y P (d & r & rd & b & bd & H1 & H2 & H3 & H4 & H5 & H6).
  destruct (prunes_op _ _ _ _ _ P H1) as (d0 & E & _ & _ & Er & _). destruct (prunes_block _ _ _ _ _ P H5) as (bd0 & Eb & Eo).
  rewrite Eo in H6. apply filter_In in H6. rewrite (pr_regions _ _ _ P) in H3. exists d0, r, rd, b, bd0.
  rewrite <- Er. repeat split; try assumption. apply H6.
Qed.
Lemma prunes_within : forall c c' R o x, prunes c c' R -> within c' o x -> within c o x.
Proof. intros c c' R o x P H. induction H; [constructor|]. eapply within_step; [eassumption|]. eapply prunes_nested; eassumption. Qed.
Lemma prunes_inside : forall c c' R r x, prunes c c' R -> inside c' r x -> inside c r x.
Proof.
  intros c c' R r x P H. induction H as [rd b bd x H1 H2 H3 H4|x y H IH N].
  - destruct (prunes_block _ _ _ _ _ P H3) as (bd0 & Eb & Eo). rewrite Eo in H4. apply filter_In in H4. rewrite (pr_regions _ _ _ P) in H1.
    eapply inside_top; try eassumption. apply H4.
  - eapply inside_nested; [exact IH|]. eapply prunes_nested; eassumption.
Qed.
Lemma prunes_region_in : forall c c' R r x, prunes c c' R -> region_in c' r x -> region_in c r x.
Proof.
  intros c c' R r x P (d & H & K). destruct (prunes_op _ _ _ _ _ P H) as (d0 & E & _ & _ & Er & _). exists d0. split; [exact E|]. rewrite <- Er. exact K.
Qed.
Lemma inside_within : forall c r x y, inside c r x -> within c x y -> inside c r y.
Proof. intros c r x y H W. induction W; [exact H|]. eapply inside_nested; eassumption. Qed.

(** ** What a removal collects *)
Lemma each_inv_in : forall S B A (P : S -> Prop) (w : S -> A -> wres S B) l s,
  (forall s a s', In a l -> P s -> w s a = Continued s' -> P s') -> P s -> forall s', each w s l = Continued s' -> P s'.
Proof.
  intros S B A P w l. induction l as [|a l IH]; intros s Hw Hs s' H; cbn [each] in H.
  - inversion H; subst; exact Hs.
  - destruct (w s a) eqn:E; try discriminate. eapply IH; [|eapply Hw; [left; reflexivity|exact Hs|exact E]|exact H].
    intros s1 a1 s1' Hin. apply Hw. right; exact Hin.
Qed.
Lemma walk_collect_within : forall fuel c top o l l',
  within c top o -> (forall x, In x l -> within c top x) ->
  walk_op (B := Empty_set) fuel c (fun l x => (l ++ [x], Advance)) l o = Continued l' ->
  forall x, In x l' -> within c top x.
Proof.
  induction fuel as [|n IH]; intros c top o l l' Ho Hl H; cbn [walk_op] in H; [discriminate|].
  destruct (nth_error (ops c) o) as [d|] eqn:E; [|discriminate].
  revert H. apply (each_inv_in _ _ _ (fun l => forall x, In x l -> within c top x)).
  - intros s r s' Hr0 Hs Hr. cbv beta in Hr. destruct (nth_error (regions c) r) as [rd'|] eqn:Er; [|discriminate].
    revert Hr. apply (each_inv_in _ _ _ (fun l => forall x, In x l -> within c top x)); [|exact Hs].
    intros s1 b s1' Hb0 Hs1 Hb. cbv beta in Hb. destruct (nth_error (blocks c) b) as [bd|] eqn:Eb; [|discriminate].
    revert Hb. apply (each_inv_in _ _ _ (fun l => forall x, In x l -> within c top x)); [|exact Hs1].
    intros s2 a s2' Ha0 Hs2 Ha. eapply IH; [|exact Hs2|exact Ha]. eapply within_step; [exact Ho|].
    exists d, r, rd', b, bd. repeat split; assumption.
  - intros x Hx. apply in_app_iff in Hx. destruct Hx as [Hx|[<-|[]]]; [apply Hl, Hx|exact Ho].
Qed.

Lemma each_grows : forall A (w : list nat -> A -> wres (list nat) Empty_set) l s s',
  (forall s a s', In a l -> w s a = Continued s' -> incl s s') -> each w s l = Continued s' -> incl s s'.
Proof.
  intros A w l. induction l as [|a l IH]; intros s s' Hw H; cbn [each] in H; [injection H as <-; apply incl_refl|].
  destruct (w s a) as [s1| |] eqn:E; try discriminate. eapply incl_tran; [eapply Hw; [left; reflexivity|exact E]|].
  eapply IH; [|exact H]. intros s2 a2 s2' Hin. apply Hw. right; exact Hin.
Qed.
Lemma each_covers : forall A (w : list nat -> A -> wres (list nat) Empty_set) l s s' a x,
  (forall s a s', In a l -> w s a = Continued s' -> incl s s') -> In a l -> (forall s s', w s a = Continued s' -> In x s') ->
  each w s l = Continued s' -> In x s'.
Proof.
  intros A w l. induction l as [|a l IH]; intros s s' a' x Hw Hin Hx H; [destruct Hin|]. cbn [each] in H. destruct (w s a) as [s1| |] eqn:E; try discriminate.
  assert (Hw' : forall s a s', In a l -> w s a = Continued s' -> incl s s') by (intros s2 a2 s2' Hin2; apply Hw; right; exact Hin2).
  destruct Hin as [->|Hin]; [|eapply IH; eassumption]. eapply (each_grows _ w l s1 s' Hw' H). eapply Hx; exact E.
Qed.
Lemma walk_grows : forall fuel c o l l',
  walk_op (B := Empty_set) fuel c (fun l x => (l ++ [x], Advance)) l o = Continued l' -> incl (l ++ [o]) l'.
Proof.
  induction fuel as [|n IH]; intros c o l l' H; cbn [walk_op] in H; [discriminate|]. destruct (nth_error (ops c) o) as [d|]; [|discriminate].
  apply (each_grows _ _ _ _ _) in H; [exact H|]. clear l l' H. intros s r s' _ H. cbv beta in H. destruct (nth_error (regions c) r) as [rd|]; [|discriminate].
  apply (each_grows _ _ _ _ _) in H; [exact H|]. clear s s' H. intros s b s' _ H. cbv beta in H. destruct (nth_error (blocks c) b) as [bd|]; [|discriminate].
  apply (each_grows _ _ _ _ _) in H; [exact H|]. clear s s' H. intros s x s' _ H. apply IH in H. intros y Hy. apply H, in_or_app. left; exact Hy.
Qed.
Lemma walk_covers : forall fuel c o l l',
  walk_op (B := Empty_set) fuel c (fun l x => (l ++ [x], Advance)) l o = Continued l' -> forall x, within c o x -> In x l'.
Proof.
  induction fuel as [|n IH]; intros c o l l' H x W; [discriminate|]. pose proof (walk_grows _ _ _ _ _ H) as Hg.
  apply within_first in W as [->|(k & N & W)]; [apply Hg, in_or_app; right; left; reflexivity|].
  cbn [walk_op] in H. destruct N as (d & r & rd & b & bd & N1 & N2 & N3 & N4 & N5 & N6). rewrite N1 in H. clear Hg.
  assert (G3 : forall s a s', walk_op (B := Empty_set) n c (fun l x => (l ++ [x], Advance)) s a = Continued s' -> incl s s').
  { intros s a s' K. apply walk_grows in K. intros y Hy. apply K, in_or_app. left; exact Hy. }
  assert (G2 : forall s b s', match nth_error (blocks c) b with None => Stuck | Some bd => each (walk_op (B := Empty_set) n c (fun l x => (l ++ [x], Advance))) s (b_ops bd) end = Continued s' -> incl s s').
  { intros s b' s' K. destruct (nth_error (blocks c) b') as [bd'|]; [|discriminate]. apply each_grows in K; [exact K|]. intros s2 a2 s2' _. apply G3. }
  assert (G1 : forall s r s', match nth_error (regions c) r with None => Stuck | Some rd => each (fun s b => match nth_error (blocks c) b with None => Stuck | Some bd => each (walk_op (B := Empty_set) n c (fun l x => (l ++ [x], Advance))) s (b_ops bd) end) s (r_blocks rd) end = Continued s' -> incl s s').
  { intros s r' s' K. destruct (nth_error (regions c) r') as [rd'|]; [|discriminate]. apply each_grows in K; [exact K|]. intros s2 a2 s2' _. apply G2. }
  revert H. apply (each_covers _ _ _ _ _ r); [intros s a s' _; apply G1|exact N2|]. clear l l'. intros s s' H. rewrite N3 in H.
  revert H. apply (each_covers _ _ _ _ _ b); [intros s2 a2 s2' _; apply G2|exact N4|]. clear s s'. intros s s' H. rewrite N5 in H.
  revert H. apply (each_covers _ _ _ _ _ k); [intros s2 a2 s2' _; apply G3|exact N6|]. intros s2 s2' K. eapply IH; eassumption.
Qed.

(** ** Bounded nesting *)
Fixpoint deep (c : ctx) (n o : nat) : Prop :=
  match n with
  | O => False
  | S m => exists d, nth_error (ops c) o = Some d /\
      forall r, In r (o_regions d) -> exists rd, nth_error (regions c) r = Some rd /\
        forall b, In b (r_blocks rd) -> exists bd, nth_error (blocks c) b = Some bd /\ forall x, In x (b_ops bd) -> deep c m x
  end.
Lemma deep_mono : forall c n m o, n <= m -> deep c n o -> deep c m o.
Proof.
  intros c n. induction n as [|n IH]; intros m o Hm H; [destruct H|]. destruct m as [|m]; [lia|].
  destruct H as (d & E & H). exists d. split; [exact E|]. intros r Hr. destruct (H r Hr) as (rd & Er & Hb). exists rd. split; [exact Er|].
  intros b Hb0. destruct (Hb b Hb0) as (bd & Eb & Hx). exists bd. split; [exact Eb|]. intros x Hx0. apply IH; [lia|]. apply Hx, Hx0.
Qed.
Lemma deep_prunes : forall c c' R n o, prunes c c' R -> deep c n o -> deep c' n o.
Proof.
  intros c c' R n. induction n as [|n IH]; intros o P H; [destruct H|].
  destruct H as (d & E & H). destruct (prunes_op_fwd _ _ _ _ _ P E) as (d' & E' & _ & _ & Er & _). exists d'. split; [exact E'|]. rewrite Er.
  intros r Hr. destruct (H r Hr) as (rd & Erd & Hb). exists rd. rewrite (pr_regions _ _ _ P). split; [exact Erd|].
  intros b Hb0. destruct (Hb b Hb0) as (bd & Eb & Hx). destruct (prunes_block_fwd _ _ _ _ _ P Eb) as (bd' & Eb' & Eo). exists bd'. split; [exact Eb'|].
  intros x Hx0. rewrite Eo in Hx0. apply filter_In in Hx0. apply IH; [exact P|]. apply Hx, Hx0.
Qed.
Lemma each_total : forall S B A (w : S -> A -> wres S B) l s,
  (forall s a, In a l -> exists s', w s a = Continued s') -> exists s', each w s l = Continued s'.
Proof.
  intros S B A w l. induction l as [|a l IH]; intros s H; cbn [each]; [exists s; reflexivity|].
  destruct (H s a (or_introl eq_refl)) as (s1 & ->). apply IH. intros s2 a2 Hin. apply H. right; exact Hin.
Qed.
Lemma walk_total : forall n c o l, deep c n o ->
  exists l', walk_op (B := Empty_set) n c (fun l x => (l ++ [x], Advance)) l o = Continued l'.
Proof.
  induction n as [|n IH]; intros c o l H; [destruct H|]. destruct H as (d & E & H). cbn [walk_op]. rewrite E.
  apply each_total. intros s r Hr. destruct (H r Hr) as (rd & -> & Hb).
  apply each_total. intros s1 b Hb0. destruct (Hb b Hb0) as (bd & -> & Hx).
  apply each_total. intros s2 x Hx0. apply IH, Hx, Hx0.
Qed.
Lemma deep_tree : forall t c n, tree_of c t -> height t <= n -> deep c n (root t).
Proof.
  intro t. induction t as [o rs IH] using tree_induct. intros c n Ht Hh. destruct n as [|n]; [cbn [height] in Hh; lia|].
  cbn [root]. destruct Ht as ((d & Ed & Er) & Hrs). exists d. split; [exact Ed|]. rewrite Er. intros r Hr. apply in_map_iff in Hr as (rb & <- & Hrb).
  rewrite all_Forall, Forall_forall in Hrs. destruct (Hrs rb Hrb) as ((rd & Erd & Eb) & Hbs). exists rd. split; [exact Erd|]. rewrite Eb.
  intros b Hb. apply in_map_iff in Hb as (bt & <- & Hbt). rewrite all_Forall, Forall_forall in Hbs. destruct (Hbs bt Hbt) as ((bd & Ebd & Eo) & Hts).
  exists bd. split; [exact Ebd|]. rewrite Eo. intros x Hx. apply in_map_iff in Hx as (t & <- & Ht0). rewrite all_Forall, Forall_forall in Hts.
  assert (Hin : In t (trees rs)). { unfold trees, inner. apply in_flat_map. exists rb. split; [exact Hrb|]. apply in_flat_map. exists bt. split; [exact Hbt|]. apply in_flat_map. exists t. split; [exact Ht0|left; reflexivity]. }
  rewrite Forall_forall in IH. apply IH; [exact Hin|apply Hts, Ht0|]. pose proof (height_sub o rs t Hin). lia.
Qed.

(** ** One removal *)
Lemma parents_once : forall c x y z, placed c -> nested_in c x y -> nested_in c x z -> y = z.
Proof.
  intros c x y z P (d & r & rd & b & bd & H1 & H2 & H3 & H4 & H5 & H6) (d' & r' & rd' & b' & bd' & K1 & K2 & K3 & K4 & K5 & K6).
  assert (Hb : b = b').
  { assert (A : op_parent c x b) by (apply (pl_op _ P); exists bd; split; assumption).
    assert (B : op_parent c x b') by (apply (pl_op _ P); exists bd'; split; assumption).
    destruct A as (a & A1 & A2), B as (a' & B1 & B2). congruence. }
  subst b'. assert (Hr : r = r').
  { assert (A : block_parent c b r) by (apply (pl_block _ P); exists rd; split; assumption).
    assert (B : block_parent c b r') by (apply (pl_block _ P); exists rd'; split; assumption).
    destruct A as (a & A1 & A2), B as (a' & B1 & B2). congruence. }
  subst r'. assert (A : region_parent c r y) by (apply (pl_region _ P); exists d; split; assumption).
  assert (B : region_parent c r z) by (apply (pl_region _ P); exists d'; split; assumption).
  destruct A as (a & A1 & A2), B as (a' & B1 & B2). congruence.
Qed.
Lemma top_once : forall c r x y, placed c -> directly_in c r x -> nested_in c x y -> region_in c r y.
Proof.
  intros c r x y P (rd & b & bd & H3 & H4 & H5 & H6) (d' & r' & rd' & b' & bd' & K1 & K2 & K3 & K4 & K5 & K6).
  assert (Hb : b = b').
  { assert (A : op_parent c x b) by (apply (pl_op _ P); exists bd; split; assumption).
    assert (B : op_parent c x b') by (apply (pl_op _ P); exists bd'; split; assumption).
    destruct A as (a & A1 & A2), B as (a' & B1 & B2). congruence. }
  subst b'. assert (Hr : r = r').
  { assert (A : block_parent c b r) by (apply (pl_block _ P); exists rd; split; assumption).
    assert (B : block_parent c b r') by (apply (pl_block _ P); exists rd'; split; assumption).
    destruct A as (a & A1 & A2), B as (a' & B1 & B2). congruence. }
  subst r'. exists d'. split; assumption.
Qed.

Lemma member_cons : forall x o l, member x (o :: l) = Nat.eqb x o || member x l.
Proof. reflexivity. Qed.

Lemma take_out : forall c b o, placed c -> op_in c o b ->
  exists c1 d1, remove_op_from_block c b o = Some c1 /\ prunes c c1 [o] /\ uses c1 = uses c /\ nth_error (ops c1) o = Some d1 /\ o_parent d1 = None.
Proof.
  intros c b o P Hin. pose proof Hin as Hp. apply (pl_op _ P) in Hp. destruct Hp as (d & Ed & Epar). destruct Hin as (bd & Eb & Hob).
  unfold remove_op_from_block. rewrite Ed, Eb, Epar, Nat.eqb_refl. eexists _, _. split; [reflexivity|]. split; [|split; [reflexivity|split]].
  - constructor; try reflexivity.
    + intro x. cbn [ops set_ops set_blocks]. rewrite nth_upd. cbn [member existsb]. rewrite orb_false_r. destruct (Nat.eqb x o); destruct (nth_error (ops c) x); reflexivity.
    + intro x. cbn [blocks set_ops set_blocks]. rewrite nth_upd. destruct (Nat.eqb_spec x b) as [->|Hx].
      * rewrite Eb. cbn [option_map]. f_equal. unfold set_bops. f_equal. apply filter_ext. intro y. unfold member. cbn. rewrite orb_false_r. reflexivity.
      * destruct (nth_error (blocks c) x) as [dd|] eqn:Ex; [|reflexivity]. cbn [option_map]. f_equal. destruct dd as [a lo p]. unfold set_bops. cbn [b_arg_types b_ops b_parent]. f_equal.
        symmetry. apply filter_all. intros y Hy. unfold member. cbn. rewrite orb_false_r.
        destruct (Nat.eqb_spec y o) as [->|]; [|reflexivity]. exfalso. apply Hx.
        assert (A : op_in c o x) by (eexists; split; [exact Ex|exact Hy]).
        apply (pl_op _ P) in A. destruct A as (d' & A1 & A2). congruence.
  - cbn [ops set_ops set_blocks]. rewrite nth_upd, Nat.eqb_refl, Ed. reflexivity.
  - reflexivity.
Qed.

Section Origin.
  Variable pure : nat -> bool.
  Variables (c0 : ctx) (r : nat) (dead0 : list nat).
  Hypothesis Root : forall z, inside c0 r z -> ~ region_in c0 r z.

  Record good (c : ctx) (dead rem : list nat) : Prop := {
    g_inv : inv c dead;
    g_pr : prunes c0 c rem;
    g_live : forall x, inside c r x -> ~ In x dead;
    g_nodup : NoDup rem;
    g_pure : forall o, In o rem -> inside c0 r o /\ exists d, nth_error (ops c0) o = Some d /\ pure (o_kind d) = true;
    g_free : forall x o, inside c r x -> In o rem -> ~ reads_result c x o;
    g_dead : forall x, In x dead <-> In x dead0 \/ exists o, In o rem /\ within c0 o x;
  }.

  Lemma good_placed : forall c dead rem, good c dead rem -> placed c.
  Proof. intros c dead rem G. apply pok_placed. apply (g_inv _ _ _ G). Qed.
  Lemma good_member : forall c dead rem o b, good c dead rem -> (op_in c o b <-> op_in c0 o b /\ ~ In o rem).
  Proof.
    intros c dead rem o b G. unfold op_in. split.
    - intros (bd & E & H). destruct (prunes_block _ _ _ _ _ (g_pr _ _ _ G) E) as (bd0 & E0 & Eo). rewrite Eo in H. apply filter_In in H as [H1 H2].
      split; [exists bd0; split; assumption|]. apply member_not. destruct (member o rem); [discriminate|reflexivity].
    - intros ((bd & E & H) & N). destruct (prunes_block_fwd _ _ _ _ _ (g_pr _ _ _ G) E) as (bd' & E' & Eo). exists bd'. split; [exact E'|].
      rewrite Eo. apply filter_In. split; [exact H|]. apply member_not in N. rewrite N. reflexivity.
  Qed.

  Lemma removal : forall c dead rem b o c1 c2 sub depth, good c dead rem -> inside c0 r o -> op_in c o b -> is_dead pure c o = Some true ->
    remove_op_from_block c b o = Some c1 -> remove_op depth c1 o = Some (c2, sub) -> good c2 (dead ++ sub) (o :: rem).
  Proof.
    intros c dead rem b o c1 c2 sub depth G Ho Hin Hd H1 H2.
    pose proof (good_placed _ _ _ G) as P.
    assert (No : ~ In o rem) by (apply (good_member _ _ _ o b G), Hin).
    assert (I1 : inv c1 dead) by (eapply remove_from_block_inv; [exact H1|apply (g_inv _ _ _ G)]).
    assert (I2 : inv c2 (dead ++ sub)).
    { apply (exec_inv c1 dead (Dispose depth o)); [cbn [exec]; rewrite H2; reflexivity|exact I1]. }
    assert (Hp : op_parent c o b) by (apply (pl_op _ P), Hin). destruct Hp as (d & Ed & Epar).
    unfold remove_op_from_block in H1. rewrite Ed in H1. destruct (nth_error (blocks c) b) as [bd|] eqn:Eb; [|discriminate].
    rewrite Epar, Nat.eqb_refl in H1. injection H1 as H1.
    unfold remove_op in H2. destruct (nth_error (ops c1) o) as [d1|] eqn:Ed1; [|discriminate]. destruct (o_parent d1) eqn:Ep1; [discriminate|].
    destruct (forallb _ _); [|discriminate]. destruct (walk_op depth c1 _ [] o) as [l| |] eqn:Ew; try discriminate. injection H2 as H2 <-.
    assert (Hsub : forall x, In x l -> within c1 o x).
    { intros x Hx. eapply (walk_collect_within _ c1 o o []); [constructor|intros y []|exact Ew|exact Hx]. }
    assert (Hblk : forall x, nth_error (blocks c1) x = if Nat.eqb x b then option_map (fun x => set_bops x (filter (fun y => negb (Nat.eqb y o)) (b_ops x))) (nth_error (blocks c) x) else nth_error (blocks c) x).
    { intro x. subst c1. cbn [blocks set_ops set_blocks]. rewrite nth_upd. reflexivity. }
    assert (Hops : forall x, nth_error (ops c1) x = if Nat.eqb x o then option_map (fun x => set_parent x None) (nth_error (ops c) x) else nth_error (ops c) x).
    { intro x. subst c1. cbn [ops set_ops set_blocks]. rewrite nth_upd. reflexivity. }
    assert (Pr1 : prunes c0 c1 (o :: rem)).
    { pose proof (g_pr _ _ _ G) as Pr. constructor.
      - intro x. rewrite Hops, (pr_ops _ _ _ Pr), member_cons. destruct (Nat.eqb_spec x o) as [->|Hx]; [|reflexivity]. cbn [orb].
        destruct (nth_error (ops c0) o) as [dd|]; [|reflexivity]. cbn. destruct (member o rem); reflexivity.
      - intro x. rewrite Hblk, (pr_blocks _ _ _ Pr). destruct (Nat.eqb_spec x b) as [->|Hx].
        + destruct (nth_error (blocks c0) b) as [dd|]; [|reflexivity]. cbn [option_map]. f_equal. unfold set_bops. cbn [b_arg_types b_ops b_parent]. f_equal.
          induction (b_ops dd) as [|y ys IHy]; [reflexivity|]. cbn [filter]. rewrite member_cons. destruct (member y rem) eqn:Em; cbn [negb filter orb].
          * rewrite orb_true_r. cbn [negb]. exact IHy.
          * rewrite orb_false_r. destruct (negb (Nat.eqb y o)); [f_equal|]; exact IHy.
        + destruct (nth_error (blocks c0) x) as [dd|] eqn:Ex; [|reflexivity]. cbn [option_map]. f_equal. unfold set_bops. f_equal.
          apply filter_ext_in. intros y Hy. rewrite member_cons. destruct (Nat.eqb_spec y o) as [->|]; [|reflexivity]. exfalso. apply Hx.
          assert (A : op_in c o x).
          { apply (good_member _ _ _ o x G). split; [exists dd; split; assumption|exact No]. }
          apply (pl_op _ P) in A. destruct A as (d' & A1 & A2). congruence.
      - subst c1. cbn. apply Pr.
      - subst c1. cbn. apply Pr.
      - subst c1. cbn. apply Pr.
      - subst c1. cbn. apply Pr. }
    assert (Pr2 : prunes c0 c2 (o :: rem)).
    { subst c2. destruct Pr1 as [Q1 Q2 Q3 Q4 Q5 Q6]. constructor; assumption. }
    assert (Pc : prunes c c1 [o]).
    { constructor; try (subst c1; reflexivity).
      - intro x. rewrite Hops. cbn [member existsb]. rewrite orb_false_r. destruct (Nat.eqb x o); destruct (nth_error (ops c) x); reflexivity.
      - intro x. rewrite Hblk. destruct (Nat.eqb_spec x b) as [->|Hx].
        + rewrite Eb. cbn. f_equal. unfold set_bops. f_equal. apply filter_ext. intro y. unfold member. cbn. rewrite orb_false_r. reflexivity.
        + destruct (nth_error (blocks c) x) as [dd|] eqn:Ex; [|reflexivity]. cbn. f_equal. destruct dd as [a lo p]. unfold set_bops. cbn. f_equal.
          symmetry. apply filter_all. intros y Hy. unfold member. cbn. rewrite orb_false_r.
          destruct (Nat.eqb_spec y o) as [->|]; [|reflexivity]. exfalso. apply Hx.
          assert (A : op_in c o x) by (eexists; split; [exact Ex|exact Hy]).
          apply (pl_op _ P) in A. destruct A as (d' & A1 & A2). congruence. }
    assert (Ins : forall x, inside c2 r x -> inside c1 r x).
    { intros x H. subst c2. induction H as [rd' b' bd' x A1 A2 A3 A4|x y A IH N]; [eapply inside_top; eassumption|eapply inside_nested; [exact IH|exact N]]. }
    pose proof (pok_placed _ (proj1 (proj2 I1))) as P1.
    assert (Out : forall b', ~ op_in c1 o b').
    { intros b' A. apply (pl_op _ P1) in A. destruct A as (d' & A1 & A2). congruence. }
    assert (Apart : forall x, inside c1 r x -> ~ within c1 o x).
    { clear H1 H2. intros x H. induction H as [rd' b' bd' x A1 A2 A3 A4|x y A IH N]; intro W; inversion W; subst.
      - apply (Out b'). exists bd'. split; assumption.
      - assert (T : region_in c1 r x0). { apply (top_once c1 r x); [exact P1| |assumption]. exists rd', b', bd'. repeat split; assumption. }
        apply (prunes_region_in _ _ _ _ _ Pr1) in T. apply (Root x0); [|exact T]. eapply inside_within; [exact Ho|]. eapply prunes_within; [exact Pr1|assumption].
      - destruct N as (dd & r' & rd' & b' & bd' & _ & _ & _ & _ & N5 & N6). apply (Out b'). exists bd'. split; assumption.
      - apply IH. rewrite (parents_once c1 x y x0 P1 N); assumption. }
    constructor.
    - exact I2.
    - exact Pr2.
    - intros x Hx Hi. apply Ins in Hx. apply in_app_iff in Hi as [Hi|Hi].
      + apply (g_live _ _ _ G x); [|exact Hi]. eapply prunes_inside; [exact Pc|exact Hx].
      + apply (Apart x Hx), Hsub, Hi.
    - constructor; [exact No|apply (g_nodup _ _ _ G)].
    - intros o' [<-|Ho']; [|apply (g_pure _ _ _ G), Ho']. split; [exact Ho|].
      destruct (prunes_op _ _ _ _ _ (g_pr _ _ _ G) Ed) as (d0 & E0 & Ek & _). exists d0. split; [exact E0|]. rewrite <- Ek.
      unfold is_dead in Hd. rewrite Ed in Hd. destruct (pure (o_kind d)); [reflexivity|discriminate].
    - intros x o' Hx Ho' (dx & v & Ex & Hv & Hr). apply Ins in Hx.
      assert (Hxc : inside c r x) by (eapply prunes_inside; [exact Pc|exact Hx]).
      assert (Ex1 : nth_error (ops c1) x = Some dx) by (subst c2; exact Ex). destruct (prunes_op _ _ _ _ _ Pc Ex1) as (dc & Ec & _ & Eop & _).
      assert (Hr' : In v (op_results c o')) by (rewrite <- (pr_results _ _ _ Pc); subst c2; exact Hr).
      destruct Ho' as [<-|Ho'].
      + unfold is_dead in Hd. rewrite Ed in Hd. destruct (pure (o_kind d)); [|discriminate]. injection Hd as Hd. rewrite forallb_forall in Hd. specialize (Hd v Hr').
        unfold unused in Hd. destruct (uses c v) eqn:Eu; [|discriminate].
        rewrite Eop in Hv. apply In_nth_error in Hv as (i & Hi).
        pose proof (uok_exact _ _ (proj1 (g_inv _ _ _ G)) v) as (_ & U).
        assert (K : In (x, i) (uses c v)). { apply U. split; [apply (g_live _ _ _ G), Hxc|]. exists dc. split; assumption. }
        rewrite Eu in K. exact K.
      + apply (g_free _ _ _ G x o' Hxc Ho'). exists dc, v. rewrite <- Eop. repeat split; assumption.
    - assert (Split : forall x, within c0 o x -> within c1 o x \/ exists z, In z rem /\ within c0 z x).
      { clear H1 H2. intros x W. induction W as [|x y W IH N]; [left; constructor|]. destruct IH as [IH|(z & Hz & Wz)]; [|right; exists z; split; [exact Hz|eapply within_step; eassumption]].
        destruct (member y (o :: rem)) eqn:Em.
        - apply member_In in Em as [<-|Em]; [left; constructor|right; exists y; split; [exact Em|constructor]].
        - left. eapply within_step; [exact IH|]. destruct N as (dd & r' & rd' & b' & bd' & N1 & N2 & N3 & N4 & N5 & N6).
          destruct (prunes_op_fwd _ _ _ _ _ Pr1 N1) as (dd' & K1 & _ & _ & K2 & _). destruct (prunes_block_fwd _ _ _ _ _ Pr1 N5) as (bd2 & K3 & K4).
          exists dd', r', rd', b', bd2. rewrite K2, (pr_regions _ _ _ Pr1). repeat split; try assumption. rewrite K4. apply filter_In. split; [exact N6|]. rewrite Em. reflexivity. }
      intro x. rewrite in_app_iff, (g_dead _ _ _ G x). split.
      + intros [[H|(z & Hz & W)]|H]; [left; exact H|right; exists z; split; [right; exact Hz|exact W]|].
        right. exists o. split; [left; reflexivity|]. eapply prunes_within; [exact Pr1|apply Hsub, H].
      + intros [H|(z & [<-|Hz] & W)]; [left; left; exact H| |left; right; exists z; split; assumption].
        destruct (Split x W) as [W1|(z & Hz & Wz)]; [right; eapply walk_covers; [exact Ew|exact W1]|left; right; exists z; split; assumption].
  Qed.

  Lemma reap_good : forall c dead rem depth b o c' k, good c dead rem -> inside c0 r o -> op_in c o b ->
    reap pure depth b c o = Some (c', k) ->
    (k = 0 /\ c' = c) \/ (k = 1 /\ exists dead', good c' dead' (o :: rem)).
  Proof.
    intros c dead rem depth b o c' k G Ho Hin H. unfold reap in H. destruct (is_dead pure c o) as [[|]|] eqn:Ed; try discriminate.
    - destruct (remove_op_from_block c b o) as [c1|] eqn:E1; [|discriminate]. destruct (remove_op depth c1 o) as [[c2 sub]|] eqn:E2; [|discriminate].
      injection H as <- <-. right. split; [reflexivity|]. exists (dead ++ sub). eapply removal; eassumption.
    - injection H as <- <-. left. split; reflexivity.
  Qed.

  Lemma reaps_good : forall depth b l c dead rem c' k, good c dead rem -> NoDup l ->
    (forall o, In o l -> inside c0 r o /\ op_in c o b) ->
    sum_over (reap pure depth b) c l = Some (c', k) ->
    exists dead' rem', good c' dead' rem' /\ length rem' = length rem + k.
  Proof.
    intros depth b l. induction l as [|o l IH]; intros c dead rem c' k G ND HL H; cbn [sum_over] in H.
    - injection H as <- <-. exists dead, rem. split; [exact G|lia].
    - destruct (reap pure depth b c o) as [[c1 n1]|] eqn:E1; [|discriminate]. destruct (sum_over _ c1 l) as [[c2 n2]|] eqn:E2; [|discriminate]. injection H as <- <-.
      inv ND. destruct (HL o (or_introl eq_refl)) as (Ho & Hin). destruct (reap_good _ _ _ _ _ _ _ _ G Ho Hin E1) as [(-> & ->)|(-> & dead1 & G1)].
      + apply (IH _ _ _ _ _ G H2) in E2; [|intros o' Ho'; apply HL; right; exact Ho']. destruct E2 as (dead' & rem' & G' & L). exists dead', rem'. split; [exact G'|lia].
      + apply (IH _ _ _ _ _ G1 H2) in E2; [|].
        * destruct E2 as (dead' & rem' & G' & L). exists dead', rem'. split; [exact G'|cbn in L; lia].
        * intros o' Ho'. destruct (HL o' (or_intror Ho')) as (A & B). split; [exact A|]. apply (good_member _ _ _ o' b G1).
          apply (good_member _ _ _ o' b G) in B as (B1 & B2). split; [exact B1|]. intros [->|K]; [exact (H1 Ho')|exact (B2 K)].
  Qed.

  Lemma sum_good : forall A (f : ctx -> A -> option (ctx * nat)) l c dead rem c' k,
    (forall c dead rem a c' k, In a l -> good c dead rem -> f c a = Some (c', k) -> exists dead' rem', good c' dead' rem' /\ length rem' = length rem + k) ->
    good c dead rem -> sum_over f c l = Some (c', k) -> exists dead' rem', good c' dead' rem' /\ length rem' = length rem + k.
  Proof.
    intros A f l. induction l as [|a l IH]; intros c dead rem c' k Hf G H; cbn [sum_over] in H.
    - injection H as <- <-. exists dead, rem. split; [exact G|lia].
    - destruct (f c a) as [[c1 n1]|] eqn:E1; [|discriminate]. destruct (sum_over f c1 l) as [[c2 n2]|] eqn:E2; [|discriminate]. injection H as <- <-.
      destruct (Hf _ _ _ _ _ _ (or_introl eq_refl) G E1) as (d1 & r1 & G1 & L1).
      destruct (IH _ _ _ _ _ (fun c dead rem a c' k Hin => Hf c dead rem a c' k (or_intror Hin)) G1 E2) as (d2 & r2 & G2 & L2).
      exists d2, r2. split; [exact G2|lia].
  Qed.

  Lemma reap_total : forall c dead rem depth b o, good c dead rem -> op_in c o b -> deep c0 depth o ->
    exists c' k, reap pure depth b c o = Some (c', k).
  Proof.
    intros c dead rem depth b o G Hin Hdeep. pose proof (good_placed _ _ _ G) as P. unfold reap, is_dead.
    pose proof Hin as Hp. apply (pl_op _ P) in Hp. destruct Hp as (d & Ed & Epar). rewrite Ed.
    destruct (if pure (o_kind d) then _ else _) eqn:Edd; [|eexists _, _; reflexivity]. destruct (pure (o_kind d)); [|discriminate].
    destruct (take_out c b o P Hin) as (c1 & d1 & -> & Pc & Eu & Ed1 & Ep1). unfold remove_op. rewrite Ed1, Ep1.
    assert (Ef : forallb (fun v => match uses c1 v with [] => true | _ => false end) (op_results c1 o) = true).
    { rewrite Eu, (pr_results _ _ _ Pc). exact Edd. }
    rewrite Ef. destruct (walk_total depth c1 o []) as (l & ->); [|eexists _, _; reflexivity].
    eapply deep_prunes; [exact Pc|]. eapply deep_prunes; [apply (g_pr _ _ _ G)|exact Hdeep].
  Qed.
  Lemma reaps_total : forall depth b l c dead rem, good c dead rem -> NoDup l ->
    (forall o, In o l -> inside c0 r o /\ op_in c o b /\ deep c0 depth o) ->
    exists c' k, sum_over (reap pure depth b) c l = Some (c', k).
  Proof.
    intros depth b l. induction l as [|o l IH]; intros c dead rem G ND HL; cbn [sum_over]; [eexists _, _; reflexivity|].
    inv ND. destruct (HL o (or_introl eq_refl)) as (Ho & Hin & Hdeep). destruct (reap_total _ _ _ _ _ _ G Hin Hdeep) as (c1 & k1 & E1). rewrite E1.
    destruct (reap_good _ _ _ _ _ _ _ _ G Ho Hin E1) as [(-> & ->)|(-> & dead1 & G1)].
    - destruct (IH c dead rem G H2 (fun o' Ho' => HL o' (or_intror Ho'))) as (c2 & k2 & ->). eexists _, _; reflexivity.
    - destruct (IH c1 dead1 (o :: rem) G1 H2) as (c2 & k2 & ->); [|eexists _, _; reflexivity].
      intros o' Ho'. destruct (HL o' (or_intror Ho')) as (A & B & C). split; [exact A|]. split; [|exact C]. apply (good_member _ _ _ o' b G1).
      apply (good_member _ _ _ o' b G) in B as (B1 & B2). split; [exact B1|]. intros [->|K]; [exact (H1 Ho')|exact (B2 K)].
  Qed.
  Lemma sum_total : forall A (f : ctx -> A -> option (ctx * nat)) l c dead rem,
    (forall c dead rem a, In a l -> good c dead rem -> exists c' k dead' rem', f c a = Some (c', k) /\ good c' dead' rem') ->
    good c dead rem -> exists c' k, sum_over f c l = Some (c', k).
  Proof.
    intros A f l. induction l as [|a l IH]; intros c dead rem Hf G; cbn [sum_over]; [eexists _, _; reflexivity|].
    destruct (Hf c dead rem a (or_introl eq_refl) G) as (c1 & k1 & d1 & r1 & -> & G1).
    destruct (IH c1 d1 r1 (fun c dead rem a Hin => Hf c dead rem a (or_intror Hin)) G1) as (c2 & k2 & ->). eexists _, _; reflexivity.
  Qed.

  (** A region of the scope. *)
  Definition ours (r' : nat) : Prop := r' = r \/ exists z, inside c0 r z /\ region_in c0 r' z.
  Lemma ours_inside : forall r' rd b bd x, ours r' -> nth_error (regions c0) r' = Some rd -> In b (r_blocks rd) -> nth_error (blocks c0) b = Some bd -> In x (b_ops bd) -> inside c0 r x.
  Proof.
    intros r' rd b bd x [->|(z & Hz & d & Ed & Hr)] H1 H2 H3 H4; [eapply inside_top; eassumption|].
    eapply inside_nested; [exact Hz|]. exists d, r', rd, b, bd. repeat split; assumption.
  Qed.

  Lemma sweep_good : forall fuel depth recursive r' c dead rem c' k, good c dead rem -> ours r' ->
    sweep_region pure fuel depth recursive c r' = Some (c', k) -> exists dead' rem', good c' dead' rem' /\ length rem' = length rem + k.
  Proof.
    induction fuel as [|n IH]; intros depth recursive r' c dead rem c' k G Hr H; cbn [sweep_region] in H; [discriminate|].
    destruct (nth_error (regions c) r') as [rd|] eqn:Erd; [|discriminate]. rewrite (pr_regions _ _ _ (g_pr _ _ _ G)) in Erd.
    revert H. apply (sum_good _ _ _ c dead rem c' k); [|exact G]. clear c dead rem c' k G. intros c dead rem b c' k Hb G H.
    destruct (nth_error (blocks c) b) as [bd|] eqn:Eb; [|discriminate]. destruct (prunes_block _ _ _ _ _ (g_pr _ _ _ G) Eb) as (bd0 & Eb0 & Eo).
    assert (HI : forall o, In o (b_ops bd0) -> inside c0 r o) by (intros o Ho; eapply ours_inside; eassumption).
    assert (HI' : forall o, In o (b_ops bd) -> inside c0 r o) by (intros o Ho; apply HI; rewrite Eo in Ho; apply filter_In in Ho; apply Ho).
    destruct (if recursive then _ else _) as [[c1 n1]|] eqn:E1; [|discriminate].
    assert (S1 : exists dead1 rem1, good c1 dead1 rem1 /\ length rem1 = length rem + n1).
    { destruct recursive; [|injection E1 as <- <-; exists dead, rem; split; [exact G|lia]].
      revert E1. apply (sum_good _ _ _ c dead rem c1 n1); [|exact G]. clear c dead rem G Eb Eo c1 n1 H. intros c dead rem o c1 n1 Ho G H. cbv beta in H.
      destruct (nth_error (ops c) o) as [d|] eqn:Ed; [|discriminate]. destruct (prunes_op _ _ _ _ _ (g_pr _ _ _ G) Ed) as (d0 & Ed0 & _ & _ & Er & _).
      revert H. apply (sum_good _ _ _ c dead rem c1 n1); [|exact G]. intros ca da ra r2 cb kb Hr2 Ga Hs. eapply IH; [exact Ga| |exact Hs].
      right. exists o. split; [apply HI', Ho|exists d0; split; [exact Ed0|rewrite <- Er; exact Hr2]]. }
    destruct S1 as (dead1 & rem1 & G1 & L1). destruct (nth_error (blocks c1) b) as [bd1|] eqn:Eb1; [|discriminate].
    destruct (sum_over _ c1 _) as [[c2 n2]|] eqn:E2; [|discriminate]. injection H as <- <-.
    destruct (prunes_block _ _ _ _ _ (g_pr _ _ _ G1) Eb1) as (bd0' & Eb0' & Eo1).
    apply (reaps_good _ _ _ _ _ _ _ _ G1) in E2.
    - destruct E2 as (d2 & r2 & G2 & L2). exists d2, r2. split; [exact G2|lia].
    - apply NoDup_rev. apply (pl_op_once _ (good_placed _ _ _ G1) _ _ Eb1).
    - intros o Ho. apply in_rev in Ho. split; [|exists bd1; split; assumption]. apply HI. rewrite Eb0 in Eb0'. injection Eb0' as <-.
      rewrite Eo1 in Ho. apply filter_In in Ho. apply Ho.
  Qed.

  Definition rdeep (n r' : nat) : Prop :=
    exists rd, nth_error (regions c0) r' = Some rd /\ forall b, In b (r_blocks rd) ->
      exists bd, nth_error (blocks c0) b = Some bd /\ forall x, In x (b_ops bd) -> deep c0 n x.
  Lemma sweep_total : forall fuel n depth recursive r' c dead rem, good c dead rem -> ours r' -> rdeep n r' -> n < fuel -> n <= depth ->
    exists c' k, sweep_region pure fuel depth recursive c r' = Some (c', k).
  Proof.
    induction fuel as [|f IH]; intros n depth recursive r' c dead rem G Hr (rd & Erd & Hrd) Hn Hd; [lia|]. cbn [sweep_region].
    rewrite (pr_regions _ _ _ (g_pr _ _ _ G)), Erd. apply (sum_total _ _ _ c dead rem); [|exact G].
    clear c dead rem G. intros c dead rem b Hb G. destruct (Hrd b Hb) as (bd0 & Eb0 & Hx).
    destruct (prunes_block_fwd _ _ _ _ _ (g_pr _ _ _ G) Eb0) as (bd & Eb & Eo). rewrite Eb.
    assert (HI : forall o, In o (b_ops bd0) -> inside c0 r o) by (intros o Ho; eapply ours_inside; eassumption).
    assert (HS : forall o, In o (b_ops bd) -> In o (b_ops bd0)) by (intros o Ho; rewrite Eo in Ho; apply filter_In in Ho; apply Ho).
    assert (Nest : forall c dead rem o, In o (b_ops bd) -> good c dead rem -> exists c' k dead' rem',
      match nth_error (ops c) o with None => None | Some d => sum_over (sweep_region pure f depth recursive) c (o_regions d) end = Some (c', k) /\ good c' dead' rem').
    { clear c dead rem G Eb Eo. intros c dead rem o Ho G. pose proof (Hx o (HS o Ho)) as Hdo. destruct n as [|m]; [destruct Hdo|].
      destruct Hdo as (d0 & Ed0 & Hregs). destruct (prunes_op_fwd _ _ _ _ _ (g_pr _ _ _ G) Ed0) as (d & Ed & _ & _ & Er & _). rewrite Ed, Er.
      assert (HO : forall r2, In r2 (o_regions d0) -> ours r2).
      { intros r2 Hr2. right. exists o. split; [apply HI, HS, Ho|exists d0; split; assumption]. }
      destruct (sum_total _ (sweep_region pure f depth recursive) (o_regions d0) c dead rem) as (c' & k & E); [|exact G|].
      - intros ca da ra r2 Hr2 Ga. destruct (IH m depth recursive r2 ca da ra Ga (HO r2 Hr2)) as (cb & kb & Eb); [exact (Hregs r2 Hr2)|lia|lia|].
        destruct (sweep_good _ _ _ _ _ _ _ _ _ Ga (HO r2 Hr2) Eb) as (db & rb & Gb & _). exists cb, kb, db, rb. split; assumption.
      - rewrite E. assert (Hg : exists dead' rem', good c' dead' rem' /\ length rem' = length rem + k).
        { revert E. apply (sum_good _ _ _ c dead rem c' k); [|exact G]. intros ca da ra r2 cb kb Hr2 Ga Hs. eapply sweep_good; [exact Ga|apply HO, Hr2|exact Hs]. }
        destruct Hg as (d' & r1 & G' & _). exists c', k, d', r1. split; [reflexivity|exact G']. }
    assert (S1 : exists c1 n1 dead1 rem1, (if recursive then sum_over (fun c o => match nth_error (ops c) o with None => None | Some d => sum_over (sweep_region pure f depth recursive) c (o_regions d) end) c (b_ops bd) else Some (c, 0)) = Some (c1, n1) /\ good c1 dead1 rem1).
    { destruct recursive; [|exists c, 0, dead, rem; split; [reflexivity|exact G]].
      destruct (sum_total _ _ (b_ops bd) c dead rem Nest G) as (c1 & n1 & E1).
      assert (Hg : exists dead' rem', good c1 dead' rem' /\ length rem' = length rem + n1).
      { revert E1. apply (sum_good _ _ _ c dead rem c1 n1); [|exact G]. intros ca da ra o cb kb Ho Ga Hs. cbv beta in Hs. destruct (nth_error (ops ca) o) as [d|] eqn:Ed; [|discriminate].
        destruct (prunes_op _ _ _ _ _ (g_pr _ _ _ Ga) Ed) as (d0 & Ed0 & _ & _ & Er & _).
        revert Hs. apply (sum_good _ _ _ ca da ra cb kb); [|exact Ga]. intros cc dc rc r2 ce ke Hr2 Gc Hs. eapply sweep_good; [exact Gc| |exact Hs].
        right. exists o. split; [apply HI, HS, Ho|exists d0; split; [exact Ed0|rewrite <- Er; exact Hr2]]. }
      destruct Hg as (dead1 & rem1 & G1 & _). exists c1, n1, dead1, rem1. split; assumption. }
    destruct S1 as (c1 & n1 & dead1 & rem1 & -> & G1).
    destruct (prunes_block_fwd _ _ _ _ _ (g_pr _ _ _ G1) Eb0) as (bd1 & Eb1 & Eo1). rewrite Eb1.
    assert (ND : NoDup (rev (b_ops bd1))) by (apply NoDup_rev, (pl_op_once _ (good_placed _ _ _ G1) _ _ Eb1)).
    assert (HL : forall o, In o (rev (b_ops bd1)) -> inside c0 r o /\ op_in c1 o b /\ deep c0 depth o).
    { intros o Ho. apply in_rev in Ho. assert (Ho0 : In o (b_ops bd0)) by (rewrite Eo1 in Ho; apply filter_In in Ho; apply Ho).
      split; [apply HI, Ho0|]. split; [exists bd1; split; assumption|]. eapply deep_mono; [exact Hd|apply Hx, Ho0]. }
    destruct (reaps_total depth b _ c1 dead1 rem1 G1 ND HL) as (c2 & n2 & E2). rewrite E2.
    destruct (reaps_good _ _ _ _ _ _ _ _ G1 ND (fun o Ho => conj (proj1 (HL o Ho)) (proj1 (proj2 (HL o Ho)))) E2) as (dead2 & rem2 & G2 & _).
    exists c2, (n1 + n2), dead2, rem2. split; [reflexivity|exact G2].
  Qed.
End Origin.

(** ** A sweep that removes nothing *)
Lemma sum_zero : forall A (f : ctx -> A -> option (ctx * nat)) (P : A -> ctx -> Prop) l c c',
  (forall c c' a, In a l -> f c a = Some (c', 0) -> c' = c /\ P a c) -> sum_over f c l = Some (c', 0) -> c' = c /\ forall a, In a l -> P a c.
Proof.
  intros A f P l. induction l as [|a l IH]; intros c c' Hf H; cbn [sum_over] in H.
  - injection H as <-. split; [reflexivity|intros a []].
  - destruct (f c a) as [[c1 n1]|] eqn:E1; [|discriminate]. destruct (sum_over f c1 l) as [[c2 n2]|] eqn:E2; [|discriminate]. injection H as <- H.
    assert (n1 = 0 /\ n2 = 0) as (-> & ->) by lia. destruct (Hf _ _ _ (or_introl eq_refl) E1) as (-> & HP).
    destruct (IH _ _ (fun c c' a Hin => Hf c c' a (or_intror Hin)) E2) as (-> & HPs). split; [reflexivity|]. intros a' [<-|Ha']; [exact HP|apply HPs, Ha'].
Qed.
Lemma reap_zero : forall pure depth b c c' o, reap pure depth b c o = Some (c', 0) -> c' = c /\ is_dead pure c o = Some false.
Proof.
  intros pure depth b c c' o H. unfold reap in H. destruct (is_dead pure c o) as [[|]|]; try discriminate.
  - destruct (remove_op_from_block c b o); [|discriminate]. destruct (remove_op depth c0 o) as [[? ?]|]; discriminate.
  - injection H as <-. split; reflexivity.
Qed.
Lemma sweep_zero : forall pure fuel depth recursive c c' r, sweep_region pure fuel depth recursive c r = Some (c', 0) ->
  c' = c /\ forall x, (if recursive then inside c r x else directly_in c r x) -> is_dead pure c x = Some false.
Proof.
  intros pure fuel depth recursive. induction fuel as [|n IH]; intros c c' r H; cbn [sweep_region] in H; [discriminate|].
  destruct (nth_error (regions c) r) as [rd|] eqn:Erd; [|discriminate].
  apply (sum_zero _ _ (fun b c => exists bd, nth_error (blocks c) b = Some bd /\ (forall o, In o (b_ops bd) -> is_dead pure c o = Some false) /\
      (recursive = true -> forall o d r', In o (b_ops bd) -> nth_error (ops c) o = Some d -> In r' (o_regions d) -> forall x, inside c r' x -> is_dead pure c x = Some false))) in H.
  - destruct H as (-> & H). split; [reflexivity|]. intros x Hx. destruct recursive.
    + assert (Up : forall x, inside c r x -> directly_in c r x \/ exists o d r', directly_in c r o /\ nth_error (ops c) o = Some d /\ In r' (o_regions d) /\ inside c r' x).
      { clear x Hx. intros x Hx. induction Hx as [rd' b bd x A1 A2 A3 A4|x y Hy IHy N].
        - left. exists rd', b, bd. repeat split; assumption.
        - destruct N as (d & r' & rd' & b & bd & N1 & N2 & N3 & N4 & N5 & N6). right. destruct IHy as [D|(o & do & ro & D & Eo & Hr & I)].
          + exists y, d, r'. repeat split; try assumption. eapply inside_top; eassumption.
          + exists o, do, ro. repeat split; try assumption. eapply inside_nested; [exact I|]. exists d, r', rd', b, bd. repeat split; assumption. }
      destruct (Up x Hx) as [(rd' & b & bd & A1 & A2 & A3 & A4)|(o & d & r' & (rd' & b & bd & A1 & A2 & A3 & A4) & Eo & Hr & I)];
        rewrite Erd in A1; injection A1 as <-; destruct (H b A2) as (bd' & B1 & B2 & B3); rewrite A3 in B1; injection B1 as <-.
      * apply B2, A4.
      * eapply (B3 eq_refl); eassumption.
    + destruct Hx as (rd' & b & bd & A1 & A2 & A3 & A4). rewrite Erd in A1. injection A1 as <-. destruct (H b A2) as (bd' & B1 & B2 & _). rewrite A3 in B1. injection B1 as <-. apply B2, A4.
  - intros c3 c4 b _ H'. clear c c' r H rd Erd. rename c3 into c, c4 into c', H' into H. destruct (nth_error (blocks c) b) as [bd|] eqn:Eb; [|discriminate].
    destruct (if recursive then _ else _) as [[c1 n1]|] eqn:E1; [|discriminate]. destruct (nth_error (blocks c1) b) as [bd1|] eqn:Eb1; [|discriminate].
    destruct (sum_over _ c1 (rev _)) as [[c2 n2]|] eqn:E2; [|discriminate]. injection H as <- H. assert (n1 = 0 /\ n2 = 0) as (-> & ->) by lia.
    apply (sum_zero _ _ (fun o c => is_dead pure c o = Some false)) in E2; [|intros ca cb o _ Hr; eapply reap_zero; exact Hr]. destruct E2 as (-> & HD).
    assert (K : c1 = c /\ (recursive = true -> forall o d r', In o (b_ops bd) -> nth_error (ops c) o = Some d -> In r' (o_regions d) -> forall x, inside c r' x -> is_dead pure c x = Some false)).
    { destruct recursive; [|injection E1 as <-; split; [reflexivity|discriminate]].
      apply (sum_zero _ _ (fun o c => forall d r', nth_error (ops c) o = Some d -> In r' (o_regions d) -> forall x, inside c r' x -> is_dead pure c x = Some false)) in E1.
      - destruct E1 as (-> & HN). split; [reflexivity|]. intros _ o d r' Ho Ed Hr x Hx. eapply HN; eassumption.
      - clear E1. intros ca cb o _ Hs. destruct (nth_error (ops ca) o) as [d|] eqn:Ed; [|discriminate].
        apply (sum_zero _ _ (fun r' c => forall x, inside c r' x -> is_dead pure c x = Some false)) in Hs; [|intros cc cd r' _ Hr; apply IH in Hr; exact Hr].
        destruct Hs as (-> & HN). split; [reflexivity|]. intros d' r' Ed' Hr x Hx. injection Ed' as <-. eapply HN; eassumption. }
    destruct K as (-> & K). rewrite Eb in Eb1. injection Eb1 as <-. split; [reflexivity|]. exists bd. split; [reflexivity|]. split; [|exact K].
    intros o Ho. apply HD. apply in_rev. rewrite rev_involutive. exact Ho.
Qed.

(** ** The whole loop *)
Section Loop.
  Variable pure : nat -> bool.
  Variables (c0 : ctx) (r : nat) (dead0 : list nat).
  Hypothesis Root : forall z, inside c0 r z -> ~ region_in c0 r z.

  Lemma scope_sweep : forall fuel depth recursive c, sum_over (sweep_region pure fuel depth recursive) c [r] =
    match sweep_region pure fuel depth recursive c r with Some (c', k) => Some (c', k + 0) | None => None end.
  Proof. intros. cbn [sum_over]. destruct (sweep_region _ _ _ _ _ _) as [[c' k]|]; reflexivity. Qed.

  Lemma iterate_good : forall fuel depth recursive left done c dead rem c' res, good pure c0 r dead0 c dead rem ->
    iterate pure fuel depth recursive [r] left done (length rem) c = Some (c', res) ->
    exists dead' rem', good pure c0 r dead0 c' dead' rem' /\ removed_count res = length rem' /\ iterations res <= done + left /\
      (reached_fixpoint res = true -> forall x, (if recursive then inside c' r x else directly_in c' r x) -> is_dead pure c' x = Some false) /\
      (forall N, (forall l, NoDup l -> (forall o, In o l -> inside c0 r o) -> length l <= N) -> N < length rem + left -> reached_fixpoint res = true).
  Proof.
    intros fuel depth recursive left. induction left as [|l IH]; intros done c dead rem c' res G H; cbn [iterate] in H.
    - injection H as <- <-. exists dead, rem. cbn. split; [exact G|]. split; [reflexivity|]. split; [lia|]. split; [discriminate|]. intros N HN K.
      pose proof (HN rem (g_nodup _ _ _ _ _ _ _ G) (fun o Ho => proj1 (g_pure _ _ _ _ _ _ _ G o Ho))). lia.
    - rewrite scope_sweep in H. destruct (sweep_region pure fuel depth recursive c r) as [[c1 k]|] eqn:E; [|discriminate]. rewrite Nat.add_0_r in H.
      destruct (sweep_good pure c0 r dead0 Root _ _ _ _ _ _ _ _ _ G (or_introl eq_refl) E) as (dead1 & rem1 & G1 & L1). destruct k as [|k].
      + injection H as <- <-. exists dead1, rem1. cbn. apply sweep_zero in E as (-> & HD). split; [exact G1|]. split; [lia|]. split; [lia|]. split; [intros _; exact HD|reflexivity].
      + replace (length rem + S k) with (length rem1) in H by lia. destruct (IH _ _ _ _ _ _ G1 H) as (d2 & r2 & G2 & L2 & L3 & F & T).
        exists d2, r2. split; [exact G2|]. split; [exact L2|]. split; [lia|]. split; [exact F|]. intros N HN K. apply (T N HN). lia.
  Qed.
  Lemma iterate_total : forall fuel depth recursive n left done c dead rem, good pure c0 r dead0 c dead rem -> rdeep c0 n r -> n < fuel -> n <= depth ->
    exists c' res, iterate pure fuel depth recursive [r] left done (length rem) c = Some (c', res).
  Proof.
    intros fuel depth recursive n left. induction left as [|l IH]; intros done c dead rem G D F1 F2; cbn [iterate]; [eexists _, _; reflexivity|].
    rewrite scope_sweep. destruct (sweep_total pure c0 r dead0 Root fuel n depth recursive r c dead rem G (or_introl eq_refl) D F1 F2) as (c1 & k & E). rewrite E, Nat.add_0_r.
    destruct (sweep_good pure c0 r dead0 Root _ _ _ _ _ _ _ _ _ G (or_introl eq_refl) E) as (dead1 & rem1 & G1 & L1). destruct k as [|k]; [eexists _, _; reflexivity|].
    replace (length rem + S k) with (length rem1) by lia. apply (IH _ _ dead1); assumption.
  Qed.
End Loop.

Lemma within_deep : forall c x n z, deep c n x -> within c x z -> exists m, m <= n /\ deep c m z.
Proof.
  intros c x n z D W. induction W as [|y z W IH N]; [exists n; split; [lia|exact D]|]. destruct IH as (m & Hm & Dm). destruct m as [|m]; [destruct Dm|].
  exists m. split; [lia|]. destruct N as (d & r & rd & b & bd & N1 & N2 & N3 & N4 & N5 & N6). destruct Dm as (d' & E & H). rewrite N1 in E. injection E as <-.
  destruct (H r N2) as (rd' & E' & H'). rewrite N3 in E'. injection E' as <-. destruct (H' b N4) as (bd' & E'' & H''). rewrite N5 in E''. injection E'' as <-. apply H'', N6.
Qed.
Lemma inside_from_top : forall c r x, inside c r x -> exists t, directly_in c r t /\ within c t x.
Proof.
  intros c r x H. induction H as [rd b bd x A1 A2 A3 A4|x y H IH N].
  - exists x. split; [exists rd, b, bd; repeat split; assumption|constructor].
  - destruct IH as (t & T & W). exists t. split; [exact T|]. eapply within_step; eassumption.
Qed.
Lemma rdeep_root : forall c r n, rdeep c n r -> forall z, inside c r z -> ~ region_in c r z.
Proof.
  intros c r n. induction n as [n IH] using (well_founded_induction lt_wf). intros (rd & Erd & H) z Hz (d & Ed & Hr).
  destruct (inside_from_top _ _ _ Hz) as (t & (rd' & b & bd & A1 & A2 & A3 & A4) & W). rewrite Erd in A1. injection A1 as <-.
  destruct (H b A2) as (bd' & E' & Ht). rewrite A3 in E'. injection E' as <-. destruct (within_deep _ _ _ _ (Ht t A4) W) as (m & Hm & Dm).
  destruct m as [|m]; [destruct Dm|]. destruct Dm as (d' & E'' & Hd). rewrite Ed in E''. injection E'' as <-. destruct (Hd r Hr) as (rd' & E3 & Hb).
  apply (IH m) with (z := z); [lia| |exact Hz|exists d; split; assumption]. exists rd'. split; assumption.
Qed.
Lemma region_tree_deep : forall c rb n, region_tree_of c rb -> (forall t, In t (region_trees rb) -> height t <= n) -> rdeep c n (fst rb).
Proof.
  intros c rb n ((rd & Erd & Eb) & H) Hh. exists rd. split; [exact Erd|]. rewrite Eb. intros b Hb. apply in_map_iff in Hb as (bt & <- & Hbt).
  rewrite all_Forall, Forall_forall in H. destruct (H bt Hbt) as ((bd & Ebd & Eo) & Hts). exists bd. split; [exact Ebd|]. rewrite Eo. intros x Hx.
  apply in_map_iff in Hx as (t & <- & Ht). rewrite all_Forall, Forall_forall in Hts. apply deep_tree; [apply Hts, Ht|]. apply Hh. unfold region_trees. apply in_flat_map. exists bt. split; assumption.
Qed.
Lemma inside_tree : forall c rb x, region_tree_of c rb -> (inside c (fst rb) x <-> In x (flat_map preorder (region_trees rb))).
Proof.
  intros c rb x T. rewrite (region_trees_within rb c T). pose proof T as ((rd & Erd & Eb) & _). split.
  - intro H. destruct (inside_from_top _ _ _ H) as (t & (rd' & b & bd & A1 & A2 & A3 & A4) & W). rewrite Erd in A1. injection A1 as <-.
    exists b, bd, t. rewrite <- Eb. repeat split; assumption.
  - intros (b & bd & o & H1 & H2 & H3 & W). apply (inside_within c _ o); [|exact W]. rewrite <- Eb in H1. eapply inside_top; eassumption.
Qed.

Lemma good_start : forall pure c dead r, inv c dead -> (forall x, inside c r x -> ~ In x dead) -> good pure c r dead c dead [].
Proof.
  intros pure c dead r I L. constructor; [exact I|apply prunes_refl|exact L|constructor|intros o []|intros x o _ []|].
  intro x. split; [intro H; left; exact H|intros [H|(o & [] & _)]; exact H].
Qed.

(** ** Putting it together, for a scope with known structure. *)

Lemma eliminate_all : forall pure xs c dead rb fuel depth maxit recursive,
  exec_all (empty_ctx, []) xs = Some (c, dead) -> region_tree_of c rb -> (forall t, In t (region_trees rb) -> height t < fuel /\ height t <= depth) -> 0 < fuel ->
  (forall x, inside c (fst rb) x -> ~ In x dead) ->
  exists c' res dead' rem, eliminate_dead_code pure fuel depth maxit recursive c [fst rb] = Some (c', res) /\
    good pure c (fst rb) dead c' dead' rem /\ removed_count res = length rem /\
    (reached_fixpoint res = true -> forall x, (if recursive then inside c' (fst rb) x else directly_in c' (fst rb) x) -> is_dead pure c' x = Some false) /\
    (length (flat_map preorder (region_trees rb)) < (if Nat.eqb maxit 0 then 100 else maxit) -> reached_fixpoint res = true).
Proof.
  intros pure xs c dead rb fuel depth maxit recursive H T Hh Hf L.
  assert (Hn : exists n, n < fuel /\ n <= depth /\ forall t, In t (region_trees rb) -> height t <= n).
  { destruct (region_trees rb) as [|t ts] eqn:E.
    - exists 0. split; [exact Hf|]. split; [lia|]. intros t [].
    - exists (list_max (map height (t :: ts))). assert (Hb : forall t', In t' (t :: ts) -> height t' <= list_max (map height (t :: ts))).
      { intros t' Ht'. pose proof (list_max_le (map height (t :: ts)) (list_max (map height (t :: ts)))) as [K _]. specialize (K (Nat.le_refl _)).
        rewrite Forall_forall in K. apply K. apply in_map, Ht'. }
      assert (Hm : In (list_max (map height (t :: ts))) (map height (t :: ts))).
      { clear. revert t. induction ts as [|u us IH]; intro t; [left; cbn; lia|]. change (list_max (map height (t :: u :: us))) with (Nat.max (height t) (list_max (map height (u :: us)))).
        destruct (Nat.max_dec (height t) (list_max (map height (u :: us)))) as [-> | ->]; [left; reflexivity|right; apply IH]. }
      apply in_map_iff in Hm as (tm & Em & Hm). destruct (Hh tm Hm). rewrite Em in *. split; [assumption|]. split; assumption. }
  destruct Hn as (n & Hn1 & Hn2 & Hn3). pose proof (region_tree_deep _ _ _ T Hn3) as D. pose proof (rdeep_root _ _ _ D) as Root.
  assert (G : good pure c (fst rb) dead c dead []) by (apply good_start; [apply (reachable_inv _ _ _ H)|exact L]).
  unfold eliminate_dead_code. destruct (iterate_total pure c (fst rb) dead Root fuel depth recursive n (if Nat.eqb maxit 0 then 100 else maxit) 0 c dead [] G D Hn1 Hn2) as (c' & res & E).
  destruct (iterate_good pure c (fst rb) dead Root _ _ _ _ _ _ _ _ _ _ G E) as (dead' & rem & G' & R1 & _ & F & Tm).
  exists c', res, dead', rem. split; [exact E|]. split; [exact G'|]. split; [exact R1|]. split; [exact F|]. intro Hlen. apply (Tm _) in Hlen; [exact Hlen|].
  intros l ND Hl. apply NoDup_incl_length; [exact ND|]. intros x Hx. apply (inside_tree _ _ _ T), Hl, Hx.
Qed.

(** The form used by the property file. *)
Lemma only_dead_pure_removed : forall pure xs c dead rb fuel depth maxit recursive,
  exec_all (empty_ctx, []) xs = Some (c, dead) -> region_tree_of c rb -> (forall t, In t (region_trees rb) -> height t < fuel /\ height t <= depth) -> 0 < fuel ->
  (forall x, inside c (fst rb) x -> ~ In x dead) ->
  exists c' res rem, eliminate_dead_code pure fuel depth maxit recursive c [fst rb] = Some (c', res) /\
    prunes c c' rem /\ NoDup rem /\ length rem = removed_count res /\
    (forall o, In o rem -> inside c (fst rb) o /\ is_pure pure c o) /\
    (forall x o, inside c' (fst rb) x -> In o rem -> ~ reads_result c' x o) /\
    placed c' /\ defs_exact c' /\
    (exists dead', uses_exact c' dead' /\ (forall x, In x dead' <-> In x dead \/ exists o, In o rem /\ within c o x) /\ forall x, inside c' (fst rb) x -> ~ In x dead') /\
    (length (flat_map preorder (region_trees rb)) < (if Nat.eqb maxit 0 then 100 else maxit) -> reached_fixpoint res = true) /\
    (reached_fixpoint res = true -> forall x, (if recursive then inside c' (fst rb) x else directly_in c' (fst rb) x) -> is_pure pure c' x ->
       exists v y i, In v (op_results c' x) /\ reads c' y i v /\ ~ In y dead /\ forall o, In o rem -> ~ within c o y).
Proof.
  intros pure xs c dead rb fuel depth maxit recursive H T Hh Hf L.
  destruct (eliminate_all pure xs c dead rb fuel depth maxit recursive H T Hh Hf L) as (c' & res & dead' & rem & E & G & R & F & Tm).
  exists c', res, rem. split; [exact E|]. destruct G as [I Pr Lv ND Pu Fr Dd]. split; [exact Pr|]. split; [exact ND|]. split; [symmetry; exact R|]. split; [exact Pu|]. split; [exact Fr|].
  destruct I as (U & P & D). split; [apply pok_placed, P|]. split; [exact D|]. split; [exists dead'; split; [apply uok_exact, U|split; [exact Dd|exact Lv]]|]. split; [exact Tm|].
  intros Hr x Hx (d & Ed & Hp). specialize (F Hr x Hx). unfold is_dead in F. rewrite Ed, Hp in F. injection F as F.
  assert (Hv : exists v, In v (op_results c' x) /\ unused c' v = false).
  { clear - F. induction (op_results c' x) as [|v vs IH]; [discriminate|]. cbn [forallb] in F. destruct (unused c' v) eqn:E.
    - destruct (IH F) as (w & H1 & H2). exists w. split; [right; exact H1|exact H2].
    - exists v. split; [left; reflexivity|exact E]. }
  destruct Hv as (v & Hv & Hu). unfold unused in Hu. destruct (uses c' v) as [|[y i] us] eqn:Eu; [discriminate|].
  pose proof (uok_exact _ _ U v) as (_ & K). destruct (proj1 (K y i)) as (K1 & K2); [rewrite Eu; left; reflexivity|]. exists v, y, i. split; [exact Hv|]. split; [exact K2|].
  split; [intro C; apply K1, Dd; left; exact C|]. intros o Ho C. apply K1, Dd. right. exists o. split; assumption.
Qed.
