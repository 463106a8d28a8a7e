(** Proofs about walks. *)
From Verif Require Import Base IrModel IrSpec IrTreeSpec IrProofs IrInvProofs.
From Coq Require Import Lia.

Lemma all_Forall : forall A (P : A -> Prop) l, all P l <-> Forall P l.
Proof.
  intros A P l. induction l as [|x l IH]; cbn [all].
  - split; [constructor|exact (fun _ => I)].
  - change ((P x /\ all P l) <-> Forall P (x :: l)). rewrite IH. split; [intros [H1 H2]; constructor; assumption|intro H; inversion H; split; assumption].
Qed.

Lemma Forall_iff : forall A (P Q : A -> Prop) l, (forall x, P x <-> Q x) -> Forall P l <-> Forall Q l.
Proof. intros A P Q l H. split; apply Forall_impl; intro a; apply H. Qed.

Fixpoint tree_rect' (P : tree -> Prop)
  (H : forall o rs, all (fun rb => all (fun bt => all P (snd bt)) (snd rb)) rs -> P (Node o rs)) (t : tree) : P t :=
  match t with
  | Node o rs =>
      H o rs ((fix go3 (rs : list (nat * list (nat * list tree))) : all (fun rb => all (fun bt => all P (snd bt)) (snd rb)) rs :=
        match rs with
        | [] => I
        | rb :: rest =>
            conj ((fix go2 (bs : list (nat * list tree)) : all (fun bt => all P (snd bt)) bs :=
              match bs with
              | [] => I
              | bt :: rest =>
                  conj ((fix go1 (ts : list tree) : all P ts :=
                    match ts with [] => I | t :: rest => conj (tree_rect' P H t) (go1 rest) end) (snd bt)) (go2 rest)
              end) (snd rb)) (go3 rest)
        end) rs)
  end.

Definition trees (rs : list (nat * list (nat * list tree))) : list tree := inner (fun t => [t]) rs.
Lemma flat_map_single : forall A (l : list A), flat_map (fun x => [x]) l = l.
Proof. induction l as [|x l IH]; cbn; [reflexivity|rewrite IH; reflexivity]. Qed.
Lemma flat_map_flat_map : forall A B C (f : B -> list C) (g : A -> list B) l, flat_map f (flat_map g l) = flat_map (fun x => flat_map f (g x)) l.
Proof.
  intros A B C f g l. induction l as [|x l IH]; cbn; [reflexivity|]. rewrite flat_map_app, IH. reflexivity.
Qed.
Lemma flat_map_eq : forall A B (f g : A -> list B) l, (forall x, f x = g x) -> flat_map f l = flat_map g l.
Proof. intros A B f g l H. induction l as [|x l IH]; cbn; [reflexivity|rewrite H, IH; reflexivity]. Qed.
Lemma inner_trees : forall A (f : tree -> list A) rs, inner f rs = flat_map f (trees rs).
Proof.
  intros A f rs. unfold trees, inner. rewrite flat_map_flat_map. apply flat_map_eq. intro rb.
  rewrite flat_map_flat_map. apply flat_map_eq. intro bt. rewrite flat_map_single. reflexivity.
Qed.
Lemma Forall_flat_map' : forall A B (P : B -> Prop) (f : A -> list B) l, Forall P (flat_map f l) <-> Forall (fun x => Forall P (f x)) l.
Proof.
  intros A B P f l. induction l as [|x l IH]; cbn [flat_map].
  - split; constructor.
  - rewrite Forall_app, IH. split; [intros [H1 H2]; constructor; assumption|intro H; inversion H; split; assumption].
Qed.
Lemma nested_all : forall (P : tree -> Prop) rs, all (fun rb => all (fun bt => all P (snd bt)) (snd rb)) rs <-> Forall P (trees rs).
Proof.
  intros P rs. unfold trees, inner. rewrite all_Forall, Forall_flat_map'. apply Forall_iff. intro rb.
  rewrite all_Forall, Forall_flat_map'. apply Forall_iff. intro bt. rewrite flat_map_single. apply all_Forall.
Qed.
Lemma tree_induct : forall (P : tree -> Prop), (forall o rs, Forall P (trees rs) -> P (Node o rs)) -> forall t, P t.
Proof. intros P H. apply tree_rect'. intros o rs K. apply H. apply nested_all. exact K. Qed.

(** ** walk = run *)
Definition bindw {S B} (r : wres S B) (k : S -> wres S B) : wres S B :=
  match r with Continued s => k s | other => other end.

  Fixpoint height (t : tree) : nat := match t with Node o rs => S (list_max (inner (fun t => [height t]) rs)) end.

  Lemma height_sub : forall o rs t, In t (trees rs) -> S (height t) <= height (Node o rs).
  Proof.
    intros o rs t H. cbn [height]. apply le_n_S. rewrite inner_trees. 
    assert (K : Forall (fun k => k <= list_max (flat_map (fun t => [height t]) (trees rs))) (flat_map (fun t => [height t]) (trees rs))) by (apply list_max_le; lia).
    rewrite Forall_forall in K. apply K. apply in_flat_map. exists t. split; [exact H|left; reflexivity].
  Qed.

  Lemma len_flat_map : forall A B C (g : A -> list B) (h : A -> list C) l, Forall (fun x => length (g x) = length (h x)) l -> length (flat_map g l) = length (flat_map h l).
  Proof. intros A B C g h l H. induction H; cbn [flat_map]; [reflexivity|]. rewrite !app_length. congruence. Qed.
  Lemma marks_len : forall t, length (marks t) = length (preorder t).
  Proof.
    apply tree_induct. intros o rs H. cbn [marks preorder length]. f_equal. rewrite !inner_trees. apply len_flat_map. exact H.
  Qed.

Section walk.
  Context {St Bk : Type} (f : St -> nat -> St * action Bk).
  Definition good (L : list (nat * nat)) : Prop := forall s l, run f s 0 (L ++ l) = bindw (run f s 0 L) (fun s' => run f s' 0 l).
  Lemma good_nil : good [].
  Proof. intros s l. reflexivity. Qed.
  Lemma good_app : forall a b, good a -> good b -> good (a ++ b).
  Proof.
    intros a b Ha Hb s l. rewrite <- app_assoc, !Ha. destruct (run f s 0 a); cbn [bindw]; [apply Hb|reflexivity|reflexivity].
  Qed.
  Lemma good_flat_map : forall A (g : A -> list (nat * nat)) l, Forall (fun x => good (g x)) l -> good (flat_map g l).
  Proof. intros A g l H. induction H; cbn [flat_map]; [apply good_nil|apply good_app; assumption]. Qed.

  Lemma run_skip : forall a s l, run f s (length a) (a ++ l) = run f s 0 l.
  Proof.
    induction a as [|[o k] a IH]; intros s l; [reflexivity|]. cbn [length app run]. apply IH.
  Qed.
  Lemma marks_good : forall t, good (marks t).
  Proof.
    apply tree_induct. intros o rs H s l. cbn [marks app run]. destruct (f s o) as [s1 a]. destruct a as [| |b].
    - rewrite inner_trees. apply good_flat_map. exact H.
    - assert (E : length (inner preorder rs) = length (inner marks rs)).
      { rewrite !inner_trees. apply len_flat_map. apply Forall_forall. intros t _. symmetry. apply marks_len. }
      rewrite E, run_skip. rewrite <- (app_nil_r (inner marks rs)) at 2. rewrite run_skip. reflexivity.
    - reflexivity.
  Qed.

  Lemma each_run : forall A (w : St -> A -> wres St Bk) (g : A -> list (nat * nat)) l s,
    Forall (fun a => good (g a) /\ forall s, w s a = run f s 0 (g a)) l -> each w s l = run f s 0 (flat_map g l).
  Proof.
    intros A w g l s H. revert s. induction H as [|a l [Hg Hw] H IH]; intro s; cbn [each flat_map]; [reflexivity|].
    rewrite Hg, Hw. destruct (run f s 0 (g a)); cbn [bindw]; [apply IH|reflexivity|reflexivity].
  Qed.
  Lemma each_map : forall A B (w : St -> B -> wres St Bk) (g : A -> B) l s, each w s (map g l) = each (fun s a => w s (g a)) s l.
  Proof. intros A B w g l. induction l as [|a l IH]; intro s; cbn [map each]; [reflexivity|]. destruct (w s (g a)); [apply IH|reflexivity|reflexivity]. Qed.

  Lemma walk_run : forall t c fuel s, tree_of c t -> height t <= fuel -> walk_op fuel c f s (root t) = run f s 0 (marks t).
  Proof.
    intro t. induction t as [o rs IH] using tree_induct. intros c fuel s Ht Hh.
    destruct fuel as [|n]; [cbn [height] in Hh; lia|]. cbn [walk_op root marks run].
    destruct Ht as ((d & Ed & Er) & Hrs). destruct (f s o) as [s1 a]. destruct a as [| |b]; try reflexivity.
    2:{ replace (length (inner preorder rs)) with (length (inner marks rs)).
        - rewrite <- (app_nil_r (inner marks rs)) at 2. rewrite run_skip. reflexivity.
        - rewrite !inner_trees. apply len_flat_map. apply Forall_forall. intros t _. apply marks_len. }
    rewrite Ed, Er. rewrite each_map. unfold inner. apply each_run.
    assert (Hn : forall t, In t (trees rs) -> height t <= n) by (intros t K; pose proof (height_sub o rs t K); lia).
    unfold trees, inner in IH, Hn. apply Forall_flat_map' in IH. rewrite all_Forall in Hrs.
    apply Forall_forall. intros rb Hin. rewrite Forall_forall in IH, Hrs. specialize (IH rb Hin). destruct (Hrs rb Hin) as ((rdd & Erd & Erb) & Hbs).
    rewrite Forall_flat_map' in IH. split.
    { apply good_flat_map. apply Forall_forall. intros bt _. apply good_flat_map. apply Forall_forall. intros t _. apply marks_good. }
    intro s2. rewrite Erd, Erb, each_map. apply each_run. rewrite all_Forall in Hbs. apply Forall_forall. intros bt Hbt.
    rewrite Forall_forall in IH, Hbs. specialize (IH bt Hbt). destruct (Hbs bt Hbt) as ((bd & Ebd & Eb) & Hts). rewrite flat_map_single in IH. split.
    { apply good_flat_map. apply Forall_forall. intros t _. apply marks_good. }
    intro s3. rewrite Ebd, Eb, each_map. apply each_run. rewrite all_Forall in Hts. apply Forall_forall. intros t Htt. split; [apply marks_good|].
    intro s4. rewrite Forall_forall in IH, Hts. apply IH; [exact Htt|apply Hts, Htt|].
    apply Hn. apply in_flat_map. exists rb. split; [exact Hin|]. apply in_flat_map. exists bt. split; [exact Hbt|]. rewrite flat_map_single. exact Htt.
  Qed.
  Lemma walk_region_run : forall rb c fuel s, region_tree_of c rb -> (forall t, In t (region_trees rb) -> height t <= fuel) ->
    walk_region fuel c f s (fst rb) = run f s 0 (flat_map marks (region_trees rb)).
  Proof.
    intros rb c fuel s ((rdd & Erd & Erb) & Hbs) Hh. unfold walk_region. rewrite Erd, Erb, each_map. unfold region_trees. rewrite flat_map_flat_map.
    apply each_run. rewrite all_Forall in Hbs. apply Forall_forall. intros bt Hbt. rewrite Forall_forall in Hbs. destruct (Hbs bt Hbt) as ((bd & Ebd & Eb) & Hts). split.
    { apply good_flat_map. apply Forall_forall. intros t _. apply marks_good. }
    intro s3. unfold walk_block. rewrite Ebd, Eb, each_map. apply each_run. rewrite all_Forall in Hts. apply Forall_forall. intros t Htt. split; [apply marks_good|].
    intro s4. apply walk_run; [rewrite Forall_forall in Hts; apply Hts, Htt|]. apply Hh. unfold region_trees. apply in_flat_map. exists bt. split; assumption.
  Qed.
End walk.

(** ** The preorder lists exactly the operations nested in the root, once each. *)
Lemma tree_of_inv : forall c o rs, tree_of c (Node o rs) ->
  (exists d, nth_error (ops c) o = Some d /\ o_regions d = map fst rs) /\
  (forall t, In t (trees rs) -> tree_of c t) /\
  (forall x, nested_in c x o <-> exists t, In t (trees rs) /\ root t = x).
Proof.
  intros c o rs ((d & Ed & Er) & H). split; [exists d; split; assumption|].
  assert (T : forall t, In t (trees rs) -> tree_of c t).
  { intros t Ht. unfold trees, inner in Ht. apply in_flat_map in Ht as (rb & Hrb & Ht). apply in_flat_map in Ht as (bt & Hbt & Ht).
    rewrite flat_map_single in Ht. rewrite all_Forall, Forall_forall in H. destruct (H rb Hrb) as (_ & Hb).
    rewrite all_Forall, Forall_forall in Hb. destruct (Hb bt Hbt) as (_ & Hts). rewrite all_Forall, Forall_forall in Hts. apply Hts, Ht. }
  split; [exact T|]. intro x. rewrite all_Forall, Forall_forall in H. split.
  - intros (d' & r & rdd & b & bd & E1 & I1 & E2 & I2 & E3 & I3). rewrite Ed in E1. inversion E1; subst d'.
    rewrite Er in I1. apply in_map_iff in I1 as (rb & <- & Hrb). destruct (H rb Hrb) as ((rd' & E2' & Eb) & Hb).
    rewrite E2 in E2'. inversion E2'; subst rd'. rewrite Eb in I2. apply in_map_iff in I2 as (bt & <- & Hbt).
    rewrite all_Forall, Forall_forall in Hb. destruct (Hb bt Hbt) as ((bd' & E3' & Eo) & _). rewrite E3 in E3'. inversion E3'; subst bd'.
    rewrite Eo in I3. apply in_map_iff in I3 as (t & <- & Ht). exists t. split; [|reflexivity].
    unfold trees, inner. apply in_flat_map. exists rb. split; [exact Hrb|]. apply in_flat_map. exists bt. split; [exact Hbt|]. rewrite flat_map_single. exact Ht.
  - intros (t & Ht & <-). unfold trees, inner in Ht. apply in_flat_map in Ht as (rb & Hrb & Ht). apply in_flat_map in Ht as (bt & Hbt & Ht).
    rewrite flat_map_single in Ht. destruct (H rb Hrb) as ((rdd & E2 & Eb) & Hb).
    rewrite all_Forall, Forall_forall in Hb. destruct (Hb bt Hbt) as ((bd & E3 & Eo) & _).
    exists d, (fst rb), rdd, (fst bt), bd. repeat split; try assumption.
    + rewrite Er. apply in_map. exact Hrb.
    + rewrite Eb. apply in_map. exact Hbt.
    + rewrite Eo. apply in_map. exact Ht.
Qed.

Lemma within_trans : forall c a b x, within c a b -> within c b x -> within c a x.
Proof. intros c a b x H1 H2. induction H2; [exact H1|]. eapply within_step; eassumption. Qed.
Lemma within_first : forall c a x, within c a x -> x = a \/ exists k, nested_in c k a /\ within c k x.
Proof.
  intros c a x H. induction H as [|x y H IH N]; [left; reflexivity|]. right. destruct IH as [->|(k & K1 & K2)].
  - exists y. split; [exact N|constructor].
  - exists k. split; [exact K1|]. eapply within_step; eassumption.
Qed.

Lemma preorder_within : forall t c, tree_of c t -> forall x, In x (preorder t) <-> within c (root t) x.
Proof.
  intro t. induction t as [o rs IH] using tree_induct. intros c Ht x. apply tree_of_inv in Ht as (_ & T & N).
  cbn [preorder root In]. rewrite inner_trees, in_flat_map. rewrite Forall_forall in IH. split.
  - intros [<-|(t & Ht & Hx)]; [constructor|]. apply (IH t Ht c (T t Ht)) in Hx.
    eapply within_trans; [|exact Hx]. eapply within_step; [constructor|]. apply N. exists t. split; [exact Ht|reflexivity].
  - intro H. apply within_first in H as [->|(k & K1 & K2)]; [left; reflexivity|]. right. apply N in K1 as (t & Ht & <-).
    exists t. split; [exact Ht|]. apply (IH t Ht c (T t Ht)). exact K2.
Qed.

(** A tree is determined by the context and its root. *)
Lemma tree_of_unique : forall t c t', tree_of c t -> tree_of c t' -> root t = root t' -> t = t'.
Proof.
  intro t. induction t as [o rs IH] using tree_induct. intros c [o' rs'] H H' E. cbn [root] in E. subst o'.
  destruct H as ((d & Ed & Er) & H). destruct H' as ((d' & Ed' & Er') & H'). rewrite Ed in Ed'. inversion Ed'; subst d'.
  f_equal. rewrite Er in Er'. clear Er Ed Ed' d. apply nested_all in IH.
  revert rs' Er' H'. induction rs as [|[r bs] rs IHrs]; intros [|[r' bs'] rs'] Er' H'; try discriminate; [reflexivity|].
  cbn [map fst] in Er'. injection Er' as <- Er2. cbn [all snd fst] in H, H', IH.
  destruct H as (((rdd & Erd & Eb) & Hb) & Hr). destruct H' as (((rd' & Erd' & Eb') & Hb') & Hr'). destruct IH as (IHb & IHr).
  rewrite Erd in Erd'. inversion Erd'; subst rd'. f_equal; [|apply IHrs; assumption]. f_equal. clear Er2.
  rewrite Eb in Eb'. clear Eb Erd Erd' rdd IHr Hr Hr' IHrs.
  revert bs' Eb' Hb'. induction bs as [|[b ts] bs IHbs]; intros [|[b' ts'] bs'] Eb' Hb'; try discriminate; [reflexivity|].
  cbn [map fst] in Eb'. injection Eb' as <- Eb2. cbn [all snd fst] in Hb, Hb', IHb.
  destruct Hb as (((bd & Ebd & Eo) & Ht) & Hb). destruct Hb' as (((bd' & Ebd' & Eo') & Ht') & Hb'). destruct IHb as (IHt & IHb).
  rewrite Ebd in Ebd'. inversion Ebd'; subst bd'. f_equal; [|apply IHbs; assumption]. f_equal. clear Eb2.
  rewrite Eo in Eo'. clear Eo Ebd Ebd' bd IHb Hb Hb' IHbs.
  revert ts' Eo' Ht'. induction ts as [|t ts IHts]; intros [|t' ts'] Eo' Ht'; try discriminate; [reflexivity|].
  cbn [map] in Eo'. injection Eo' as Eo1 Eo2. cbn [all] in Ht, Ht', IHt. destruct Ht as [Ht1 Ht2], Ht' as [Ht1' Ht2'], IHt as [IHt1 IHt2]. f_equal; [eapply IHt1; eassumption|apply IHts; assumption].
Qed.

Lemma within_height : forall t c, tree_of c t -> forall x, within c (root t) x -> exists t', tree_of c t' /\ root t' = x /\ (t' = t \/ height t' < height t).
Proof.
  intro t. induction t as [o rs IH] using tree_induct. intros c Ht x H. pose proof Ht as Ht0. apply tree_of_inv in Ht as (_ & T & N).
  apply within_first in H as [->|(k & K1 & K2)]; [exists (Node o rs); split; [exact Ht0|split; [reflexivity|left; reflexivity]]|].
  cbn [root] in K1. apply N in K1 as (t & Ht & <-). rewrite Forall_forall in IH.
  destruct (IH t Ht c (T t Ht) x K2) as (t' & A & B & C). exists t'. split; [exact A|]. split; [exact B|]. right.
  pose proof (height_sub o rs t Ht). destruct C as [->|C]; lia.
Qed.

(** No operation is nested inside itself below a tree. *)
Lemma tree_acyclic : forall c t k, tree_of c t -> nested_in c k (root t) -> within c k (root t) -> False.
Proof.
  intros c [o rs] k Ht H1 H2. pose proof Ht as Ht0. apply tree_of_inv in Ht as (_ & T & N). apply N in H1 as (t & Hin & <-).
  destruct (within_height t c (T t Hin) _ H2) as (t' & A & B & C).
  assert (t' = Node o rs) by (eapply tree_of_unique; eassumption). subst t'. pose proof (height_sub o rs t Hin). destruct C as [C|C]; [|lia].
  rewrite <- C in H. lia.
Qed.

Lemma parent_unique : forall c x a b, placed c -> nested_in c x a -> nested_in c x b -> a = b.
Proof.
  intros c x a b [P1 _ P3 _ P5 _] (d & r & rdd & bl & bd & E1 & I1 & E2 & I2 & E3 & I3) (d' & r' & rd' & bl' & bd' & E1' & I1' & E2' & I2' & E3' & I3').
  assert (B : bl = bl').
  { assert (A1 : op_parent c x bl) by (apply P1; exists bd; split; assumption).
    assert (A2 : op_parent c x bl') by (apply P1; exists bd'; split; assumption).
    destruct A1 as (y & Y1 & Y2), A2 as (z & Z1 & Z2). congruence. }
  subst bl'. assert (R : r = r').
  { assert (A1 : block_parent c bl r) by (apply P3; exists rdd; split; assumption).
    assert (A2 : block_parent c bl r') by (apply P3; exists rd'; split; assumption).
    destruct A1 as (y & Y1 & Y2), A2 as (z & Z1 & Z2). congruence. }
  subst r'. assert (A1 : region_parent c r a) by (apply P5; exists d; split; assumption).
  assert (A2 : region_parent c r b) by (apply P5; exists d'; split; assumption).
  destruct A1 as (y & Y1 & Y2), A2 as (z & Z1 & Z2). congruence.
Qed.

Lemma within_linear : forall c a b x, placed c -> within c a x -> within c b x -> within c a b \/ within c b a.
Proof.
  intros c a b x P H. revert b. induction H as [|x y H IH N]; intros b Hb.
  - right. exact Hb.
  - inversion Hb as [|x' y' H1 H2]; subst.
    + left. eapply within_step; eassumption.
    + assert (x' = x) by (eapply parent_unique; eassumption). subst x'. apply IH, H1.
Qed.

Lemma flat_map_NoDup : forall A B (f : A -> list B) l, NoDup l -> (forall x, In x l -> NoDup (f x)) ->
  (forall x y z, In x l -> In y l -> In z (f x) -> In z (f y) -> x = y) -> NoDup (flat_map f l).
Proof.
  intros A B f l H. induction H as [|x l Hx H IH]; intros Hf Hd; cbn [flat_map]; [constructor|].
  assert (IH' : NoDup (flat_map f l)).
  { apply IH; [intros y Hy; apply Hf; right; exact Hy|]. intros y z w Hy Hz. apply Hd; right; assumption. }
  assert (Hdis : forall z, In z (f x) -> ~ In z (flat_map f l)).
  { intros z Hz K. apply in_flat_map in K as (y & Hy & K). assert (x = y) by (eapply Hd; [left; reflexivity|right; exact Hy|exact Hz|exact K]). subst. contradiction. }
  specialize (Hf x (or_introl eq_refl)). revert Hf Hdis. generalize (f x). intros m Hm. induction Hm as [|z m Hz Hm IHm]; intro Hdis; cbn [app]; [exact IH'|].
  constructor; [rewrite in_app_iff; intros [K|K]; [exact (Hz K)|exact (Hdis z (or_introl eq_refl) K)]|].
  apply IHm. intros w Hw. apply Hdis. right. exact Hw.
Qed.

Lemma NoDup_map_inv' : forall A B (f : A -> B) l, NoDup (map f l) -> NoDup l.
Proof. intros A B f l. apply NoDup_map_inv. Qed.

Lemma trees_NoDup : forall c o rs, placed c -> tree_of c (Node o rs) -> NoDup (map root (trees rs)).
Proof.
  intros c o rs P Ht. destruct Ht as ((d & Ed & Er) & H). destruct P as [P1 P2 P3 P4 P5 P6].
  pose proof (P6 _ _ Ed) as NR. rewrite Er in NR. rewrite all_Forall, Forall_forall in H.
  unfold trees, inner. rewrite flat_map_concat_map, concat_map, map_map, <- flat_map_concat_map.
  assert (E : forall rb : nat * list (nat * list tree), map root (flat_map (fun bt => flat_map (fun t => [t]) (snd bt)) (snd rb)) = flat_map (fun bt : nat * list tree => map root (snd bt)) (snd rb)).
  { intro rb. rewrite flat_map_concat_map, concat_map, map_map, <- flat_map_concat_map. apply flat_map_eq. intro bt. rewrite flat_map_single. reflexivity. }
  rewrite (flat_map_eq _ _ _ (fun rb : nat * list (nat * list tree) => flat_map (fun bt : nat * list tree => map root (snd bt)) (snd rb))) by exact E.
  assert (InB : forall (rb : nat * list (nat * list tree)) (bt : nat * list tree) x, In rb rs -> In bt (snd rb) -> In x (map root (snd bt)) -> op_in c x (fst bt) /\ block_in c (fst bt) (fst rb)).
  { intros rb bt x Hrb Hbt Hx. destruct (H rb Hrb) as ((rdd & Erd & Eb) & Hb). rewrite all_Forall, Forall_forall in Hb.
    destruct (Hb bt Hbt) as ((bd & Ebd & Eo) & _). split.
    - exists bd. split; [exact Ebd|]. rewrite Eo. exact Hx.
    - exists rdd. split; [exact Erd|]. rewrite Eb. apply in_map. exact Hbt. }
  assert (Key : forall A (l : list (nat * A)) x y, NoDup (map fst l) -> In x l -> In y l -> fst x = fst y -> x = y).
  { intros A l x y ND. induction l as [|z l IHl]; intros Hx Hy E'; [destruct Hx|]. inversion ND; subst.
    destruct Hx as [->|Hx], Hy as [->|Hy]; [reflexivity| | |apply IHl; assumption].
    - exfalso. apply H2. rewrite E'. apply in_map. exact Hy.
    - exfalso. apply H2. rewrite <- E'. apply in_map. exact Hx. }
  apply flat_map_NoDup.
  - eapply NoDup_map_inv'. exact NR.
  - intros rb Hrb. destruct (H rb Hrb) as ((rdd & Erd & Eb) & Hb). pose proof (P4 _ _ Erd) as NB. rewrite Eb in NB.
    rewrite all_Forall, Forall_forall in Hb. apply flat_map_NoDup.
    + eapply NoDup_map_inv'. exact NB.
    + intros bt Hbt. destruct (Hb bt Hbt) as ((bd & Ebd & Eo) & _). rewrite <- Eo. eapply P2. exact Ebd.
    + intros b1 b2 z H1 H2 Z1 Z2. apply (Key _ (snd rb) b1 b2 NB H1 H2).
      destruct (InB rb b1 z Hrb H1 Z1) as [A1 _], (InB rb b2 z Hrb H2 Z2) as [A2 _]. apply P1 in A1, A2.
      destruct A1 as (y & Y1 & Y2), A2 as (w & W1 & W2). congruence.
  - intros r1 r2 z H1 H2 Z1 Z2. apply (Key _ rs r1 r2 NR H1 H2).
    apply in_flat_map in Z1 as (b1 & B1 & Z1). apply in_flat_map in Z2 as (b2 & B2 & Z2).
    destruct (InB r1 b1 z H1 B1 Z1) as [A1 A1'], (InB r2 b2 z H2 B2 Z2) as [A2 A2']. apply P1 in A1, A2. apply P3 in A1', A2'.
    destruct A1 as (y & Y1 & Y2), A2 as (w & W1 & W2), A1' as (y' & Y1' & Y2'), A2' as (w' & W1' & W2'). congruence.
Qed.

Lemma preorder_NoDup : forall t c, placed c -> tree_of c t -> NoDup (preorder t).
Proof.
  intro t. induction t as [o rs IH] using tree_induct. intros c P Ht. pose proof (trees_NoDup c o rs P Ht) as NT.
  pose proof (tree_of_inv _ _ _ Ht) as (_ & T & N). rewrite Forall_forall in IH. cbn [preorder]. rewrite inner_trees. constructor.
  - intro K. apply in_flat_map in K as (t & Hin & K). apply (preorder_within t c (T t Hin)) in K.
    apply (tree_acyclic c (Node o rs) (root t) Ht); [apply N; exists t; split; [exact Hin|reflexivity]|exact K].
  - apply flat_map_NoDup.
    + eapply NoDup_map_inv'. exact NT.
    + intros t Hin. apply (IH t Hin c P (T t Hin)).
    + intros t1 t2 z H1 H2 Z1 Z2. apply (tree_of_unique t1 c t2 (T t1 H1) (T t2 H2)).
      apply (preorder_within t1 c (T t1 H1)) in Z1. apply (preorder_within t2 c (T t2 H2)) in Z2.
      assert (N1 : nested_in c (root t1) o) by (apply N; exists t1; split; [exact H1|reflexivity]).
      assert (N2 : nested_in c (root t2) o) by (apply N; exists t2; split; [exact H2|reflexivity]).
      assert (C : forall a b, nested_in c a o -> nested_in c b o -> within c a b -> a = b).
      { intros a b Na Nb W. inversion W as [|x' y' W1 W2]; subst; [reflexivity|].
        assert (x' = o) by (eapply parent_unique; eassumption). subst x'. exfalso. apply (tree_acyclic c (Node o rs) a Ht Na W1). }
      destruct (within_linear c _ _ z P Z1 Z2) as [W|W]; [apply C; assumption|symmetry; apply C; assumption].
Qed.

(** Trees exist whenever nesting is well-founded and all handles are valid. *)
Definition closed_refs (c : ctx) : Prop :=
  (forall o d r, nth_error (ops c) o = Some d -> In r (o_regions d) -> r < length (regions c)) /\
  (forall r d b, nth_error (regions c) r = Some d -> In b (r_blocks d) -> b < length (blocks c)) /\
  (forall b d o, nth_error (blocks c) b = Some d -> In o (b_ops d) -> o < length (ops c)).

Lemma exists_all : forall A B (P : A -> B -> Prop) l, (forall a, In a l -> exists b, P a b) -> exists m, Forall2 P l m.
Proof.
  intros A B P l. induction l as [|a l IH]; intro H; [exists []; constructor|].
  destruct (H a (or_introl eq_refl)) as (b & Hb). destruct IH as (m & Hm); [intros x Hx; apply H; right; exact Hx|].
  exists (b :: m). constructor; assumption.
Qed.
Lemma Forall2_map_l : forall A B (g : B -> A) (Q : B -> Prop) l m, Forall2 (fun a b => g b = a /\ Q b) l m -> l = map g m /\ all Q m.
Proof.
  intros A B g Q l m H. induction H as [|a b l m [<- Hq] H [-> IH]]; cbn [map all]; [split; [reflexivity|exact I]|].
  split; [reflexivity|split; assumption].
Qed.

Lemma placed_closed : forall c, placed c -> closed_refs c.
Proof.
  intros c [P1 P2 P3 P4 P5 P6]. split; [|split].
  - intros o d r E I. assert (K : region_in c r o) by (exists d; split; assumption). apply P5 in K as (y & Y & _). apply nth_lt in Y. exact Y.
  - intros r d b E I. assert (K : block_in c b r) by (exists d; split; assumption). apply P3 in K as (y & Y & _). apply nth_lt in Y. exact Y.
  - intros b d o E I. assert (K : op_in c o b) by (exists d; split; assumption). apply P1 in K as (y & Y & _). apply nth_lt in Y. exact Y.
Qed.

Lemma tree_exists : forall c (rank : nat -> nat), placed c -> (forall x o, nested_in c x o -> rank x < rank o) ->
  forall n o, rank o < n -> o < length (ops c) -> exists t, tree_of c t /\ root t = o /\ height t <= n.
Proof.
  intros c rank P Hr. pose proof (placed_closed c P) as (C1 & C2 & C3). induction n as [|n IH]; intros o Hn Ho; [lia|].
  destruct (nth_error (ops c) o) as [d|] eqn:Ed; [|apply nth_error_None in Ed; lia].
  destruct (exists_all nat (nat * list (nat * list tree)) (fun r rb => fst rb = r /\
      ((exists rd, nth_error (regions c) (fst rb) = Some rd /\ r_blocks rd = map fst (snd rb)) /\
       all (fun bt => (exists bd, nth_error (blocks c) (fst bt) = Some bd /\ b_ops bd = map root (snd bt)) /\ all (tree_of c) (snd bt)) (snd rb)) /\
      (forall t, In t (flat_map (fun bt => snd bt) (snd rb)) -> height t <= n)) (o_regions d)) as (rs & Hrs).
  { intros r Ir. pose proof (C1 _ _ _ Ed Ir) as Lr. destruct (nth_error (regions c) r) as [rdd|] eqn:Er; [|apply nth_error_None in Er; lia].
    destruct (exists_all nat (nat * list tree) (fun b bt => fst bt = b /\
        ((exists bd, nth_error (blocks c) (fst bt) = Some bd /\ b_ops bd = map root (snd bt)) /\ all (tree_of c) (snd bt)) /\
        (forall t, In t (snd bt) -> height t <= n)) (r_blocks rdd)) as (bs & Hbs).
    { intros b Ib. pose proof (C2 _ _ _ Er Ib) as Lb. destruct (nth_error (blocks c) b) as [bd|] eqn:Eb; [|apply nth_error_None in Eb; lia].
      destruct (exists_all nat tree (fun x t => root t = x /\ (tree_of c t /\ height t <= n)) (b_ops bd)) as (ts & Hts).
      { intros x Ix. destruct (IH x) as (t & T1 & T2 & T3).
        - assert (rank x < rank o); [|lia]. apply Hr. exists d, r, rdd, b, bd. repeat split; assumption.
        - eapply C3; eassumption.
        - exists t. split; [exact T2|split; assumption]. }
      apply Forall2_map_l in Hts as (E & A). exists (b, ts). cbn [fst snd]. split; [reflexivity|]. rewrite all_Forall in A. split; [split|].
      - exists bd. split; assumption.
      - apply all_Forall. eapply Forall_impl; [|exact A]. intros t [K _]; exact K.
      - intros t Ht. rewrite Forall_forall in A. apply A in Ht as [_ K]. exact K. }
    apply Forall2_map_l in Hbs as (E & A). exists (r, bs). cbn [fst snd]. split; [reflexivity|]. rewrite all_Forall in A. split; [split|].
    - exists rdd. split; assumption.
    - apply all_Forall. eapply Forall_impl; [|exact A]. intros bt [K _]; exact K.
    - intros t Ht. apply in_flat_map in Ht as (bt & Hbt & Ht). rewrite Forall_forall in A. apply A in Hbt as [_ K]. apply K, Ht. }
  apply Forall2_map_l in Hrs as (E & A). rewrite all_Forall in A. exists (Node o rs). split; [|split; [reflexivity|]].
  - split; [exists d; split; assumption|]. apply all_Forall. eapply Forall_impl; [|exact A]. intros rb [K _]; exact K.
  - cbn [height]. apply le_n_S. apply list_max_le. apply Forall_forall. intros k Hk. rewrite inner_trees in Hk. apply in_flat_map in Hk as (t & Ht & [<-|[]]).
    unfold trees, inner in Ht. apply in_flat_map in Ht as (rb & Hrb & Ht). rewrite Forall_forall in A. destruct (A rb Hrb) as [_ K]. apply K.
    apply in_flat_map in Ht as (bt & Hbt & Ht). rewrite flat_map_single in Ht. apply in_flat_map. exists bt. split; assumption.
Qed.
