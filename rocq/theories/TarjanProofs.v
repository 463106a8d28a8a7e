(** Tarjan's algorithm computes the strongly connected components. *)
From Verif Require Import CallGraphModel CallGraphSpec.
From Coq Require Import Lia Sorting.Sorted.

Lemma reach_trans : forall K (R : K -> K -> Prop) x y z, reach R x y -> reach R y z -> reach R x z.
Proof. intros K R x y z H H2. induction H2; [exact H|]. eapply reach_step; eassumption. Qed.
Lemma reach_one : forall K (R : K -> K -> Prop) x y, R x y -> reach R x y.
Proof. intros K R x y H. eapply reach_step; [apply reach_refl|exact H]. Qed.

Section proof.
  Context {K : Type} (eqb : K -> K -> bool).
  Hypothesis eqb_spec : forall a b, eqb a b = true <-> a = b.
  Variable g : graph K.
  Notation edge := (calls g).
  Notation reaches := (reach (calls g)).

  Lemma eqb_refl : forall a, eqb a a = true.
  Proof. intro a. apply eqb_spec. reflexivity. Qed.
  Lemma eqb_neq : forall a b, a <> b -> eqb a b = false.
  Proof. intros a b H. destruct (eqb a b) eqn:E; [|reflexivity]. apply eqb_spec in E. contradiction. Qed.
  Lemma K_dec : forall a b : K, {a = b} + {a <> b}.
  Proof. intros a b. destruct (eqb a b) eqn:E; [left; apply eqb_spec, E|right; intro H; apply eqb_spec in H; congruence]. Qed.
  Lemma defined_In : forall v, defined eqb g v = true <-> In v (keys g).
  Proof.
    intro v. unfold defined. rewrite existsb_exists. split.
    - intros (x & Hx & E). apply eqb_spec in E. subst. exact Hx.
    - intro H. exists v. split; [exact H|apply eqb_refl].
  Qed.
  Lemma kupd_same : forall A (m : K -> A) k x, kupd eqb m k x k = x.
  Proof. intros. unfold kupd. rewrite eqb_refl. reflexivity. Qed.
  Lemma kupd_other : forall A (m : K -> A) k x j, j <> k -> kupd eqb m k x j = m j.
  Proof. intros. unfold kupd. rewrite eqb_neq by assumption. reflexivity. Qed.

  Definition rank (s : st K) (x : K) : nat := match idx s x with Some i => i | None => 0 end.

  Record Inv (gs : list K) (s : st K) : Prop := {
    i_on : forall x, on s x = true <-> In x (stack s);
    i_seen : forall x, idx s x <> None <-> (In x (stack s) \/ scc s x <> None);
    i_disj : forall x, In x (stack s) -> scc s x = None;
    i_lowd : forall x, idx s x <> None -> low s x <> None;
    i_lt : forall x i, idx s x = Some i -> i < next s;
    i_sorted : StronglySorted (fun a b => rank s b < rank s a) (stack s);
    i_gray : forall x, In x gs -> In x (stack s);
    i_gray_reach : forall x y, In x gs -> In y (stack s) -> rank s x <= rank s y -> reaches x y;
    i_back : forall x, In x (stack s) -> exists y, In y gs /\ rank s y <= rank s x /\ reaches x y;
    i_black : forall x y, idx s x <> None -> ~ In x gs -> edge x y -> idx s y <> None;
    i_closed : forall x y a, scc s x = Some a -> edge x y -> exists b, scc s y = Some b /\ b <= a;
    i_same : forall x y a, scc s x = Some a -> (scc s y = Some a <-> (reaches x y /\ reaches y x));
    i_id : forall x a, scc s x = Some a -> a < nscc s;
    i_def : forall x, idx s x <> None -> In x (keys g);
  }.

  Record ext (new : list K) (s s' : st K) : Prop := {
    e_stack : stack s' = new ++ stack s;
    e_idx : forall x i, idx s x = Some i -> idx s' x = Some i;
    e_low : forall x, idx s x <> None -> low s' x = low s x;
    e_scc : forall x a, scc s x = Some a -> scc s' x = Some a;
    e_new : forall x, In x new -> idx s x = None;
    e_next : next s <= next s';
    e_fresh : forall x i, idx s x = None -> idx s' x = Some i -> next s <= i;
  }.

  Lemma ext_rank : forall new s s' x, ext new s s' -> idx s x <> None -> rank s' x = rank s x.
  Proof. intros new s s' x E H. unfold rank. destruct (idx s x) as [i|] eqn:Ei; [|contradiction]. rewrite (e_idx _ _ _ E _ _ Ei). reflexivity. Qed.
  Lemma ext_trans : forall n1 n2 a b c, ext n1 a b -> ext n2 b c -> ext (n2 ++ n1) a c.
  Proof.
    intros n1 n2 a b c [A1 A2 A3 A4 A5 A6 A7] [B1 B2 B3 B4 B5 B6 B7]. constructor.
    - rewrite B1, A1, app_assoc. reflexivity.
    - intros x i H. apply B2, A2, H.
    - intros x H. rewrite B3; [apply A3, H|]. destruct (idx a x) as [i|] eqn:E; [|contradiction]. rewrite (A2 _ _ E). discriminate.
    - intros x i H. apply B4, A4, H.
    - intros x H. apply in_app_iff in H as [H|H]; [|apply A5, H]. apply B5 in H. destruct (idx a x) as [i|] eqn:E; [|reflexivity]. rewrite (A2 _ _ E) in H. discriminate.
    - lia.
    - intros x i H H'. destruct (idx b x) as [j|] eqn:E.
      + rewrite (B2 _ _ E) in H'. injection H' as <-. eapply A7; eassumption.
      + pose proof (B7 _ _ E H'). lia.
  Qed.

  (** Undiscovered functions. *)
  Definition white (s : st K) : nat := List.length (filter (fun x => match idx s x with None => true | Some _ => false end) (keys g)).
  Lemma white_le : forall s s', (forall x, idx s x <> None -> idx s' x <> None) -> white s' <= white s.
  Proof.
    intros s s' H. unfold white. induction (keys g) as [|x l IH]; [apply Nat.le_refl|]. cbn [filter]. specialize (H x).
    destruct (idx s x) eqn:E, (idx s' x) eqn:E'; cbn [List.length]; try lia. exfalso. apply H; [discriminate|reflexivity].
  Qed.
  Lemma white_lt : forall s s' v, In v (keys g) -> idx s v = None -> idx s' v <> None -> (forall x, idx s x <> None -> idx s' x <> None) -> white s' < white s.
  Proof.
    intros s s' v Hv H1 H2 H. unfold white. induction (keys g) as [|x l IH]; [destruct Hv|]. cbn [filter].
    pose proof (H x) as Hx. destruct Hv as [->|Hv].
    - rewrite H1. destruct (idx s' v) eqn:E; [|contradiction]. cbn [List.length].
      assert (Q : List.length (filter (fun x => match idx s' x with None => true | Some _ => false end) l) <= List.length (filter (fun x => match idx s x with None => true | Some _ => false end) l)).
      { clear -H. induction l as [|x l IH]; [apply Nat.le_refl|]. cbn [filter]. specialize (H x). destruct (idx s x) eqn:E, (idx s' x) eqn:E'; cbn [List.length]; try lia. exfalso. apply H; [discriminate|reflexivity]. }
      lia.
    - specialize (IH Hv). destruct (idx s x) eqn:E, (idx s' x) eqn:E'; cbn [List.length]; try lia. exfalso. apply Hx; [discriminate|reflexivity].
  Qed.

  Definition call_ok (n : nat) : Prop := forall v s gs, Inv gs s -> In v (keys g) -> idx s v = None -> (forall x, In x gs -> reaches x v) -> white s < n ->
    exists s' new L, strongconnect eqb n g v s = Some s' /\ Inv gs s' /\ ext new s s' /\ low s' v = Some L /\ idx s' v <> None /\
      ((new = [] /\ next s <= L) \/ (exists y, In y (stack s) /\ rank s y = L /\ reaches v y)) /\
      (forall z y, In z new -> In y (stack s) -> edge z y -> L <= rank s y).

  Record loop (gs : list K) (v : K) (s0 : st K) (done : list K) (s : st K) (nw : list K) (L : nat) : Prop := {
    l_inv : Inv (v :: gs) s;
    l_ext : ext (nw ++ [v]) s0 s;
    l_idx : idx s v = Some (next s0);
    l_low : low s v = Some L;
    l_le : L <= next s0;
    l_wit : L = next s0 \/ exists y, In y (stack s0) /\ rank s0 y = L /\ reaches v y;
    l_done : forall w, In w done -> In w (keys g) -> idx s w <> None;
    l_cross : forall z y, In y (stack s0) -> edge z y -> (In z nw \/ (z = v /\ In y done)) -> L <= rank s0 y;
  }.

  Lemma set_low_inv : forall gs s v x, Inv gs s -> Inv gs (set_low eqb s v x).
  Proof.
    intros gs s v x [H1 H2 H3 H4 H5 H6 H7 H8 H9 H10 H11 H12 H13 H14]. constructor; try assumption.
    intros y Hy. cbn [low set_low]. unfold kupd. destruct (eqb y v); [discriminate|apply H4, Hy].
  Qed.
  Lemma set_low_ext : forall new s0 s v x, idx s0 v = None -> ext new s0 s -> ext new s0 (set_low eqb s v x).
  Proof.
    intros new s0 s v x Hv [H1 H2 H3 H4 H5 H6 H7]. constructor; try assumption.
    intros y Hy. cbn [low set_low]. rewrite kupd_other; [apply H3, Hy|]. intros ->. contradiction.
  Qed.

  (** Stack elements with a small index were there before. *)
  Lemma old_on_stack : forall new s0 s gs gs' y, ext new s0 s -> Inv gs s0 -> Inv gs' s -> In y (stack s) -> rank s y < next s0 -> In y (stack s0) /\ rank s y = rank s0 y.
  Proof.
    intros new s0 s gs gs' y E I0 I Hy Hr. rewrite (e_stack _ _ _ E) in Hy. apply in_app_iff in Hy as [Hy|Hy].
    - exfalso. pose proof (e_new _ _ _ E _ Hy) as Hn. unfold rank in Hr. destruct (idx s y) as [i|] eqn:Ei.
      + pose proof (e_fresh _ _ _ E _ _ Hn Ei). lia.
      + assert (Q : idx s y <> None); [|contradiction]. apply (i_seen _ _ I). left. rewrite (e_stack _ _ _ E). apply in_app_iff. left. exact Hy.
    - split; [exact Hy|]. eapply ext_rank; [exact E|]. apply (i_seen _ _ I0). left. exact Hy.
  Qed.
  Lemma rank_lt_next : forall gs s y, Inv gs s -> In y (stack s) -> rank s y < next s.
  Proof.
    intros gs s y I H. unfold rank. destruct (idx s y) as [i|] eqn:E; [eapply i_lt; eassumption|].
    exfalso. assert (Q : idx s y <> None) by (apply (i_seen _ _ I); left; exact H). contradiction.
  Qed.

  Lemma visit_ok : forall n gs v s0, call_ok n -> Inv gs s0 -> idx s0 v = None -> forall ws done s nw L,
    (forall w, In w ws -> In w (edges g v)) -> loop gs v s0 done s nw L -> white s < n ->
    exists s' nw' L', visit eqb (strongconnect eqb n g) g v ws s = Some s' /\ loop gs v s0 (done ++ ws) s' nw' L'.
  Proof.
    intros n gs v s0 Hcall I0 Hv ws. induction ws as [|w ws IH]; intros done s nw L Hws HL Hwh.
    - exists s, nw, L. rewrite app_nil_r. split; [reflexivity|exact HL].
    - cbn [visit]. destruct HL as [LI LE Lidx Llow Lle Lwit Ldone Lcross].
      replace (done ++ w :: ws) with ((done ++ [w]) ++ ws) by (rewrite <- app_assoc; reflexivity).
      assert (Hws' : forall x, In x ws -> In x (edges g v)) by (intros x Hx; apply Hws; right; exact Hx).
      destruct (defined eqb g w) eqn:Ed; cbn [negb].
      2:{ assert (Nd : ~ In w (keys g)) by (intro Q; apply defined_In in Q; congruence).
          apply IH with (nw := nw) (L := L); [exact Hws'| |exact Hwh]. constructor; try assumption.
          - intros x Hx Hk. apply in_app_iff in Hx as [Hx|[<-|[]]]; [apply Ldone; assumption|contradiction].
          - intros z y Hy He [Hz|(-> & Hz)]; [apply (Lcross z y Hy He); left; exact Hz|]. apply in_app_iff in Hz as [Hz|[<-|[]]].
            + apply (Lcross v y Hy He). right. split; [reflexivity|exact Hz].
            + exfalso. apply Nd. apply He. }
      apply defined_In in Ed. assert (Evw : edge v w) by (split; [apply Hws; left; reflexivity|exact Ed]).
      destruct (idx s w) as [iw|] eqn:Ew.
      + destruct (on s w) eqn:Eon.
        * rewrite Llow. apply (i_on _ _ LI) in Eon. assert (Rw : rank s w = iw) by (unfold rank; rewrite Ew; reflexivity).
          apply IH with (nw := nw) (L := Nat.min L iw); [exact Hws'| |exact Hwh]. constructor.
          -- apply set_low_inv, LI.
          -- apply set_low_ext; assumption.
          -- exact Lidx.
          -- cbn [low set_low]. apply kupd_same.
          -- lia.
          -- destruct (Nat.le_gt_cases L iw) as [Hle|Hlt]; [rewrite Nat.min_l by exact Hle; exact Lwit|]. rewrite Nat.min_r by lia. right.
             destruct (old_on_stack _ _ _ _ _ w LE I0 LI Eon) as (Q1 & Q2); [lia|]. exists w. split; [exact Q1|]. split; [congruence|apply reach_one, Evw].
          -- intros x Hx Hk. cbn [idx set_low]. apply in_app_iff in Hx as [Hx|[<-|[]]]; [apply Ldone; assumption|congruence].
          -- intros z y Hy He [Hz|(-> & Hz)]; [pose proof (Lcross z y Hy He (or_introl Hz)); lia|]. apply in_app_iff in Hz as [Hz|[<-|[]]].
             ++ pose proof (Lcross v y Hy He (or_intror (conj eq_refl Hz))). lia.
             ++ rewrite <- (ext_rank _ _ _ w LE); [lia|]. apply (i_seen _ _ I0). left. exact Hy.
        * apply IH with (nw := nw) (L := L); [exact Hws'| |exact Hwh]. constructor; try assumption.
          -- intros x Hx Hk. apply in_app_iff in Hx as [Hx|[<-|[]]]; [apply Ldone; assumption|congruence].
          -- intros z y Hy He [Hz|(-> & Hz)]; [apply (Lcross z y Hy He); left; exact Hz|]. apply in_app_iff in Hz as [Hz|[<-|[]]].
             ++ apply (Lcross v y Hy He). right. split; [reflexivity|exact Hz].
             ++ exfalso. assert (Q : on s w = true); [|congruence]. apply (i_on _ _ LI). rewrite (e_stack _ _ _ LE). apply in_app_iff. right. exact Hy.
      + assert (Hg : forall x, In x (v :: gs) -> reaches x w).
        { intros x [<-|Hx]; [apply reach_one, Evw|]. eapply reach_trans; [|apply reach_one, Evw]. apply (i_gray_reach _ _ LI); [right; exact Hx|rewrite (e_stack _ _ _ LE), <- app_assoc; apply in_app_iff; right; left; reflexivity|].
          pose proof (i_gray _ _ I0 _ Hx) as Q. rewrite (ext_rank _ _ _ x LE) by (apply (i_seen _ _ I0); left; exact Q). pose proof (rank_lt_next _ _ _ I0 Q). unfold rank at 2. rewrite Lidx. lia. }
        destruct (Hcall w s (v :: gs) LI Ed Ew Hg Hwh) as (s1 & new & Lw & E1 & I1 & X1 & Low1 & Idx1 & W1 & C1).
        assert (Vs : idx s v <> None) by congruence.
        rewrite E1, Low1, (e_low _ _ _ X1 _ Vs), Llow.
        assert (Idx1v : idx s1 v = Some (next s0)) by (apply (e_idx _ _ _ X1), Lidx).
        assert (Hn : next s0 < next s) by (apply (i_lt _ _ LI v), Lidx).
        apply IH with (nw := new ++ nw) (L := Nat.min L Lw); [exact Hws'| |].
        2:{ eapply Nat.le_lt_trans; [|exact Hwh]. apply white_le. intros x Hx. cbn [idx set_low]. destruct (idx s x) as [i|] eqn:Ei; [|contradiction]. rewrite (e_idx _ _ _ X1 _ _ Ei). discriminate. }
        constructor.
        * apply set_low_inv, I1.
        * rewrite <- app_assoc. apply set_low_ext; [exact Hv|]. exact (ext_trans _ _ _ _ _ LE X1).
        * exact Idx1v.
        * cbn [low set_low]. apply kupd_same.
        * lia.
        * destruct (Nat.le_gt_cases L Lw) as [Hle|Hlt]; [rewrite Nat.min_l by exact Hle; exact Lwit|]. rewrite Nat.min_r by lia. right.
          destruct W1 as [(_ & W1)|(y & Y1 & Y2 & Y3)]; [lia|]. destruct (old_on_stack _ _ _ _ _ y LE I0 LI Y1) as (Q1 & Q2); [lia|].
          exists y. split; [exact Q1|]. split; [congruence|]. eapply reach_trans; [apply reach_one, Evw|exact Y3].
        * intros x Hx Hk. cbn [idx set_low]. apply in_app_iff in Hx as [Hx|[<-|[]]]; [|exact Idx1].
          specialize (Ldone x Hx Hk). destruct (idx s x) as [i|] eqn:Ei; [|contradiction]. rewrite (e_idx _ _ _ X1 _ _ Ei). discriminate.
        * intros z y Hy He Hz. assert (Sy : idx s0 y <> None) by (apply (i_seen _ _ I0); left; exact Hy).
          assert (Hys : In y (stack s)) by (rewrite (e_stack _ _ _ LE); apply in_app_iff; right; exact Hy).
          destruct Hz as [Hz|(-> & Hz)].
          -- apply in_app_iff in Hz as [Hz|Hz]; [|pose proof (Lcross z y Hy He (or_introl Hz)); lia].
             pose proof (C1 z y Hz Hys He) as Q. rewrite (ext_rank _ _ _ y LE Sy) in Q. lia.
          -- apply in_app_iff in Hz as [Hz|[<-|[]]]; [pose proof (Lcross v y Hy He (or_intror (conj eq_refl Hz))); lia|].
             exfalso. assert (Q : idx s w <> None) by (apply (i_seen _ _ LI); left; exact Hys). contradiction.
  Qed.

  Lemma pops_ok : forall v id nw rest o c, ~ In v nw ->
    exists o' c', pops eqb v id (nw ++ v :: rest) o c = Some (rest, o', c') /\
      (forall x, o' x = if in_dec K_dec x (nw ++ [v]) then false else o x) /\
      (forall x, c' x = if in_dec K_dec x (nw ++ [v]) then Some id else c x).
  Proof.
    intros v id nw rest. induction nw as [|w nw IH]; intros o c Hv; cbn [app pops].
    - rewrite eqb_refl. do 2 eexists. split; [reflexivity|]. split; intro x; unfold kupd; destruct (in_dec K_dec x [v]) as [[<-|[]]|H];
        (rewrite eqb_refl; reflexivity) || (rewrite eqb_neq; [reflexivity|intros ->; apply H; left; reflexivity]).
    - rewrite eqb_neq by (intros ->; apply Hv; left; reflexivity).
      destruct (IH (kupd eqb o w false) (kupd eqb c w (Some id))) as (o' & c' & E & Ho & Hc); [intro Q; apply Hv; right; exact Q|].
      exists o', c'. split; [exact E|]. split; intro x; rewrite ?Ho, ?Hc; unfold kupd;
        destruct (in_dec K_dec x (nw ++ [v])) as [H|H], (in_dec K_dec x (w :: nw ++ [v])) as [H'|H']; try reflexivity; try (exfalso; apply H'; right; exact H).
      + destruct H' as [->|H']; [rewrite eqb_refl; reflexivity|contradiction].
      + rewrite eqb_neq; [reflexivity|]. intros ->. apply H'. left. reflexivity.
      + destruct H' as [->|H']; [rewrite eqb_refl; reflexivity|contradiction].
      + rewrite eqb_neq; [reflexivity|]. intros ->. apply H'. left. reflexivity.
  Qed.

  Lemma rank_push : forall s v x, x <> v -> rank (push eqb v s) x = rank s x.
  Proof. intros s v x H. unfold rank. cbn [idx push]. rewrite kupd_other by exact H. reflexivity. Qed.
  Lemma rank_push_same : forall s v, rank (push eqb v s) v = next s.
  Proof. intros s v. unfold rank. cbn [idx push]. rewrite kupd_same. reflexivity. Qed.
  Lemma sorted_ext : forall (R R' : K -> K -> Prop) l, (forall a b, In a l -> In b l -> R a b -> R' a b) -> StronglySorted R l -> StronglySorted R' l.
  Proof.
    intros R R' l H S. induction S as [|a l S IH F]; [constructor|]. constructor.
    - apply IH. intros x y Hx Hy. apply H; right; assumption.
    - rewrite Forall_forall in F |- *. intros y Hy. apply H; [left; reflexivity|right; exact Hy|apply F, Hy].
  Qed.
  Lemma sorted_app : forall (R : K -> K -> Prop) l1 l2, StronglySorted R (l1 ++ l2) -> StronglySorted R l2 /\ (forall a b, In a l1 -> In b l2 -> R a b).
  Proof.
    intros R l1 l2. induction l1 as [|x l1 IH]; intro H; [split; [exact H|intros a b []]|]. cbn [app] in H. apply StronglySorted_inv in H as (H & F).
    destruct (IH H) as (A & B). split; [exact A|]. intros a b [<-|Ha] Hb; [|apply B; assumption]. rewrite Forall_forall in F. apply F. apply in_app_iff. right. exact Hb.
  Qed.

  Lemma push_inv : forall gs s v, Inv gs s -> In v (keys g) -> idx s v = None -> (forall x, In x gs -> reaches x v) -> Inv (v :: gs) (push eqb v s).
  Proof.
    intros gs s v I Hk Hv Hg. pose proof I as [H1 H2 H3 H4 H5 H6 H7 H8 H9 H10 H11 H12 H13 H14].
    assert (Nv : forall x, In x (stack s) -> x <> v) by (intros x Hx ->; apply (proj2 (H2 v)); [left; exact Hx|exact Hv]).
    constructor.
    - intro x. cbn [on stack push]. unfold kupd. destruct (eqb x v) eqn:E; [apply eqb_spec in E; subst; split; [intros _; left; reflexivity|reflexivity]|].
      rewrite H1. split; [intro Q; right; exact Q|]. intros [->|Q]; [rewrite eqb_refl in E; discriminate|exact Q].
    - intro x. cbn [idx stack scc push]. destruct (K_dec x v) as [->|N]; [rewrite kupd_same; split; [intros _; left; left; reflexivity|discriminate]|].
      rewrite kupd_other, H2 by exact N. cbn [In]. split; [intros [Q|Q]; auto|]. intros [[->|Q]|Q]; auto; contradiction.
    - intros x. cbn [scc stack push]. intros [<-|Q]; [|apply H3, Q]. destruct (scc s v) eqn:E; [|reflexivity]. exfalso. apply (proj2 (H2 v)); [right; congruence|exact Hv].
    - intros x. cbn [idx low push]. unfold kupd. destruct (eqb x v); [discriminate|apply H4].
    - intros x i. cbn [idx next push]. unfold kupd. destruct (eqb x v); [intros [= <-]; lia|]. intro Q. apply H5 in Q. lia.
    - cbn [stack push]. constructor.
      + eapply sorted_ext; [|exact H6]. intros a b Ha Hb Q. rewrite !rank_push by (apply Nv; assumption). exact Q.
      + rewrite Forall_forall. intros x Hx. rewrite rank_push_same, rank_push by (apply Nv, Hx). eapply rank_lt_next; eassumption.
    - intros x. cbn [stack push]. intros [<-|Q]; [left; reflexivity|right; apply H7, Q].
    - intros x y. cbn [stack push]. intros [<-|Hx] [<-|Hy].
      + intros _. apply reach_refl.
      + rewrite rank_push_same, rank_push by (apply Nv, Hy). pose proof (rank_lt_next _ _ _ I Hy). lia.
      + intros _. apply Hg, Hx.
      + rewrite !rank_push by (apply Nv; auto). apply H8; assumption.
    - intros x. cbn [stack push]. intros [<-|Hx]; [exists v; split; [left; reflexivity|split; [lia|apply reach_refl]]|].
      destruct (H9 x Hx) as (y & A & B & C). exists y. split; [right; exact A|]. split; [|exact C]. rewrite !rank_push by (apply Nv; auto). exact B.
    - intros x y. cbn [idx push]. intros Hx Nx He. cbn [In] in Nx. rewrite kupd_other in Hx by (intros ->; apply Nx; left; reflexivity).
      unfold kupd. destruct (eqb y v); [discriminate|]. eapply H10; [exact Hx| |exact He]. intro Q. apply Nx. right. exact Q.
    - exact H11.
    - exact H12.
    - exact H13.
    - intros x. cbn [idx push]. unfold kupd. destruct (eqb x v) eqn:E; [apply eqb_spec in E; subst; intros _; exact Hk|apply H14].
  Qed.
  Lemma push_ext : forall s v, idx s v = None -> ext [v] s (push eqb v s).
  Proof.
    intros s v Hv. constructor; cbn [stack idx low scc next push].
    - reflexivity.
    - intros x i H. rewrite kupd_other; [exact H|congruence].
    - intros x H. apply kupd_other. intros ->. contradiction.
    - auto.
    - intros x [<-|[]]. exact Hv.
    - lia.
    - intros x i H. unfold kupd. destruct (eqb x v); [intros [= <-]; lia|congruence].
  Qed.

  Lemma closed_reach : forall (c : K -> option nat), (forall x y a, c x = Some a -> edge x y -> exists b, c y = Some b /\ b <= a) ->
    forall x y, reaches x y -> forall a, c x = Some a -> exists b, c y = Some b /\ b <= a.
  Proof.
    intros c H x y R. induction R as [|y z R IH E]; intros a Ha; [exists a; split; [exact Ha|lia]|].
    destruct (IH a Ha) as (b & B1 & B2). destruct (H _ _ _ B1 E) as (d & D1 & D2). exists d. split; [exact D1|lia].
  Qed.

  Lemma strongconnect_ok : forall n, call_ok n.
  Proof.
    induction n as [|n IH]; intros v s gs I Hk Hv Hg Hw; [lia|].
    assert (Hw1 : white (push eqb v s) < n).
    { enough (white (push eqb v s) < white s) by lia. eapply white_lt; [exact Hk|exact Hv| |]; cbn [idx push]; [rewrite kupd_same; discriminate|].
      intros x Hx. unfold kupd. destruct (eqb x v); [discriminate|exact Hx]. }
    assert (L0 : loop gs v s [] (push eqb v s) [] (next s)).
    { constructor.
      - apply push_inv; assumption.
      - apply push_ext, Hv.
      - cbn [idx push]. apply kupd_same.
      - cbn [low push]. apply kupd_same.
      - lia.
      - left. reflexivity.
      - intros w [].
      - intros z y _ _ [[]|(_ & [])]. }
    destruct (visit_ok n gs v s IH I Hv (edges g v) [] _ _ _ (fun w H => H) L0 Hw1) as (s2 & nw & L & E2 & [LI LE Lidx Llow Lle Lwit Ldone Lcross]). cbn [app] in Ldone, Lcross.
    cbn [strongconnect]. rewrite E2, Llow, Lidx.
    assert (Stk : stack s2 = nw ++ v :: stack s) by (rewrite (e_stack _ _ _ LE), <- app_assoc; reflexivity).
    pose proof LI as [H1 H2 H3 H4 H5 H6 H7 H8 H9 H10 H11 H12 H13 H14].
    assert (Rv : rank s2 v = next s) by (unfold rank; rewrite Lidx; reflexivity).
    pose proof H6 as S2. rewrite Stk in S2. apply sorted_app in S2 as (Sv & Snw). apply StronglySorted_inv in Sv as (Ss & Fs). rewrite Forall_forall in Fs.
    assert (Rold : forall x, In x (stack s) -> rank s2 x = rank s x) by (intros x Hx; eapply ext_rank; [exact LE|apply (i_seen _ _ I); left; exact Hx]).
    assert (Succ : forall x y, (In x nw \/ x = v \/ (idx s2 x <> None /\ ~ In x gs)) -> edge x y -> idx s2 y <> None).
    { intros x y Hx He. assert (Dv : x = v -> idx s2 y <> None) by (intros ->; apply Ldone; apply He).
      destruct (K_dec x v) as [E|N]; [apply Dv, E|]. destruct Hx as [Hx|[Hx|(Hx & Hx')]]; [|contradiction|].
      - apply (H10 x y); [| |exact He].
        + apply H2. left. rewrite Stk. apply in_app_iff. left. exact Hx.
        + intros [Q|Q]; [congruence|]. assert (Q1 : idx s x = None) by (apply (e_new _ _ _ LE); apply in_app_iff; left; exact Hx).
          apply (proj2 (i_seen _ _ I x)); [left; apply (i_gray _ _ I), Q|exact Q1].
      - apply (H10 x y); [exact Hx| |exact He]. intros [Q|Q]; [congruence|contradiction]. }
    destruct (Nat.eqb L (next s)) eqn:EL.
    - apply Nat.eqb_eq in EL. subst L.
      assert (Nv : ~ In v nw) by (intro Q; pose proof (Snw v v Q (or_introl eq_refl)); lia).
      rewrite Stk. destruct (pops_ok v (nscc s2) nw (stack s) (on s2) (scc s2) Nv) as (o & c & E & Ho & Hc). rewrite E.
      set (comp := nw ++ [v]) in *.
      assert (Cstk : forall x, In x comp -> In x (stack s2)) by (intros x Hx; rewrite (e_stack _ _ _ LE); apply in_app_iff; left; exact Hx).
      assert (Cdisj : forall x, In x (stack s) -> ~ In x comp).
      { intros x Hx Hc'. apply (e_new _ _ _ LE) in Hc'. apply (proj2 (i_seen _ _ I x)); [left; exact Hx|exact Hc']. }
      assert (Split : forall x, In x (stack s2) <-> In x comp \/ In x (stack s)) by (intro x; rewrite (e_stack _ _ _ LE), in_app_iff; reflexivity).
      assert (Cin : forall x, In x comp -> In x nw \/ x = v) by (intros x Hx; apply in_app_iff in Hx as [Hx|[<-|[]]]; auto).
      assert (Closed : forall x y a, c x = Some a -> edge x y -> exists b, c y = Some b /\ b <= a).
      { intros x y a. rewrite (Hc x). destruct (in_dec K_dec x comp) as [Hx|Hx]; intros Ha He.
        - injection Ha as <-. rewrite (Hc y). destruct (in_dec K_dec y comp) as [Hy|Hy]; [exists (nscc s2); split; [reflexivity|lia]|].
          assert (Qy : idx s2 y <> None) by (apply (Succ x y); [destruct (Cin x Hx); auto|exact He]).
          apply H2 in Qy as [Qy|Qy].
          + apply Split in Qy as [Qy|Qy]; [contradiction|]. exfalso. assert (Q : next s <= rank s y); [|pose proof (rank_lt_next _ _ _ I Qy); lia].
            apply (Lcross x y Qy He). destruct (Cin x Hx) as [Q| ->]; [left; exact Q|right; split; [reflexivity|apply He]].
          + destruct (scc s2 y) as [b|] eqn:Eb; [|contradiction]. exists b. split; [reflexivity|]. pose proof (H13 _ _ Eb). lia.
        - destruct (H11 x y a Ha He) as (b & B1 & B2). exists b. split; [|exact B2]. rewrite (Hc y). destruct (in_dec K_dec y comp) as [Hy|Hy]; [|exact B1].
          apply Cstk, H3 in Hy. congruence. }
      assert (Cv : forall x, In x comp -> reaches x v /\ reaches v x).
      { intros x Hx. split.
        - destruct (H9 x (Cstk x Hx)) as (y & [<-|Y] & _ & R); [exact R|]. eapply reach_trans; [exact R|apply Hg, Y].
        - apply H8; [left; reflexivity|apply Cstk, Hx|]. destruct (Cin x Hx) as [Q| ->]; [|lia]. pose proof (Snw x v Q (or_introl eq_refl)). lia. }
      exists {| next := next s2; stack := stack s; on := o; idx := idx s2; low := low s2; scc := c; nscc := S (nscc s2) |}, [], (next s).
      split; [reflexivity|]. split; [|split; [|split; [exact Llow|split; [cbn [idx]; congruence|split; [left; split; [reflexivity|lia]|intros z y []]]]]].
      + constructor; cbn [next stack on idx low scc nscc].
        * intro x. rewrite Ho. destruct (in_dec K_dec x comp) as [Hx|Hx]; [split; [discriminate|intro Q; exfalso; exact (Cdisj x Q Hx)]|].
          rewrite H1, Split. split; [intros [Q|Q]; [contradiction|exact Q]|intro Q; right; exact Q].
        * intro x. rewrite H2, Split, Hc. destruct (in_dec K_dec x comp) as [Hx|Hx]; [split; [intros _; right; discriminate|intros _; left; left; exact Hx]|].
          split; [intros [[Q|Q]|Q]; auto; contradiction|intros [Q|Q]; auto].
        * intros x Hx. rewrite Hc. destruct (in_dec K_dec x comp) as [Q|_]; [exfalso; exact (Cdisj x Hx Q)|]. apply H3, Split. right. exact Hx.
        * exact H4.
        * exact H5.
        * exact Ss.
        * apply (i_gray _ _ I).
        * intros x y Hx Hy. apply H8; [right; exact Hx|apply Split; right; exact Hy].
        * intros x Hx. destruct (i_back _ _ I x Hx) as (y & A & B & C). exists y. split; [exact A|]. split; [|exact C].
          change (rank s2 y <= rank s2 x). rewrite !Rold; [exact B|exact Hx|apply (i_gray _ _ I), A].
        * intros x y Hx Hn He. eapply Succ; [right; right; split; [exact Hx|exact Hn]|exact He].
        * exact Closed.
        * intros x y a Ha. split.
          -- intro Hy. rewrite (Hc x) in Ha. rewrite (Hc y) in Hy. destruct (in_dec K_dec x comp) as [Qx|Qx], (in_dec K_dec y comp) as [Qy|Qy].
             ++ split; eapply reach_trans; try apply (Cv x Qx); apply (Cv y Qy).
             ++ injection Ha as <-. apply H13 in Hy. lia.
             ++ injection Hy as <-. apply H13 in Ha. lia.
             ++ apply (H12 x y a Ha), Hy.
          -- intros (R1 & R2). destruct (closed_reach c Closed x y R1 a Ha) as (b & B1 & B2). destruct (closed_reach c Closed y x R2 b B1) as (d & D1 & D2).
             rewrite Ha in D1. injection D1 as <-. rewrite B1. f_equal. lia.
        * intros x a. rewrite Hc. destruct (in_dec K_dec x comp); [intros [= <-]; lia|]. intro Q. apply H13 in Q. lia.
        * exact H14.
      + destruct LE as [X1 X2 X3 X4 X5 X6 X7]. constructor; cbn [next stack on idx low scc nscc].
        * reflexivity.
        * exact X2.
        * exact X3.
        * intros x a Ha. rewrite Hc. destruct (in_dec K_dec x comp) as [Q|_]; [|apply X4, Ha]. exfalso. apply X5 in Q. apply (proj2 (i_seen _ _ I x)); [right; congruence|exact Q].
        * intros x [].
        * exact X6.
        * exact X7.
    - apply Nat.eqb_neq in EL. destruct Lwit as [?|(w & W1 & W2 & W3)]; [contradiction|].
      exists s2, (nw ++ [v]), L. split; [reflexivity|]. split; [|split; [exact LE|split; [exact Llow|split; [congruence|split]]]].
      + constructor; try assumption.
        * intros x Hx. apply H7. right. exact Hx.
        * intros x y Hx. apply H8. right. exact Hx.
        * intros x Hx. destruct (H9 x Hx) as (y & [<-|Y] & A & B); [|exists y; auto].
          destruct (i_back _ _ I w W1) as (y & Y1 & Y2 & Y3). exists y. split; [exact Y1|]. split.
          -- rewrite (Rold y) by (apply (i_gray _ _ I), Y1). lia.
          -- eapply reach_trans; [exact B|]. eapply reach_trans; [exact W3|exact Y3].
        * intros x y Hx Hn He. eapply Succ; [right; right; split; [exact Hx|exact Hn]|exact He].
      + right. exists w. auto.
      + intros z y Hz Hy He. apply (Lcross z y Hy He). apply in_app_iff in Hz as [Hz|[<-|[]]]; [left; exact Hz|right; split; [reflexivity|apply He]].
  Qed.

  Lemma start_inv : Inv [] start.
  Proof.
    constructor; cbn; try (intros; discriminate); try (intros ? []); try (intros; congruence); try (intros ? ? []).
    - intro x. split; [discriminate|intros []].
    - intro x. split; [congruence|intros [[]|Q]; exact Q].
    - constructor.
  Qed.

  Lemma white_bound : forall s, white s <= List.length (keys g).
  Proof. intro s. unfold white. induction (keys g) as [|x l IH]; [apply Nat.le_refl|]. cbn [filter]. destruct (idx s x); cbn [List.length]; lia. Qed.

  Lemma tarjan_loop_ok : forall n vs s, List.length (keys g) < n -> Inv [] s -> (forall v, In v vs -> In v (keys g)) ->
    exists s', tarjan_loop eqb n g vs s = Some s' /\ Inv [] s' /\ (forall x, idx s x <> None -> idx s' x <> None) /\ (forall x, In x vs -> idx s' x <> None).
  Proof.
    intros n vs. induction vs as [|v vs IH]; intros s Hn I Hvs.
    - exists s. cbn. split; [reflexivity|]. split; [exact I|]. split; [auto|intros x []].
    - cbn [tarjan_loop]. destruct (idx s v) as [i|] eqn:Ei.
      + destruct (IH s Hn I) as (s' & A & B & C & D); [intros w Hw; apply Hvs; right; exact Hw|]. exists s'. split; [exact A|]. split; [exact B|]. split; [exact C|].
        intros x [<-|Hx]; [apply C; congruence|apply D, Hx].
      + destruct (strongconnect_ok n v s [] I) as (s1 & new & L & E1 & I1 & X1 & _ & Idx1 & _); [apply Hvs; left; reflexivity|exact Ei|intros x []|pose proof (white_bound s); lia|].
        rewrite E1. destruct (IH s1 Hn I1) as (s' & A & B & C & D); [intros w Hw; apply Hvs; right; exact Hw|]. exists s'. split; [exact A|]. split; [exact B|]. split.
        * intros x Hx. apply C. destruct (idx s x) as [j|] eqn:Ej; [|contradiction]. rewrite (e_idx _ _ _ X1 _ _ Ej). discriminate.
        * intros x [<-|Hx]; [apply C, Idx1|apply D, Hx].
  Qed.

  Lemma tarjan_ok : forall n, List.length (keys g) < n -> exists s, tarjan_scc eqb n g = Some s /\
    (forall x, scc s x <> None <-> In x (keys g)) /\
    (forall x y a, scc s x = Some a -> (scc s y = Some a <-> (reaches x y /\ reaches y x))) /\
    (forall x y a, scc s x = Some a -> edge x y -> exists b, scc s y = Some b /\ b <= a) /\
    (forall x a, scc s x = Some a -> a < nscc s).
  Proof.
    intros n Hn. destruct (tarjan_loop_ok n (keys g) start Hn start_inv (fun v H => H)) as (s & A & I & _ & D).
    exists s. split; [exact A|]. assert (St : forall x, ~ In x (stack s)) by (intros x Hx; destruct (i_back _ _ I x Hx) as (y & [] & _)).
    split; [|split; [apply (i_same _ _ I)|split; [apply (i_closed _ _ I)|apply (i_id _ _ I)]]].
    intro x. split.
    - intro H. apply (i_def _ _ I). apply (i_seen _ _ I). right. exact H.
    - intro H. apply D in H. apply (i_seen _ _ I) in H as [H|H]; [exfalso; exact (St x H)|exact H].
  Qed.

  Lemma reach1_of : forall x z, reach1 edge x z <-> (x <> z /\ reaches x z) \/ (x = z /\ exists y, edge x y /\ reaches y x).
  Proof.
    intros x z. split.
    - intros (y & E & R). destruct (K_dec x z) as [<-|N]; [right; split; [reflexivity|exists y; auto]|left; split; [exact N|]]. eapply reach_trans; [apply reach_one, E|exact R].
    - intros [(N & R)|(<- & y & E & R)]; [|exists y; auto]. clear -N R. induction R as [|y z R IH E]; [contradiction|].
      destruct R as [|y' y R E']; [exists z; split; [exact E|apply reach_refl]|].
      (* at least one step before the last *)
      assert (Q : reach1 edge x y).
      { clear -R E'. revert y E'. induction R as [|a b R IH E]; intros y E'; [exists y; split; [exact E'|apply reach_refl]|]. destruct (IH b E) as (w & W1 & W2). exists w. split; [exact W1|]. eapply reach_step; [exact W2|exact E']. }
      destruct Q as (w & W1 & W2). exists w. split; [exact W1|]. eapply reach_step; [exact W2|exact E].
  Qed.

  (** A function of the module is recursive when it can call itself. *)
  Lemma recursive_ok : NoDup (keys g) -> forall n, List.length (keys g) < n -> exists s, tarjan_scc eqb n g = Some s /\
    forall v, In v (recursive_functions eqb g s) <-> (In v (keys g) /\ reach1 edge v v).
  Proof.
    intros ND n Hn. destruct (tarjan_ok n Hn) as (s & A & T1 & T2 & T3 & T4). exists s. split; [exact A|]. intro v.
    assert (Mem : forall id x, In x (members g s id) <-> In x (keys g) /\ scc s x = Some id).
    { intros id x. unfold members. rewrite filter_In. destruct (scc s x) as [a|]; [|split; [intros (_ & Q); discriminate|intros (_ & Q); discriminate]].
      rewrite Nat.eqb_eq. split; [intros (Q & ->); auto|intros (Q & [= ->]); auto]. }
    assert (MND : forall id, NoDup (members g s id)) by (intro id; apply NoDup_filter, ND).
    unfold recursive_functions. rewrite in_flat_map. split.
    - intros (id & Hid & Hv). assert (Hm : In v (members g s id)) by (destruct (members g s id) as [|x [|y r]]; [destruct Hv|destruct (existsb _ _); [exact Hv|destruct Hv]|exact Hv]).
      pose proof Hm as Hm'. apply Mem in Hm' as (Hk & Hs). split; [exact Hk|]. apply reach1_of. right. split; [reflexivity|].
      destruct (members g s id) as [|x [|y r]] eqn:Em; [destruct Hv| |].
      + destruct (existsb (eqb x) (edges g x)) eqn:Ex; [|destruct Hv]. destruct Hv as [<-|[]]. apply existsb_exists in Ex as (w & W1 & W2). apply eqb_spec in W2. subst w.
        exists x. split; [split; assumption|apply reach_refl].
      + assert (exists w, w <> v /\ In w (x :: y :: r)) as (w & W1 & W2).
        { specialize (MND id). rewrite Em in MND. inversion MND as [|? ? N1 _]; subst. destruct (K_dec x v) as [<-|N]; [exists y; split; [intros ->; apply N1; left; reflexivity|right; left; reflexivity]|exists x; split; [exact N|left; reflexivity]]. }
        rewrite <- Em in W2. apply Mem in W2 as (_ & W2). apply (T2 v w id Hs) in W2 as (R1 & R2).
        assert (Q : reach1 edge v w) by (apply reach1_of; left; split; [congruence|exact R1]). destruct Q as (u & U1 & U2). exists u. split; [exact U1|]. eapply reach_trans; eassumption.
    - intros (Hk & R). destruct (scc s v) as [id|] eqn:Es; [|apply T1 in Hk; contradiction]. exists id. split; [apply in_seq; pose proof (T4 _ _ Es); lia|].
      assert (Hm : In v (members g s id)) by (apply Mem; auto).
      destruct (members g s id) as [|x [|y r]] eqn:Em; [destruct Hm| |exact Hm]. destruct Hm as [<-|[]].
      destruct R as (y & Exy & Ryx). assert (Sy : scc s y = Some id) by (apply (T2 x y id Es); split; [apply reach_one, Exy|exact Ryx]).
      assert (Q : In y (members g s id)) by (apply Mem; split; [apply Exy|exact Sy]). rewrite Em in Q. destruct Q as [<-|[]].
      replace (existsb (eqb x) (edges g x)) with true; [left; reflexivity|]. symmetry. apply existsb_exists. exists x. split; [apply Exy|apply eqb_refl].
  Qed.
End proof.
