From Verif Require Import HoverSpec.

Section NodeInd.
  Variable P : node -> Prop.
  Hypothesis H : forall i k cs, Forall P cs -> P (Node i k cs).
  Fixpoint node_ind' (x : node) : P x :=
    let fix ns (l : list node) : Forall P l := match l with [] => Forall_nil _ | y :: l' => Forall_cons _ (node_ind' y) (ns l') end in
    match x with Node i k cs => H i k cs (ns cs) end.
End NodeInd.

(** ** The smallest entry *)
Lemma min_none f l : min_by_key f l = None -> l = [].
Proof.
  destruct l as [|e l]; [reflexivity|]. cbn [min_by_key]. intros E. exfalso. revert E. destruct (min_by_key f l) as [m|]; [|discriminate].
  destruct (f m <? f e); discriminate.
Qed.
Lemma min_in f l m : min_by_key f l = Some m -> In m l.
Proof.
  revert m. induction l as [|e l IH]; intros m E; cbn [min_by_key] in E; [discriminate|]. destruct (min_by_key f l) as [m'|].
  - revert E. destruct (f m' <? f e); intros E; injection E as <-; cbn; auto.
  - injection E as <-. cbn. auto.
Qed.
Lemma min_le f l m : min_by_key f l = Some m -> forall e, In e l -> f m <= f e.
Proof.
  revert m. induction l as [|a l IH]; intros m E e I; cbn [min_by_key] in E; [discriminate|]. destruct (min_by_key f l) as [m'|] eqn:Em.
  - revert E. destruct (Nat.ltb_spec (f m') (f a)); intros E; injection E as <-; destruct I as [<-|I]; try lia; specialize (IH m' eq_refl e I); lia.
  - apply min_none in Em. subst l. injection E as <-. destruct I as [<-|[]]. lia.
Qed.
Lemma min_unique f l e : In e l -> (forall x, In x l -> x = e \/ f e < f x) -> min_by_key f l = Some e.
Proof.
  intros I U. destruct (min_by_key f l) as [m|] eqn:E.
  - pose proof (min_le _ _ _ E e I). destruct (U m (min_in _ _ _ E)) as [->|L]; [reflexivity|lia].
  - apply min_none in E. subst l. destruct I.
Qed.
Lemma insert_in e x l : In x (insert e l) <-> x = e \/ In x l.
Proof. induction l as [|y l IH]; cbn; [intuition|]. destruct (key_le e y); cbn; [intuition|]. rewrite IH. intuition. Qed.
Lemma sort_in x l : In x (sort l) <-> In x l.
Proof. induction l as [|e l IH]; cbn; [tauto|]. rewrite insert_in, IH. intuition. Qed.

Section Hover.
  Variable spans : nat -> option (nat * nat).
  Let place := span spans.
  Notation covers := (covers place). Notation under := (under place). Notation well_nested := (well_nested place).
  Let of_node (x : node) (t : ty) : entry := add_entry spans (node_id x) t.

  Lemma contains_covers x t off : contains (of_node x t) off = true <-> covers off x.
  Proof. unfold contains, HoverSpec.covers, of_node, add_entry, place. cbn [e_start e_end]. rewrite andb_true_iff, Nat.leb_le, Nat.ltb_lt. tauto. Qed.

  Lemma nested_inv i k cs : well_nested (Node i k cs) -> (forall c, In c cs -> within place (Node i k cs) c /\ well_nested c) /\ apart place cs.
  Proof. intros W. inversion W as [x C A]; subst. cbn [node_children] in *. auto. Qed.
  Lemma child_cover x c off : within place x c -> covers off c -> covers off x.
  Proof. unfold within, HoverSpec.covers. intros (A & B & _) [C D]. lia. Qed.
  Lemma under_covers off x y : under off x y -> covers off x /\ covers off y.
  Proof. induction 1 as [x C|x c y C I U [A B]]; auto. Qed.

  (** The entries under the cursor are those of nodes under it. *)
  Lemma collect_under off x : well_nested x -> forall e, In e (collect spans x) -> contains e off = true ->
    exists y t, under off x y /\ entered (node_kind y) = Some t /\ e = of_node y t.
  Proof.
    induction x as [i k cs H] using node_ind'. intros W e I C. apply nested_inv in W as [W A]. cbn [collect] in I. apply in_app_iff in I as [I|I].
    - destruct (entered k) as [t|] eqn:E; [|destruct I]. destruct I as [<-|[]]. exists (Node i k cs), t. split; [|auto].
      apply UHere. apply (contains_covers (Node i k cs) t). exact C.
    - apply in_flat_map in I as (c & Ic & I). rewrite Forall_forall in H. destruct (W c Ic) as [Wi Wc].
      destruct (H c Ic Wc e I C) as (y & t & U & E & ->). exists y, t. split; [|auto]. apply UBelow with c; auto.
      apply child_cover with c; [exact Wi|]. apply (under_covers off c y U).
  Qed.
  Lemma under_collect off x y t : under off x y -> entered (node_kind y) = Some t -> In (of_node y t) (collect spans x).
  Proof.
    induction 1 as [x C|x c y C I U IH]; intros E.
    - destruct x as [i k cs]. cbn [collect node_kind] in *. rewrite E. cbn. auto.
    - destruct x as [i k cs]. cbn [collect]. apply in_app_iff. right. apply in_flat_map. exists c. split; [exact I|auto].
  Qed.

  (** Two nodes under the cursor: one is below the other. *)
  Lemma same_child off (l : list node) c c' : apart place l -> In c l -> In c' l -> covers off c -> covers off c' -> c = c'.
  Proof.
    intros A I I' C C'. apply In_nth_error in I as [i I]. apply In_nth_error in I' as [j I']. rewrite (A off i j c c' I I' C C') in I. congruence.
  Qed.
  Lemma chain off x : well_nested x -> forall y z, under off x y -> under off x z -> under off y z \/ under off z y.
  Proof.
    induction x as [i k cs H] using node_ind'. intros W y z Y Z. apply nested_inv in W as [W A].
    inversion Y as [x C|x c y' C I U]; subst; [auto|]. inversion Z as [x C'|x c' z' C' I' U']; subst; [auto|]. cbn [node_children] in *.
    rewrite (same_child off cs c c' A I I') in *; try apply (under_covers _ _ _ U); try apply (under_covers _ _ _ U').
    rewrite Forall_forall in H. apply (H c' I' (proj2 (W c' I'))); auto.
  Qed.
  Definition width (x : node) : nat := snd (place (node_id x)) - fst (place (node_id x)).
  Lemma under_nested off x y : under off x y -> well_nested x -> well_nested y.
  Proof. induction 1 as [x C|x c y C I U IH]; intros W; [exact W|]. apply IH. inversion W; subst. apply H; auto. Qed.
  Lemma under_width off x y : under off x y -> well_nested x -> x = y \/ (width y <= width x /\ (entered (node_kind x) <> None -> width y < width x)).
  Proof.
    induction 1 as [x C|x c y C I U IH]; intros W; [auto|]. right. inversion W as [x' Ch A]; subst. destruct (Ch c I) as [(P1 & P2 & P3) Wc].
    unfold width in *. destruct (IH Wc) as [->|[L _]].
    - split; [lia|exact P3].
    - split; [lia|]. intros N. specialize (P3 N). lia.
  Qed.

  (** [y] is the innermost node with an entry under the cursor. *)
  Lemma nearest bodies off x y t : well_placed place bodies -> In x bodies -> under off x y -> entered (node_kind y) = Some t ->
    (forall z, under off y z -> z = y \/ entered (node_kind z) = None) -> type_at (build spans bodies) off = Some (of_node y t).
  Proof.
    intros [W A] Ix U E N. unfold type_at, build. apply min_unique.
    - apply filter_In. rewrite sort_in. split; [|apply contains_covers, (under_covers _ _ _ U)]. apply in_flat_map. exists x. split; [exact Ix|]. eapply under_collect; eauto.
    - intros e I. apply filter_In in I as [I C]. rewrite sort_in in I. apply in_flat_map in I as (x' & Ix' & I).
      destruct (collect_under off x' (W x' Ix') e I C) as (z & t' & U' & E' & ->).
      rewrite (same_child off bodies x' x A Ix' Ix) in U'; [|apply (under_covers _ _ _ U')|apply (under_covers _ _ _ U)].
      destruct (chain off x (W x Ix) y z U U') as [Y|Z].
      + destruct (N z Y) as [->|Z]; [left; congruence|congruence].
      + destruct (under_width off z y Z (under_nested off x z U' (W x Ix))) as [->|[_ L]]; [left; congruence|]. right.
        unfold of_node, add_entry. cbn [e_start e_end]. apply L. congruence.
  Qed.
  Lemma none_under bodies off : well_placed place bodies -> (forall x y, In x bodies -> under off x y -> entered (node_kind y) = None) -> type_at (build spans bodies) off = None.
  Proof.
    intros [W A] N. unfold type_at. destruct (filter _ _) as [|e l] eqn:F; [reflexivity|]. exfalso.
    assert (I : In e (filter (fun e => contains e off) (build spans bodies))) by (rewrite F; cbn; auto).
    apply filter_In in I as [I C]. unfold build in I. rewrite sort_in in I. apply in_flat_map in I as (x & Ix & I).
    destruct (collect_under off x (W x Ix) e I C) as (y & t & U & E & _). rewrite (N x y Ix U) in E. discriminate.
  Qed.

  Lemma innermost_alone off x y z : innermost place off x y -> under off y z -> z = y.
  Proof. intros [_ N] U. inversion U as [|? c ? ? I U']; subst; [reflexivity|]. destruct (N c I). apply (under_covers _ _ _ U'). Qed.
  Lemma typed_under (truth : nat -> ty) off x y : under off x y -> all_typed truth x -> typed truth y.
  Proof. induction 1 as [x C|x c y C I U IH]; intros T; inversion T; subst; auto. Qed.
  Lemma plain_entered truth y : plain y -> typed truth y -> entered (node_kind y) = Some (truth (node_id y)).
  Proof.
    destruct y as [i k cs]. unfold plain, typed. cbn [node_kind node_children node_id]. destruct k; cbn [entered]; intros P T; try contradiction; try (rewrite T; reflexivity).
    subst cs. rewrite T. reflexivity.
  Qed.
  Lemma hover_plain truth bodies off x y : well_placed place bodies -> In x bodies -> all_typed truth x -> innermost place off x y -> plain y ->
    shown (build spans bodies) off = Some (truth (node_id y), place (node_id y)).
  Proof.
    intros W Ix T I P. pose proof (plain_entered truth y P (typed_under truth off x y (proj1 I) T)) as E.
    unfold shown. rewrite (nearest bodies off x y _ W Ix (proj1 I) E).
    - unfold of_node, add_entry. cbn [e_ty e_start e_end]. rewrite <- surjective_pairing. reflexivity.
    - intros z U. left. eapply innermost_alone; eauto.
  Qed.
End Hover.
