From Verif Require Export RenameSpec.
From Coq Require Import Lia.

(** ** Induction over nodes. *)
Section Ind.
  Variable P : node -> Prop.
  Hypothesis Hnode : forall r items, (forall n, In (Sub n) items -> P n) -> P (Node r items).
  Fixpoint node_ind' (n : node) : P n :=
    match n with
    | Node r items =>
        Hnode r items ((fix go (l : list item) : forall n, In (Sub n) l -> P n :=
                          match l with
                          | [] => fun n H => match H with end
                          | i :: l => fun n H =>
                              match H with
                              | or_introl e =>
                                  match i as i0 return i0 = Sub n -> P n with
                                  | Sub m => fun e0 => eq_ind m P (node_ind' m) n (f_equal (fun x => match x with Sub y => y | _ => m end) e0)
                                  | Raw t => fun e0 => match (eq_ind (Raw t) (fun x => match x with Raw _ => True | _ => False end) I (Sub n) e0) with end
                                  | Name t m => fun e0 => match (eq_ind (Name t m) (fun x => match x with Name _ _ => True | _ => False end) I (Sub n) e0) with end
                                  end e
                              | or_intror H' => go l n H'
                              end
                          end) items)
    end.
End Ind.

Lemma text_eqb_iff a b : text_eqb a b = true <-> a = b.
Proof. unfold text_eqb. destruct (list_eq_dec ascii_dec a b); split; congruence. Qed.
Lemma text_eqb_refl a : text_eqb a a = true. Proof. now apply text_eqb_iff. Qed.

(** ** Widths. *)
Notation tlen l := (List.length (flat_map (text_with text_of) l)).
Lemma width_text n : width n = List.length (text_of n).
Proof.
  induction n using node_ind'. simpl. induction items as [|i l IH]; auto.
  simpl. rewrite app_length, IH; [|intros; apply H; simpl; auto]. f_equal.
  destruct i; simpl; auto. apply H; simpl; auto.
Qed.
Lemma width_item i : width_with width i = List.length (text_with text_of i).
Proof. destruct i; simpl; auto. apply width_text. Qed.

(** ** What is collected. *)
Definition ref_entry (x : span * role) : list reference :=
  match snd x with
  | RVar y | RCons y | RRecord y | RPatVariant y | RPatRecord (Some y) | RHandler y => [mkRef (fst x) (target_of y)]
  | _ => []
  end.
Definition def_entry (x : span * role) : list definition :=
  match snd x with
  | RFunc n => [mkDef (fst x) n DFunction None]
  | RParam n l => [mkDef (fst x) n DParam l]
  | RStruct n => [mkDef (fst x) n DStruct None]
  | RFieldDecl o n => [mkDef (fst x) n (DField o) None]
  | REnum n => [mkDef (fst x) n DEnum None]
  | RVariantDecl o n => [mkDef (fst x) n (DVariant o) None]
  | RAbility n => [mkDef (fst x) n DAbility None]
  | ROpDecl o n => [mkDef (fst x) n (DOp o) None]
  | RBind n l => [mkDef (fst x) n DLocal l]
  | RShorthand n => [mkDef (fst x) n DLocal None]
  | RListRest (Some n) l => [mkDef (fst x) n DLocal l]
  | RAs n l => [mkDef (fst x) n DLocal l]
  | _ => []
  end.
Lemma refs_of_app a b : refs_of (a ++ b) = refs_of a ++ refs_of b. Proof. unfold refs_of. apply flat_map_app. Qed.
Lemma defs_of_app a b : defs_of (a ++ b) = defs_of a ++ defs_of b. Proof. unfold defs_of. apply flat_map_app. Qed.
Lemma collect_refs n : forall start, refs_of (collect start n) = flat_map ref_entry (nodes start n).
Proof.
  induction n using node_ind'. intros start.
  change (collect start (Node r items)) with
    (before (start, start + width (Node r items)) r ++ collect_items collect start items ++ behind (start, start + width (Node r items)) r).
  change (nodes start (Node r items)) with (((start, start + List.length (text_of (Node r items))), r) :: nodes_items nodes start items).
  rewrite <- width_text. set (s := (start, _)).
  rewrite !refs_of_app. cbn [flat_map].
  assert (E : refs_of (collect_items collect start items) = flat_map ref_entry (nodes_items nodes start items)).
  { clear s. revert start. induction items as [|i l IH]; intros start; auto. cbn [collect_items nodes_items].
    rewrite refs_of_app, flat_map_app, width_item. f_equal.
    - destruct i; auto. apply H; simpl; auto.
    - apply IH. intros; apply H; simpl; auto. }
  rewrite E. assert (Eb : refs_of (behind s r) = []) by (destruct r; try reflexivity; destruct n; reflexivity).
  rewrite Eb, app_nil_r. f_equal. destruct r; try reflexivity. destruct r; reflexivity.
Qed.
Lemma collect_defs n : forall start, Permutation (defs_of (collect start n)) (flat_map def_entry (nodes start n)).
Proof.
  induction n using node_ind'. intros start.
  change (collect start (Node r items)) with
    (before (start, start + width (Node r items)) r ++ collect_items collect start items ++ behind (start, start + width (Node r items)) r).
  change (nodes start (Node r items)) with (((start, start + List.length (text_of (Node r items))), r) :: nodes_items nodes start items).
  rewrite <- width_text. set (s := (start, _)).
  rewrite !defs_of_app. cbn [flat_map].
  assert (E : Permutation (defs_of (collect_items collect start items)) (flat_map def_entry (nodes_items nodes start items))).
  { clear s. revert start. induction items as [|i l IH]; intros start; auto. cbn [collect_items nodes_items].
    rewrite defs_of_app, flat_map_app, width_item. apply Permutation_app.
    - destruct i; auto. apply H; simpl; auto.
    - apply IH. intros; apply H; simpl; auto. }
  rewrite E. rewrite (Permutation_app_comm (flat_map def_entry (nodes_items nodes start items))).
  rewrite app_assoc. apply Permutation_app_tail. rewrite <- defs_of_app.
  destruct r; try reflexivity; try (destruct r; reflexivity); try (destruct n; reflexivity).
Qed.

Lemma insert_perm {A} (key : A -> span) x l : Permutation (insert key x l) (x :: l).
Proof. induction l as [|y l IH]; simpl; auto. destruct (span_le _ _); auto. rewrite IH. apply perm_swap. Qed.
Lemma sort_perm {A} (key : A -> span) l : Permutation (sort key l) l.
Proof. induction l as [|x l IH]; simpl; auto. rewrite insert_perm. now constructor. Qed.
Lemma build_refs n : Permutation (i_refs (build n)) (flat_map ref_entry (nodes 0 n)).
Proof. unfold build; simpl. now rewrite sort_perm, collect_refs. Qed.
Lemma build_defs n : Permutation (i_defs (build n)) (flat_map def_entry (nodes 0 n)).
Proof. unfold build; simpl. now rewrite sort_perm, collect_defs. Qed.

(** ** Entries and symbols. *)
Lemma ref_entry_some s r T : mentions r = Some T -> exists t, ref_entry (s, r) = [mkRef s t]
  /\ target_name t = symbol_name T /\ (identified T -> t = T) /\ (forall U, identified U -> t = U -> T = U).
Proof.
  unfold ref_entry; simpl. intros H. destruct r; try discriminate H; try (destruct r; [|discriminate H]); simpl in H; injection H as <-;
    (eexists; split; [reflexivity|]);
    match goal with |- context [meaning ?x] => destruct x end; simpl; repeat split; auto; try contradiction; intros U HU E; subst U; simpl in HU; auto; contradiction.
Qed.
Lemma ref_entry_none s r : mentions r = None -> ref_entry (s, r) = [].
Proof. unfold ref_entry; simpl. intros H. destruct r; try discriminate H; auto. destruct r; [discriminate H|auto]. Qed.
Lemma def_entry_some s r T : declares r = Some T -> exists d, def_entry (s, r) = [d] /\ d_span d = s /\ d_name d = symbol_name T
  /\ target_from_definition d = T
  /\ (match d_local d with Some i => T = TLocal i (d_name d) | None => forall i x, T <> TLocal i x end).
Proof.
  unfold def_entry; simpl. intros H.
  destruct r; try discriminate H; simpl in H;
    try (destruct local as [i|]); try match goal with x : option text |- _ => destruct x end; try discriminate H; injection H as <-;
    (eexists; split; [reflexivity|]); simpl; repeat split; auto; intros; discriminate.
Qed.
Lemma def_entry_none s r : declares r = None -> def_entry (s, r) = [].
Proof.
  unfold def_entry; simpl. intros H. destruct r; try discriminate H; auto; try (destruct local; discriminate H).
  destruct n as [n|]; auto. destruct local; discriminate H.
Qed.
Lemma in_refs n x : In x (i_refs (build n)) <->
  exists s r T, In (s, r) (nodes 0 n) /\ mentions r = Some T /\ ref_entry (s, r) = [x].
Proof.
  split.
  - intros H. apply (Permutation_in _ (build_refs n)), in_flat_map in H as ((s & r) & Hn & H).
    destruct (mentions r) as [T|] eqn:E.
    + destruct (ref_entry_some s r T E) as (t & Et & _). rewrite Et in H. destruct H as [<- | []]. eauto 6.
    + rewrite ref_entry_none in H by auto. contradiction.
  - intros (s & r & T & Hn & _ & E). apply (Permutation_in _ (Permutation_sym (build_refs n))), in_flat_map.
    exists (s, r). split; auto. rewrite E; simpl; auto.
Qed.
Lemma in_defs n x : In x (i_defs (build n)) <->
  exists s r T, In (s, r) (nodes 0 n) /\ declares r = Some T /\ def_entry (s, r) = [x].
Proof.
  split.
  - intros H. apply (Permutation_in _ (build_defs n)), in_flat_map in H as ((s & r) & Hn & H).
    destruct (declares r) as [T|] eqn:E.
    + destruct (def_entry_some s r T E) as (t & Et & _). rewrite Et in H. destruct H as [<- | []]. eauto 6.
    + rewrite def_entry_none in H by auto. contradiction.
  - intros (s & r & T & Hn & _ & E). apply (Permutation_in _ (Permutation_sym (build_defs n))), in_flat_map.
    exists (s, r). split; auto. rewrite E; simpl; auto.
Qed.

(** ** The nodes around a position. *)
Lemma span_inside n : forall start s r, In (s, r) (nodes start n) -> start <= fst s /\ snd s <= start + List.length (text_of n).
Proof.
  induction n using node_ind'. intros start s r' Hin. destruct Hin as [E | Hin].
  - injection E as <- <-. simpl. lia.
  - simpl text_of. revert start Hin. induction items as [|i l IH]; intros start Hin; [contradiction|].
    cbn [nodes_items] in Hin. apply in_app_or in Hin. cbn [flat_map]. rewrite app_length. destruct Hin as [Hin | Hin].
    + destruct i as [| |n]; try contradiction. destruct (H n (or_introl eq_refl) _ _ _ Hin). simpl. lia.
    + apply IH in Hin; [lia|]. intros n Hn. apply H; simpl; auto.
Qed.
Lemma nodes_items_app l1 l2 start : nodes_items nodes start (l1 ++ l2) = nodes_items nodes start l1 ++ nodes_items nodes (start + tlen l1) l2.
Proof.
  revert start. induction l1 as [|i l1 IH]; intros start; simpl.
  - now rewrite Nat.add_0_r.
  - rewrite IH, <- app_assoc. do 3 f_equal. rewrite app_length. lia.
Qed.
Lemma items_inside l : forall start s r, In (s, r) (nodes_items nodes start l) -> start <= fst s /\ snd s <= start + tlen l.
Proof.
  induction l as [|i l IH]; intros start s r Hin; [contradiction|].
  cbn [nodes_items] in Hin. apply in_app_or in Hin. cbn [flat_map]. rewrite app_length. destruct Hin as [Hin | Hin].
  - destruct i; try contradiction. apply span_inside in Hin. simpl. lia.
  - apply IH in Hin. lia.
Qed.
Lemma tlen_app l1 l2 : tlen (l1 ++ l2) = tlen l1 + tlen l2.
Proof. now rewrite flat_map_app, app_length. Qed.
(** Which nodes cover the position of a name. *)
Lemma holds_facts start n o around s r t m : holds start n o around s r t m ->
  named n ->
  In (s, r) (nodes start n) /\ fst s <= o < snd s
  /\ forall s' r', In (s', r') (nodes start n) -> fst s' <= o < snd s' ->
       (s', r') = (s, r) \/ (In r' around /\ snd s - fst s <= snd s' - fst s' /\ (forall T, stands_for r' T -> snd s - fst s < snd s' - fst s')).
Proof.
  induction 1 as [start r l1 t m l2 o Ho | start r l1 n l2 o around s r' t m Hh IH]; intros Hn.
  - split; [left; reflexivity|]. split.
    + simpl fst; simpl snd. simpl text_of. rewrite tlen_app. cbn [flat_map]. rewrite app_length. simpl. lia.
    + intros s' r' Hin Hc. destruct Hin as [E | Hin]; [left; congruence|]. exfalso.
      rewrite nodes_items_app in Hin. apply in_app_or in Hin as [Hin | Hin].
      * apply items_inside in Hin. lia.
      * cbn [nodes_items] in Hin. simpl text_with in Hin. simpl app in Hin. apply items_inside in Hin. lia.
  - inversion Hn as [r0 items0 Hname Hsub]; subst r0 items0. destruct IH as (I1 & I2 & I3). { apply Hsub, in_or_app; simpl; auto. }
    assert (In1 : In (s, r') (nodes_items nodes start (l1 ++ Sub n :: l2))).
    { rewrite nodes_items_app. apply in_or_app; right. cbn [nodes_items]. apply in_or_app; auto. }
    split; [right; auto|]. split; auto.
    intros s' r'' Hin Hc. destruct Hin as [E | Hin].
    + right. injection E as <- <-. split; [left; reflexivity|].
      pose proof (span_inside n _ _ _ I1) as Hi. simpl fst; simpl snd. simpl text_of.
      rewrite tlen_app. cbn [flat_map]. rewrite app_length. simpl text_with. split; [lia|].
      intros T HT. destruct (Hname T HT) as (t' & m' & Ht & Hne). destruct t' as [|c t']; [congruence|].
      apply in_app_or in Ht as [Ht | [Ht | Ht]]; [|discriminate|].
      * apply in_split in Ht as (a & b & ->). rewrite tlen_app. cbn [flat_map]. rewrite app_length. simpl. lia.
      * apply in_split in Ht as (a & b & ->). rewrite tlen_app. cbn [flat_map]. rewrite app_length. simpl. lia.
    + rewrite nodes_items_app in Hin. pose proof (span_inside n _ _ _ I1) as Hi.
      apply in_app_or in Hin as [Hin | Hin]; [apply items_inside in Hin; lia|].
      cbn [nodes_items] in Hin. apply in_app_or in Hin as [Hin | Hin].
      * destruct (I3 _ _ Hin Hc) as [E | (A & B)]; auto. right. split; [right|]; auto.
      * apply items_inside in Hin. simpl text_with in Hin. lia.
Qed.

(** ** The smallest of a list. *)
Lemma min_fold {A} (key : A -> nat) l : forall x, let y := fold_left (fun best y => if Nat.ltb (key y) (key best) then y else best) l x in
  In y (x :: l) /\ forall z, In z (x :: l) -> key y <= key z.
Proof.
  induction l as [|a l IH]; intros x; simpl.
  - split; auto. intros z [-> | []]; auto.
  - destruct (Nat.ltb_spec (key a) (key x)).
    + destruct (IH a) as (I1 & I2). split; [simpl in *; tauto|]. intros z [<- | [<- | Hz]].
      * specialize (I2 a (or_introl eq_refl)). simpl in *; lia.
      * apply I2; simpl; auto.
      * apply I2; simpl; auto.
    + destruct (IH x) as (I1 & I2). split; [simpl in *; tauto|]. intros z [<- | [<- | Hz]].
      * apply I2; simpl; auto.
      * specialize (I2 x (or_introl eq_refl)). simpl in *; lia.
      * apply I2; simpl; auto.
Qed.
Lemma min_by_spec {A} (key : A -> nat) l x : In x l -> exists y, min_by key l = Some y /\ In y l /\ key y <= key x.
Proof.
  destruct l as [|a l]; [contradiction|]. intros H. simpl. eexists; split; [reflexivity|].
  destruct (min_fold key l a) as (I1 & I2). split; auto.
Qed.
Lemma min_by_none {A} (key : A -> nat) l : (forall x, ~ In x l) -> min_by key l = None.
Proof. destruct l as [|a l]; auto. intros H. exfalso. apply (H a); simpl; auto. Qed.
Lemma covers_iff o s : covers o s = true <-> fst s <= o < snd s.
Proof. unfold covers. rewrite andb_true_iff, Nat.leb_le, Nat.ltb_lt. lia. Qed.

Lemma reference_found n o around s r t m T : named n -> holds 0 n o around s r t m -> mentions r = Some T ->
  exists x, reference_at (build n) o = Some x /\ ref_entry (s, r) = [x] /\ r_span x = s.
Proof.
  intros Hn Hh Hm. destruct (holds_facts _ _ _ _ _ _ _ _ Hh Hn) as (F1 & F2 & F3).
  destruct (ref_entry_some s r T Hm) as (tt & E & _).
  destruct (min_by_spec (fun r => size (r_span r)) (filter (fun r => covers o (r_span r)) (i_refs (build n))) (mkRef s tt)) as (y & E1 & E2 & E3).
  { apply filter_In. split; [apply in_refs; eauto 7|]. now apply covers_iff. }
  exists y. split; auto. apply filter_In in E2 as (E2 & Ec). apply in_refs in E2 as (s' & r' & T' & N' & M' & Y').
  assert (Ys : r_span y = s'). { destruct (ref_entry_some s' r' T' M') as (t' & Et & _). rewrite Et in Y'. now injection Y' as <-. }
  apply covers_iff in Ec. rewrite Ys in Ec. unfold size in E3. rewrite Ys in E3. simpl in E3.
  destruct (F3 s' r' N' Ec) as [Eq | (_ & _ & Lt)].
  - injection Eq as -> ->. auto.
  - specialize (Lt T' (or_intror M')). lia.
Qed.
Lemma no_reference n o around s r t m : named n -> holds 0 n o around s r t m -> mentions r = None ->
  (forall r', In r' around -> mentions r' = None) -> reference_at (build n) o = None.
Proof.
  intros Hn Hh Hm Ha. destruct (holds_facts _ _ _ _ _ _ _ _ Hh Hn) as (F1 & F2 & F3).
  apply min_by_none. intros x Hx. apply filter_In in Hx as (Hx & Ec). apply in_refs in Hx as (s' & r' & T' & N' & M' & Y').
  assert (Ys : r_span x = s'). { destruct (ref_entry_some s' r' T' M') as (t' & Et & _). rewrite Et in Y'. now injection Y' as <-. }
  apply covers_iff in Ec. rewrite Ys in Ec. destruct (F3 s' r' N' Ec) as [Eq | (A & _)].
  - congruence.
  - rewrite Ha in M' by auto. discriminate.
Qed.
Lemma definition_found n o around s r t m T : named n -> holds 0 n o around s r t m -> declares r = Some T ->
  exists x, definition_at_position (build n) o = Some x /\ def_entry (s, r) = [x] /\ d_span x = s.
Proof.
  intros Hn Hh Hm. destruct (holds_facts _ _ _ _ _ _ _ _ Hh Hn) as (F1 & F2 & F3).
  destruct (def_entry_some s r T Hm) as (d & E & Ds & _).
  destruct (min_by_spec (fun d => size (d_span d)) (filter (fun d => covers o (d_span d)) (i_defs (build n))) d) as (y & E1 & E2 & E3).
  { apply filter_In. split; [apply in_defs; eauto 7|]. rewrite Ds. now apply covers_iff. }
  exists y. split; auto. apply filter_In in E2 as (E2 & Ec). apply in_defs in E2 as (s' & r' & T' & N' & M' & Y').
  assert (Ys : d_span y = s'). { destruct (def_entry_some s' r' T' M') as (t' & Et & Es & _). rewrite Et in Y'. now injection Y' as <-. }
  apply covers_iff in Ec. rewrite Ys in Ec. unfold size in E3. rewrite Ys, Ds in E3.
  destruct (F3 s' r' N' Ec) as [Eq | (_ & _ & Lt)].
  - injection Eq as -> ->. auto.
  - specialize (Lt T' (or_introl M')). lia.
Qed.
Lemma declares_no_mention r T : declares r = Some T -> mentions r = None.
Proof. intros H. destruct r; try discriminate H; auto. Qed.

(** ** Looking a symbol up. *)
Definition told_apart (T : target) (n : node) : Prop := identified T \/ own_name T n.
(** The target that the code has for a reference to [T]. *)
Definition codes (t T : target) : Prop := target_name t = symbol_name T /\ (identified T -> t = T) /\ (identified t -> T = t).
Lemma codes_self T : codes T T. Proof. unfold codes. destruct T; simpl; auto. Qed.
Lemma ref_codes s r T x : mentions r = Some T -> ref_entry (s, r) = [x] -> r_span x = s /\ codes (r_target x) T.
Proof.
  intros H E. destruct (ref_entry_some s r T H) as (t & E' & A & B & C). rewrite E' in E. injection E as <-.
  simpl. split; auto. unfold codes. repeat split; auto.
Qed.

Definition refs_here (n : node) (T : target) (x : reference) : Prop :=
  exists s r, In (s, r) (nodes 0 n) /\ mentions r = Some T /\ ref_entry (s, r) = [x].

Lemma filter_ext_in' {A} (f g : A -> bool) l : (forall x, In x l -> f x = g x) -> filter f l = filter g l.
Proof. induction l as [|a l IH]; intros H; simpl; auto. rewrite H by (simpl; auto). rewrite IH; auto. intros; apply H; simpl; auto. Qed.
Lemma picked_filter f T l ss : picked f T l ss -> forall dec : option target -> bool, (forall x, dec x = true <-> x = Some T) ->
  ss = List.map fst (filter (fun x => dec (f (snd x))) l).
Proof.
  induction 1; intros dec Hd; simpl; auto.
  - rewrite (proj2 (Hd (f r))) by auto. simpl. f_equal; auto.
  - destruct (dec (f r)) eqn:E; [apply Hd in E; congruence|]. auto.
Qed.
Lemma target_eq_dec (a b : target) : {a = b} + {a <> b}.
Proof. decide equality; try apply (list_eq_dec ascii_dec); apply Nat.eq_dec. Defined.
Definition is (T : target) (x : option target) : bool := match x with Some U => if target_eq_dec U T then true else false | None => false end.
Lemma is_iff T x : is T x = true <-> x = Some T.
Proof. unfold is. destruct x as [U|]; [destruct (target_eq_dec U T)|]; split; congruence. Qed.

(** What [references_of_target] selects. *)
Definition selects (t : target) (x : reference) : bool :=
  match t with
  | TLocal i n => text_eqb (target_name (r_target x)) n && match target_local (r_target x) with Some j => Nat.eqb j i | None => false end
  | TConstructor ty v => match r_target x with TConstructor t' v' => text_eqb t' ty && text_eqb v' v | _ => false end
  | TField o n => match r_target x with TField o' n' => text_eqb o' o && text_eqb n' n | _ => false end
  | TOp a n => match r_target x with TOp a' n' => text_eqb a' a && text_eqb n' n | _ => false end
  | _ => text_eqb (target_name (r_target x)) (target_name t)
  end.
Lemma references_select ix t : references_of_target ix t = filter (selects t) (i_refs ix).
Proof. destruct t; reflexivity. Qed.
Lemma selects_identified t x : identified t -> (selects t x = true <-> r_target x = t).
Proof.
  intros Hi. destruct t; simpl in Hi; try contradiction; simpl; destruct (r_target x); simpl; rewrite ?andb_true_iff, ?text_eqb_iff, ?Nat.eqb_eq;
    split; intros; try discriminate; try (destruct H; discriminate); try (destruct H; congruence); try (injection H; auto).
Qed.
Lemma selects_by_name t x : ~ identified t -> selects t x = text_eqb (target_name (r_target x)) (target_name t).
Proof. intros H. destruct t; simpl in H; tauto || reflexivity. Qed.
Lemma references_exact n T t ss : told_apart T n -> codes t T -> (exists s r, In (s, r) (nodes 0 n) /\ stands_for r T) ->
  referred T n ss -> Permutation (List.map r_span (references_of_target (build n) t)) ss.
Proof.
  intros Ha (C1 & C2 & C3) (s0 & r0 & N0 & S0) Hr.
  rewrite (picked_filter _ _ _ _ Hr (is T) (is_iff T)), references_select.
  transitivity (List.map r_span (filter (selects t) (flat_map ref_entry (nodes 0 n)))).
  { apply Permutation_map. pose proof (build_refs n) as P. clear - P. induction P; simpl; auto.
    - destruct (selects t x); auto.
    - destruct (selects t x), (selects t y); auto. apply perm_swap.
    - etransitivity; eauto. }
  assert (G : forall l, incl l (nodes 0 n) ->
     List.map r_span (filter (selects t) (flat_map ref_entry l)) = List.map fst (filter (fun x => is T (mentions (snd x))) l)).
  { induction l as [|(s, r) l IH]; intros Hi; auto. cbn [flat_map].
    assert (Hin : In (s, r) (nodes 0 n)) by (apply Hi; simpl; auto).
    simpl filter. destruct (mentions r) as [T'|] eqn:E.
    - destruct (ref_entry_some s r T' E) as (t' & E' & D1 & D2 & D3). rewrite E'. simpl.
      assert (K : selects t (mkRef s t') = is T (Some T')).
      { assert (B : identified t \/ ~ identified t) by (destruct t; simpl; tauto).
        destruct B as [B | B].
        - apply eq_true_iff_eq. rewrite (selects_identified t _ B), is_iff. simpl.
          pose proof (C3 B) as ET. subst T. split; [intros ->; f_equal; auto | intros [= ->]; auto].
        - rewrite selects_by_name by auto. cbn [r_target]. rewrite D1, C1. apply eq_true_iff_eq. rewrite text_eqb_iff, is_iff.
          split; [|congruence]. intros En. f_equal.
          destruct Ha as [Ha | Ha]; [exfalso; apply B; rewrite (C2 Ha); auto|].
          apply (Ha s r T' Hin (or_intror E) En). }
      rewrite K. unfold is at 1. destruct (target_eq_dec T' T); simpl; [f_equal|]; apply IH; intros x Hx; apply Hi; simpl; auto.
    - rewrite ref_entry_none by auto. simpl. apply IH. intros x Hx; apply Hi; simpl; auto. }
  rewrite G; auto using incl_refl.
Qed.

(** What [definition_of_target] looks for. *)
Definition wanted (t : target) (d : definition) : bool :=
  match t with
  | TLocal i n => text_eqb (d_name d) n && match d_local d with Some j => Nat.eqb j i | None => false end
  | TConstructor ty v => text_eqb (d_name d) v && match d_kind d with DVariant o => text_eqb o ty | _ => false end
  | TField o n => text_eqb (d_name d) n && match d_kind d with DField o' => text_eqb o' o | _ => false end
  | TOp a n => text_eqb (d_name d) n && match d_kind d with DOp o => text_eqb o a | _ => false end
  | _ => text_eqb (d_name d) (target_name t)
  end.
Lemma definition_wanted ix t : definition_of_target ix t = find (wanted t) (i_defs ix).
Proof. destruct t; reflexivity. Qed.
Lemma wanted_entry n t T s r U d : told_apart T n -> codes t T -> In (s, r) (nodes 0 n) -> declares r = Some U -> def_entry (s, r) = [d] ->
  (wanted t d = true <-> U = T).
Proof.
  intros Ha (C1 & C2 & C3) Hin HU Hd.
  destruct (def_entry_some s r U HU) as (d' & E & Ds & Dn & Dt & Dl). rewrite E in Hd. injection Hd as ->.
  assert (B : identified t \/ ~ identified t) by (destruct t; simpl; tauto).
  destruct B as [B | B].
  - pose proof (C3 B) as <-. clear C1 C2 C3 Ha. subst U. destruct T; simpl in B; try contradiction; simpl; rewrite ?andb_true_iff, ?text_eqb_iff.
    + destruct (d_local d) as [j|].
      * rewrite Nat.eqb_eq, Dl. split; [intros (-> & ->); auto | intros [= -> ->]; auto].
      * split; [intros (_ & H); discriminate | intros H; now apply Dl in H].
    + unfold target_from_definition in *. destruct (d_kind d); try (split; [intros (_ & H); discriminate|]); try discriminate;
        try (destruct (d_local d); discriminate).
      rewrite text_eqb_iff. split; [intros (-> & ->); auto | intros [= -> ->]; auto].
    + unfold target_from_definition in *. destruct (d_kind d); try (split; [intros (_ & H); discriminate|]); try discriminate;
        try (destruct (d_local d); discriminate).
      rewrite text_eqb_iff. split; [intros (-> & ->); auto | intros [= -> ->]; auto].
    + unfold target_from_definition in *. destruct (d_kind d); try (split; [intros (_ & H); discriminate|]); try discriminate;
        try (destruct (d_local d); discriminate).
      rewrite text_eqb_iff. split; [intros (-> & ->); auto | intros [= -> ->]; auto].
  - assert (W : wanted t d = text_eqb (d_name d) (target_name t)) by (destruct t; simpl in B; tauto || reflexivity).
    rewrite W, text_eqb_iff, Dn, C1. split; [|congruence]. intros En.
    destruct Ha as [Ha | Ha]; [exfalso; apply B; rewrite (C2 Ha); auto|].
    apply (Ha s r U Hin (or_introl HU) En).
Qed.
Lemma picked_in f T l ss : picked f T l ss -> forall s, In s ss <-> exists r, In (s, r) l /\ f r = Some T.
Proof.
  induction 1; intros s0; simpl.
  - split; [contradiction | intros (r & [] & _)].
  - rewrite IHpicked. split.
    + intros [<- | (r' & A & B)]; eauto.
    + intros (r' & [E | A] & B); [left; congruence | right; eauto].
  - rewrite IHpicked. split.
    + intros (r' & A & B); eauto.
    + intros (r' & [E | A] & B); [congruence | eauto].
Qed.
Lemma find_some_in {A} (f : A -> bool) l x : In x l -> f x = true -> exists y, find f l = Some y /\ In y l /\ f y = true.
Proof.
  intros Hin Hf. destruct (find f l) as [y|] eqn:E.
  - apply find_some in E as (A1 & A2). eauto.
  - exfalso. apply (find_none _ _ E) in Hin. congruence.
Qed.
Lemma definition_exact n T t s0 : told_apart T n -> codes t T -> declared T n [s0] ->
  exists d, definition_of_target (build n) t = Some d /\ d_span d = s0 /\ target_from_definition d = T /\ d_name d = symbol_name T.
Proof.
  intros Ha Hc Hd. pose proof (picked_in _ _ _ _ Hd) as Hp.
  destruct (proj1 (Hp s0) (or_introl eq_refl)) as (r0 & N0 & D0).
  destruct (def_entry_some s0 r0 T D0) as (d0 & E0 & _).
  rewrite definition_wanted.
  destruct (find_some_in (wanted t) (i_defs (build n)) d0) as (d & F & Fin & Fw).
  { apply in_defs. eauto 7. }
  { eapply wanted_entry; eauto. }
  exists d. split; auto. apply in_defs in Fin as (s & r & U & N & D & E).
  assert (U = T) by (eapply wanted_entry; eauto). subst U.
  destruct (def_entry_some s r T D) as (d' & E' & Ds & Dn & Dt & _). rewrite E' in E. injection E as ->.
  assert (In s [s0]) as [<- | []]. { apply Hp. eauto. }
  auto.
Qed.
