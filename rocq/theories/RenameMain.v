From Verif Require Export RenameProofs.
From Coq Require Import Lia.

(** ** Replacing ranges. *)
Lemma replaced_app new p t es t' : replaced new p t es t' ->
  forall u fs u', replaced new (p + List.length t) u fs u' -> replaced new p (t ++ u) (es ++ fs) (t' ++ u').
Proof.
  induction 1 as [p t | p t a b l t' H1 H2 H3 H4 IH]; intros u fs u' Hu; simpl.
  - inversion Hu as [q x | q x a b l t' H1 H2 H3 H4]; subst; [constructor|].
    replace (t ++ firstn (a - (p + List.length t)) u ++ new ++ t') with (firstn (a - p) (t ++ u) ++ new ++ t').
    + constructor; try lia; [rewrite app_length; lia|].
      replace (skipn (b - p) (t ++ u)) with (skipn (b - (p + List.length t)) u); auto.
      rewrite skipn_app, (skipn_all2 t) by lia. simpl. f_equal. lia.
    + rewrite firstn_app, (firstn_all2 t) by lia. rewrite <- app_assoc. do 3 f_equal. lia.
  - replace ((firstn (a - p) t ++ new ++ t') ++ u') with (firstn (a - p) (t ++ u) ++ new ++ (t' ++ u')).
    + constructor; try lia; [rewrite app_length; lia|].
      rewrite skipn_app. replace (b - p - List.length t) with 0 by lia. apply IH.
      rewrite skipn_length. now replace (b + (List.length t - (b - p))) with (p + List.length t) by lia.
    + rewrite firstn_app. replace (a - p - List.length t) with 0 by lia. simpl. rewrite app_nil_r, <- !app_assoc. reflexivity.
Qed.
Definition marked (T : target) (x : span * role) : bool := is T (declares (snd x)) || is T (mentions (snd x)).
Lemma marked_iff T s r : marked T (s, r) = true <-> stands_for r T.
Proof. unfold marked, stands_for. now rewrite orb_true_iff, !is_iff. Qed.
Lemma marks_replaced T new n : bare T n -> forall n', renamed T new n n' -> forall start,
  replaced new start (text_of n) (List.map fst (filter (marked T) (nodes start n))) (text_of n').
Proof.
  induction n using node_ind'. intros Hb n' Hr start.
  inversion Hr as [r0 items0 items' Hi]; subst r0 items0 n'; clear Hr.
  inversion Hb as [r0 t Hs | r0 items0 Hs Hnm Hsub]; clear Hb.
  - subst. inversion Hi as [| | t0 l l' Hl | t0 m l l' Hm Hl |]; subst; [|congruence]. inversion Hl; subst.
    simpl. rewrite (proj2 (marked_iff T _ r) Hs). simpl. rewrite !app_nil_r.
    replace new with (firstn (start - start) t ++ new ++ []) at 2 by (rewrite Nat.sub_diag, app_nil_r; auto).
    constructor; try lia. replace (start + List.length t - start) with (List.length t) by lia. rewrite skipn_all. constructor.
  - subst r0 items0. cbn [nodes filter]. destruct (marked T (start, _, r)) eqn:E; [apply marked_iff in E; contradiction|]. clear E Hs.
    simpl text_of. revert items' Hi start. induction items as [|i l IH]; intros items' Hi start.
    + inversion Hi; subst. constructor.
    + cbn [nodes_items]. rewrite filter_app, map_app. cbn [flat_map].
      assert (IH' : forall l', renamed_items T new l l' -> forall st, replaced new st (flat_map (text_with text_of) l)
                (List.map fst (filter (marked T) (nodes_items nodes st l))) (flat_map (text_with text_of) l')).
      { apply IH; intros; [apply H | eapply Hnm | apply Hsub]; simpl; eauto. }
      clear IH. inversion Hi as [| t l0 l' Hl | t l0 l' Hl | t m l0 l' Hm Hl | n n' l0 l' Hn Hl]; subst; cbn [flat_map].
      * apply replaced_app; [constructor | auto].
      * exfalso. apply (Hnm t T); simpl; auto.
      * apply replaced_app; [constructor | auto].
      * apply replaced_app; auto. simpl text_with. apply H; simpl; auto. apply Hsub; simpl; auto.
Qed.
Lemma marks_perm T l ds us : picked declares T l ds -> picked mentions T l us -> Permutation (List.map fst (filter (marked T) l)) (ds ++ us).
Proof.
  intros Hd Hm. rewrite (picked_filter _ _ _ _ Hd (is T) (is_iff T)), (picked_filter _ _ _ _ Hm (is T) (is_iff T)). clear.
  induction l as [|(s, r) l IH]; simpl; auto. unfold marked at 1. simpl.
  destruct (is T (declares r)) eqn:E.
  - simpl. assert (is T (mentions r) = false) as ->.
    { apply is_iff in E. now rewrite (declares_no_mention _ _ E). }
    now constructor.
  - simpl. destruct (is T (mentions r)); simpl; auto. rewrite IH. apply Permutation_middle.
Qed.

(** ** Identifiers. *)
Lemma upper_iff c : is_upper c = true <-> In c upper.
Proof.
  assert (E : is_upper c = existsb (Ascii.eqb c) upper) by (destruct c as [[] [] [] [] [] [] [] []]; reflexivity).
  rewrite E, existsb_exists. split; [intros (x & H & Hx) | intros H; exists c; split; auto; apply Ascii.eqb_refl].
  now apply Ascii.eqb_eq in Hx as ->.
Qed.
Lemma lower_iff c : is_lower c = true <-> In c lower.
Proof.
  assert (E : is_lower c = existsb (Ascii.eqb c) lower) by (destruct c as [[] [] [] [] [] [] [] []]; reflexivity).
  rewrite E, existsb_exists. split; [intros (x & H & Hx) | intros H; exists c; split; auto; apply Ascii.eqb_refl].
  now apply Ascii.eqb_eq in Hx as ->.
Qed.
Lemma digit_iff c : is_digit c = true <-> In c digits.
Proof.
  assert (E : is_digit c = existsb (Ascii.eqb c) digits) by (destruct c as [[] [] [] [] [] [] [] []]; reflexivity).
  rewrite E, existsb_exists. split; [intros (x & H & Hx) | intros H; exists c; split; auto; apply Ascii.eqb_refl].
  now apply Ascii.eqb_eq in Hx as ->.
Qed.
Lemma underscore_iff c : is_underscore c = true <-> c = "_"%char.
Proof. unfold is_underscore. destruct (ascii_dec c "_"); split; congruence. Qed.
Lemma keywords_reserved t : In t keywords <-> In t reserved.
Proof. unfold keywords, reserved. cbn [List.map In]. tauto. Qed.
Lemma keyword_iff t : existsb (text_eqb t) keywords = true <-> In t reserved.
Proof.
  rewrite <- keywords_reserved, existsb_exists. split.
  - intros (x & H & E). now apply text_eqb_iff in E as ->.
  - intros H. exists t. now rewrite text_eqb_refl.
Qed.
Lemma rest_iff x : is_upper x || is_lower x || is_digit x || is_underscore x = true <-> In x ("_"%char :: upper ++ lower ++ digits).
Proof.
  rewrite !orb_true_iff, upper_iff, lower_iff, digit_iff, underscore_iff. cbn [In]. rewrite !in_app_iff. intuition congruence.
Qed.
Lemma validate_iff new d : validate new (d_kind d) = true <-> identifier (target_from_definition d) new.
Proof.
  unfold identifier, validate. destruct new as [|c rest].
  - split; [discriminate | intros (c & rest & E & _); discriminate].
  - assert (F : match d_kind d with DStruct | DEnum | DVariant _ | DAbility => is_upper c | _ => is_lower c || is_underscore c end = true
                <-> if capitalized (target_from_definition d) then In c upper else In c ("_"%char :: lower)).
    { unfold target_from_definition. destruct (d_kind d); try destruct (d_local d); simpl capitalized; cbv iota;
        rewrite ?upper_iff, ?orb_true_iff, ?lower_iff, ?underscore_iff; cbn [In]; intuition congruence. }
    rewrite !andb_true_iff, F, negb_true_iff, <- not_true_iff_false, keyword_iff, forallb_forall. split.
    + intros ((A & B) & C). exists c, rest. repeat split; auto. intros x Hx. apply rest_iff, B. simpl; auto.
    + intros (c' & rest' & E & A & B & C). injection E as <- <-. repeat split; auto.
      intros x [<- | Hx]; apply rest_iff; auto.
      destruct (capitalized (target_from_definition d)); [|cbn [In] in A; destruct A as [<- | A]]; cbn [In]; rewrite ?in_app_iff; auto.
Qed.

(** ** The requests. *)
Lemma cursor_cases n T o s : named n -> cursor_on T n o s ->
  (exists r, In (s, r) (nodes 0 n) /\ stands_for r T) /\ fst s <= o < snd s
  /\ ((exists x, reference_at (build n) o = Some x /\ r_span x = s /\ codes (r_target x) T)
     \/ (reference_at (build n) o = None /\ exists d, definition_at_position (build n) o = Some d /\ d_span d = s
           /\ target_from_definition d = T /\ d_name d = symbol_name T /\ exists r, In (s, r) (nodes 0 n) /\ declares r = Some T)).
Proof.
  intros Hn (around & r & t & Hh & Hc). destruct (holds_facts _ _ _ _ _ _ _ _ Hh Hn) as (F1 & F2 & _).
  split; [exists r; split; auto; destruct Hc as [Hc | (Hc & _)]; [right | left]; auto|]. split; auto.
  destruct Hc as [Hc | (Hc & Ha)].
  - left. destruct (reference_found _ _ _ _ _ _ _ _ Hn Hh Hc) as (x & E1 & E2 & E3). exists x. split; auto.
    now apply ref_codes with (s := s) (r := r).
  - right. split. { eapply no_reference; eauto. eapply declares_no_mention; eauto. }
    destruct (definition_found _ _ _ _ _ _ _ _ Hn Hh Hc) as (d & E1 & E2 & E3). exists d.
    destruct (def_entry_some s r T Hc) as (d' & E' & Ds & Dn & Dt & _). rewrite E' in E2. injection E2 as ->. eauto 8.
Qed.
Lemma goto_exact n T o s0 : named n -> told_apart T n -> declared T n [s0] ->
  (exists around s r t m, holds 0 n o around s r t m /\ mentions r = Some T) -> goto_definition n o = Some s0.
Proof.
  intros Hn Ha Hd (around & s & r & t & m & Hh & Hc). unfold goto_definition, definition_at.
  destruct (reference_found _ _ _ _ _ _ _ _ Hn Hh Hc) as (x & -> & E2 & E3).
  destruct (definition_exact n T (r_target x) s0) as (d & -> & <- & _); auto.
  now apply ref_codes with (s := s) (r := r).
Qed.
Lemma find_exact n T o s ss : named n -> told_apart T n -> cursor_on T n o s -> referred T n ss ->
  exists l, Permutation l ss /\ find_references n o false = Some l
    /\ forall s0, declared T n [s0] -> find_references n o true = Some (s0 :: l).
Proof.
  intros Hn Ha Hc Hr. destruct (cursor_cases _ _ _ _ Hn Hc) as ((r & N & S) & _ & Hcase).
  unfold find_references, references_at. destruct Hcase as [(x & -> & Xs & Xc) | (-> & d & -> & Ds & Dt & Dn & _)].
  - eexists. split; [eapply references_exact; eauto|]. split; [reflexivity|].
    intros s0 Hd. destruct (definition_exact n T (r_target x) s0 Ha Xc Hd) as (d & -> & <- & _). reflexivity.
  - rewrite Dt. eexists. split; [eapply references_exact; eauto; apply codes_self|]. split; [reflexivity|].
    intros s0 Hd. destruct (definition_exact n T T s0 Ha (codes_self T) Hd) as (d' & -> & <- & _). reflexivity.
Qed.
Lemma can_rename_exact n T o s s0 : named n -> told_apart T n -> cursor_on T n o s -> declared T n [s0] ->
  exists d, can_rename (build n) o = Some (d, s) /\ d_span d = s0 /\ target_from_definition d = T /\ d_name d = symbol_name T.
Proof.
  intros Hn Ha Hc Hd. destruct (cursor_cases _ _ _ _ Hn Hc) as ((r & N & S) & _ & Hcase). unfold can_rename.
  destruct Hcase as [(x & -> & Xs & Xc) | (-> & d & -> & Ds & Dt & Dn & r' & N' & D')].
  - destruct (definition_exact n T (r_target x) s0 Ha Xc Hd) as (d & -> & E). rewrite Xs. eauto.
  - exists d. rewrite Ds. repeat split; auto.
    assert (In s [s0]) as [<- | []]; auto. apply (picked_in _ _ _ _ Hd). eauto.
Qed.
Lemma prepare_exact n T o s s0 : named n -> told_apart T n -> cursor_on T n o s -> declared T n [s0] ->
  prepare_rename n o = Some (s, symbol_name T) /\ fst s <= o < snd s.
Proof.
  intros Hn Ha Hc Hd. unfold prepare_rename. destruct (can_rename_exact _ _ _ _ _ Hn Ha Hc Hd) as (d & -> & _ & _ & <-).
  split; auto. now apply (cursor_cases _ _ _ _ Hn Hc).
Qed.
Lemma rename_edits n T o s s0 ss new : named n -> told_apart T n -> cursor_on T n o s -> declared T n [s0] -> referred T n ss ->
  (~ identifier T new -> rename n o new = None)
  /\ (identifier T new -> exists l, rename n o new = Some (s0 :: l) /\ Permutation l ss).
Proof.
  intros Hn Ha Hc Hd Hr. unfold rename. destruct (can_rename_exact _ _ _ _ _ Hn Ha Hc Hd) as (d & -> & <- & Dt & _).
  pose proof (validate_iff new d) as V. rewrite Dt in *. split; intros H.
  - destruct (validate new (d_kind d)); auto. exfalso; apply H, V; auto.
  - rewrite (proj2 V H). eexists. split; [reflexivity|].
    destruct (cursor_cases _ _ _ _ Hn Hc) as ((r & N & S) & _).
    eapply references_exact; eauto. apply codes_self.
Qed.
Lemma rename_text n n' T o s s0 ss new : named n -> told_apart T n -> cursor_on T n o s -> declared T n [s0] -> referred T n ss ->
  bare T n -> renamed T new n n' -> identifier T new ->
  exists edits, rename n o new = Some edits /\ edits_give n edits new (text_of n').
Proof.
  intros Hn Ha Hc Hd Hr Hb Hre Hi. destruct (rename_edits _ _ _ _ _ _ new Hn Ha Hc Hd Hr) as (_ & H).
  destruct (H Hi) as (l & E & P). eexists; split; [exact E|]. eexists. split; [|apply (marks_replaced T new n Hb n' Hre 0)].
  rewrite (marks_perm T _ _ _ Hd Hr). simpl. now constructor.
Qed.

(** ** Deciding the conditions, for examples. *)
Lemma holds_sub_nth start r items k n o around s r' t m : nth_error items k = Some (Sub n) ->
  holds (start + tlen (firstn k items)) n o around s r' t m -> holds start (Node r items) o (r :: around) s r' t m.
Proof.
  intros H Hh. destruct (nth_error_split _ _ H) as (l1 & l2 & -> & <-).
  rewrite firstn_app, firstn_all, Nat.sub_diag in Hh. simpl in Hh. rewrite app_nil_r in Hh. now constructor.
Qed.
Lemma holds_name_nth start r items k o s t m : nth_error items k = Some (Name t m) ->
  s = (start, start + List.length (text_of (Node r items))) ->
  start + tlen (firstn k items) <= o < start + tlen (firstn k items) + List.length t ->
  holds start (Node r items) o [] s r t m.
Proof.
  intros H -> Hh. destruct (nth_error_split _ _ H) as (l1 & l2 & -> & <-).
  rewrite firstn_app, firstn_all, Nat.sub_diag in Hh. simpl in Hh. rewrite app_nil_r in Hh. now constructor.
Qed.
Lemma picked_list f T l : picked f T l (List.map fst (filter (fun x => is T (f (snd x))) l)).
Proof.
  induction l as [|(s, r) l IH]; simpl; [constructor|]. destruct (is T (f r)) eqn:E; simpl.
  - constructor; auto. now apply is_iff.
  - constructor; auto. intros H. apply is_iff in H. congruence.
Qed.
Definition name_item (i : item) : bool := match i with Name (_ :: _) _ => true | _ => false end.
Definition stands (r : role) : bool := match declares r, mentions r with None, None => false | _, _ => true end.
Fixpoint namedb (n : node) : bool :=
  match n with
  | Node r items => (negb (stands r) || existsb name_item items)
                    && forallb (fun i => match i with Sub n => namedb n | _ => true end) items
  end.
Lemma namedb_sound n : namedb n = true -> named n.
Proof.
  induction n using node_ind'. simpl. rewrite andb_true_iff, forallb_forall. intros (H1 & H2). constructor.
  - intros T HT. assert (stands r = true) as Es. { unfold stands. destruct HT as [-> | ->]; auto. destruct (declares r); auto. }
    rewrite Es in H1. simpl in H1. apply existsb_exists in H1 as (i & Hi & E). destruct i as [|t m|]; try discriminate.
    exists t, m. split; auto. destruct t; [discriminate|congruence].
  - intros n Hn. apply H; auto. apply (H2 _ Hn).
Qed.
Fixpoint bareb (T : target) (n : node) : bool :=
  match n with
  | Node r items =>
      if is T (declares r) || is T (mentions r) then match items with [Name _ m] => is T (Some m) | _ => false end
      else forallb (fun i => match i with Sub n => bareb T n | Name _ m => negb (is T (Some m)) | Raw _ => true end) items
  end.
Lemma bareb_sound T n : bareb T n = true -> bare T n.
Proof.
  induction n using node_ind'. cbn [bareb]. destruct (is T (declares r) || is T (mentions r)) eqn:E.
  - destruct items as [|[|t m|] [|]]; try discriminate. intros Hm. apply is_iff in Hm. injection Hm as ->. constructor.
    unfold stands_for. now rewrite orb_true_iff, !is_iff in E.
  - rewrite forallb_forall. intros Hf. apply bare_other.
    + unfold stands_for. rewrite <- !is_iff, <- orb_true_iff. congruence.
    + intros t m Hin ->. specialize (Hf _ Hin). cbv beta iota in Hf. rewrite (proj2 (is_iff T (Some T)) eq_refl) in Hf. discriminate.
    + intros n Hin. apply H; auto. apply (Hf _ Hin).
Qed.
Definition rename_item (f : node -> node) (T : target) (new : text) (i : item) : item :=
  match i with Raw t => Raw t | Name t m => if target_eq_dec m T then Name new m else Name t m | Sub n => Sub (f n) end.
Fixpoint rename_fn (T : target) (new : text) (n : node) : node :=
  match n with Node r items => Node r (List.map (rename_item (rename_fn T new) T new) items) end.
Lemma rename_fn_ok T new n : renamed T new n (rename_fn T new n).
Proof.
  induction n using node_ind'. simpl. constructor. induction items as [|i l IH]; simpl; [constructor|].
  assert (IH' : renamed_items T new l (List.map (rename_item (rename_fn T new) T new) l)) by (apply IH; intros; apply H; simpl; auto).
  destruct i as [t|t m|n]; simpl.
  - now constructor.
  - destruct (target_eq_dec m T); [subst|]; now constructor.
  - constructor; auto. apply H; simpl; auto.
Qed.
Definition own_nameb (T : target) (n : node) : bool :=
  forallb (fun x => forallb (fun a => match a with
                                      | Some U => negb (text_eqb (symbol_name U) (symbol_name T)) || is T (Some U)
                                      | None => true
                                      end) [declares (snd x); mentions (snd x)]) (nodes 0 n).
Lemma own_nameb_sound T n : own_nameb T n = true -> own_name T n.
Proof.
  unfold own_nameb. rewrite forallb_forall. intros H s r U Hin Hs En. specialize (H _ Hin). cbv beta in H.
  rewrite forallb_forall in H. assert (Hi : In (Some U) [declares r; mentions r]) by (destruct Hs as [-> | ->]; simpl; auto).
  specialize (H _ Hi). cbv beta iota in H. rewrite En, text_eqb_refl in H. simpl negb in H. rewrite orb_false_l in H.
  apply is_iff in H. congruence.
Qed.
Lemma renamed_unique T new n : forall a b, renamed T new n a -> renamed T new n b -> a = b.
Proof.
  induction n using node_ind'. intros a b Ha Hb. inversion Ha as [r0 i0 ia Hia]; inversion Hb as [r1 i1 ib Hib]; subst. f_equal.
  clear Ha Hb. revert ia ib Hia Hib. induction items as [|i l IH]; intros ia ib Hia Hib.
  - inversion Hia; inversion Hib; auto.
  - assert (IH' : forall ia ib, renamed_items T new l ia -> renamed_items T new l ib -> ia = ib) by (apply IH; intros; eapply H; simpl; eauto).
    inversion Hia; subst; inversion Hib; subst; try congruence; f_equal; auto; f_equal. eapply H; simpl; eauto.
Qed.
