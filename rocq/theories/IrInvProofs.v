(** Placement and definition invariants over edit histories. *)
From Verif Require Import Base IrModel IrSpec IrProofs.
From Coq Require Import Lia.

(** ** Parent links *)
Definition linked (p : nat -> option nat) (m : nat -> list nat) : Prop :=
  (forall x y, In x (m y) <-> p x = Some y) /\ forall y, NoDup (m y).

Lemma linked_ext : forall p m p' m', (forall x, p' x = p x) -> (forall y, m' y = m y) -> linked p m -> linked p' m'.
Proof.
  intros p m p' m' Hp Hm [A B]. split.
  - intros x y. rewrite Hp, Hm. apply A.
  - intro y. rewrite Hm. apply B.
Qed.

Lemma linked_add : forall p m x y l', p x = None -> linked p m ->
  (forall z, In z l' <-> (z = x \/ In z (m y))) -> NoDup l' -> linked (fupd p x (Some y)) (fupd m y l').
Proof.
  intros p m x y l' Hx [A B] Hl ND. split.
  - intros z w. unfold fupd. destruct (Nat.eqb_spec w y) as [->|Hw].
    + rewrite Hl, A. destruct (Nat.eqb_spec z x) as [->|Hz]; [split; intros; [reflexivity|left; reflexivity]|].
      split; [intros [?|K]; [contradiction|exact K]|intro K; right; exact K].
    + rewrite A. destruct (Nat.eqb_spec z x) as [->|Hz]; [|reflexivity]. rewrite Hx. split; congruence.
  - intro w. unfold fupd. destruct (Nat.eqb w y); [exact ND|apply B].
Qed.

Definition without (x : nat) (l : list nat) : list nat := filter (fun y => negb (Nat.eqb y x)) l.
Lemma In_without : forall x l z, In z (without x l) <-> (In z l /\ z <> x).
Proof.
  intros x l z. unfold without. rewrite filter_In, Bool.negb_true_iff, Nat.eqb_neq. reflexivity.
Qed.
Lemma without_absent : forall x l, ~ In x l -> without x l = l.
Proof.
  intros x l. induction l as [|y l IH]; intro H; [reflexivity|]. cbn [without filter].
  destruct (Nat.eqb_spec y x) as [->|]; cbn [negb]; [exfalso; apply H; left; reflexivity|].
  f_equal. apply IH. intro K. apply H. right. exact K.
Qed.
Lemma without_app : forall x a b, without x (a ++ b) = without x a ++ without x b.
Proof. intros. unfold without. apply filter_app. Qed.
Lemma without_self : forall x l, without x (x :: l) = without x l.
Proof. intros. cbn [without filter]. rewrite Nat.eqb_refl. reflexivity. Qed.

Lemma linked_remove : forall p m x y, linked p m ->
  linked (fun z => if Nat.eqb z x then match p x with Some q => if Nat.eqb q y then None else Some q | None => None end else p z)
         (fupd m y (without x (m y))).
Proof.
  intros p m x y [A B]. split.
  - intros z w. unfold fupd. destruct (Nat.eqb_spec w y) as [->|Hw].
    + rewrite In_without, A. destruct (Nat.eqb_spec z x) as [->|Hz].
      * split; [intros [_ K]; congruence|]. destruct (p x) as [q|]; [|discriminate]. destruct (Nat.eqb_spec q y); congruence.
      * split; [intros [K _]; exact K|intro K; split; assumption].
    + rewrite A. destruct (Nat.eqb_spec z x) as [->|Hz]; [|reflexivity]. destruct (p x) as [q|]; [|reflexivity].
      destruct (Nat.eqb_spec q y) as [->|]; [split; congruence|reflexivity].
  - intro w. unfold fupd. destruct (Nat.eqb w y); [apply NoDup_filter, B|apply B].
Qed.

Definition memb (x : nat) (l : list nat) : bool := existsb (Nat.eqb x) l.
Lemma memb_spec : forall x l, Bool.reflect (In x l) (memb x l).
Proof.
  intros x l. apply Bool.iff_reflect. unfold memb. rewrite existsb_exists. split.
  - intro H. exists x. split; [exact H|apply Nat.eqb_refl].
  - intros (y & H & E). apply Nat.eqb_eq in E. subst. exact H.
Qed.

Lemma linked_new : forall p m y l, m y = [] -> NoDup l -> (forall x, In x l -> p x = None) -> linked p m ->
  linked (fun x => if memb x l then Some y else p x) (fupd m y l).
Proof.
  intros p m y l Hy ND Hl [A B]. split.
  - intros x w. unfold fupd. destruct (Nat.eqb_spec w y) as [->|Hw].
    + destruct (memb_spec x l) as [K|K]; [split; intros; [reflexivity|exact K]|].
      split; [contradiction|]. intro H. apply A in H. rewrite Hy in H. destruct H.
    + rewrite A. destruct (memb_spec x l) as [K|K]; [|reflexivity]. rewrite (Hl x K). split; congruence.
  - intro w. unfold fupd. destruct (Nat.eqb w y); [exact ND|apply B].
Qed.

(** The six views of a context. *)
Definition par (l : list op) (o : nat) : option nat := match nth_error l o with Some d => o_parent d | None => None end.
Definition oregs (l : list op) (o : nat) : list nat := match nth_error l o with Some d => o_regions d | None => [] end.
Definition bops (l : list blk) (b : nat) : list nat := match nth_error l b with Some d => b_ops d | None => [] end.
Definition bpar (l : list blk) (b : nat) : option nat := match nth_error l b with Some d => b_parent d | None => None end.
Definition rblks (l : list rgn) (r : nat) : list nat := match nth_error l r with Some d => r_blocks d | None => [] end.
Definition rpar (l : list rgn) (r : nat) : option nat := match nth_error l r with Some d => r_parent d | None => None end.

Definition pok (c : ctx) : Prop :=
  linked (par (ops c)) (bops (blocks c)) /\ linked (bpar (blocks c)) (rblks (regions c)) /\ linked (rpar (regions c)) (oregs (ops c)).

Lemma pok_placed : forall c, pok c -> placed c.
Proof.
  intros c ((A1 & A2) & (B1 & B2) & (C1 & C2)). constructor.
  - intros o b. specialize (A1 o b). unfold op_in, op_parent, par, bops in *. split.
    + intros (d & H & K). rewrite H in A1. apply A1 in K. destruct (nth_error (ops c) o) as [d'|]; [|discriminate]. exists d'. split; [reflexivity|exact K].
    + intros (d & H & K). rewrite H in A1. apply A1 in K. destruct (nth_error (blocks c) b) as [d'|]; [|destruct K]. exists d'. split; [reflexivity|exact K].
  - intros b d H. specialize (A2 b). unfold bops in A2. rewrite H in A2. exact A2.
  - intros b r. specialize (B1 b r). unfold block_in, block_parent, bpar, rblks in *. split.
    + intros (d & H & K). rewrite H in B1. apply B1 in K. destruct (nth_error (blocks c) b) as [d'|]; [|discriminate]. exists d'. split; [reflexivity|exact K].
    + intros (d & H & K). rewrite H in B1. apply B1 in K. destruct (nth_error (regions c) r) as [d'|]; [|destruct K]. exists d'. split; [reflexivity|exact K].
  - intros r d H. specialize (B2 r). unfold rblks in B2. rewrite H in B2. exact B2.
  - intros r o. specialize (C1 r o). unfold region_in, region_parent, rpar, oregs in *. split.
    + intros (d & H & K). rewrite H in C1. apply C1 in K. destruct (nth_error (regions c) r) as [d'|]; [|discriminate]. exists d'. split; [reflexivity|exact K].
    + intros (d & H & K). rewrite H in C1. apply C1 in K. destruct (nth_error (ops c) o) as [d'|]; [|destruct K]. exists d'. split; [reflexivity|exact K].
  - intros o d H. specialize (C2 o). unfold oregs in C2. rewrite H in C2. exact C2.
Qed.

(** Views under updates. *)
Lemma view_upd : forall A B (l : list A) k f (g : A -> B) (z : B) x,
  match nth_error (upd l k f) x with Some d => g d | None => z end =
  if Nat.eqb x k then match nth_error l k with Some d => g (f d) | None => z end
  else match nth_error l x with Some d => g d | None => z end.
Proof.
  intros. rewrite nth_upd. destruct (Nat.eqb_spec x k) as [->|]; [|reflexivity]. destruct (nth_error l k); reflexivity.
Qed.
Lemma view_upd_keep : forall A B (l : list A) k f (g : A -> B) (z : B) x, (forall d, g (f d) = g d) ->
  match nth_error (upd l k f) x with Some d => g d | None => z end = match nth_error l x with Some d => g d | None => z end.
Proof.
  intros. rewrite view_upd. destruct (Nat.eqb_spec x k) as [->|]; [|reflexivity]. destruct (nth_error l k); [apply H|reflexivity].
Qed.
Lemma view_snoc : forall A B (l : list A) d (g : A -> B) (z : B) x,
  match nth_error (l ++ [d]) x with Some d => g d | None => z end =
  if Nat.eqb x (length l) then g d else match nth_error l x with Some d => g d | None => z end.
Proof. intros. rewrite nth_error_snoc. destruct (Nat.eqb x (length l)); reflexivity. Qed.
Lemma view_out : forall A B (l : list A) (g : A -> B) (z : B), match nth_error l (length l) with Some d => g d | None => z end = z.
Proof. intros. rewrite (proj2 (nth_error_None l (length l))) by lia. reflexivity. Qed.

Lemma pok_ops_keep : forall c l', (forall o, par l' o = par (ops c) o) -> (forall o, oregs l' o = oregs (ops c) o) -> pok c -> pok (set_ops c l').
Proof.
  intros c l' H1 H2 (A & B & C). split; [|split]; cbn [ops blocks regions set_ops].
  - eapply linked_ext; [exact H1|reflexivity|exact A].
  - exact B.
  - eapply linked_ext; [reflexivity|exact H2|exact C].
Qed.
Lemma pok_blocks_keep : forall c l', (forall o, bops l' o = bops (blocks c) o) -> (forall o, bpar l' o = bpar (blocks c) o) -> pok c -> pok (set_blocks c l').
Proof.
  intros c l' H1 H2 (A & B & C). split; [|split]; cbn [ops blocks regions set_blocks].
  - eapply linked_ext; [reflexivity|exact H1|exact A].
  - eapply linked_ext; [exact H2|reflexivity|exact B].
  - exact C.
Qed.
Lemma pok_same : forall c c', ops c' = ops c -> blocks c' = blocks c -> regions c' = regions c -> pok c -> pok c'.
Proof. intros c c' H1 H2 H3. unfold pok. rewrite H1, H2, H3. intro H; exact H. Qed.

Lemma link_regions_char : forall rs c o c', link_regions c o rs = Some c' ->
  NoDup rs /\ (forall r, In r rs -> rpar (regions c) r = None) /\
  (forall r, rpar (regions c') r = if memb r rs then Some o else rpar (regions c) r) /\
  (forall r, rblks (regions c') r = rblks (regions c) r) /\
  length (regions c') = length (regions c).
Proof.
  induction rs as [|r rs IH]; intros c o c' H; cbn [link_regions] in H.
  - inversion H; subst. split; [constructor|]. split; [intros r []|]. repeat split.
  - destruct (nth_error (regions c) r) as [d|] eqn:Ed; [|discriminate]. destruct (r_parent d) eqn:Ep; [discriminate|].
    apply IH in H as (H1 & H2 & H3 & H4 & H5). cbn [regions set_regions] in *.
    assert (V : forall x, rpar (upd (regions c) r (fun x => set_rparent x (Some o))) x = if Nat.eqb x r then Some o else rpar (regions c) x).
    { intro x. unfold rpar. rewrite view_upd. rewrite Ed. destruct (Nat.eqb x r); reflexivity. }
    assert (Hr : ~ In r rs).
    { intro K. apply H2 in K. rewrite V, Nat.eqb_refl in K. discriminate. }
    split; [constructor; assumption|]. split; [|split; [|split]].
    + intros x [<-|K]; [unfold rpar; rewrite Ed; exact Ep|]. specialize (H2 x K). rewrite V in H2.
      destruct (Nat.eqb x r); [discriminate|exact H2].
    + intro x. rewrite H3, V. cbn [memb existsb]. fold (memb x rs). destruct (Nat.eqb x r); cbn [orb]; [|reflexivity].
      destruct (memb x rs); reflexivity.
    + intro x. rewrite H4. unfold rblks. apply view_upd_keep. reflexivity.
    + rewrite H5. apply upd_len.
Qed.
Lemma link_blocks_char : forall bs c r c', link_blocks c r bs = Some c' ->
  NoDup bs /\ (forall b, In b bs -> bpar (blocks c) b = None) /\
  (forall b, bpar (blocks c') b = if memb b bs then Some r else bpar (blocks c) b) /\
  (forall b, bops (blocks c') b = bops (blocks c) b) /\
  length (blocks c') = length (blocks c) /\
  (forall b, option_map b_arg_types (nth_error (blocks c') b) = option_map b_arg_types (nth_error (blocks c) b)).
Proof.
  induction bs as [|b bs IH]; intros c r c' H; cbn [link_blocks] in H.
  - inversion H; subst. split; [constructor|]. split; [intros b []|]. repeat split.
  - destruct (nth_error (blocks c) b) as [d|] eqn:Ed; [|discriminate]. destruct (b_parent d) eqn:Ep; [discriminate|].
    apply IH in H as (H1 & H2 & H3 & H4 & H5 & H6). cbn [blocks set_blocks] in *.
    assert (V : forall x, bpar (upd (blocks c) b (fun x => set_bparent x (Some r))) x = if Nat.eqb x b then Some r else bpar (blocks c) x).
    { intro x. unfold bpar. rewrite view_upd. rewrite Ed. destruct (Nat.eqb x b); reflexivity. }
    assert (Hr : ~ In b bs).
    { intro K. apply H2 in K. rewrite V, Nat.eqb_refl in K. discriminate. }
    split; [constructor; assumption|]. split; [|split; [|split; [|split]]].
    + intros x [<-|K]; [unfold bpar; rewrite Ed; exact Ep|]. specialize (H2 x K). rewrite V in H2.
      destruct (Nat.eqb x b); [discriminate|exact H2].
    + intro x. rewrite H3, V. cbn [memb existsb]. fold (memb x bs). destruct (Nat.eqb x b); cbn [orb]; [|reflexivity].
      destruct (memb x bs); reflexivity.
    + intro x. rewrite H4. unfold bops. apply view_upd_keep. reflexivity.
    + rewrite H5. apply upd_len.
    + intro x. rewrite H6, nth_upd. destruct (Nat.eqb_spec x b) as [->|]; [rewrite Ed|]; reflexivity.
Qed.

Lemma create_op_pok : forall c k vs ts rs ss c' o, create_op c k vs ts rs ss = Some (c', o) -> pok c -> pok c'.
Proof.
  intros c k vs ts rs ss c' o H (A & B & C). unfold create_op in H.
  destruct (link_regions _ _ rs) as [c2|] eqn:E; [|discriminate]. injection H as <- <-.
  pose proof (link_regions_frame _ _ _ _ E) as (E1 & _ & E3 & _).
  apply link_regions_char in E as (L1 & L2 & L3 & L4 & _). cbn [ops blocks regions set_ops set_uses set_vals set_op_results] in *.
  split; [|split]; cbn [ops blocks regions set_op_results set_vals set_uses].
  - rewrite E1, E3. eapply linked_ext; [|reflexivity|exact A]. intro x. unfold par. rewrite view_snoc.
    destruct (Nat.eqb_spec x (length (ops c))) as [->|]; [|reflexivity]. cbn [o_parent]. symmetry. apply view_out.
  - rewrite E3. eapply linked_ext; [reflexivity|exact L4|exact B].
  - rewrite E1. eapply linked_ext with (m := fupd (oregs (ops c)) (length (ops c)) rs); [exact L3| |apply linked_new; [|exact L1|exact L2|exact C]].
    + intro y. unfold oregs. rewrite view_snoc. unfold fupd. destruct (Nat.eqb y (length (ops c))); reflexivity.
    + unfold oregs. apply view_out.
Qed.

Lemma create_region_pok : forall c bs c' r, create_region c bs = Some (c', r) -> pok c -> pok c'.
Proof.
  intros c bs c' r H (A & B & C). unfold create_region in H.
  destruct (link_blocks _ _ bs) as [c2|] eqn:E; [|discriminate]. injection H as <- <-.
  pose proof (link_blocks_frame _ _ _ _ E) as (E1 & _ & E3 & _).
  apply link_blocks_char in E as (L1 & L2 & L3 & L4 & _). cbn [ops blocks regions set_regions] in *.
  split; [|split].
  - rewrite E1. eapply linked_ext; [reflexivity|exact L4|exact A].
  - rewrite E3. eapply linked_ext with (m := fupd (rblks (regions c)) (length (regions c)) bs); [exact L3| |apply linked_new; [|exact L1|exact L2|exact B]].
    + intro y. unfold rblks. rewrite view_snoc. unfold fupd. destruct (Nat.eqb y (length (regions c))); reflexivity.
    + unfold rblks. apply view_out.
  - rewrite E1, E3. eapply linked_ext; [|reflexivity|exact C]. intro x. unfold rpar. rewrite view_snoc.
    destruct (Nat.eqb_spec x (length (regions c))) as [->|]; [|reflexivity]. cbn [r_parent]. symmetry. apply view_out.
Qed.

Lemma create_block_pok : forall c ts, pok c -> pok (fst (create_block c ts)).
Proof.
  intros c ts H. unfold create_block. cbn [fst].
  apply (pok_same (set_blocks c (blocks c ++ [{| b_arg_types := ts; b_ops := []; b_parent := None |}]))); try reflexivity.
  apply pok_blocks_keep; [| |exact H]; intro x.
  - unfold bops. rewrite view_snoc. destruct (Nat.eqb_spec x (length (blocks c))) as [->|]; [symmetry; apply view_out|reflexivity].
  - unfold bpar. rewrite view_snoc. destruct (Nat.eqb_spec x (length (blocks c))) as [->|]; [symmetry; apply view_out|reflexivity].
Qed.

Lemma push_op_pok : forall c b o c', push_op c b o = Some c' -> pok c -> pok c'.
Proof.
  intros c b o c' H (A & B & C). unfold push_op in H.
  destruct (nth_error (ops c) o) as [d|] eqn:Eo; [|discriminate]. destruct (nth_error (blocks c) b) as [bd|] eqn:Eb; [|discriminate].
  destruct (o_parent d) eqn:Ep; [discriminate|]. injection H as <-. cbn [blocks set_ops].
  assert (Hp : par (ops c) o = None) by (unfold par; rewrite Eo; exact Ep).
  split; [|split]; cbn [ops blocks regions set_ops set_blocks].
  - eapply linked_ext; [| |apply (linked_add _ _ o b (bops (blocks c) b ++ [o]) Hp A)].
    + intro x. unfold par, fupd. rewrite view_upd, Eo. reflexivity.
    + intro x. unfold bops, fupd. rewrite view_upd, Eb. reflexivity.
    + intro z. rewrite in_app_iff. cbn [In]. intuition congruence.
    + apply NoDup_snoc; [apply A|]. intro K. apply A in K. congruence.
  - eapply linked_ext; [|reflexivity|exact B]. intro x. unfold bpar. apply view_upd_keep. reflexivity.
  - eapply linked_ext; [reflexivity| |exact C]. intro x. unfold oregs. apply view_upd_keep. reflexivity.
Qed.

Lemma position_split : forall l x p, position x l = Some p ->
  exists a b, l = a ++ x :: b /\ length a = p /\ ~ In x a.
Proof.
  induction l as [|y l IH]; intros x p H; cbn [position] in H; [discriminate|].
  destruct (Nat.eqb_spec y x) as [->|Hne].
  - inversion H; subst. exists [], l. repeat split. intros [].
  - destruct (position x l) as [q|] eqn:E; [|discriminate]. inversion H; subst.
    destruct (IH _ _ E) as (a & b & -> & <- & Ha). exists (y :: a), b. repeat split. intros [->|K]; [congruence|exact (Ha K)].
Qed.
Lemma firstn_app_len : forall A (a b : list A), firstn (length a) (a ++ b) = a.
Proof. intros. rewrite firstn_app, firstn_all, Nat.sub_diag. cbn. apply app_nil_r. Qed.
Lemma skipn_app_len : forall A (a b : list A), skipn (length a) (a ++ b) = b.
Proof. intros. rewrite skipn_app, skipn_all, Nat.sub_diag. reflexivity. Qed.

Lemma insert_NoDup : forall A (a b : list A) x, NoDup (a ++ b) -> ~ In x (a ++ b) -> NoDup (a ++ x :: b).
Proof.
  induction a as [|y a IH]; intros b x H Hx; cbn [app] in *; [constructor; assumption|].
  inversion H; subst. constructor.
  - rewrite in_app_iff. cbn [In]. rewrite in_app_iff in H2. intros [K|[->|K]]; [tauto|apply Hx; left; reflexivity|tauto].
  - apply IH; [assumption|]. intro K. apply Hx. right. exact K.
Qed.

Lemma insert_op_before_pok : forall c b q o c', insert_op_before c b q o = Some c' -> pok c -> pok c'.
Proof.
  intros c b q o c' H (A & B & C). unfold insert_op_before in H.
  destruct (nth_error (ops c) o) as [d|] eqn:Eo; [|discriminate]. destruct (nth_error (blocks c) b) as [bd|] eqn:Eb; [|discriminate].
  destruct (o_parent d) eqn:Ep; [discriminate|]. destruct (position q (b_ops bd)) as [p|] eqn:Epos; [|discriminate].
  injection H as <-. cbn [ops set_blocks].
  assert (Hp : par (ops c) o = None) by (unfold par; rewrite Eo; exact Ep).
  assert (Hb : bops (blocks c) b = b_ops bd) by (unfold bops; rewrite Eb; reflexivity).
  apply position_split in Epos as (l1 & l2 & El & <- & _).
  split; [|split]; cbn [ops blocks regions set_ops set_blocks].
  - eapply linked_ext; [| |apply (linked_add _ _ o b (firstn (length l1) (bops (blocks c) b) ++ o :: skipn (length l1) (bops (blocks c) b)) Hp A)].
    + intro x. unfold par, fupd. rewrite view_upd, Eo. reflexivity.
    + intro x. unfold bops, fupd. rewrite view_upd, Eb. reflexivity.
    + intro z. rewrite Hb, El, firstn_app_len, skipn_app_len, !in_app_iff. cbn [In]. intuition congruence.
    + rewrite Hb, El, firstn_app_len, skipn_app_len. apply insert_NoDup; rewrite <- El, <- Hb; [apply A|]. intro K. apply A in K. congruence.
  - eapply linked_ext; [|reflexivity|exact B]. intro x. unfold bpar. apply view_upd_keep. reflexivity.
  - eapply linked_ext; [reflexivity| |exact C]. intro x. unfold oregs. apply view_upd_keep. reflexivity.
Qed.

Lemma remove_from_block_pok : forall c b o c', remove_op_from_block c b o = Some c' -> pok c -> pok c'.
Proof.
  intros c b o c' H (A & B & C). unfold remove_op_from_block in H.
  destruct (nth_error (ops c) o) as [d|] eqn:Eo; [|discriminate]. destruct (nth_error (blocks c) b) as [bd|] eqn:Eb; [|discriminate].
  injection H as <-.
  assert (Hp : par (ops c) o = o_parent d) by (unfold par; rewrite Eo; reflexivity).
  assert (Hb : forall x, bops (upd (blocks c) b (fun x => set_bops x (filter (fun y => negb (Nat.eqb y o)) (b_ops x)))) x =
                         fupd (bops (blocks c)) b (without o (bops (blocks c) b)) x).
  { intro x. unfold bops, fupd. rewrite view_upd, Eb. reflexivity. }
  assert (Hbp : forall x, bpar (upd (blocks c) b (fun x => set_bops x (filter (fun y => negb (Nat.eqb y o)) (b_ops x)))) x = bpar (blocks c) x).
  { intro x. unfold bpar. apply view_upd_keep. reflexivity. }
  pose proof (linked_remove _ _ o b A) as L. rewrite Hp in L.
  destruct (o_parent d) as [p|] eqn:Ep; [destruct (Nat.eqb_spec p b) as [->|Hne]|];
    (split; [|split]; cbn [ops blocks regions set_ops set_blocks];
     [eapply linked_ext; [|exact Hb|exact L]|eapply linked_ext; [exact Hbp|reflexivity|exact B]|]).
  - intro x. unfold par. rewrite view_upd, Eo. destruct (Nat.eqb x o); reflexivity.
  - eapply linked_ext; [reflexivity| |exact C]. intro x. unfold oregs. apply view_upd_keep. reflexivity.
  - intro x. unfold par. destruct (Nat.eqb_spec x o) as [->|]; [rewrite Eo; exact Ep|reflexivity].
  - exact C.
  - intro x. unfold par. destruct (Nat.eqb_spec x o) as [->|]; [rewrite Eo; exact Ep|reflexivity].
  - exact C.
Qed.

Lemma detach_op_pok : forall c o c', detach_op c o = Some c' -> pok c -> pok c'.
Proof.
  intros c o c' H P. unfold detach_op in H. destruct (nth_error (ops c) o) as [d|]; [|discriminate].
  destruct (o_parent d) as [b|]; [|inversion H; subst; exact P]. eapply remove_from_block_pok; eassumption.
Qed.

Lemma detach_region_pok : forall c r c', detach_region c r = Some c' -> pok c -> pok c'.
Proof.
  intros c r c' H P. pose proof P as (A & B & C). unfold detach_region in H.
  destruct (nth_error (regions c) r) as [d|] eqn:Er; [|discriminate]. destruct (r_parent d) as [p|] eqn:Ep; injection H as <-; [|exact P].
  cbn [ops set_regions]. assert (Hp : rpar (regions c) r = Some p) by (unfold rpar; rewrite Er; exact Ep).
  split; [|split]; cbn [ops blocks regions set_ops set_regions].
  - eapply linked_ext; [|reflexivity|exact A]. intro x. unfold par. apply view_upd_keep. reflexivity.
  - eapply linked_ext; [reflexivity| |exact B]. intro x. unfold rblks. apply view_upd_keep. reflexivity.
  - pose proof (linked_remove _ _ r p C) as L. rewrite Hp, Nat.eqb_refl in L. eapply linked_ext; [| |exact L].
    + intro x. unfold rpar. rewrite view_upd, Er. destruct (Nat.eqb x r); reflexivity.
    + intro x. unfold oregs, fupd. rewrite view_upd. destruct (Nat.eqb_spec x p) as [->|]; [|reflexivity].
      destruct (nth_error (ops c) p); reflexivity.
Qed.

(** ** Definitions *)
Definition dok (c : ctx) : Prop := defs_exact c.

Lemma nth_seq : forall n a i, nth_error (seq a n) i = if Nat.ltb i n then Some (a + i) else None.
Proof.
  induction n as [|n IH]; intros a i; cbn [seq].
  - destruct i; reflexivity.
  - destruct i as [|i]; cbn [nth_error]; [change (Some a = Some (a + 0)); f_equal; lia|]. rewrite IH.
    change (Nat.ltb (S i) (S n)) with (Nat.ltb i n). destruct (Nat.ltb i n); [f_equal; lia|reflexivity].
Qed.
Lemma nth_new : forall A (l : list A) (f : nat -> A) n v,
  nth_error (l ++ map f (seq 0 n)) v =
  if Nat.ltb v (length l) then nth_error l v else if Nat.ltb (v - length l) n then Some (f (v - length l)) else None.
Proof.
  intros A l f n v. destruct (Nat.ltb_spec v (length l)).
  - apply nth_error_app1; lia.
  - rewrite nth_error_app2 by lia. rewrite nth_error_map, nth_seq. destruct (Nat.ltb _ n); reflexivity.
Qed.
Lemma nth_lt : forall A (l : list A) v x, nth_error l v = Some x -> v < length l.
Proof. intros. apply nth_error_Some. congruence. Qed.

Lemma seq_vals : forall vs (f : nat -> vdef) n i v, (forall a b, f a = f b -> a = b) ->
  (forall j, nth_error vs j <> Some (f i)) ->
  nth_error (seq (length vs) n) i = Some v <-> nth_error (vs ++ map f (seq 0 n)) v = Some (f i).
Proof.
  intros vs f n i v Hf Hn. rewrite nth_seq, nth_new. destruct (Nat.ltb_spec i n); destruct (Nat.ltb_spec v (length vs)).
  - split; [intro K; inversion K; lia|intro K; exfalso; exact (Hn _ K)].
  - destruct (Nat.ltb_spec (v - length vs) n).
    + split; [intro K; inversion K; subst; do 2 f_equal; lia|intro K; inversion K as [K']; apply Hf in K'; f_equal; lia].
    + split; [intro K; inversion K; lia|discriminate].
  - split; [discriminate|intro K; exfalso; exact (Hn _ K)].
  - destruct (Nat.ltb_spec (v - length vs) n); [|split; discriminate]. split; [discriminate|].
    intro K. inversion K as [K']. apply Hf in K'. lia.
Qed.

Lemma create_op_dok : forall c k vs ts rs ss c' o, create_op c k vs ts rs ss = Some (c', o) -> dok c -> dok c'.
Proof.
  intros c k vs ts rs ss c' o H D. destruct D as [D1 D2 D3 D4 D5 D6]. unfold create_op in H.
  destruct (link_regions _ _ rs) as [c2|] eqn:E; [|discriminate]. injection H as <- <-.
  apply link_regions_frame in E as (E1 & E2 & E3 & _ & E5 & E6). cbn [ops vals blocks op_results block_args set_ops set_uses set_vals set_op_results] in *.
  assert (F : forall j i, nth_error (vals c) j <> Some (OpResult (length (ops c)) i)).
  { intros j i K. apply D1 in K. rewrite D5 in K by lia. destruct i; discriminate. }
  constructor; cbn [ops vals blocks op_results block_args set_ops set_uses set_vals set_op_results]; rewrite ?E1, ?E2, ?E3, ?E5, ?E6.
  - intros o' i v. unfold fupd. destruct (Nat.eqb_spec o' (length (ops c))) as [->|Ho].
    + apply seq_vals; [intros a b K; inversion K; reflexivity|intro j; apply F].
    + rewrite D1, nth_new. destruct (Nat.ltb_spec v (length (vals c))); [reflexivity|].
      rewrite (proj2 (nth_error_None _ _)) by lia. destruct (Nat.ltb _ _); split; try discriminate. intro K; inversion K; congruence.
  - intros b i v. rewrite D2, nth_new. destruct (Nat.ltb_spec v (length (vals c))); [reflexivity|].
    rewrite (proj2 (nth_error_None _ _)) by lia. destruct (Nat.ltb _ _); split; discriminate.
  - intros o' d. rewrite nth_error_snoc. unfold fupd. destruct (Nat.eqb_spec o' (length (ops c))) as [->|Ho].
    + intro K; inversion K; subst. cbn [o_result_types]. apply seq_length.
    + apply D3.
  - exact D4.
  - intros o' Ho. rewrite app_length in Ho. cbn [length] in Ho. rewrite fupd_other by lia. apply D5. lia.
  - exact D6.
Qed.

Lemma create_block_dok : forall c ts, dok c -> dok (fst (create_block c ts)).
Proof.
  intros c ts [D1 D2 D3 D4 D5 D6]. unfold create_block. cbn [fst].
  assert (F : forall j i, nth_error (vals c) j <> Some (BlockArg (length (blocks c)) i)).
  { intros j i K. apply D2 in K. rewrite D6 in K by lia. destruct i; discriminate. }
  constructor; cbn [ops vals blocks op_results block_args set_blocks set_vals set_block_args].
  - intros o i v. rewrite D1, nth_new. destruct (Nat.ltb_spec v (length (vals c))); [reflexivity|].
    rewrite (proj2 (nth_error_None _ _)) by lia. destruct (Nat.ltb _ _); split; discriminate.
  - intros b i v. unfold fupd. destruct (Nat.eqb_spec b (length (blocks c))) as [->|Ho].
    + apply seq_vals; [intros x y K; inversion K; reflexivity|intro j; apply F].
    + rewrite D2, nth_new. destruct (Nat.ltb_spec v (length (vals c))); [reflexivity|].
      rewrite (proj2 (nth_error_None _ _)) by lia. destruct (Nat.ltb _ _); split; try discriminate. intro K; inversion K; congruence.
  - exact D3.
  - intros b d. rewrite nth_error_snoc. unfold fupd. destruct (Nat.eqb_spec b (length (blocks c))) as [->|Ho].
    + intro K; inversion K; subst. cbn [b_arg_types]. apply seq_length.
    + apply D4.
  - exact D5.
  - intros b Ho. rewrite app_length in Ho. cbn [length] in Ho. rewrite fupd_other by lia. apply D6. lia.
Qed.

Lemma add_block_arg_dok : forall c b t c' v, add_block_arg c b t = Some (c', v) -> dok c -> dok c'.
Proof.
  intros c b t c' v0 H [D1 D2 D3 D4 D5 D6]. unfold add_block_arg in H.
  destruct (nth_error (blocks c) b) as [bd|] eqn:Eb; [|discriminate]. injection H as <- <-.
  pose proof (D4 _ _ Eb) as Hlen.
  constructor; cbn [ops vals blocks op_results block_args set_blocks set_vals set_block_args].
  - intros o i v. rewrite D1, nth_error_snoc. destruct (Nat.eqb_spec v (length (vals c))) as [->|]; [|reflexivity].
    rewrite (proj2 (nth_error_None _ _)) by lia. split; discriminate.
  - intros b' i v. rewrite nth_error_snoc. unfold fupd. destruct (Nat.eqb_spec b' b) as [->|Hb].
    + rewrite nth_error_snoc. rewrite Hlen. destruct (Nat.eqb_spec i (length (b_arg_types bd))) as [->|Hi].
      * destruct (Nat.eqb_spec v (length (vals c))) as [->|Hv]; [split; reflexivity|]. split; [congruence|].
        intro K. apply D2 in K. apply nth_lt in K. lia.
      * destruct (Nat.eqb_spec v (length (vals c))) as [->|Hv]; [|apply D2]. split; [|intro K; inversion K; congruence].
        intro K. apply D2 in K. apply nth_lt in K. lia.
    + destruct (Nat.eqb_spec v (length (vals c))) as [->|Hv]; [|apply D2].
      split; [intro K; apply D2 in K; apply nth_lt in K; lia|intro K; inversion K; congruence].
  - exact D3.
  - intros b' d. rewrite nth_upd. unfold fupd. destruct (Nat.eqb_spec b' b) as [->|Hb]; [|apply D4].
    rewrite Eb. cbn [option_map]. intro K; inversion K; subst. cbn [b_arg_types set_bargs]. rewrite !app_length, Hlen. reflexivity.
  - exact D5.
  - intros b' Hb. rewrite upd_len in Hb. apply nth_lt in Eb. rewrite fupd_other by lia. apply D6, Hb.
Qed.

Lemma bump_fold : forall l vs v, NoDup l ->
  nth_error (fold_left (fun vs v => upd vs v bump) l vs) v = if memb v l then option_map bump (nth_error vs v) else nth_error vs v.
Proof.
  induction l as [|x l IH]; intros vs v ND; cbn [fold_left].
  - reflexivity.
  - inversion ND; subst. rewrite IH by assumption. rewrite nth_upd. cbn [memb existsb]. fold (memb v l).
    destruct (Nat.eqb_spec v x) as [->|]; cbn [orb]; [|reflexivity].
    destruct (memb_spec x l); [contradiction|reflexivity].
Qed.
Lemma bump_fold_len : forall l vs, length (fold_left (fun vs v => upd vs v bump) l vs) = length vs.
Proof. induction l as [|x l IH]; intro vs; cbn [fold_left]; [reflexivity|]. rewrite IH. apply upd_len. Qed.

Lemma args_NoDup : forall c b, dok c -> NoDup (block_args c b).
Proof.
  intros c b [_ D2 _ _ _ _]. apply NoDup_nth_error. intros i j Hi E.
  destruct (nth_error (block_args c b) i) as [v|] eqn:Ei.
  - apply D2 in Ei. symmetry in E. apply D2 in E. congruence.
  - apply nth_error_None in Ei. lia.
Qed.

Lemma prepend_block_arg_dok : forall c b t c' v, prepend_block_arg c b t = Some (c', v) -> dok c -> dok c'.
Proof.
  intros c b t c' v0 H D. pose proof (args_NoDup c b D) as ND. destruct D as [D1 D2 D3 D4 D5 D6]. unfold prepend_block_arg in H.
  destruct (nth_error (blocks c) b) as [bd|] eqn:Eb; [|discriminate]. injection H as <- <-.
  pose proof (D4 _ _ Eb) as Hlen.
  assert (V : forall v, nth_error (fold_left (fun vs v => upd vs v bump) (block_args c b) (vals c)) v =
                   match nth_error (vals c) v with Some (BlockArg b' i) => Some (BlockArg b' (if Nat.eqb b' b then S i else i)) | r => r end).
  { intro v. rewrite bump_fold by exact ND. destruct (nth_error (vals c) v) as [[o i|b' i]|] eqn:E.
    - destruct (memb v (block_args c b)); reflexivity.
    - destruct (memb_spec v (block_args c b)) as [K|K].
      + apply In_nth_error in K as (j & K). apply D2 in K. rewrite K in E. inversion E; subst. rewrite Nat.eqb_refl. reflexivity.
      + destruct (Nat.eqb_spec b' b) as [->|]; [|reflexivity]. exfalso. apply K. apply D2 in E. eapply nth_error_In. exact E.
    - destruct (memb v (block_args c b)); reflexivity. }
  constructor; cbn [ops vals blocks op_results block_args set_blocks set_vals set_block_args].
  - intros o i v. rewrite D1, nth_error_snoc, bump_fold_len, V. destruct (Nat.eqb_spec v (length (vals c))) as [->|].
    + rewrite (proj2 (nth_error_None _ _)) by lia. split; discriminate.
    + destruct (nth_error (vals c) v) as [[o' i'|b' i']|]; [reflexivity|split; discriminate|reflexivity].
  - intros b' i v. rewrite nth_error_snoc, bump_fold_len, V. unfold fupd. destruct (Nat.eqb_spec b' b) as [->|Hb].
    + destruct i as [|i]; cbn [nth_error].
      * destruct (Nat.eqb_spec v (length (vals c))) as [->|Hv]; [split; reflexivity|]. split; [congruence|].
        destruct (nth_error (vals c) v) as [[o' i'|b' i']|]; try discriminate. destruct (Nat.eqb_spec b' b); intro K; inversion K; congruence.
      * rewrite D2. destruct (Nat.eqb_spec v (length (vals c))) as [->|Hv].
        -- rewrite (proj2 (nth_error_None _ _)) by lia. split; discriminate.
        -- destruct (nth_error (vals c) v) as [[o' i'|b' i']|]; try (split; discriminate).
           destruct (Nat.eqb_spec b' b) as [->|]; split; intro K; inversion K; subst; try reflexivity; congruence.
    + rewrite D2. destruct (Nat.eqb_spec v (length (vals c))) as [->|Hv].
      * rewrite (proj2 (nth_error_None _ _)) by lia. split; [discriminate|intro K; inversion K; congruence].
      * destruct (nth_error (vals c) v) as [[o' i'|b'' i']|]; try (split; discriminate).
        destruct (Nat.eqb_spec b'' b) as [->|]; [|reflexivity]. split; intro K; inversion K; congruence.
  - exact D3.
  - intros b' d. rewrite nth_upd. unfold fupd. destruct (Nat.eqb_spec b' b) as [->|Hb]; [|apply D4].
    rewrite Eb. cbn [option_map]. intro K; inversion K; subst. cbn [b_arg_types set_bargs length]. rewrite Hlen. reflexivity.
  - exact D5.
  - intros b' Hb. rewrite upd_len in Hb. apply nth_lt in Eb. rewrite fupd_other by lia. apply D6, Hb.
Qed.

(** Frame rule: anything that keeps values, result/argument lists and the number of
    declared results and arguments keeps the definitions exact. *)
Lemma dok_frame : forall c c', vals c' = vals c -> op_results c' = op_results c -> block_args c' = block_args c ->
  (forall o, option_map (fun d => length (o_result_types d)) (nth_error (ops c') o) = option_map (fun d => length (o_result_types d)) (nth_error (ops c) o)) ->
  (forall b, option_map (fun d => length (b_arg_types d)) (nth_error (blocks c') b) = option_map (fun d => length (b_arg_types d)) (nth_error (blocks c) b)) ->
  dok c -> dok c'.
Proof.
  intros c c' H1 H2 H3 H4 H5 [D1 D2 D3 D4 D5 D6].
  assert (L1 : forall o, length (ops c') <= o -> length (ops c) <= o).
  { intros o K. apply nth_error_None. apply nth_error_None in K. specialize (H4 o). rewrite K in H4. destruct (nth_error (ops c) o); [discriminate|reflexivity]. }
  assert (L2 : forall o, length (blocks c') <= o -> length (blocks c) <= o).
  { intros o K. apply nth_error_None. apply nth_error_None in K. specialize (H5 o). rewrite K in H5. destruct (nth_error (blocks c) o); [discriminate|reflexivity]. }
  constructor; rewrite ?H1, ?H2, ?H3; try assumption.
  - intros o d K. specialize (H4 o). rewrite K in H4. destruct (nth_error (ops c) o) as [d'|] eqn:E; [|discriminate].
    rewrite (D3 _ _ E). cbn [option_map] in H4. congruence.
  - intros o d K. specialize (H5 o). rewrite K in H5. destruct (nth_error (blocks c) o) as [d'|] eqn:E; [|discriminate].
    rewrite (D4 _ _ E). cbn [option_map] in H5. congruence.
  - intros o K. apply D5, L1, K.
  - intros o K. apply D6, L2, K.
Qed.
Lemma omap_upd_keep : forall A B (l : list A) k f (g : A -> B) x, (forall d, g (f d) = g d) ->
  option_map g (nth_error (upd l k f) x) = option_map g (nth_error l x).
Proof.
  intros. rewrite nth_upd. destruct (Nat.eqb x k); [|reflexivity]. destruct (nth_error l x); cbn [option_map]; [rewrite H|]; reflexivity.
Qed.

(** ** The combined invariant *)
Definition inv (c : ctx) (dead : list nat) : Prop := uok (ops c) (uses c) dead /\ pok c /\ dok c.

Lemma replace_one_frame : forall new l c,
  let c' := fold_left (replace_one new) l c in
  vals c' = vals c /\ blocks c' = blocks c /\ regions c' = regions c /\ op_results c' = op_results c /\ block_args c' = block_args c /\
  (forall A (g : op -> A) (K : forall d l, g (set_operands d l) = g d) o, option_map g (nth_error (ops c') o) = option_map g (nth_error (ops c) o)).
Proof.
  intro new. induction l as [|u l IH]; intros c c'; subst c'; cbn [fold_left].
  - repeat split.
  - destruct (IH (replace_one new c u)) as (H1 & H2 & H3 & H4 & H5 & H6). cbn [vals blocks regions op_results block_args replace_one set_uses set_ops] in *.
    repeat split; try assumption. intros A g K o. rewrite H6 by exact K. cbn [ops replace_one set_uses set_ops].
    apply omap_upd_keep. intro d. apply K.
Qed.
Lemma omap_view : forall A B (l l' : list A) (g : A -> B) z x, option_map g (nth_error l' x) = option_map g (nth_error l x) ->
  match nth_error l' x with Some d => g d | None => z end = match nth_error l x with Some d => g d | None => z end.
Proof. intros A B l l' g z x H. destruct (nth_error l' x), (nth_error l x); cbn [option_map] in H; congruence. Qed.

Lemma create_op_inv : forall c k vs ts rs ss c' o dead, create_op c k vs ts rs ss = Some (c', o) -> inv c dead -> inv c' dead.
Proof.
  intros c k vs ts rs ss c' o dead H (U & P & D). split; [eapply create_op_uok; eassumption|].
  split; [eapply create_op_pok; eassumption|eapply create_op_dok; eassumption].
Qed.
Lemma create_block_inv : forall c ts dead, inv c dead -> inv (fst (create_block c ts)) dead.
Proof.
  intros c ts dead (U & P & D). split; [exact U|]. split; [apply create_block_pok, P|apply create_block_dok, D].
Qed.
Lemma push_op_inv : forall c b o c' dead, push_op c b o = Some c' -> inv c dead -> inv c' dead.
Proof.
  intros c b o c' dead H (U & P & D). split; [|split; [eapply push_op_pok; eassumption|]]; unfold push_op in H;
    destruct (nth_error (ops c) o) as [d|]; try discriminate; destruct (nth_error (blocks c) b) as [bd|]; try discriminate;
    destruct (o_parent d); try discriminate; injection H as <-.
  - cbn [ops uses set_ops set_blocks]. apply uok_upd_keep; [reflexivity|exact U].
  - apply (dok_frame c); try reflexivity; try exact D; intro x; cbn [ops blocks set_ops set_blocks]; apply omap_upd_keep; reflexivity.
Qed.
Lemma create_region_inv : forall c bs c' r dead, create_region c bs = Some (c', r) -> inv c dead -> inv c' dead.
Proof.
  intros c bs c' r dead H (U & P & D). split; [|split; [eapply create_region_pok; eassumption|]]; unfold create_region in H;
    destruct (link_blocks _ _ bs) as [c2|] eqn:E; try discriminate; injection H as <- <-;
    pose proof (link_blocks_frame _ _ _ _ E) as (E1 & E2 & E3 & E4 & E5 & E6); apply link_blocks_char in E as (_ & _ & _ & _ & _ & L);
    cbn [ops vals blocks regions uses op_results block_args set_regions] in *.
  - rewrite E1, E4. exact U.
  - apply (dok_frame c); [exact E2|exact E5|exact E6| | |exact D].
    + intro o. rewrite E1. reflexivity.
    + intro b. specialize (L b). destruct (nth_error (blocks c2) b), (nth_error (blocks c) b); cbn [option_map] in *; congruence.
Qed.
Lemma remove_from_block_inv : forall c b o c' dead, remove_op_from_block c b o = Some c' -> inv c dead -> inv c' dead.
Proof.
  intros c b o c' dead H (U & P & D). split; [|split; [eapply remove_from_block_pok; eassumption|]]; unfold remove_op_from_block in H;
    destruct (nth_error (ops c) o) as [d|]; try discriminate; destruct (nth_error (blocks c) b) as [bd|]; try discriminate;
    injection H as <-; destruct (o_parent d) as [p|]; [destruct (Nat.eqb p b)| |destruct (Nat.eqb p b)|]; cbn [ops uses set_ops set_blocks];
    try exact U; try (apply uok_upd_keep; [reflexivity|exact U]);
    (apply (dok_frame c); try reflexivity; try exact D; intro x; cbn [ops blocks set_ops set_blocks]; try reflexivity; apply omap_upd_keep; reflexivity).
Qed.

Lemma thread_inv : forall S A B (P : S -> Prop) (f : S -> A -> option (S * B)) l s s' bs,
  (forall s a s' b, P s -> f s a = Some (s', b) -> P s') -> P s -> thread f s l = Some (s', bs) -> P s'.
Proof.
  intros S A B P f l. induction l as [|a l IH]; intros s s' bs Hf Hs H; cbn [thread] in H.
  - inversion H; subst. exact Hs.
  - destruct (f s a) as [[s1 b]|] eqn:E; [|discriminate]. destruct (thread f s1 l) as [[s2 bs']|] eqn:E'; [|discriminate].
    inversion H; subst. eapply IH; [exact Hf| |exact E']. eapply Hf; eassumption.
Qed.

Lemma clone_header_inv : forall s b s' nb dead, clone_header s b = Some (s', nb) -> inv (fst s) dead -> inv (fst s') dead.
Proof.
  intros [c m] b s' nb dead H I. unfold clone_header in H. destruct (nth_error (blocks c) b) as [bd|]; [|discriminate].
  pose proof (create_block_inv c (b_arg_types bd) dead I) as K. destruct (create_block c (b_arg_types bd)) as [c1 nb'].
  inversion H; subst. exact K.
Qed.
Lemma clone_region_with_inv : forall cl dead,
  (forall s o s' no, cl s o = Some (s', no) -> inv (fst s) dead -> inv (fst s') dead) ->
  forall s r s' nr, clone_region_with cl s r = Some (s', nr) -> inv (fst s) dead -> inv (fst s') dead.
Proof.
  intros cl dead Hcl s r s' nr H I. unfold clone_region_with in H.
  destruct (nth_error (regions (fst s)) r) as [rdd|]; [|discriminate].
  destruct (thread clone_header s (r_blocks rdd)) as [[s1 nbs]|] eqn:E1; [|discriminate].
  destruct (thread (clone_body cl) s1 (combine (r_blocks rdd) nbs)) as [[[c2 m2] us]|] eqn:E2; [|discriminate].
  destruct (create_region c2 nbs) as [[c3 nr']|] eqn:E3; [|discriminate]. inversion H; subst. cbn [fst].
  eapply create_region_inv; [exact E3|]. change c2 with (fst (c2, m2)).
  eapply (thread_inv _ _ _ (fun s => inv (fst s) dead)); [| |exact E2].
  - intros sa p sb u Ia Hb. unfold clone_body in Hb. destruct (nth_error (blocks (fst sa)) (fst p)) as [bd|]; [|discriminate].
    destruct (thread _ sa (b_ops bd)) as [[s3 us3]|] eqn:E4; [|discriminate]. inversion Hb; subst.
    eapply (thread_inv _ _ _ (fun s => inv (fst s) dead)); [|exact Ia|exact E4].
    intros sc a sd b Ic Hd. cbv beta in Hd. destruct (cl sc a) as [[[c4 m4] o4]|] eqn:E5; [|discriminate].
    destruct (push_op c4 (snd p) o4) as [c5|] eqn:E6; [|discriminate]. inversion Hd; subst. cbn [fst].
    eapply push_op_inv; [exact E6|]. apply (Hcl _ _ _ _ E5 Ic).
  - eapply (thread_inv _ _ _ (fun s => inv (fst s) dead)); [|exact I|exact E1].
    intros sa a sb b Ia Hb. eapply clone_header_inv; eassumption.
Qed.
Lemma clone_op_inv : forall dead fuel s o s' no, clone_op fuel s o = Some (s', no) -> inv (fst s) dead -> inv (fst s') dead.
Proof.
  intro dead. induction fuel as [|n IH]; intros s o s' no H I; cbn [clone_op] in H; [discriminate|].
  destruct (nth_error (ops (fst s)) o) as [d|]; [|discriminate].
  destruct (thread (clone_region_with (clone_op n)) s (o_regions d)) as [[[c1 m1] rs]|] eqn:E1; [|discriminate].
  destruct (create_op c1 _ _ _ _ _) as [[c2 no']|] eqn:E2; [|discriminate]. inversion H; subst. cbn [fst].
  eapply create_op_inv; [exact E2|]. change c1 with (fst (c1, m1)).
  eapply (thread_inv _ _ _ (fun s => inv (fst s) dead)); [|exact I|exact E1].
  intros sa a sb b Ia Hb. eapply clone_region_with_inv; [exact IH|exact Hb|exact Ia].
Qed.

Lemma operand_edit_pok : forall c l u, (forall A (g : op -> A) (K : forall d l, g (set_operands d l) = g d) o, option_map g (nth_error l o) = option_map g (nth_error (ops c) o)) ->
  pok c -> dok c -> pok (set_uses (set_ops c l) u) /\ dok (set_uses (set_ops c l) u).
Proof.
  intros c l u H P D. split.
  - apply (pok_same (set_ops c l)); try reflexivity. apply pok_ops_keep; [| |exact P]; intro o.
    + unfold par. apply omap_view, H. reflexivity.
    + unfold oregs. apply omap_view, H. reflexivity.
  - apply (dok_frame c); try reflexivity; [|exact D]. intro o. cbn [ops set_uses set_ops]. apply H. reflexivity.
Qed.

Lemma existsb_dead : forall o dead, existsb (Nat.eqb o) dead = false -> ~ In o dead.
Proof. intros o dead H. change (memb o dead = false) in H. destruct (memb_spec o dead) as [K|K]; [discriminate|exact K]. Qed.

Lemma exec_inv : forall c dead x c' dead', exec (c, dead) x = Some (c', dead') -> inv c dead -> inv c' dead'.
Proof.
  intros c dead x c' dead' H I. pose proof I as (U & P & D). unfold exec in H. destruct x.
  - destruct (create_op _ _ _ _ _ _) as [[c1 o1]|] eqn:E; inversion H; subst. eapply create_op_inv; eassumption.
  - destruct (existsb _ dead) eqn:El; [discriminate|]. apply existsb_dead in El.
    destruct (set_op_operand c o i v) as [c1|] eqn:E; inversion H; subst. split; [eapply set_op_operand_uok; eassumption|].
    unfold set_op_operand in E. destruct (nth_error (ops c) o) as [d|]; [|discriminate]. destruct (nth_error (o_operands d) i) as [old|]; [|discriminate].
    destruct (Nat.eqb old v); injection E as <-; [split; assumption|].
    apply (operand_edit_pok c (upd (ops c) o (fun d => set_operands d (upd (o_operands d) i (fun _ => v))))); [|exact P|exact D].
    intros A g K x. apply omap_upd_keep. intro; apply K.
  - destruct (existsb _ dead) eqn:El; [discriminate|]. apply existsb_dead in El.
    destruct (push_op_operand c o v) as [c1|] eqn:E; inversion H; subst. split; [eapply push_op_operand_uok; eassumption|].
    unfold push_op_operand in E. destruct (nth_error (ops c) o) as [d|]; [|discriminate]. injection E as <-.
    apply (operand_edit_pok c (upd (ops c) o (fun d => set_operands d (o_operands d ++ [v])))); [|exact P|exact D].
    intros A g K x. apply omap_upd_keep. intro; apply K.
  - destruct (existsb _ dead) eqn:El; [discriminate|]. apply existsb_dead in El.
    destruct (remove_op_operand c o i) as [c1|] eqn:E; inversion H; subst. split; [eapply remove_op_operand_uok; eassumption|].
    unfold remove_op_operand in E. destruct (nth_error (ops c) o) as [d|]; [|discriminate]. destruct (nth_error (o_operands d) i) as [old|]; [|discriminate].
    injection E as <-. split.
    + apply (pok_same (set_ops c (upd (ops c) o (fun d => set_operands d (firstn i (o_operands d) ++ skipn (S i) (o_operands d)))))); try reflexivity.
      apply pok_ops_keep; [| |exact P]; intro x; [unfold par|unfold oregs]; apply view_upd_keep; reflexivity.
    + apply (dok_frame c); try reflexivity; [|exact D]. intro x. cbn [ops set_ops]. apply omap_upd_keep. reflexivity.
  - destruct (remove_op fuel c o) as [[c1 sub]|] eqn:E; inversion H; subst. split; [eapply remove_op_uok; eassumption|].
    unfold remove_op in E. destruct (nth_error (ops c) o) as [d|]; [|discriminate]. destruct (o_parent d); [discriminate|].
    destruct (forallb _ _); [|discriminate]. destruct (walk_op _ _ _ _ _); try discriminate. injection E as <- <-.
    split; [exact P|]. apply (dok_frame c); try reflexivity. exact D.
  - inversion H; subst. apply create_block_inv, I.
  - destruct (add_block_arg c b t) as [[c1 v]|] eqn:E; inversion H; subst. split; [|split; [|eapply add_block_arg_dok; eassumption]];
      unfold add_block_arg in E; destruct (nth_error (blocks c) b) as [bd|]; try discriminate; injection E as <- <-; [exact U|].
    apply (pok_same (set_blocks c (upd (blocks c) b (fun x => set_bargs x (b_arg_types x ++ [t]))))); try reflexivity.
    apply pok_blocks_keep; [| |exact P]; intro x; [unfold bops|unfold bpar]; apply view_upd_keep; reflexivity.
  - destruct (prepend_block_arg c b t) as [[c1 v]|] eqn:E; inversion H; subst. split; [|split; [|eapply prepend_block_arg_dok; eassumption]];
      unfold prepend_block_arg in E; destruct (nth_error (blocks c) b) as [bd|]; try discriminate; injection E as <- <-; [exact U|].
    apply (pok_same (set_blocks c (upd (blocks c) b (fun x => set_bargs x (t :: b_arg_types x))))); try reflexivity.
    apply pok_blocks_keep; [| |exact P]; intro x; [unfold bops|unfold bpar]; apply view_upd_keep; reflexivity.
  - destruct (push_op c b o) as [c1|] eqn:E; inversion H; subst. eapply push_op_inv; eassumption.
  - destruct (insert_op_before c b before o) as [c1|] eqn:E; inversion H; subst. split; [|split; [eapply insert_op_before_pok; eassumption|]];
      unfold insert_op_before in E; destruct (nth_error (ops c) o) as [d|]; try discriminate; destruct (nth_error (blocks c) b) as [bd|]; try discriminate;
      destruct (o_parent d); try discriminate; destruct (position before (b_ops bd)); try discriminate; injection E as <-.
    + cbn [ops uses set_ops set_blocks]. apply uok_upd_keep; [reflexivity|exact U].
    + apply (dok_frame c); try reflexivity; try exact D; intro x; cbn [ops blocks set_ops set_blocks]; apply omap_upd_keep; reflexivity.
  - destruct (remove_op_from_block c b o) as [c1|] eqn:E; inversion H; subst. eapply remove_from_block_inv; eassumption.
  - destruct (detach_op c o) as [c1|] eqn:E; inversion H; subst. unfold detach_op in E. destruct (nth_error (ops c) o) as [d|]; [|discriminate].
    destruct (o_parent d) as [b|]; [eapply remove_from_block_inv; eassumption|inversion E; subst; exact I].
  - destruct (create_region c bs) as [[c1 r]|] eqn:E; inversion H; subst. eapply create_region_inv; eassumption.
  - destruct (detach_region c r) as [c1|] eqn:E; inversion H; subst. pose proof (detach_region_pok _ _ _ E P) as P'.
    unfold detach_region in E. destruct (nth_error (regions c) r) as [rdd|]; [|discriminate]. destruct (r_parent rdd) as [p|]; injection E as <-; [|exact I].
    split; [|split; [exact P'|]].
    + cbn [ops uses set_ops set_regions]. apply uok_upd_keep; [reflexivity|exact U].
    + apply (dok_frame c); try reflexivity; [|exact D]. intro x. cbn [ops set_ops set_regions]. apply omap_upd_keep. reflexivity.
  - inversion H; subst. split; [apply replace_all_uok, U|]. unfold replace_all_uses. destruct (Nat.eqb old new); [split; assumption|].
    destruct (replace_one_frame new (uses c old) (set_uses c (fupd (uses c) old []))) as (H1 & H2 & H3 & H4 & H5 & H6).
    cbn [vals blocks regions op_results block_args ops set_uses] in *. split.
    + destruct P as (P1 & P2 & P3). split; [|split]; rewrite ?H2, ?H3.
      * eapply linked_ext; [|reflexivity|exact P1]. intro x. unfold par. apply omap_view, H6. reflexivity.
      * exact P2.
      * eapply linked_ext; [reflexivity| |exact P3]. intro x. unfold oregs. apply omap_view, H6. reflexivity.
    + apply (dok_frame c); try assumption. { intro x. apply H6. reflexivity. } intro b. rewrite H2. reflexivity.
  - destruct (set_op_result_type c o i t) as [c1|] eqn:E; inversion H; subst. unfold set_op_result_type in E.
    destruct (nth_error (ops c) o) as [d|]; [|discriminate]. destruct (nth_error (o_result_types d) i); [|discriminate]. injection E as <-.
    split; [|split].
    + cbn [ops uses set_ops]. apply uok_upd_keep; [reflexivity|exact U].
    + apply pok_ops_keep; [| |exact P]; intro x; [unfold par|unfold oregs]; apply view_upd_keep; reflexivity.
    + apply (dok_frame c); try reflexivity; [|exact D]. intro x. cbn [ops set_ops]. apply omap_upd_keep. intro d'. cbn [o_result_types set_result_types]. apply upd_len.
  - destruct (set_block_arg_type c b i t) as [c1|] eqn:E; inversion H; subst. unfold set_block_arg_type in E.
    destruct (nth_error (blocks c) b) as [d|]; [|discriminate]. destruct (nth_error (b_arg_types d) i); [|discriminate]. injection E as <-.
    split; [exact U|split].
    + apply pok_blocks_keep; [| |exact P]; intro x; [unfold bops|unfold bpar]; apply view_upd_keep; reflexivity.
    + apply (dok_frame c); try reflexivity; [|exact D]. intro x. cbn [blocks set_blocks]. apply omap_upd_keep. intro d'. cbn [b_arg_types set_bargs]. apply upd_len.
  - destruct (clone_op fuel (c, m) o) as [[[c1 m1] no]|] eqn:E; inversion H; subst. apply (clone_op_inv dead' _ _ _ _ _ E). exact I.
  - destruct (clone_region fuel (c, m) r) as [[[c1 m1] nr]|] eqn:E; inversion H; subst.
    apply (clone_region_with_inv (clone_op fuel) dead' (clone_op_inv dead' fuel) _ _ _ _ E). exact I.
Qed.

Lemma empty_inv : inv empty_ctx [].
Proof.
  assert (N : forall A i, @nth_error A [] i = None) by (intros A i; destruct i; reflexivity).
  split; [|split].
  - split; [intro v; constructor|split; [|intros o []]]. intros v o i. cbn [empty_ctx uses ops]. unfold rd. rewrite N. split; [intros []|intros [_ K]; discriminate].
  - split; [|split]; (split; [intros x y|intro y]); unfold par, bops, bpar, rblks, rpar, oregs; cbn [empty_ctx ops blocks regions]; rewrite ?N; try apply NoDup_nil; (split; [intros []|discriminate]).
  - constructor; cbn [empty_ctx vals op_results block_args ops blocks]; intros; rewrite ?N in *; try (split; discriminate); try discriminate; reflexivity.
Qed.

Lemma exec_all_inv : forall xs c dead c' dead', exec_all (c, dead) xs = Some (c', dead') -> inv c dead -> inv c' dead'.
Proof.
  induction xs as [|x xs IH]; intros c dead c' dead' H I; cbn [exec_all] in H.
  - inversion H; subst. exact I.
  - destruct (exec (c, dead) x) as [[c1 dead1]|] eqn:E; [|discriminate]. eapply IH; [exact H|]. eapply exec_inv; eassumption.
Qed.

Lemma reachable_inv : forall xs c dead, exec_all (empty_ctx, []) xs = Some (c, dead) -> inv c dead.
Proof. intros xs c dead H. eapply exec_all_inv; [exact H|apply empty_inv]. Qed.
