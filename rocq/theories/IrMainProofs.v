(** The facts behind the IR theorems, over reachable arenas. *)
From Verif Require Import Base IrModel IrSpec IrTreeSpec IrProofs IrInvProofs IrWalkProofs IrCloneProofs.
From Coq Require Import Lia.

Lemma use_lists : forall xs c dead, exec_all (empty_ctx, []) xs = Some (c, dead) -> uses_exact c dead.
Proof. intros xs c dead H. apply uok_exact, (reachable_inv _ _ _ H). Qed.
Lemma placement : forall xs c dead, exec_all (empty_ctx, []) xs = Some (c, dead) -> placed c.
Proof. intros xs c dead H. apply pok_placed, (reachable_inv _ _ _ H). Qed.
Lemma definitions : forall xs c dead, exec_all (empty_ctx, []) xs = Some (c, dead) -> defs_exact c.
Proof. intros xs c dead H. apply (reachable_inv _ _ _ H). Qed.
Lemma types_total : forall xs c dead v, exec_all (empty_ctx, []) xs = Some (c, dead) -> v < length (vals c) -> exists t, value_ty c v = Some t.
Proof.
  intros xs c dead v H Hv. destruct (definitions _ _ _ H) as [D1 D2 D3 D4 D5 D6]. unfold value_ty.
  destruct (nth_error (vals c) v) as [[o i|b i]|] eqn:E; [| |apply nth_error_None in E; lia].
  - apply D1 in E. destruct (nth_error (ops c) o) as [d|] eqn:Eo.
    + assert (L : i < length (o_result_types d)) by (rewrite <- (D3 _ _ Eo); eapply nth_lt; exact E).
      destruct (nth_error (o_result_types d) i) as [t|] eqn:Et; [exists t; reflexivity|apply nth_error_None in Et; lia].
    + apply nth_error_None in Eo. rewrite D5 in E by exact Eo. destruct i; discriminate.
  - apply D2 in E. destruct (nth_error (blocks c) b) as [d|] eqn:Eo.
    + assert (L : i < length (b_arg_types d)) by (rewrite <- (D4 _ _ Eo); eapply nth_lt; exact E).
      destruct (nth_error (b_arg_types d) i) as [t|] eqn:Et; [exists t; reflexivity|apply nth_error_None in Et; lia].
    + apply nth_error_None in Eo. rewrite D6 in E by exact Eo. destruct i; discriminate.
Qed.

(** ** Replacement *)
Lemma shell_set : forall d l, shell (set_operands d l) = shell d.
Proof. intros [] l. reflexivity. Qed.
Lemma map_upd : forall A B (f : A -> B) g l i, (forall x, f (g x) = f x) -> map f (upd l i g) = map f l.
Proof.
  intros A B f g l i H. apply list_eq_nth_error. intro k. rewrite !nth_error_map. apply omap_upd_keep. exact H.
Qed.
Lemma replace_shell : forall new l c, map shell (ops (fold_left (replace_one new) l c)) = map shell (ops c).
Proof.
  intros new l. induction l as [|u l IH]; intro c; cbn [fold_left]; [reflexivity|]. rewrite IH. unfold replace_one. cbn [ops set_ops set_uses].
  apply map_upd. intro x. apply shell_set.
Qed.

Lemma replace_all : forall xs c dead old new, exec_all (empty_ctx, []) xs = Some (c, dead) -> old <> new ->
  redirected dead c (replace_all_uses c old new) old new.
Proof.
  intros xs c dead old new H Hne. pose proof (reachable_inv _ _ _ H) as (U & _ & _). pose proof (uok_exact _ _ U) as UE.
  destruct (replace_all_char c dead old new Hne U) as (H1 & H2 & _). split; [|split; [|split]].
  - intros o i v Hd. rewrite reads_rd, H1. destruct (has_spec o i (uses c old)) as [Hin|Hin].
    + apply (UE old) in Hin as (_ & Hr). split.
      * intro K. injection K as <-. exists old. split; [exact Hr|]. rewrite Nat.eqb_refl. reflexivity.
      * intros (w & K & ->). rewrite reads_rd in *. rewrite Hr in K. injection K as <-. rewrite Nat.eqb_refl. reflexivity.
    + split.
      * intro K. exists v. rewrite reads_rd. split; [exact K|]. destruct (Nat.eqb_spec v old) as [->|]; [|reflexivity].
        exfalso. apply Hin, UE. split; [exact Hd|]. rewrite reads_rd. exact K.
      * intros (w & K & ->). destruct (Nat.eqb_spec w old) as [->|]; [|rewrite reads_rd in K; exact K].
        exfalso. apply Hin, UE. split; assumption.
  - rewrite H2. destruct (Nat.eqb_spec old new); [contradiction|]. rewrite Nat.eqb_refl. reflexivity.
  - intro u. rewrite H2, Nat.eqb_refl. apply in_app_iff.
  - intros v Ho Hn. rewrite H2. destruct (Nat.eqb_spec v new); [contradiction|]. destruct (Nat.eqb_spec v old); [contradiction|]. reflexivity.
Qed.

Lemma replace_all_frame : forall c old new, only_operands c (replace_all_uses c old new).
Proof.
  intros c old new. unfold replace_all_uses. destruct (Nat.eqb old new); [repeat split|].
  pose proof (replace_one_frame new (uses c old) (set_uses c (fupd (uses c) old []))) as F. cbn zeta in F.
  destruct F as (F1 & F2 & F3 & F4 & F5 & _). repeat split; try assumption. rewrite replace_shell. reflexivity.
Qed.

(** ** Order of operations in blocks *)
Lemma bops_upd : forall c x b f bd, nth_error (blocks c) b = Some bd -> block_ops_of (set_blocks c (upd (blocks c) b f)) x = if Nat.eqb x b then b_ops (f bd) else block_ops_of c x.
Proof.
  intros c x b f bd H. unfold block_ops_of. cbn [blocks set_blocks]. rewrite nth_upd. destruct (Nat.eqb_spec x b) as [->|]; [|reflexivity]. rewrite H. reflexivity.
Qed.
Lemma bops_set_ops : forall c l x, block_ops_of (set_ops c l) x = block_ops_of c x.
Proof. reflexivity. Qed.
Lemma push_effect : forall c b o c', push_op c b o = Some c' ->
  (forall x, block_ops_of c' x = if Nat.eqb x b then block_ops_of c b ++ [o] else block_ops_of c x) /\ op_parent c' o b.
Proof.
  intros c b o c' H. unfold push_op in H. destruct (nth_error (ops c) o) as [d|] eqn:Ed; [|discriminate]. destruct (nth_error (blocks c) b) as [bd|] eqn:Eb; [|discriminate].
  destruct (o_parent d) eqn:Ep; [discriminate|]. injection H as <-. split.
  - intro x. rewrite (bops_upd (set_ops c _) x b _ bd) by exact Eb. rewrite bops_set_ops. destruct (Nat.eqb_spec x b) as [->|]; [|reflexivity].
    cbn [b_ops set_bops]. f_equal. unfold block_ops_of. rewrite Eb. reflexivity.
  - exists (set_parent d (Some b)). cbn [ops set_ops set_blocks]. rewrite nth_upd, Nat.eqb_refl, Ed. split; reflexivity.
Qed.
Lemma insert_effect : forall c b before o c', insert_op_before c b before o = Some c' ->
  exists pre post, block_ops_of c b = pre ++ before :: post /\ block_ops_of c' b = pre ++ o :: before :: post /\
    (forall x, x <> b -> block_ops_of c' x = block_ops_of c x) /\ op_parent c' o b.
Proof.
  intros c b before o c' H. unfold insert_op_before in H. destruct (nth_error (ops c) o) as [d|] eqn:Ed; [|discriminate]. destruct (nth_error (blocks c) b) as [bd|] eqn:Eb; [|discriminate].
  destruct (o_parent d) eqn:Ep; [discriminate|]. destruct (position before (b_ops bd)) as [p|] eqn:E; [|discriminate]. injection H as <-.
  assert (Hb : block_ops_of c b = b_ops bd) by (unfold block_ops_of; rewrite Eb; reflexivity).
  destruct (position_split _ _ _ E) as (pre & post & E1 & E2 & _). exists pre, post. split; [rewrite Hb; exact E1|]. split; [|split].
  - rewrite bops_set_ops, (bops_upd c b b _ bd Eb), Nat.eqb_refl. cbn [b_ops set_bops]. rewrite E1, <- E2, firstn_app_len, skipn_app_len. reflexivity.
  - intros x Hx. rewrite bops_set_ops, (bops_upd c x b _ bd Eb). destruct (Nat.eqb_spec x b); [contradiction|reflexivity].
  - exists (set_parent d (Some b)). cbn [ops set_ops set_blocks]. rewrite nth_upd, Nat.eqb_refl, Ed. split; reflexivity.
Qed.

Lemma remove_effect : forall c b o c', remove_op_from_block c b o = Some c' ->
  forall x, block_ops_of c' x = if Nat.eqb x b then filter (fun y => negb (Nat.eqb y o)) (block_ops_of c b) else block_ops_of c x.
Proof.
  intros c b o c' H x. unfold remove_op_from_block in H. destruct (nth_error (ops c) o) as [d|] eqn:Ed; [|discriminate]. destruct (nth_error (blocks c) b) as [bd|] eqn:Eb; [|discriminate].
  assert (Hb : block_ops_of c b = b_ops bd) by (unfold block_ops_of; rewrite Eb; reflexivity).
  assert (K : block_ops_of c' x = block_ops_of (set_blocks c (upd (blocks c) b (fun x => set_bops x (filter (fun y => negb (Nat.eqb y o)) (b_ops x))))) x).
  { injection H as <-. destruct (o_parent d) as [p|]; [destruct (Nat.eqb p b)|]; reflexivity. }
  rewrite K, (bops_upd c x b _ bd Eb), Hb. reflexivity.
Qed.
Lemma detach_effect : forall xs c dead o c', exec_all (empty_ctx, []) xs = Some (c, dead) -> detach_op c o = Some c' ->
  (forall x, block_ops_of c' x = filter (fun y => negb (Nat.eqb y o)) (block_ops_of c x)) /\ (forall b, ~ op_parent c' o b).
Proof.
  intros xs c dead o c' R H. pose proof (placement _ _ _ R) as P.
  assert (P' : placed c').
  { apply (placement (xs ++ [Detach o]) c' dead). clear P. revert R. generalize (empty_ctx, @nil nat). induction xs as [|x xs IH]; intros s R.
    - cbn [exec_all app] in *. injection R as ->. cbn [exec]. rewrite H. reflexivity.
    - cbn [exec_all app] in *. destruct (exec s x); [apply IH, R|discriminate]. }
  assert (N : forall x, ~ op_in c o x -> filter (fun y => negb (Nat.eqb y o)) (block_ops_of c x) = block_ops_of c x).
  { intros x Hx. assert (K : ~ In o (block_ops_of c x)).
    { intro K. apply Hx. unfold block_ops_of in K. destruct (nth_error (blocks c) x) as [bd|] eqn:E; [|destruct K]. exists bd. split; assumption. }
    clear -K. induction (block_ops_of c x) as [|y l IH]; [reflexivity|]. cbn [filter]. destruct (Nat.eqb_spec y o) as [->|]; [exfalso; apply K; left; reflexivity|].
    cbn [negb]. f_equal. apply IH. intro Q. apply K. right. exact Q. }
  unfold detach_op in H. destruct (nth_error (ops c) o) as [d|] eqn:Ed; [|discriminate]. destruct (o_parent d) as [b|] eqn:Ep.
  - assert (E : forall x, block_ops_of c' x = filter (fun y => negb (Nat.eqb y o)) (block_ops_of c x)).
    { intro x. rewrite (remove_effect _ _ _ _ H). destruct (Nat.eqb_spec x b) as [->|Hne]; [reflexivity|]. symmetry. apply N. intro K.
      apply (pl_op _ P) in K as (d' & K1 & K2). rewrite Ed in K1. injection K1 as <-. congruence. }
    split; [exact E|]. intros x K. apply (pl_op _ P') in K as (bd & K1 & K2). specialize (E x). unfold block_ops_of at 1 in E. rewrite K1 in E.
    rewrite E in K2. apply filter_In in K2 as (_ & K2). rewrite Nat.eqb_refl in K2. discriminate.
  - injection H as <-. split.
    + intro x. symmetry. apply N. intro K. apply (pl_op _ P) in K as (d' & K1 & K2). rewrite Ed in K1. injection K1 as <-. congruence.
    + intros b (d' & K1 & K2). rewrite Ed in K1. injection K1 as <-. congruence.
Qed.

(** ** Cloning *)
Lemma prefix_of_nth : forall A (a c : list A), (forall i, i < length a -> nth_error c i = nth_error a i) -> length a <= length c -> firstn (length a) c = a.
Proof.
  intros A a c H L. apply list_eq_nth_error. intro i. destruct (Nat.lt_ge_cases i (length a)) as [Hi|Hi].
  - rewrite nth_error_firstn by exact Hi. apply H, Hi.
  - transitivity (@None A); [|symmetry]; apply nth_error_None; [rewrite firstn_length; lia|exact Hi].
Qed.
Lemma same_intact : forall a c, same none a c -> intact a c.
Proof.
  intros a c [A1 A2 A3 A4 A5 A6 A7 A8 A9 A10 A11]. repeat split; try assumption; apply prefix_of_nth; try assumption.
  intros i Hi. apply A2; [exact Hi|intros []].
Qed.

Lemma agrees_self : forall m, agrees m (lookup_or (m_vals m)) (lookup_or (m_blocks m)) [].
Proof. intro m. split; reflexivity. Qed.

Lemma clone_op_copies : forall xs c dead fuel m t, exec_all (empty_ctx, []) xs = Some (c, dead) ->
  tree_of c t -> height t <= fuel -> in_order (events c t) ->
  exists c' m' o', clone_op fuel (c, m) (root t) = Some ((c', m'), o') /\ intact c c' /\ length (ops c) <= o' /\
    is_copy c c' (lookup_or (m_vals m')) (lookup_or (m_blocks m')) t o' /\ renames c m m' (events c t).
Proof.
  intros xs c dead fuel m t R Ht Hh IO. destruct (op_clone c (definitions _ _ _ R) t Ht fuel Hh c m (same_refl _ _)) as (c' & m' & o' & E & S & M & L & _ & C).
  exists c', m', o'. split; [exact E|]. split; [apply same_intact, S|]. split; [lia|]. split; [|exact M].
  eapply copyQ_is_copy. apply (C _ _ []); [rewrite app_nil_r; exact IO|apply agrees_self].
Qed.
Lemma clone_region_copies : forall xs c dead fuel m rb, exec_all (empty_ctx, []) xs = Some (c, dead) ->
  region_tree_of c rb -> (forall t, In t (region_trees rb) -> height t <= fuel) -> in_order (region_events c rb) ->
  exists c' m' r', clone_region fuel (c, m) (fst rb) = Some ((c', m'), r') /\ intact c c' /\ length (regions c) <= r' /\
    is_region_copy c c' (lookup_or (m_vals m')) (lookup_or (m_blocks m')) rb r' /\ renames c m m' (region_events c rb).
Proof.
  intros xs c dead fuel m rb R (H1 & H2) Hh IO. pose proof (definitions _ _ _ R) as D.
  assert (Hok : region_ok c fuel rb).
  { split; [exact H1|]. rewrite all_Forall in H2. apply Forall_forall. intros bt Hbt. rewrite Forall_forall in H2. destruct (H2 bt Hbt) as (K1 & K2). split; [exact K1|].
    rewrite all_Forall in K2. apply Forall_forall. intros t Ht. rewrite Forall_forall in K2. apply (op_clone c D t (K2 t Ht)). apply Hh. unfold region_trees. apply in_flat_map. exists bt. split; assumption. }
  destruct (region_clone c D fuel rb Hok c m (same_refl _ _)) as (c' & m' & r' & E & S & M & L & _ & C).
  exists c', m', r'. split; [exact E|]. split; [apply same_intact, S|]. split; [lia|]. split; [|exact M].
  destruct (C _ _ [] (eq_ind_r _ IO (app_nil_r _)) (agrees_self m')) as (X1 & X2). split; [exact X1|].
  rewrite all2_Forall2 in *. eapply Forall2_impl'; [|exact X2]. intros bt b' _ ((_ & Y1) & Y2). split; [exact Y1|].
  rewrite all2_Forall2 in *. eapply Forall2_impl'; [|exact Y2]. intros t o' _. apply copyQ_is_copy.
Qed.

(** ** Walks *)
Lemma region_trees_within : forall rb c, region_tree_of c rb -> forall x,
  In x (flat_map preorder (region_trees rb)) <->
  exists b bd o, In b (map fst (snd rb)) /\ nth_error (blocks c) b = Some bd /\ In o (b_ops bd) /\ within c o x.
Proof.
  intros rb c (_ & H) x. rewrite all_Forall, Forall_forall in H. unfold region_trees. rewrite flat_map_flat_map. rewrite in_flat_map. split.
  - intros (bt & Hbt & K). apply in_flat_map in K as (t & Ht & K). destruct (H bt Hbt) as ((bd & Ebd & Eb) & Hts). rewrite all_Forall, Forall_forall in Hts.
    apply (preorder_within t c (Hts t Ht)) in K. exists (fst bt), bd, (root t). split; [apply in_map, Hbt|]. split; [exact Ebd|]. split; [rewrite Eb; apply in_map, Ht|exact K].
  - intros (b & bd & o & Hb & Ebd & Ho & K). apply in_map_iff in Hb as (bt & <- & Hbt). destruct (H bt Hbt) as ((bd' & Ebd' & Eb) & Hts). rewrite all_Forall, Forall_forall in Hts.
    rewrite Ebd in Ebd'. injection Ebd' as <-. rewrite Eb in Ho. apply in_map_iff in Ho as (t & <- & Ht). exists bt. split; [exact Hbt|]. apply in_flat_map. exists t. split; [exact Ht|].
    apply (preorder_within t c (Hts t Ht)). exact K.
Qed.
