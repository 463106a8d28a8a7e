From Verif Require Import ListLowSpec ListLowProofs ListLowMain.
Open Scope nat_scope.

Lemma split_in ob ops : forall bf af, split_at ob ops = Some (bf, af) -> exists o, ops = bf ++ o :: af /\ result o = ob_op ob.
Proof.
  induction ops as [|o ops IH]; intros bf af; cbn; [discriminate|]. destruct (Nat.eqb_spec (result o) (ob_op ob)) as [E|N].
  - intros X. injection X as <- <-. exists o. auto.
  - destruct (split_at ob ops) as [[b a]|]; [|discriminate]. intros X. injection X as <- <-. destruct (IH _ _ eq_refl) as (o1 & -> & R).
    exists o1. auto.
Qed.
Lemma split_not ob ops : split_at ob ops = None -> Forall (fun o => result o <> ob_op ob) ops.
Proof.
  induction ops as [|o ops IH]; cbn; [constructor|]. destruct (Nat.eqb_spec (result o) (ob_op ob)) as [|N]; [discriminate|].
  destruct (split_at ob ops) as [[]|]; [discriminate|]. intros _. constructor; auto.
Qed.

Section Keep.
  Variable ob : obs.
  Variable n : nat.
  Let r := ob_op ob.
  Let l := ob_list ob.
  Hypothesis Lless : l < n.
  Hypothesis Rless : r < n.
  Notation tr := (tr_op ob n).

  Definition new_op (o : op) : Prop := o = OIsNull (empty n) l \/ o = OStructGet (projected n) l (ob_ty ob) (ob_field ob).

  (** What the blocks made from one consist of. *)
  Lemma piece_names b x : In x (flat_map block_names (tr_block ob n b)) ->
    x = b_id b \/ In x (b_args b) \/ In x (flat_map op_names (List.map tr (b_ops b))) \/ In x (term_names (tr_term ob n (b_term b))) \/ x < n + 6.
  Proof.
    unfold tr_block, split_block. cbn [b_ops b_id b_args b_term]. destruct (split_at ob (List.map tr (b_ops b))) as [[bf af]|] eqn:S.
    - destruct (split_in _ _ _ _ S) as (o & -> & _). cbn [flat_map block_names b_ops b_id b_args b_term op_names term_names app].
      unfold trap, proj, cont, arg, empty, projected. fold l.
      rewrite !flat_map_app. cbn [flat_map op_names app]. repeat (rewrite in_app_iff || cbn [In app]). intuition lia.
    - cbn [flat_map block_names b_ops b_id b_args b_term op_names term_names app]. repeat (rewrite in_app_iff || cbn [In app]). intuition lia.
  Qed.
  Lemma piece_bargs b x : In x (flat_map block_bargs (tr_block ob n b)) ->
    In x (b_args b) \/ In x (flat_map op_bargs (List.map tr (b_ops b))) \/ x = arg n.
  Proof.
    unfold tr_block, split_block. cbn [b_ops b_id b_args b_term]. destruct (split_at ob (List.map tr (b_ops b))) as [[bf af]|] eqn:S.
    - destruct (split_in _ _ _ _ S) as (o & -> & _). unfold block_bargs. cbn [flat_map b_ops b_id b_args b_term op_bargs app].
      rewrite !flat_map_app. cbn [flat_map op_bargs app]. repeat (rewrite in_app_iff || cbn [In app]). intuition.
    - unfold block_bargs. cbn [flat_map b_ops b_id b_args b_term app]. repeat (rewrite in_app_iff || cbn [In app]). intuition.
  Qed.
  Lemma piece_walk b o' : In o' (flat_map block_walk (tr_block ob n b)) -> In o' (flat_map walk (List.map tr (b_ops b))) \/ new_op o'.
  Proof.
    unfold tr_block, split_block. cbn [b_ops b_id b_args b_term]. destruct (split_at ob (List.map tr (b_ops b))) as [[bf af]|] eqn:S.
    - destruct (split_in _ _ _ _ S) as (o & -> & _). unfold block_walk, new_op. fold l. cbn [flat_map b_ops b_id b_args b_term app walk].
      rewrite !flat_map_app. cbn [flat_map walk app]. repeat (rewrite in_app_iff || cbn [In app]). intuition.
    - unfold block_walk. cbn [flat_map b_ops b_id b_args b_term app]. rewrite app_nil_r. auto.
  Qed.
  Lemma piece_count b x : x < n -> count x (flat_map block_walk (tr_block ob n b)) <= count x (flat_map walk (List.map tr (b_ops b))).
  Proof.
    intros L. unfold tr_block, split_block. cbn [b_ops b_id b_args b_term]. destruct (split_at ob (List.map tr (b_ops b))) as [[bf af]|] eqn:S.
    - destruct (split_in _ _ _ _ S) as (o & -> & _). unfold block_walk. cbn [flat_map b_ops b_id b_args b_term app walk].
      rewrite !flat_map_app. cbn [flat_map walk app]. rewrite !count_app, !count_cons. cbn [result]. change (count x []) with 0.
      unfold empty, projected. destruct (Nat.eq_dec (n + 4) x); [lia|]. destruct (Nat.eq_dec (n + 5) x); [lia|].
      rewrite ?app_nil_r. rewrite ?count_app. lia.
    - unfold block_walk. cbn [flat_map b_ops b_id b_args b_term app]. rewrite app_nil_r. lia.
  Qed.

  Lemma in_blocks {A} (f : block -> list A) bs x : In x (flat_map f (tr_blocks ob n bs)) <-> exists b, In b bs /\ In x (flat_map f (tr_block ob n b)).
  Proof.
    unfold tr_blocks. rewrite in_flat_map. split.
    - intros (b' & I & J). apply in_flat_map in I as (b & I & K). exists b. split; [exact I|]. apply in_flat_map. eauto.
    - intros (b & I & J). apply in_flat_map in J as (b' & J & K). exists b'. split; [|exact K]. apply in_flat_map. eauto.
  Qed.
  Lemma count_blocks x bs (g : block -> nat) : (forall b, In b bs -> count x (flat_map block_walk (tr_block ob n b)) <= count x (block_walk b)) ->
    count x (flat_map block_walk (tr_blocks ob n bs)) <= count x (flat_map block_walk bs).
  Proof.
    intros H. induction bs as [|b bs IH]; [apply Nat.le_refl|]. unfold tr_blocks in *. cbn [flat_map]. rewrite flat_map_app, !count_app.
    pose proof (H b ltac:(cbn; auto)). specialize (IH ltac:(intros c I; apply H; cbn; auto)). lia.
  Qed.

  Lemma rn_less x : x < n -> rn ob n x < n + 6.
  Proof. intros L. unfold rn, arg. destruct (x =? ob_op ob); lia. Qed.
  Lemma rns_less xs : (forall x, In x xs -> x < n) -> forall y, In y (List.map (rn ob n) xs) -> y < n + 6.
  Proof. intros L y I. apply in_map_iff in I as (x & <- & I). apply rn_less, L, I. Qed.
  Lemma term_less t : (forall x, In x (term_names t) -> x < n) -> forall y, In y (term_names (tr_term ob n t)) -> y < n + 6.
  Proof.
    intros L y I. destruct t as [b args|c a z|v|v|]; cbn [tr_term term_names] in *.
    - destruct I as [<-|I]; [specialize (L b ltac:(cbn; auto)); lia|]. eapply rns_less; [|exact I]. intros x J. apply L. cbn. auto.
    - destruct I as [<-|[<-|[<-|[]]]]; [apply rn_less; apply L; cbn; auto| |].
      + specialize (L a ltac:(cbn; auto)). lia.
      + specialize (L z ltac:(cbn; auto)). lia.
    - destruct I as [<-|[]]. apply rn_less, L. cbn. auto.
    - destruct I as [<-|[]]. apply rn_less, L. cbn. auto.
    - destruct I.
  Qed.

  Lemma blocks_names bs :
    Forall (fun b : block => Forall (fun o => (forall x, In x (op_names o) -> x < n) -> forall y, In y (op_names (tr o)) -> y < n + 6) (b_ops b)) bs ->
    (forall x, In x (flat_map block_names bs) -> x < n) -> forall y, In y (flat_map block_names (tr_blocks ob n bs)) -> y < n + 6.
  Proof.
    intros F L y I. apply in_blocks in I as (b & Ib & I). rewrite Forall_forall in F. specialize (F b Ib). rewrite Forall_forall in F.
    assert (Lb : forall x, In x (block_names b) -> x < n) by (intros x J; apply L, in_flat_map; eauto). unfold block_names in Lb.
    destruct (piece_names b y I) as [->|[J|[J|[J|J]]]].
    - specialize (Lb (b_id b) ltac:(cbn; auto)). lia.
    - specialize (Lb y ltac:(right; rewrite !in_app_iff; auto)). lia.
    - apply in_flat_map in J as (o' & J & K). apply in_map_iff in J as (o & <- & J). apply (F o J); [|exact K].
      intros x Ix. apply Lb. right. rewrite !in_app_iff. right. left. apply in_flat_map. eauto.
    - apply (term_less (b_term b)); [|exact J]. intros x Ix. apply Lb. right. rewrite !in_app_iff. auto.
    - exact J.
  Qed.
  Lemma op_less o : (forall x, In x (op_names o) -> x < n) -> forall y, In y (op_names (tr o)) -> y < n + 6.
  Proof.
    induction o as [o S|r0 c yes no Hy Hn] using op_ind'.
    - destruct o; try contradiction; intros L y I; cbn [tr_op op_names In] in *;
        repeat match goal with H : _ \/ _ |- _ => destruct H as [<-|H] | H : False |- _ => destruct H end;
        try (apply rn_less, L; cbn; auto; fail); try (match goal with |- ?x < _ => specialize (L x ltac:(cbn; auto)); lia end; fail);
        try (eapply rns_less; [|eassumption]; intros z J; apply L; cbn; auto; fail).
    - intros L y I. cbn [tr_op op_names In] in I. destruct I as [<-|[<-|I]].
      + specialize (L r0 ltac:(cbn; auto)). lia.
      + apply rn_less, L. cbn. auto.
      + apply in_app_iff in I as [I|I].
        * apply (blocks_names yes Hy); [|exact I]. intros x J. apply L. cbn. right. right. apply in_app_iff. left. exact J.
        * apply (blocks_names no Hn); [|exact I]. intros x J. apply L. cbn. right. right. apply in_app_iff. right. exact J.
  Qed.
  Lemma all_less bs : (forall x, In x (flat_map block_names bs) -> x < n) -> forall y, In y (flat_map block_names (tr_blocks ob n bs)) -> y < n + 6.
  Proof. apply blocks_names. apply Forall_forall. intros b _. apply Forall_forall. intros o _. apply op_less. Qed.

  Lemma blocks_bargs bs x : x < n ->
    Forall (fun b : block => Forall (fun o => In x (op_bargs (tr o)) -> In x (op_bargs o)) (b_ops b)) bs ->
    In x (flat_map block_bargs (tr_blocks ob n bs)) -> In x (flat_map block_bargs bs).
  Proof.
    intros L F I. apply in_blocks in I as (b & Ib & I). rewrite Forall_forall in F. specialize (F b Ib). rewrite Forall_forall in F.
    apply in_flat_map. exists b. split; [exact Ib|]. unfold block_bargs. apply in_app_iff.
    destruct (piece_bargs b x I) as [J|[J|J]]; [auto| |unfold arg in J; lia].
    right. apply in_flat_map in J as (o' & J & K). apply in_map_iff in J as (o & <- & J). apply in_flat_map. exists o. auto.
  Qed.
  Lemma op_bargs_tr x : x < n -> forall o, In x (op_bargs (tr o)) -> In x (op_bargs o).
  Proof.
    intros L o. induction o as [o S|r0 c yes no Hy Hn] using op_ind'; [destruct o; try contradiction; auto|].
    cbn [tr_op op_bargs]. rewrite !in_app_iff. intros [I|I].
    - left. apply (blocks_bargs yes x L Hy I).
    - right. apply (blocks_bargs no x L Hn I).
  Qed.
  Lemma all_bargs bs x : x < n -> In x (flat_map block_bargs (tr_blocks ob n bs)) -> In x (flat_map block_bargs bs).
  Proof. intros L. apply blocks_bargs; [exact L|]. apply Forall_forall. intros b _. apply Forall_forall. intros o _. apply op_bargs_tr, L. Qed.

  Lemma blocks_walk bs o' :
    Forall (fun b : block => Forall (fun o => forall o', In o' (walk (tr o)) -> (exists o0, In o0 (walk o) /\ o' = tr o0) \/ new_op o') (b_ops b)) bs ->
    In o' (flat_map block_walk (tr_blocks ob n bs)) -> (exists o0, In o0 (flat_map block_walk bs) /\ o' = tr o0) \/ new_op o'.
  Proof.
    intros F I. apply in_blocks in I as (b & Ib & I). rewrite Forall_forall in F. specialize (F b Ib). rewrite Forall_forall in F.
    destruct (piece_walk b o' I) as [J|J]; [|auto].
    apply in_flat_map in J as (o1 & J & K). apply in_map_iff in J as (o & <- & J). destruct (F o J o' K) as [(o0 & I0 & E)|N]; [|auto].
    left. exists o0. split; [|exact E]. apply in_flat_map. exists b. split; [exact Ib|]. apply in_flat_map. eauto.
  Qed.
  Lemma op_walk o : forall o', In o' (walk (tr o)) -> (exists o0, In o0 (walk o) /\ o' = tr o0) \/ new_op o'.
  Proof.
    induction o as [o S|r0 c yes no Hy Hn] using op_ind'.
    - destruct o; try contradiction; cbn [walk tr_op In]; intros o' [<-|[]]; left; eexists; (split; [left; reflexivity|reflexivity]).
    - intros o' I. cbn [walk tr_op In] in I. destruct I as [<-|I].
      + left. exists (OIf r0 c yes no). split; [left; reflexivity|reflexivity].
      + apply in_app_iff in I as [I|I].
        * destruct (blocks_walk yes o' Hy I) as [(o0 & I0 & E)|N]; [|auto]. left. exists o0. split; [|exact E].
          cbn [walk]. right. apply in_app_iff. left. exact I0.
        * destruct (blocks_walk no o' Hn I) as [(o0 & I0 & E)|N]; [|auto]. left. exists o0. split; [|exact E].
          cbn [walk]. right. apply in_app_iff. right. exact I0.
  Qed.
  Lemma all_walk bs o' : In o' (flat_map block_walk (tr_blocks ob n bs)) -> (exists o0, In o0 (flat_map block_walk bs) /\ o' = tr o0) \/ new_op o'.
  Proof. apply blocks_walk. apply Forall_forall. intros b _. apply Forall_forall. intros o _. apply op_walk. Qed.

  Lemma ops_count x ops : Forall (fun o => count x (walk (tr o)) <= count x (walk o)) ops ->
    count x (flat_map walk (List.map tr ops)) <= count x (flat_map walk ops).
  Proof. induction 1 as [|o ops H F IH]; [apply Nat.le_refl|]. cbn [List.map flat_map]. rewrite !count_app. lia. Qed.
  Lemma op_count x : x < n -> forall o, count x (walk (tr o)) <= count x (walk o).
  Proof.
    intros L o. induction o as [o S|r0 c yes no Hy Hn] using op_ind'; [destruct o; try contradiction; apply Nat.le_refl|].
    change (count x (tr (OIf r0 c yes no) :: flat_map block_walk (tr_blocks ob n yes) ++ flat_map block_walk (tr_blocks ob n no)) <=
            count x (OIf r0 c yes no :: flat_map block_walk yes ++ flat_map block_walk no)).
    rewrite !count_cons, !count_app. change (result (tr (OIf r0 c yes no))) with r0. change (result (OIf r0 c yes no)) with r0.
    assert (A : forall bs, Forall (fun b : block => Forall (fun o => count x (walk (tr o)) <= count x (walk o)) (b_ops b)) bs ->
      count x (flat_map block_walk (tr_blocks ob n bs)) <= count x (flat_map block_walk bs)).
    { intros bs F. apply (count_blocks x bs (fun _ => 0)). intros b Ib. rewrite Forall_forall in F.
      pose proof (piece_count b x L). pose proof (ops_count x (b_ops b) (F b Ib)). unfold block_walk at 2. lia. }
    pose proof (A yes Hy). pose proof (A no Hn). lia.
  Qed.
  Lemma block_count x b : x < n -> count x (flat_map block_walk (tr_block ob n b)) <= count x (block_walk b).
  Proof.
    intros L. pose proof (piece_count b x L). pose proof (ops_count x (b_ops b) ltac:(apply Forall_forall; intros o _; apply op_count, L)).
    unfold block_walk at 2. lia.
  Qed.
  Lemma all_count x bs : x < n -> count x (flat_map block_walk (tr_blocks ob n bs)) <= count x (flat_map block_walk bs).
  Proof. intros L. apply (count_blocks x bs (fun _ => 0)). intros b _. apply block_count, L. Qed.

  (** The observation is gone. *)
  Definition goes (o : op) : Prop := count r (walk o) <= 1 -> result o <> r -> count r (walk (tr o)) = 0.
  Lemma count0 ops : Forall goes ops -> Forall (fun o => result o <> r) ops -> count r (flat_map walk ops) <= 1 -> count r (flat_map walk (List.map tr ops)) = 0.
  Proof.
    intros F G. induction F as [|o ops H F IH]; [reflexivity|]. inversion G as [|? ? N G']; subst. cbn [List.map flat_map]. rewrite !count_app. intros C.
    rewrite (H ltac:(lia) N), (IH G' ltac:(lia)). reflexivity.
  Qed.
  Lemma map_split ops : forall a o b, List.map tr ops = a ++ o :: b -> exists ops1 o1 ops2, ops = ops1 ++ o1 :: ops2 /\ a = List.map tr ops1 /\ o = tr o1 /\ b = List.map tr ops2.
  Proof.
    induction ops as [|o ops IH]; intros a o' b E; [destruct a; discriminate|]. destruct a as [|x a]; cbn in E; injection E as E1 E2.
    - exists [], o, ops. auto.
    - destruct (IH _ _ _ E2) as (ops1 & o1 & ops2 & -> & -> & -> & ->). exists (o :: ops1), o1, ops2. subst x. auto.
  Qed.
  Lemma block_gone b : Forall goes (b_ops b) -> count r (block_walk b) <= 1 -> count r (flat_map block_walk (tr_block ob n b)) = 0.
  Proof.
    intros F C. unfold tr_block, split_block. cbn [b_ops b_id b_args b_term]. destruct (split_at ob (List.map tr (b_ops b))) as [[bf af]|] eqn:S.
    - destruct (split_in _ _ _ _ S) as (o & E & R). destruct (map_split _ _ _ _ E) as (ops1 & o1 & ops2 & E' & -> & -> & ->).
      unfold block_walk in C. rewrite E', flat_map_app in C. cbn [flat_map] in C. rewrite !count_app in C.
      rewrite tr_result in R. pose proof (count_in r (walk o1) o1 (walk_self o1) R).
      unfold block_walk. cbn [flat_map b_ops b_id b_args b_term app walk].
      rewrite !flat_map_app. cbn [flat_map walk app]. rewrite !count_app, !count_cons. cbn [result]. change (count r []) with 0.
      unfold empty, projected. destruct (Nat.eq_dec (n + 4) r); [lia|]. destruct (Nat.eq_dec (n + 5) r); [lia|].
      rewrite ?app_nil_r. rewrite ?count_app.
      pose proof (ops_count r ops1 ltac:(apply Forall_forall; intros o _; apply op_count, Rless)).
      pose proof (ops_count r ops2 ltac:(apply Forall_forall; intros o _; apply op_count, Rless)). lia.
    - unfold block_walk. cbn [flat_map b_ops b_id b_args b_term app]. rewrite app_nil_r. apply count0; [exact F| |exact C].
      apply split_not in S. apply Forall_forall. intros o I. rewrite Forall_forall in S. specialize (S (tr o) ltac:(apply in_map, I)).
      rewrite tr_result in S. exact S.
  Qed.
  Lemma blocks_gone bs : Forall (fun b : block => Forall goes (b_ops b)) bs -> count r (flat_map block_walk bs) <= 1 -> count r (flat_map block_walk (tr_blocks ob n bs)) = 0.
  Proof.
    induction 1 as [|b bs H F IH]; [reflexivity|]. unfold tr_blocks in *. cbn [flat_map]. rewrite flat_map_app, !count_app. intros C.
    rewrite (block_gone b H ltac:(lia)), (IH ltac:(lia)). reflexivity.
  Qed.
  Lemma op_gone o : goes o.
  Proof.
    induction o as [o S|r0 c yes no Hy Hn] using op_ind'.
    - intros _ N. destruct o; try contradiction; cbn [walk tr_op]; rewrite count_cons; cbn [result] in *; (destruct (Nat.eq_dec _ r); [congruence|reflexivity]).
    - intros C N. change (count r (OIf r0 c yes no :: flat_map block_walk yes ++ flat_map block_walk no) <= 1) in C.
      change (count r (tr (OIf r0 c yes no) :: flat_map block_walk (tr_blocks ob n yes) ++ flat_map block_walk (tr_blocks ob n no)) = 0).
      rewrite count_cons, count_app in *. change (result (tr (OIf r0 c yes no))) with r0. cbn [result] in *.
      destruct (Nat.eq_dec r0 r); [congruence|]. rewrite (blocks_gone yes Hy), (blocks_gone no Hn) by lia. reflexivity.
  Qed.
  Lemma all_gone bs : count r (flat_map block_walk bs) <= 1 -> forall o, In o (flat_map block_walk (tr_blocks ob n bs)) -> result o <> r.
  Proof.
    intros C o I R. pose proof (count_in r _ o I R) as X. rewrite blocks_gone in X; [lia| |exact C].
    apply Forall_forall. intros b _. apply Forall_forall. intros o' _. apply op_gone.
  Qed.

  (** Other observations stay as they are. *)
  Lemma good_keep ob2 bs : ob_op ob2 < n -> ob_list ob2 <> r -> good_blocks ob2 n bs -> good_blocks ob2 (n + 6) (tr_blocks ob n bs).
  Proof.
    intros L N [A B C D]. constructor.
    - apply all_less, A.
    - intros I. apply B. apply all_bargs; auto.
    - intros o' I R. destruct (all_walk bs o' I) as [(o0 & I0 & ->)|[-> | ->]].
      + rewrite tr_result in R. destruct (C o0 I0 R) as [[-> F]|[-> F]]; cbn [tr_op]; unfold rn; fold r;
          (destruct (Nat.eqb_spec (ob_list ob2) r) as [X|_]; [congruence|]); [left|right]; auto.
      + cbn [result] in R. unfold empty in R. lia.
      + cbn [result] in R. unfold projected in R. lia.
    - pose proof (all_count (ob_op ob2) bs L). lia.
  Qed.
End Keep.

(** ** All observations *)
Definition pair_of (ob : obs) : nat * nat := (ob_op ob, ob_list ob).
Record Inv (n : nat) (m : module) (obs : list obs) : Prop := {
  i_good : forall ob, In ob obs -> ob_list ob < n /\ ob_op ob < n /\ forall g, In g m -> good_blocks ob n g;
  i_nodup : NoDup (List.map ob_op obs);
  i_order : in_order (List.map pair_of obs);
  i_all : forall o, In o (walk_module m) -> observation o <> [] -> In (result o) (List.map ob_op obs)
}.

Lemma in_order_app a r l : in_order (a ++ [(r, l)]) -> in_order a /\ l <> r /\ forall r' l', In (r', l') a -> l' <> r.
Proof.
  induction a as [|[r1 l1] a IH]; cbn [app in_order].
  - intros [H _]. cbn in H. split; [exact I|]. split; [intros ->; auto|]. intros r' l' [].
  - intros [H O]. destruct (IH O) as (O' & N & F). rewrite map_app, !in_app_iff in H || (cbn [In] in H; rewrite map_app, in_app_iff in H). cbn [List.map fst In] in H. split; [|split; [exact N|]].
    + split; [|exact O']. cbn [In]. tauto.
    + intros r' l' [X|X]; [|eauto]. injection X as <- <-. intros ->. apply H. tauto.
Qed.

Section All.
  Variable prim : nat -> list Z -> Z.

  Lemma walk_tr ob n m o' : In o' (walk_module (lower_observation ob n m)) <-> exists g, In g m /\ In o' (flat_map block_walk (tr_blocks ob n g)).
  Proof.
    unfold walk_module, lower_observation. rewrite in_flat_map. split.
    - intros (g' & I & J). apply in_map_iff in I as (g & <- & I). exists g. split; [exact I|exact J].
    - intros (g & I & J). exists (tr_blocks ob n g). split; [apply in_map, I|exact J].
  Qed.

  Lemma lower_all_keeps obs : forall n m, Inv n m obs ->
    refines (mid prim) (mid prim) m (lower_all (rev obs) n m) eq /\
    forall o, In o (walk_module (lower_all (rev obs) n m)) -> observation o = [].
  Proof.
    induction obs as [|ob obs IH] using rev_ind; intros n m [G N O A].
    - cbn [rev lower_all]. split.
      + intros f vs vs' F. apply Forall2_eq in F as <-. split; [|split]; auto. intros v H. exists v. auto.
      + intros o I. destruct (observation o) eqn:E; [reflexivity|]. exfalso. apply (A o I). congruence.
    - rewrite rev_app_distr. cbn [rev app lower_all].
      destruct (G ob ltac:(apply in_app_iff; cbn; auto)) as (Ll & Lr & Gb).
      rewrite map_app in N, O. cbn [List.map] in N, O. destruct (in_order_app _ _ _ O) as (O' & Nl & F).
      apply NoDup_remove in N as [N Nr]. rewrite app_nil_r in N, Nr.
      assert (I2 : Inv (n + 6) (lower_observation ob n m) obs).
      { constructor; auto.
        - intros ob2 I2. destruct (G ob2 ltac:(apply in_app_iff; auto)) as (L2 & R2 & G2). split; [lia|]. split; [lia|].
          intros g' Ig. unfold lower_observation in Ig. apply in_map_iff in Ig as (g & <- & Ig). apply good_keep; auto.
          apply (F (ob_op ob2)). apply in_map_iff. exists ob2. auto.
        - intros o' Io Ho. apply walk_tr in Io as (g & Ig & Io).
          assert (Nr' : result o' <> ob_op ob) by (eapply (all_gone ob n Ll Lr g); [apply (g_count _ _ _ _ _ (Gb g Ig))|exact Io]).
          destruct (all_walk ob n g o' Io) as [(o0 & I0 & ->)|[-> | ->]]; [|cbn in Ho; congruence|cbn in Ho; congruence].
          rewrite tr_result in *.
          assert (Ho0 : observation o0 <> []) by (destruct o0; cbn in Ho |- *; congruence).
          specialize (A o0 ltac:(apply in_flat_map; exists g; split; [exact Ig|exact I0]) Ho0). rewrite map_app, in_app_iff in A.
          destruct A as [A|[A|[]]]; [exact A|congruence]. }
      destruct (IH _ _ I2) as [R1 C1]. split; [|exact C1].
      eapply refines_trans; [|exact R1]. apply refines_two; auto.
  Qed.

  (** ** Well-formed modules *)
  Lemma count_defs x o : count_occ Nat.eq_dec (op_defs o) x = count x (walk o) + count_occ Nat.eq_dec (op_bargs o) x.
  Proof.
    induction o as [o S|r0 c yes no Hy Hn] using op_ind'.
    - destruct o; try contradiction; cbn [op_defs op_bargs walk]; rewrite count_cons; cbn [count_occ]; change (count x []) with 0; destruct (Nat.eq_dec _ x); lia.
    - change (count_occ Nat.eq_dec (r0 :: flat_map block_defs yes ++ flat_map block_defs no) x =
        count x (OIf r0 c yes no :: flat_map block_walk yes ++ flat_map block_walk no) + count_occ Nat.eq_dec (flat_map block_bargs yes ++ flat_map block_bargs no) x).
      assert (Ops : forall ops, Forall (fun o => count_occ Nat.eq_dec (op_defs o) x = count x (walk o) + count_occ Nat.eq_dec (op_bargs o) x) ops ->
        count_occ Nat.eq_dec (flat_map op_defs ops) x = count x (flat_map walk ops) + count_occ Nat.eq_dec (flat_map op_bargs ops) x).
      { induction 1 as [|o ops H F IH]; [reflexivity|]. cbn [flat_map]. rewrite !count_occ_app, count_app. lia. }
      assert (Bs : forall bs, Forall (fun b : block => Forall (fun o => count_occ Nat.eq_dec (op_defs o) x = count x (walk o) + count_occ Nat.eq_dec (op_bargs o) x) (b_ops b)) bs ->
        count_occ Nat.eq_dec (flat_map block_defs bs) x = count x (flat_map block_walk bs) + count_occ Nat.eq_dec (flat_map block_bargs bs) x).
      { induction 1 as [|b bs H F IH]; [reflexivity|]. cbn [flat_map]. unfold block_defs at 1, block_bargs at 1, block_walk at 1.
        rewrite !count_occ_app, count_app, (Ops _ H). lia. }
      rewrite count_cons. cbn [count_occ result]. rewrite !count_occ_app, count_app, (Bs _ Hy), (Bs _ Hn). destruct (Nat.eq_dec r0 x); lia.
  Qed.
  Lemma count_defs_blocks x bs : count_occ Nat.eq_dec (flat_map block_defs bs) x = count x (flat_map block_walk bs) + count_occ Nat.eq_dec (flat_map block_bargs bs) x.
  Proof.
    assert (Ops : forall ops, count_occ Nat.eq_dec (flat_map op_defs ops) x = count x (flat_map walk ops) + count_occ Nat.eq_dec (flat_map op_bargs ops) x).
    { induction ops as [|o ops IH]; [reflexivity|]. cbn [flat_map]. rewrite !count_occ_app, count_app, count_defs. lia. }
    induction bs as [|b bs IH]; [reflexivity|]. cbn [flat_map]. unfold block_defs at 1, block_bargs at 1, block_walk at 1.
    rewrite !count_occ_app, count_app, Ops. lia.
  Qed.
  Lemma count_defs_module x (m : module) : count_occ Nat.eq_dec (module_defs m) x = count x (walk_module m) + count_occ Nat.eq_dec (flat_map (flat_map block_bargs) m) x.
  Proof.
    unfold module_defs, walk_module. induction m as [|g m IH]; [reflexivity|]. cbn [flat_map].
    rewrite !count_occ_app, count_app, count_defs_blocks. change (walk_blocks g) with (flat_map block_walk g). lia.
  Qed.

  Lemma same_op ws : forall o1 o2, In o1 ws -> In o2 ws -> result o1 = result o2 -> count (result o1) ws <= 1 -> o1 = o2.
  Proof.
    induction ws as [|o ws IH]; intros o1 o2 I1 I2 E C; [destruct I1|]. rewrite count_cons in C.
    destruct I1 as [-> | I1], I2 as [-> | I2]; auto.
    - pose proof (count_in (result o1) ws o2 I2 ltac:(auto)). destruct (Nat.eq_dec (result o1) (result o1)); [lia|congruence].
    - pose proof (count_in (result o1) ws o1 I1 ltac:(auto)). rewrite <- E in C. destruct (Nat.eq_dec (result o1) (result o1)); [lia|congruence].
    - apply IH; auto. lia.
  Qed.

  Lemma obs_pairs o : op_obs o = List.map pair_of (flat_map observation (walk o)).
  Proof.
    induction o as [o S|r0 c yes no Hy Hn] using op_ind'.
    - destruct o; try contradiction; reflexivity.
    - assert (Bs : forall bs, Forall (fun b : block => Forall (fun o => op_obs o = List.map pair_of (flat_map observation (walk o))) (b_ops b)) bs ->
        flat_map (fun b : block => flat_map op_obs (b_ops b)) bs = List.map pair_of (flat_map observation (flat_map block_walk bs))).
      { induction 1 as [|b bs H F IH]; [reflexivity|]. cbn [flat_map]. rewrite IH, flat_map_app, map_app. f_equal. unfold block_walk.
        induction H as [|o ops H Fo IHo]; [reflexivity|]. cbn [flat_map]. rewrite IHo, H, flat_map_app, map_app. reflexivity. }
      change (op_obs (OIf r0 c yes no)) with (flat_map (fun b : block => flat_map op_obs (b_ops b)) yes ++ flat_map (fun b : block => flat_map op_obs (b_ops b)) no).
      rewrite (Bs _ Hy), (Bs _ Hn), <- map_app, <- flat_map_app. reflexivity.
  Qed.
  Lemma module_pairs (m : module) : module_obs m = List.map pair_of (observations m).
  Proof.
    unfold module_obs, observations, walk_module. induction m as [|g m IH]; [reflexivity|]. cbn [flat_map]. rewrite IH, flat_map_app, map_app. f_equal.
    unfold walk_blocks. clear. induction g as [|b g IH]; [reflexivity|]. cbn [flat_map]. rewrite IH, flat_map_app, map_app. f_equal.
    induction (b_ops b) as [|o ops IHo]; [reflexivity|]. cbn [flat_map]. rewrite IHo, obs_pairs, flat_map_app, map_app. reflexivity.
  Qed.

  Lemma op_in_names o : forall o', In o' (walk o) -> incl (op_names o') (op_names o).
  Proof.
    induction o as [o S|r0 c yes no Hy Hn] using op_ind'.
    - destruct o; try contradiction; cbn [walk In]; intros o' [<-|[]]; apply incl_refl.
    - assert (Bs : forall bs, Forall (fun b : block => Forall (fun o => forall o', In o' (walk o) -> incl (op_names o') (op_names o)) (b_ops b)) bs ->
        forall o', In o' (flat_map block_walk bs) -> incl (op_names o') (flat_map block_names bs)).
      { intros bs F o' I x J. apply in_flat_map in I as (b & Ib & I). apply in_flat_map in I as (o & Io & I). rewrite Forall_forall in F.
        specialize (F b Ib). rewrite Forall_forall in F. specialize (F o Io o' I x J). apply in_flat_map. exists b. split; [exact Ib|].
        unfold block_names. right. rewrite !in_app_iff. right. left. apply in_flat_map. eauto. }
      intros o' I x J. cbn [walk In] in I. destruct I as [<-|I]; [exact J|]. cbn [op_names]. right. right. apply in_app_iff.
      apply in_app_iff in I as [I|I]; [left; exact (Bs yes Hy o' I x J)|right; exact (Bs no Hn o' I x J)].
  Qed.
  Lemma walk_names (m : module) o : In o (walk_module m) -> incl (op_names o) (module_names m).
  Proof.
    intros I x J. unfold walk_module, walk_blocks in I. apply in_flat_map in I as (g & Ig & I). apply in_flat_map in I as (b & Ib & I).
    apply in_flat_map in I as (o1 & Io & I). unfold module_names. apply in_flat_map. exists g. split; [exact Ig|]. apply in_flat_map. exists b. split; [exact Ib|].
    unfold block_names. right. rewrite !in_app_iff. right. left. apply in_flat_map. exists o1. split; [exact Io|]. apply (op_in_names o1 o I x J).
  Qed.

  Lemma well_formed_inv n m : well_formed n m -> Inv n m (observations m).
  Proof.
    intros (L & N & O).
    assert (C : forall x, count x (walk_module m) + count_occ Nat.eq_dec (flat_map (flat_map block_bargs) m) x <= 1).
    { intros x. rewrite <- count_defs_module. apply (proj1 (NoDup_count_occ Nat.eq_dec _) N). }
    constructor.
    - intros ob I. unfold observations in I. apply in_flat_map in I as (o & Io & I).
      assert (X : result o = ob_op ob /\ is_obs ob o /\ In (ob_list ob) (op_names o)).
      { unfold is_obs. destruct o; cbn in I; try contradiction; destruct I as [<-|[]]; cbn; auto 10. }
      destruct X as (R & Ob & Il).
      assert (Lr : ob_op ob < n) by (apply L, (walk_names m o Io); rewrite <- R; destruct o; cbn; auto).
      split; [apply L, (walk_names m o Io), Il|]. split; [exact Lr|].
      intros g Ig. constructor.
      + intros x J. apply L. apply in_flat_map. eauto.
      + intros J. specialize (C (ob_op ob)). pose proof (count_in (ob_op ob) _ o Io R).
        assert (1 <= count_occ Nat.eq_dec (flat_map (flat_map block_bargs) m) (ob_op ob)) by (apply count_occ_In, in_flat_map; eauto). lia.
      + intros o' J R'. replace o' with o; [exact Ob|]. apply (same_op (walk_module m)); auto; [|congruence|].
        * apply in_flat_map. exists g. split; [exact Ig|exact J].
        * specialize (C (result o)). lia.
      + specialize (C (ob_op ob)). pose proof (count_flat (ob_op ob) walk_blocks m g Ig) as X. change (walk_blocks g) with (flat_map block_walk g) in X.
        unfold walk_module in C. lia.
    - rewrite (NoDup_count_occ Nat.eq_dec). intros x. specialize (C x). unfold observations.
      assert (X : forall ws, count_occ Nat.eq_dec (List.map ob_op (flat_map observation ws)) x <= count x ws).
      { induction ws as [|o ws IH]; [apply Nat.le_refl|]. rewrite count_cons. cbn [flat_map]. rewrite map_app, count_occ_app.
        assert (count_occ Nat.eq_dec (List.map ob_op (observation o)) x <= (if Nat.eq_dec (result o) x then 1 else 0)); [|lia].
        destruct o; cbn [observation List.map count_occ result ob_op]; destruct (Nat.eq_dec _ x); lia. }
      specialize (X (walk_module m)). lia.
    - rewrite <- module_pairs. exact O.
    - intros o I Ho. unfold observations. apply in_map_iff. destruct (observation o) as [|ob rest] eqn:E; [congruence|]. exists ob. split.
      + destruct o; cbn in E; try discriminate; injection E as <- _; reflexivity.
      + apply in_flat_map. exists o. split; [exact I|]. rewrite E. cbn. auto.
  Qed.

  (** ** The pass *)
  Lemma rewrite_walk o : forall o', In o' (walk (rewrite_op o)) -> exists o0, In o0 (walk o) /\ o' = rewrite_op o0.
  Proof.
    induction o as [o S|r0 c yes no Hy Hn] using op_ind'.
    - destruct o; try contradiction; cbn [walk rewrite_op In]; intros o' [<-|[]]; eexists; (split; [left; reflexivity|reflexivity]).
    - assert (Bs : forall bs, Forall (fun b : block => Forall (fun o => forall o', In o' (walk (rewrite_op o)) -> exists o0, In o0 (walk o) /\ o' = rewrite_op o0) (b_ops b)) bs ->
        forall o', In o' (flat_map block_walk (List.map rewrite_block bs)) -> exists o0, In o0 (flat_map block_walk bs) /\ o' = rewrite_op o0).
      { intros bs F o' I. apply in_flat_map in I as (b' & Ib & I). apply in_map_iff in Ib as (b & <- & Ib). unfold block_walk in I. cbn [rewrite_block b_ops] in I.
        apply in_flat_map in I as (o1 & I1 & I). apply in_map_iff in I1 as (o & <- & I1). rewrite Forall_forall in F. specialize (F b Ib).
        rewrite Forall_forall in F. destruct (F o I1 o' I) as (o0 & I0 & E). exists o0. split; [|exact E]. apply in_flat_map. exists b. split; [exact Ib|].
        apply in_flat_map. eauto. }
      intros o' I. cbn [walk rewrite_op In] in I. destruct I as [<-|I]; [exists (OIf r0 c yes no); split; [left; reflexivity|reflexivity]|].
      apply in_app_iff in I as [I|I].
      + destruct (Bs yes Hy o' I) as (o0 & I0 & E). exists o0. split; [|exact E]. cbn [walk]. right. apply in_app_iff. left. exact I0.
      + destruct (Bs no Hn o' I) as (o0 & I0 & E). exists o0. split; [|exact E]. cbn [walk]. right. apply in_app_iff. right. exact I0.
  Qed.
  Lemma rewrite_done (m : module) : (forall o, In o (walk_module m) -> observation o = []) -> existsb is_list_op (walk_module (rewrite_module m)) = false.
  Proof.
    intros H. destruct (existsb is_list_op (walk_module (rewrite_module m))) eqn:E; [|reflexivity]. exfalso. apply existsb_exists in E as (o' & I & T).
    unfold walk_module, rewrite_module, walk_blocks in I. apply in_flat_map in I as (g' & Ig & I). apply in_map_iff in Ig as (g & <- & Ig).
    apply in_flat_map in I as (b' & Ib & I). apply in_map_iff in Ib as (b & <- & Ib). cbn [rewrite_block b_ops] in I.
    apply in_flat_map in I as (o1 & I1 & I). apply in_map_iff in I1 as (o & <- & I1). destruct (rewrite_walk o o' I) as (o0 & I0 & ->).
    assert (X : In o0 (walk_module m)).
    { apply in_flat_map. exists g. split; [exact Ig|]. apply in_flat_map. exists b. split; [exact Ib|]. apply in_flat_map. eauto. }
    specialize (H o0 X). destruct o0; cbn in T, H; discriminate.
  Qed.

  Lemma lower_works n m : well_formed n m ->
    exists m', lower n m = Some m' /\ refines (list_eval prim) (native_eval prim) m m' stands.
  Proof.
    intros W. destruct (lower_all_keeps _ n m (well_formed_inv n m W)) as [R C]. unfold lower, lower_observations.
    pose proof (rewrite_done _ C) as D. rewrite D. eexists. split; [reflexivity|].
    eapply refines_trans; [apply refines_one|]. eapply refines_trans; [exact R|]. apply refines_three. apply lower_clean, D.
  Qed.

  (** No list operation is left, whatever the pass was given. *)
  Lemma free_walk o : (forall o', In o' (walk o) -> is_list_op o' = false) -> list_free o = true.
  Proof.
    induction o as [o S|r0 c yes no Hy Hn] using op_ind'; intros H.
    - specialize (H o (walk_self o)). destruct o; try contradiction; cbn in H |- *; congruence.
    - cbn [list_free]. apply andb_true_iff.
      assert (Bs : forall bs, Forall (fun b : block => Forall (fun o => (forall o', In o' (walk o) -> is_list_op o' = false) -> list_free o = true) (b_ops b)) bs ->
        (forall o', In o' (flat_map block_walk bs) -> is_list_op o' = false) -> forallb (fun b : block => forallb list_free (b_ops b)) bs = true).
      { intros bs F K. apply forallb_forall. intros b Ib. apply forallb_forall. intros o Io. rewrite Forall_forall in F. specialize (F b Ib).
        rewrite Forall_forall in F. apply (F o Io). intros o' J. apply K. apply in_flat_map. exists b. split; [exact Ib|]. apply in_flat_map. eauto. }
      split; [apply (Bs yes Hy)|apply (Bs no Hn)]; intros o' J; apply H; cbn [walk]; right; apply in_app_iff; [left|right]; exact J.
  Qed.
  Lemma lower_none_left n m m' : lower n m = Some m' -> forall g b o, In g m' -> In b g -> In o (b_ops b) -> list_free o = true.
  Proof.
    intros L g b o Ig Ib Io. apply free_walk. intros o' J.
    assert (I : In o' (walk_module m')).
    { apply in_flat_map. exists g. split; [exact Ig|]. apply in_flat_map. exists b. split; [exact Ib|]. apply in_flat_map. eauto. }
    clear J. revert o' I L. clear. intros o I.
    unfold lower. destruct (existsb is_list_op _) eqn:E; [discriminate|]. intros X. injection X as <-.
    destruct (is_list_op o) eqn:T; [|reflexivity]. exfalso. enough (existsb is_list_op (walk_module (rewrite_module (lower_observations n m))) = true) by congruence.
    apply existsb_exists. eauto.
  Qed.
End All.
