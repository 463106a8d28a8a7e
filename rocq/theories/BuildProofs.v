(** Renaming of values and blocks. *)
From Coq Require Import Lia.
From Verif Require Export BuildSpec AliasProofs AliasMain OpTextProofs.
Local Open Scope nat_scope.

Section Induction.
  Variables (P : op -> Prop) (Q : region -> Prop) (R : block -> Prop).
  Hypothesis Hop : forall results d n operands succs attrs rtypes regions, Forall Q regions -> P (Op results d n operands succs attrs rtypes regions).
  Hypothesis Hregion : forall blocks, Forall R blocks -> Q (Region blocks).
  Hypothesis Hblock : forall b args ops, Forall P ops -> R (Block b args ops).
  Fixpoint op_rec_ (o : op) : P o :=
    match o with
    | Op results d n operands succs attrs rtypes regions =>
        Hop results d n operands succs attrs rtypes regions
          ((fix go (l : list region) : Forall Q l := match l with [] => Forall_nil _ | r :: l => Forall_cons _ (region_rec_ r) (go l) end) regions)
    end
  with region_rec_ (r : region) : Q r :=
    match r with
    | Region blocks => Hregion blocks ((fix go (l : list block) : Forall R l := match l with [] => Forall_nil _ | r :: l => Forall_cons _ (block_rec_ r) (go l) end) blocks)
    end
  with block_rec_ (b : block) : R b :=
    match b with
    | Block b args ops => Hblock b args ops ((fix go (l : list op) : Forall P l := match l with [] => Forall_nil _ | r :: l => Forall_cons _ (op_rec_ r) (go l) end) ops)
    end.
  Lemma op_all : (forall o, P o) /\ (forall r, Q r) /\ (forall b, R b).
  Proof. split; [exact op_rec_|]. split; [exact region_rec_|exact block_rec_]. Qed.
End Induction.

Lemma rename_op_eq f g results d n operands succs attrs rtypes regions :
  rename f g (Op results d n operands succs attrs rtypes regions) = Op (map f results) d n (map f operands) (map g succs) attrs rtypes (map (rename_region f g) regions).
Proof. reflexivity. Qed.
Lemma rename_region_eq f g blocks : rename_region f g (Region blocks) = Region (map (rename_block f g) blocks).
Proof. reflexivity. Qed.
Lemma rename_block_eq f g b args ops : rename_block f g (Block b args ops) = Block (g b) (map (fun a => (f (fst a), snd a)) args) (map (rename f g) ops).
Proof. reflexivity. Qed.
Lemma op_values_eq results d n operands succs attrs rtypes regions : op_values (Op results d n operands succs attrs rtypes regions) = results ++ flat_map region_values regions.
Proof. reflexivity. Qed.
Lemma region_values_eq blocks : region_values (Region blocks) = flat_map block_values blocks. Proof. reflexivity. Qed.
Lemma block_values_eq b args ops : block_values (Block b args ops) = map fst args ++ flat_map op_values ops. Proof. reflexivity. Qed.
Lemma op_blocks_eq results d n operands succs attrs rtypes regions : op_blocks (Op results d n operands succs attrs rtypes regions) = flat_map region_blocks regions.
Proof. reflexivity. Qed.
Lemma region_blocks_eq blocks : region_blocks (Region blocks) = flat_map block_blocks blocks. Proof. reflexivity. Qed.
Lemma block_blocks_eq b args ops : block_blocks (Block b args ops) = b :: flat_map op_blocks ops. Proof. reflexivity. Qed.

Lemma flat_map_map_eq {A B C} (h : A -> B) (k : B -> list C) l : flat_map k (map h l) = flat_map (fun x => k (h x)) l.
Proof. induction l; cbn; congruence. Qed.
Lemma map_flat_map_eq {A B C} (h : A -> list B) (k : B -> C) l : map k (flat_map h l) = flat_map (fun x => map k (h x)) l.
Proof. induction l; cbn; auto. rewrite map_app. congruence. Qed.
Lemma flat_map_Forall_ext {A B} (h k : A -> list B) l : Forall (fun x => h x = k x) l -> flat_map h l = flat_map k l.
Proof. induction 1; cbn; congruence. Qed.
Lemma map_Forall_ext {A B} (h k : A -> B) l : Forall (fun x => h x = k x) l -> map h l = map k l.
Proof. induction 1; cbn; congruence. Qed.

Lemma rename_values f g : (forall o, op_values (rename f g o) = map f (op_values o)) /\ (forall r, region_values (rename_region f g r) = map f (region_values r))
  /\ (forall b, block_values (rename_block f g b) = map f (block_values b)).
Proof.
  apply op_all.
  - intros results d n operands succs attrs rtypes regions F. rewrite rename_op_eq, !op_values_eq, map_app, flat_map_map_eq, map_flat_map_eq. f_equal. apply flat_map_Forall_ext. exact F.
  - intros blocks F. rewrite rename_region_eq, !region_values_eq, flat_map_map_eq, map_flat_map_eq. apply flat_map_Forall_ext. exact F.
  - intros b args ops F. rewrite rename_block_eq, !block_values_eq, map_app, flat_map_map_eq, map_flat_map_eq, !map_map. f_equal. apply flat_map_Forall_ext. exact F.
Qed.
Lemma rename_blocks f g : (forall o, op_blocks (rename f g o) = map g (op_blocks o)) /\ (forall r, region_blocks (rename_region f g r) = map g (region_blocks r))
  /\ (forall b, block_blocks (rename_block f g b) = map g (block_blocks b)).
Proof.
  apply op_all.
  - intros results d n operands succs attrs rtypes regions F. rewrite rename_op_eq, !op_blocks_eq, flat_map_map_eq, map_flat_map_eq. apply flat_map_Forall_ext. exact F.
  - intros blocks F. rewrite rename_region_eq, !region_blocks_eq, flat_map_map_eq, map_flat_map_eq. apply flat_map_Forall_ext. exact F.
  - intros b args ops F. rewrite rename_block_eq, !block_blocks_eq, flat_map_map_eq. cbn [map]. f_equal. rewrite map_flat_map_eq. apply flat_map_Forall_ext. exact F.
Qed.
Lemma rename_results f g o : op_results (rename f g o) = map f (op_results o).
Proof. destruct o. reflexivity. Qed.
Lemma rename_rename f g f' g' : (forall o, rename f g (rename f' g' o) = rename (fun x => f (f' x)) (fun x => g (g' x)) o)
  /\ (forall r, rename_region f g (rename_region f' g' r) = rename_region (fun x => f (f' x)) (fun x => g (g' x)) r)
  /\ (forall b, rename_block f g (rename_block f' g' b) = rename_block (fun x => f (f' x)) (fun x => g (g' x)) b).
Proof.
  apply op_all.
  - intros results d n operands succs attrs rtypes regions F. rewrite !rename_op_eq, !map_map. f_equal. apply map_Forall_ext. exact F.
  - intros blocks F. rewrite !rename_region_eq, !map_map. f_equal. apply map_Forall_ext. exact F.
  - intros b args ops F. rewrite !rename_block_eq, !map_map. f_equal. apply map_Forall_ext. exact F.
Qed.
Lemma rename_generic f g : (forall o, generic o -> generic (rename f g o)) /\ (forall r, generic_region r -> generic_region (rename_region f g r))
  /\ (forall b, generic_block b -> generic_block (rename_block f g b)).
Proof.
  apply op_all.
  - intros results d n operands succs attrs rtypes regions F G. inversion G; subst. rewrite rename_op_eq. constructor; auto; [rewrite map_length; assumption|].
    rewrite Forall_map. rewrite Forall_forall in *. auto.
  - intros blocks F G. inversion G; subst. rewrite rename_region_eq. constructor. rewrite Forall_map. rewrite Forall_forall in *. auto.
  - intros b args ops F G. inversion G; subst. rewrite rename_block_eq. constructor; rewrite Forall_map; auto. rewrite Forall_forall in *. auto.
Qed.

Lemma named_rename f g blocks : named_labels (map (rename_block f g) blocks) = map g (named_labels blocks).
Proof.
  assert (E : forall l, map block_name (map (rename_block f g) l) = map g (map block_name l)) by (intros l; rewrite !map_map; apply map_ext; intros []; reflexivity).
  destruct blocks as [|[b [|a args] ops] [|b' l]]; try reflexivity; exact (E (_ :: _ :: l)).
Qed.
Lemma lost_rename f g blocks : not_lost blocks -> not_lost (map (rename_block f g) blocks).
Proof. destruct blocks as [|[b [|a args] [|o ops]] [|b' l]]; cbn; auto. Qed.
Lemma rename_scoped f g :
  (forall o env labs, op_scoped env labs o -> op_scoped (map f env) (map g labs) (rename f g o))
  /\ (forall r env, region_scoped env r -> region_scoped (map f env) (rename_region f g r))
  /\ (forall b env labs, match b with Block b args ops => ops_scoped (map fst args ++ env) labs ops end ->
        match b with Block b args ops => ops_scoped (map fst (map (fun a => (f (fst a), snd a)) args) ++ map f env) (map g labs) (map (rename f g) ops) end).
Proof.
  apply op_all.
  - intros results d n operands succs attrs rtypes regions F env labs S. inversion S; subst. rewrite rename_op_eq. constructor; try (apply incl_map; assumption).
    rewrite Forall_map. rewrite Forall_forall in *. auto.
  - intros blocks F env S. inversion S as [? ? L B]; subst. rewrite rename_region_eq. constructor; [apply lost_rename; exact L|]. rewrite named_rename. clear L S. generalize dependent env. generalize (named_labels blocks).
    induction F as [|[b args ops] l H F IH]; intros labs env B; inversion B as [|? ? ? ? ? ? S1 S2]; subst; [constructor|]. cbn [map rename_block]. constructor; [apply H; exact S1|].
    apply IH in S2. rewrite !map_app in S2. rewrite map_map in S2 |- *. cbn [fst] in *. rewrite flat_map_map_eq. rewrite map_flat_map_eq in S2.
    erewrite flat_map_ext; [exact S2|]. intros x. apply rename_results.
  - intros b args ops F env labs S. rewrite map_map. cbn [fst]. rewrite <- map_map with (f := fst) (g := f). rewrite <- map_app. generalize dependent (map fst args ++ env). clear env.
    induction F as [|o l H F IH]; intros env S; inversion S as [|? ? ? ? S1 S2]; subst; cbn [map]; constructor; [apply H; exact S1|]. apply IH in S2. rewrite map_app in S2. rewrite rename_results. exact S2.
Qed.
Lemma blocks_rename f g labs : forall l env, blocks_scoped env labs l -> blocks_scoped (map f env) (map g labs) (map (rename_block f g) l).
Proof.
  induction l as [|[b args ops] l IH]; intros env B; inversion B as [|? ? ? ? ? ? S1 S2]; subst; [constructor|]. cbn [map rename_block]. constructor; [exact (proj2 (proj2 (rename_scoped f g)) (Block b args ops) env labs S1)|].
  apply IH in S2. rewrite !map_app in S2. rewrite map_map in S2 |- *. cbn [fst] in *. rewrite flat_map_map_eq. rewrite map_flat_map_eq in S2.
  erewrite flat_map_ext; [exact S2|]. intros x. apply rename_results.
Qed.

(** Renamings that agree on what is visible and defined. *)
Definition agree (f f' : N -> N) (l : list N) : Prop := forall x, In x l -> f x = f' x.
Lemma agree_incl f f' l l' : agree f f' l -> incl l' l -> agree f f' l'.
Proof. intros H I x Hx. auto. Qed.
Lemma agree_map f f' l l' : agree f f' l -> incl l' l -> map f l' = map f' l'.
Proof. intros H I. apply map_ext_in. auto. Qed.
Ltac incls := let x := fresh in let I := fresh in intros x I; cbn [In app] in *; repeat rewrite in_app_iff in *; cbn [In] in *; repeat rewrite in_app_iff in *; tauto.
Lemma named_incl blocks : incl (named_labels blocks) (map block_name blocks).
Proof. destruct blocks as [|[b [|a args] ops] [|b' l]]; cbn; try apply incl_refl; intros x []. Qed.
Lemma names_incl blocks : incl (map block_name blocks) (flat_map block_blocks blocks).
Proof. induction blocks as [|[b args ops] l IH]; cbn; [intros x []|]. intros x [<-|I]; [left; reflexivity|]. right. apply in_or_app. right. apply IH. exact I. Qed.
Lemma results_incl ops : incl (flat_map op_results ops) (flat_map op_values ops).
Proof. induction ops as [|[] l IH]; cbn [flat_map]; [intros x []|]. rewrite op_values_eq. cbn [op_results]. intros x I. specialize (IH x). rewrite !in_app_iff in *. tauto. Qed.

Lemma ops_ext f f' g g' labs : forall ops, Forall (fun o => forall env labs, op_scoped env labs o -> agree f f' (env ++ op_values o) -> agree g g' (labs ++ op_blocks o) -> rename f g o = rename f' g' o) ops ->
  forall env, ops_scoped env labs ops -> agree f f' (env ++ flat_map op_values ops) -> agree g g' (labs ++ flat_map op_blocks ops) -> map (rename f g) ops = map (rename f' g') ops.
Proof.
  induction 1 as [|o l H F IH]; intros env S A B; inversion S as [|? ? ? ? S1 S2]; subst; cbn [map]; auto. cbn [flat_map] in *. f_equal.
  - apply (H env labs); auto; eapply agree_incl; eauto; incls.
  - apply (IH (op_results o ++ env)); auto; eapply agree_incl; eauto; [|incls]. destruct o. rewrite op_values_eq. cbn [op_results]. incls.
Qed.
Lemma rename_ext f f' g g' :
  (forall o env labs, op_scoped env labs o -> agree f f' (env ++ op_values o) -> agree g g' (labs ++ op_blocks o) -> rename f g o = rename f' g' o)
  /\ (forall r env, region_scoped env r -> agree f f' (env ++ region_values r) -> agree g g' (region_blocks r) -> rename_region f g r = rename_region f' g' r)
  /\ (forall b env labs, (match b with Block b args ops => ops_scoped (map fst args ++ env) labs ops end) -> agree f f' (env ++ block_values b) -> agree g g' (labs ++ block_blocks b) -> rename_block f g b = rename_block f' g' b).
Proof.
  apply op_all.
  - intros results d n operands succs attrs rtypes regions F env labs S A B. inversion S as [? ? ? ? ? ? ? ? ? ? I1 I2 R]; subst. rewrite op_values_eq in A. rewrite op_blocks_eq in B. rewrite !rename_op_eq. f_equal.
    + apply (agree_map _ _ _ _ A). incls. + apply (agree_map _ _ _ _ A). intros x I. apply in_or_app. auto. + apply (agree_map _ _ _ _ B). intros x I. apply in_or_app. auto.
    + apply map_ext_in. intros r I. rewrite Forall_forall in F, R. apply (F r I env (R r I)); eapply agree_incl; eauto.
      * intros x. rewrite !in_app_iff, !in_flat_map. intros [J|J]; eauto. * intros x. rewrite !in_app_iff, !in_flat_map. eauto.
  - intros blocks F env S A B. inversion S as [? ? L Bs]; subst. rewrite !rename_region_eq. f_equal. rewrite region_values_eq in A. rewrite region_blocks_eq in B. clear L S.
    assert (C : agree g g' (named_labels blocks ++ flat_map block_blocks blocks)). { eapply agree_incl; [exact B|]. intros x. rewrite in_app_iff. intros [I|I]; auto. apply names_incl, named_incl, I. }
    clear B. generalize dependent (named_labels blocks). intros labs Bs C. generalize dependent env. induction F as [|[b args ops] l H F IH]; intros env A S; inversion S as [|? ? ? ? ? ? S1 S2]; subst; cbn [map flat_map] in *; auto. f_equal.
    + apply (H env labs S1); eapply agree_incl; eauto; incls.
    + eapply IH; [| |exact S2]; eapply agree_incl; eauto; [incls|]. rewrite block_values_eq. intros x. pose proof (results_incl ops x). rewrite !in_app_iff. tauto.
  - intros b args ops F env labs S A B. rewrite block_values_eq in A. rewrite block_blocks_eq in B. rewrite !rename_block_eq. f_equal.
    + apply B. rewrite in_app_iff. cbn. auto. + apply map_ext_in. intros [v t] I. cbn. f_equal. apply A. apply (in_map fst) in I. cbn in I. rewrite !in_app_iff. auto.
    + apply (ops_ext f f' g g' labs ops F (map fst args ++ env) S); eapply agree_incl; eauto; incls.
Qed.
Lemma rename_ops_ext f f' g g' labs ops env : ops_scoped env labs ops -> agree f f' (env ++ flat_map op_values ops) -> agree g g' (labs ++ flat_map op_blocks ops) -> map (rename f g) ops = map (rename f' g') ops.
Proof. apply ops_ext. apply Forall_forall. intros o _. apply (proj1 (rename_ext f f' g g')). Qed.
Lemma rename_blocks_ext f f' g g' labs : forall bs env, blocks_scoped env labs bs -> agree f f' (env ++ flat_map block_values bs) -> agree g g' (labs ++ flat_map block_blocks bs) -> map (rename_block f g) bs = map (rename_block f' g') bs.
Proof.
  induction bs as [|[b args ops] l IH]; intros env S A B; inversion S as [|? ? ? ? ? ? S1 S2]; subst; cbn [map flat_map] in *; auto. f_equal.
  - apply (proj2 (proj2 (rename_ext f f' g g')) (Block b args ops) env labs S1); eapply agree_incl; eauto; incls.
  - eapply IH; [exact S2| |]; eapply agree_incl; eauto; [|incls]. rewrite block_values_eq. intros x. pose proof (results_incl ops x). rewrite !in_app_iff. tauto.
Qed.

(** Being printable does not depend on the names of values and blocks. *)
Section Printable.
  Variable alias : ty -> option text.
  Variable finite : N -> bool.
  Variable custom : text -> text -> option (list text -> option text -> parser raw_op).
  Variables f g : N -> N.
  Lemma bare_rename o : bare (rename f g o) <-> bare o.
  Proof. destruct o. rewrite rename_op_eq. unfold bare. assert (E : forall {A B} (h : A -> B) l, map h l = [] <-> l = []) by (intros A B h []; cbn; split; congruence). rewrite !E. tauto. Qed.
  Lemma results_rename o : has_results (rename f g o) <-> has_results o.
  Proof. destruct o. rewrite rename_op_eq. unfold has_results. assert (E : forall {A B} (h : A -> B) l, map h l = [] <-> l = []) by (intros A B h []; cbn; split; congruence). rewrite !E. tauto. Qed.
  Lemma calm_rename ops : calm ops -> calm (map (rename f g) ops).
  Proof.
    induction ops as [|o ops IH]; cbn [map]; auto. intros [H C]. split; [|apply IH; exact C]. destruct ops as [|o' ops]; cbn [map]; auto. rewrite bare_rename, results_rename. exact H.
  Qed.
  Lemma nothing_rename r : nothing_in (rename_region f g r) -> nothing_in r.
  Proof. destruct r as [[|[b [|] [|]] [|]]]; cbn; auto. Qed.
  Lemma rename_ok : (forall o, op_ok alias finite custom o -> op_ok alias finite custom (rename f g o)) /\ (forall r, region_ok alias finite custom r -> region_ok alias finite custom (rename_region f g r))
    /\ (forall b, block_ok alias finite custom b -> block_ok alias finite custom (rename_block f g b)).
  Proof.
    apply op_all.
    - intros results d n operands succs attrs rtypes regions F H. inversion H as [? ? ? ? ? ? ? ? H1 H2 H3 H4 H5 H6 H7 H8 H9|? ? ? ? ? ? H1 H2 H3 H4 H5]; subst; rewrite rename_op_eq.
      + constructor; auto; [rewrite Forall_map; rewrite Forall_forall in *; auto|]. intros r l E K. destruct regions as [|r' l']; cbn in E; [discriminate|]. injection E as <- <-. apply (H9 r' l'); auto using nothing_rename.
      + apply ok_function; auto; [rewrite Forall_map; rewrite Forall_forall in *; auto| |].
        * intros b args l r ps E. destruct regions as [|[[|[b' args' [|]] [|]]] l']; cbn in E; try discriminate. eapply H4; reflexivity.
        * intros l r ps E. destruct regions as [|[[|[b' args' [|]] [|]]] l']; cbn in E; try discriminate. eapply H5; reflexivity.
    - intros blocks F H. inversion H; subst. rewrite rename_region_eq. constructor. rewrite Forall_map. rewrite Forall_forall in *. auto.
    - intros b args ops F H. inversion H; subst. rewrite rename_block_eq. constructor; [rewrite Forall_map; auto| |apply calm_rename; assumption]. rewrite Forall_map. rewrite Forall_forall in *. auto.
  Qed.
End Printable.
