(** What emulation keeps: scope, arity, terminators. *)
From Coq Require Import Lia.
From Verif Require Export InlineProofs.
Local Open Scope N_scope.

Fixpoint after (vis : list N) (ops : list op) : list N := match ops with [] => vis | o :: l => after (op_results o ++ vis) l end.
Lemma after_app vis a b : after vis (a ++ b) = after (after vis a) b.
Proof. revert vis. induction a; intros; cbn; auto. Qed.
Lemma after_incl vis ops : incl vis (after vis ops).
Proof. revert vis. induction ops as [|o l IH]; intros vis x H; cbn; auto. apply IH. apply in_or_app. auto. Qed.
Lemma scoped_app vis a b : scoped vis a -> scoped (after vis a) b -> scoped vis (a ++ b).
Proof. intros H. induction H; cbn; intros K; auto. constructor; auto. Qed.
Lemma scoped_split vis a b : scoped vis (a ++ b) -> scoped vis a /\ scoped (after vis a) b.
Proof. revert vis. induction a as [|o a IH]; intros vis H; cbn in *; [split; [constructor|auto]|]. inversion H; subst. match goal with K : scoped _ (a ++ b) |- _ => apply IH in K as [] end. split; auto. constructor; auto. Qed.

Lemma split_last_app {A} (l : list A) x : split_last (l ++ [x]) = Some (l, x).
Proof. induction l as [|y l IH]; auto. cbn. rewrite IH. reflexivity. Qed.
Lemma split_last_some {A} (l : list A) i x : split_last l = Some (i, x) -> l = i ++ [x].
Proof. revert i x. induction l as [|y l IH]; cbn; intros i x H; [discriminate|]. destruct (split_last l) as [[j z]|] eqn:E; injection H as <- <-; [cbn; f_equal; auto|]. destruct l as [|w l]; auto. cbn in E. destruct (split_last l) as [[]|]; discriminate. Qed.
Lemma last_cases {A} (l : list A) : l = [] \/ exists i x, l = i ++ [x].
Proof. destruct l as [|x l] using rev_ind; eauto. Qed.

Lemma nodup_app {A} (a b : list A) : NoDup (a ++ b) <-> NoDup a /\ NoDup b /\ forall x, In x a -> ~ In x b.
Proof.
  induction a as [|x a IH]; cbn [app]; [split; [intros H; repeat split; auto; constructor|tauto]|]. rewrite !NoDup_cons_iff, IH, in_app_iff. split.
  - intros (H1 & H2 & H3 & H4). repeat split; auto. intros y [<-|I]; auto.
  - intros ((H1 & H2) & H3 & H4). repeat split; auto; [|intros y I; apply H4; right; auto]. intros [I|I]; [auto|]. eapply H4; [left; reflexivity|exact I].
Qed.
(** Conjunctions over lists. *)
Lemma all_Forall {A} (P : A -> Prop) l : fold_right and True (map P l) <-> Forall P l.
Proof. induction l as [|x l IH]; cbn; [split; auto|]. rewrite IH. split; [intros []; auto|intros H; inversion H; auto]. Qed.
Lemma arity_op rets f rs k xs rg : arity rets f (Op rs k xs rg) <->
  match k with Call g => List.length rs = rets g | TailCall g => rs = [] /\ rets g = rets f | Return => List.length xs = rets f | Constant _ => List.length rs = 1%nat | Other _ => True end /\ Forall (region_arity rets f) rg.
Proof. rewrite <- all_Forall. reflexivity. Qed.
Lemma arity_region rets f bs : region_arity rets f (Region bs) <-> Forall (block_arity rets f) bs.
Proof. rewrite <- all_Forall. reflexivity. Qed.
Lemma arity_block rets f args ops : block_arity rets f (Block args ops) <-> Forall (arity rets f) ops.
Proof. rewrite <- all_Forall. reflexivity. Qed.
Lemma arity_single rets f args ops : region_arity rets f (Region [Block args ops]) <-> Forall (arity rets f) ops.
Proof. rewrite arity_region, <- (arity_block _ _ args). split; [intros H; inversion H; auto|intros; constructor; auto]. Qed.

Definition quiets (k : list kind) : Prop := existsb returning k = false.
Lemma quiets_app a b : quiets (a ++ b) <-> quiets a /\ quiets b.
Proof. apply existsb_app_false. Qed.
Lemma quiets_flat {A} (f : A -> list kind) l : quiets (flat_map f l) <-> Forall (fun x => quiets (f x)) l.
Proof. induction l as [|x l IH]; cbn; [split; [constructor|reflexivity]|]. rewrite quiets_app, IH. split; [intros []; auto|intros H; inversion H; auto]. Qed.
Lemma op_kinds_eq rs k xs rg : op_kinds (Op rs k xs rg) = k :: flat_map region_kinds rg. Proof. reflexivity. Qed.
Lemma region_kinds_eq bs : region_kinds (Region bs) = flat_map block_kinds bs. Proof. reflexivity. Qed.
Lemma block_kinds_eq args ops : block_kinds (Block args ops) = flat_map op_kinds ops. Proof. reflexivity. Qed.
(** Where nothing returns, arity does not depend on the function. *)
Lemma arity_quiet rets f g : (forall o, quiets (op_kinds o) -> arity rets f o -> arity rets g o) /\ (forall r, quiets (region_kinds r) -> region_arity rets f r -> region_arity rets g r) /\ (forall b, quiets (block_kinds b) -> block_arity rets f b -> block_arity rets g b).
Proof.
  apply op_all.
  - intros rs k xs rg IH Q H. rewrite arity_op in *. rewrite op_kinds_eq in Q. destruct (proj1 (quiets_app [k] _) Q) as [Q1 Q2]. apply quiets_flat in Q2. destruct H as [H1 H2]. split.
    + destruct k; cbn in Q1; try discriminate; auto.
    + rewrite Forall_forall in *. auto.
  - intros bs IH Q H. rewrite arity_region in *. rewrite region_kinds_eq, quiets_flat in Q. rewrite Forall_forall in *. auto.
  - intros args ops IH Q H. rewrite arity_block in *. rewrite block_kinds_eq, quiets_flat in Q. rewrite Forall_forall in *. auto.
Qed.
Lemma straight_quiet leaves o : straight leaves o -> quiets (op_kinds o).
Proof. destruct o as [rs k xs rg]. intros (R & _ & Q). cbn [op_kinds]. unfold quiets. cbn [existsb]. rewrite R. exact Q. Qed.

Section Keep.
  Variables (leaves : N -> bool) (rets : N -> nat) (next : N) (p : list func).
  Hypothesis Hp : valid leaves rets next p.
  Notation emu := (emu leaves p).
  Notation emu_regions := (emu_regions leaves p).
  Lemma lookup_in f x : lookup p f = Some x -> In x p /\ name x = f.
  Proof. unfold lookup. intros H. apply find_some in H as [H E]. apply N.eqb_eq in E. auto. Qed.
  Lemma inlinable_valid g params body ys : inlinable p g params body ys ->
    NoDup params /\ scoped params body /\ incl ys (after params body) /\ List.length ys = rets g /\ Forall (straight leaves) body /\ (forall f, Forall (arity rets f) body) /\
    NoDup (params ++ flat_map op_defs body) /\ (forall x, In x (params ++ flat_map op_defs body) -> x < next).
  Proof.
    intros (rs & rg & B). unfold body_of in B. destruct (lookup p g) as [x|] eqn:L; [|discriminate]. apply lookup_in in L as [I <-]. destruct Hp as [_ F]. rewrite Forall_forall in F. specialize (F x I). destruct F as [[O|(ps & ops & O)] S D A R E].
    { rewrite O in B. discriminate. } rewrite O in *. injection B as -> ->. cbn [flat_map region_defs block_defs app] in *. rewrite !app_nil_r in *. rewrite flat_map_app in *. cbn [flat_map op_defs] in *.
    specialize (E _ _ eq_refl). unfold ends_well in E. rewrite split_last_app in E. destruct E as [_ E]. specialize (E eq_refl).
    inversion S as [|? ? S1 _]; subst. inversion S1; subst. rewrite app_nil_r in *. apply scoped_split in H1 as [S2 S3]. inversion S3; subst.
    inversion R as [|? ? R1 _]; subst. rewrite arity_single, Forall_app in R1. destruct R1 as [R1 R2]. inversion R2 as [|? ? R3 _]; subst. rewrite arity_op in R3. destruct R3 as [R3 _].
    split; [apply nodup_app in D; tauto|]. split; [exact S2|]. split; [assumption|]. split; [exact R3|]. split; [exact E|]. split.
    { intros f. rewrite Forall_forall in *. intros o Io. eapply arity_quiet; [eapply straight_quiet; eauto|eauto]. }
    rewrite app_assoc in D. split; [apply nodup_app in D; tauto|]. intros y Hy. apply A. rewrite app_assoc. apply in_or_app. auto.
  Qed.

  Lemma related_incl rho xs xs' vis : related rho xs xs' -> (forall x x', In (x, x') rho -> In x' vis) -> incl xs' vis.
  Proof. intros H K. induction H; intros z; cbn; [tauto|]. intros [<-|I]; [eauto|auto]. Qed.
  Lemma combine_targets {A} (rs : list A) (rs' : list N) rho vis : (forall x x', In (x, x') rho -> In x' vis) -> forall x x', In (x, x') (combine rs rs' ++ rho) -> In x' (rs' ++ vis).
  Proof. intros K x x' I. apply in_or_app. apply in_app_or in I as [I|I]; [left; eapply in_combine_r; eauto|right; eauto]. Qed.
  Lemma emu_scoped :
    (forall rho ops ops' rho', emu rho ops ops' rho' -> forall vis, (forall x x', In (x, x') rho -> In x' vis) -> scoped vis ops' /\ forall x x', In (x, x') rho' -> In x' (after vis ops')) /\
    (forall rho rg rg', emu_regions rho rg rg' -> forall vis, (forall x x', In (x, x') rho -> In x' vis) -> Forall (region_scoped vis) rg').
  Proof.
    apply emu_all.
    - intros rho vis K. split; [constructor|exact K].
    - intros rho rs rs' k xs xs' rg rg' l l' rho' X _ IHr Nw _ IHl vis K. destruct (IHl (rs' ++ vis)) as [S1 S2]; [apply combine_targets; exact K|]. split; [constructor; auto; eapply related_incl; eauto|exact S2].
    - intros rho rs g xs xs' rg l params body ys pre rho1 zs l' rho' Hi Dp Lp X _ IHb Z Lr St Cl Dr Or _ IHl vis K.
      destruct (IHb vis) as [S1 S2]; [intros x x' I; apply in_combine_r in I; exact (related_incl _ _ _ _ X K _ I)|]. destruct (IHl (after vis pre)) as [S3 S4].
      { intros x x' I. apply in_app_or in I as [I|I]; [apply in_combine_r in I; exact (related_incl _ _ _ _ Z S2 _ I)|apply after_incl; eauto]. }
      split; [apply scoped_app; auto|rewrite after_app; exact S4].
    - intros rho rs g xs xs' rg l params body ys pre rho1 zs l' rho' Hi Dp Lp X _ IHb Z St Cl Er _ IHl vis K.
      destruct (IHb vis) as [S1 S2]; [intros x x' I; apply in_combine_r in I; exact (related_incl _ _ _ _ X K _ I)|]. destruct (IHl (after vis pre)) as [S3 S4]; [intros x x' I; apply after_incl; eauto|].
      split; [apply scoped_app; auto; constructor; auto; eapply related_incl; eauto|rewrite after_app; exact S4].
    - constructor.
    - intros rho ps ps' ops ops' rho1 l l' Nw _ IHo _ IHl vis K. constructor; auto. constructor. apply IHo. apply combine_targets. exact K.
  Qed.
  Lemma emu_quiet :
    (forall rho ops ops' rho', emu rho ops ops' rho' -> quiets (flat_map op_kinds ops) -> quiets (flat_map op_kinds ops')) /\
    (forall rho rg rg', emu_regions rho rg rg' -> quiets (flat_map region_kinds rg) -> quiets (flat_map region_kinds rg')).
  Proof.
    apply emu_all; auto.
    - intros rho rs rs' k xs xs' rg rg' l l' rho' X _ IHr Nw _ IHl Q. cbn [flat_map] in *. rewrite op_kinds_eq in *. apply quiets_app in Q as [Q1 Q2]. apply (quiets_app [k]) in Q1 as [Q0 Q1]. apply quiets_app. split; auto. apply (quiets_app [k]). auto.
    - intros rho rs g xs xs' rg l params body ys pre rho1 zs l' rho' Hi Dp Lp X _ IHb Z Lr St Cl Dr Or _ IHl Q. rewrite flat_map_app. cbn [flat_map] in Q. apply quiets_app in Q as [Q1 Q2]. apply quiets_app. split; auto. apply IHb. apply quiets_flat. eapply Forall_impl; [|exact St]. apply straight_quiet.
    - intros rho rs g xs xs' rg l params body ys pre rho1 zs l' rho' Hi Dp Lp X _ IHb Z St Cl Er _ IHl Q. discriminate.
    - intros rho ps ps' ops ops' rho1 l l' Nw _ IHo _ IHl Q. cbn [flat_map] in *. rewrite region_kinds_eq in *. cbn [flat_map] in *. rewrite block_kinds_eq in *. rewrite app_nil_r in *. apply quiets_app in Q as []. apply quiets_app. auto.
  Qed.
  Lemma emu_straight : forall rho ops ops' rho', emu rho ops ops' rho' -> Forall (straight leaves) ops -> Forall (straight leaves) ops'.
  Proof.
    refine (emu_rec leaves p (fun rho ops ops' rho' => Forall (straight leaves) ops -> Forall (straight leaves) ops') (fun _ _ _ => True) _ _ _ _ _ _); auto.
    - intros rho rs rs' k xs xs' rg rg' l l' rho' X Er _ Nw _ IHl F. apply Forall_cons_iff in F as [(R & L & Q) F]. constructor; auto. split; auto. split; auto. eapply emu_quiet; eauto.
    - intros rho rs g xs xs' rg l params body ys pre rho1 zs l' rho' Hi Dp Lp X _ IHb Z Lr St Cl Dr Or _ IHl F. apply Forall_cons_iff in F as [_ F]. apply Forall_app. auto.
    - intros rho rs g xs xs' rg l params body ys pre rho1 zs l' rho' Hi Dp Lp X _ IHb Z St Cl Er _ IHl F. apply Forall_cons_iff in F as [(R & _) F]. discriminate.
  Qed.
  Lemma emu_arity f :
    (forall rho ops ops' rho', emu rho ops ops' rho' -> Forall (arity rets f) ops -> Forall (arity rets f) ops') /\
    (forall rho rg rg', emu_regions rho rg rg' -> Forall (region_arity rets f) rg -> Forall (region_arity rets f) rg').
  Proof.
    apply emu_all; auto.
    - intros rho rs rs' k xs xs' rg rg' l l' rho' X _ IHr (Ln & _) _ IHl F. inversion F as [|? ? H1 H2]; subst. constructor; auto. rewrite arity_op in *. destruct H1 as [H1 H3]. split; auto. pose proof (related_in _ _ _ X). destruct k; try congruence.
      destruct H1 as [-> H1]. destruct rs'; [auto|discriminate].
    - intros rho rs g xs xs' rg l params body ys pre rho1 zs l' rho' Hi Dp Lp X _ IHb Z Lr St Cl Dr Or _ IHl F. inversion F; subst. apply Forall_app. split; auto. apply IHb. eapply inlinable_valid; eauto.
    - intros rho rs g xs xs' rg l params body ys pre rho1 zs l' rho' Hi Dp Lp X _ IHb Z St Cl Er _ IHl F. inversion F as [|? ? H1 H2]; subst. rewrite arity_op in H1. destruct H1 as [[_ H1] _]. apply Forall_app. split; [apply IHb; eapply inlinable_valid; eauto|].
      constructor; auto. apply arity_op. split; auto. rewrite <- (related_in _ _ _ Z), <- H1. apply inlinable_valid in Hi. tauto.
    - intros rho ps ps' ops ops' rho1 l l' Nw _ IHo _ IHl F. inversion F as [|? ? H1 H2]; subst. constructor; auto. rewrite arity_single in *. auto.
  Qed.
  Definition calm (o : op) : Prop := match o with Op _ k _ _ => returning k = false end.
  Lemma straight_calm o : straight leaves o -> calm o.
  Proof. destruct o. intros []. auto. Qed.
  Lemma calm_end ops : Forall calm ops -> ends_well leaves ops.
  Proof.
    intros F. unfold ends_well. destruct (split_last ops) as [[i [rs k xs rg]]|] eqn:E; auto. apply split_last_some in E. subst. apply Forall_app in F as [F1 F2]. inversion F2; subst. cbn in H1. split; [exact F1|]. rewrite H1. discriminate.
  Qed.
  Lemma straight_end ops o : Forall (straight leaves) ops -> ends_well leaves (ops ++ [o]).
  Proof. intros F. unfold ends_well. rewrite split_last_app. destruct o. split; [|auto]. eapply Forall_impl; [|exact F]. intros. apply straight_calm. auto. Qed.
  Lemma emu_calm : forall rho ops ops' rho', emu rho ops ops' rho' -> Forall calm ops -> Forall calm ops'.
  Proof.
    refine (emu_rec leaves p (fun rho ops ops' rho' => Forall calm ops -> Forall calm ops') (fun _ _ _ => True) _ _ _ _ _ _); auto.
    - intros rho rs rs' k xs xs' rg rg' l l' rho' X Er _ Nw _ IHl F. inversion F; subst. constructor; auto.
    - intros rho rs g xs xs' rg l params body ys pre rho1 zs l' rho' Hi Dp Lp X _ IHb Z Lr St Cl Dr Or _ IHl F. inversion F; subst. apply Forall_app. split; auto. apply IHb. eapply Forall_impl; [|exact St]. intros. apply straight_calm. auto.
    - intros rho rs g xs xs' rg l params body ys pre rho1 zs l' rho' Hi Dp Lp X _ IHb Z St Cl Er _ IHl F. inversion F; subst. discriminate.
  Qed.
  (** Splitting the source. *)
  Lemma emu_app rho a b c rho' : emu rho (a ++ b) c rho' -> exists a' b' rho1, c = a' ++ b' /\ emu rho a a' rho1 /\ emu rho1 b b' rho'.
  Proof.
    revert rho c. induction a as [|o a IH]; intros rho c H; cbn [app] in H; [exists [], c, rho; split; [reflexivity|split; [constructor|exact H]]|]. inversion H; subst;
      match goal with K : emu _ (a ++ b) _ _ |- _ => apply IH in K as (a' & b' & rho2 & -> & K1 & K2) end.
    - exists (Op rs' k xs' rg' :: a'), b', rho2. split; [reflexivity|]. split; [econstructor; eauto|exact K2].
    - exists (pre ++ a'), b', rho2. split; [apply app_assoc|]. split; [eapply emu_call; eauto|exact K2].
    - exists (pre ++ Op [] Return zs [] :: a'), b', rho2. split; [rewrite <- app_assoc; reflexivity|]. split; [eapply emu_tail; eauto|exact K2].
  Qed.
  Lemma emu_ends rho ops ops' rho' : emu rho ops ops' rho' -> ends_well leaves ops -> ends_well leaves ops'.
  Proof.
    intros H E. destruct (last_cases ops) as [->|(i & [rs k xs rg] & ->)]; [inversion H; subst; constructor|]. unfold ends_well in E. rewrite split_last_app in E. destruct E as [E1 E2].
    apply emu_app in H as (a' & b' & rho1 & -> & H1 & H2). pose proof (emu_calm _ _ _ _ H1 E1) as C1. inversion H2; subst.
    - match goal with K : emu _ [] _ _ |- _ => inversion K; subst end. unfold ends_well. rewrite split_last_app. split; auto. intros R. eapply emu_straight; eauto.
    - match goal with K : emu _ [] _ _ |- _ => inversion K; subst end. rewrite app_nil_r. apply calm_end. apply Forall_app. split; auto. eapply Forall_impl; [intros; apply straight_calm; eassumption|]. eapply emu_straight; eauto.
    - match goal with K : emu _ [] l' _ |- _ => inversion K; subst end. rewrite app_assoc. apply straight_end. apply Forall_app. split; [eapply emu_straight; [exact H1|auto]|eapply emu_straight; eauto].
  Qed.
End Keep.
