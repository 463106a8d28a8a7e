(** Numbering does not depend on the references. *)
From Coq Require Import Lia.
From Verif Require Export BuildModule.
Local Open Scope nat_scope.

Fixpoint op_uses (o : op) : list N := match o with Op _ _ _ operands _ _ _ regions => operands ++ flat_map region_uses regions end
with region_uses (r : region) : list N := match r with Region blocks => flat_map block_uses blocks end
with block_uses (b : block) : list N := match b with Block _ _ ops => flat_map op_uses ops end.
Fixpoint op_targets (o : op) : list N := match o with Op _ _ _ _ succs _ _ regions => succs ++ flat_map region_targets regions end
with region_targets (r : region) : list N := match r with Region blocks => flat_map block_targets blocks end
with block_targets (b : block) : list N := match b with Block _ _ ops => flat_map op_targets ops end.
Lemma op_uses_eq results d n operands succs attrs rtypes regions : op_uses (Op results d n operands succs attrs rtypes regions) = operands ++ flat_map region_uses regions. Proof. reflexivity. Qed.
Lemma region_uses_eq blocks : region_uses (Region blocks) = flat_map block_uses blocks. Proof. reflexivity. Qed.
Lemma block_uses_eq b args ops : block_uses (Block b args ops) = flat_map op_uses ops. Proof. reflexivity. Qed.
Lemma op_targets_eq results d n operands succs attrs rtypes regions : op_targets (Op results d n operands succs attrs rtypes regions) = succs ++ flat_map region_targets regions. Proof. reflexivity. Qed.
Lemma region_targets_eq blocks : region_targets (Region blocks) = flat_map block_targets blocks. Proof. reflexivity. Qed.
Lemma block_targets_eq b args ops : block_targets (Block b args ops) = flat_map op_targets ops. Proof. reflexivity. Qed.

(** What is used is visible or defined. *)
Lemma uses_visible : (forall o env labs, op_scoped env labs o -> incl (op_uses o) (env ++ op_values o) /\ incl (op_targets o) (labs ++ op_blocks o))
  /\ (forall r env, region_scoped env r -> incl (region_uses r) (env ++ region_values r) /\ incl (region_targets r) (region_blocks r))
  /\ (forall b env labs, (match b with Block b args ops => ops_scoped (map fst args ++ env) labs ops end) -> incl (block_uses b) (env ++ block_values b) /\ incl (block_targets b) (labs ++ block_blocks b)).
Proof.
  apply op_all.
  - intros results d n operands succs attrs rtypes regions F env labs S. inversion S as [? ? ? ? ? ? ? ? ? ? I1 I2 R]; subst. rewrite op_uses_eq, op_targets_eq, op_values_eq, op_blocks_eq. rewrite Forall_forall in *. split; intros x; rewrite !in_app_iff, !in_flat_map.
    + intros [X|(r & Rr & X)]; auto. apply (proj1 (F r Rr env (R r Rr))) in X. apply in_app_or in X as [X|X]; eauto.
    + intros [X|(r & Rr & X)]; auto. apply (proj2 (F r Rr env (R r Rr))) in X. eauto.
  - intros blocks F env S. inversion S as [? ? _ B]; subst. rewrite region_uses_eq, region_targets_eq, region_values_eq, region_blocks_eq.
    assert (K : incl (flat_map block_uses blocks) (env ++ flat_map block_values blocks) /\ incl (flat_map block_targets blocks) (named_labels blocks ++ flat_map block_blocks blocks)).
    { clear S. generalize dependent (named_labels blocks). intros labs. revert env. induction F as [|[b args ops] l H F IH]; intros env S; cbn [flat_map]; [split; intros x []|]. inversion S as [|? ? ? ? ? ? S1 S2]; subst.
      destruct (H env labs S1) as [H1 H2]. destruct (IH _ S2) as [I1 I2]. split; intros x; rewrite !in_app_iff.
      - intros [X|X]; [apply H1 in X; apply in_app_or in X; tauto|]. apply I1 in X. rewrite !in_app_iff in X. rewrite block_values_eq, in_app_iff. pose proof (results_incl ops x). tauto.
      - intros [X|X]; [apply H2 in X; apply in_app_or in X; tauto|]. apply I2 in X. rewrite !in_app_iff in X. tauto. }
    destruct K as [K1 K2]. split; auto. intros x X. apply K2 in X. apply in_app_or in X as [X|X]; auto. apply names_incl, named_incl, X.
  - intros b args ops F env labs S. rewrite block_uses_eq, block_targets_eq, block_values_eq, block_blocks_eq.
    assert (K : forall env, ops_scoped env labs ops -> incl (flat_map op_uses ops) (env ++ flat_map op_values ops) /\ incl (flat_map op_targets ops) (labs ++ flat_map op_blocks ops)).
    { clear S env. induction F as [|o l H F IH]; intros env S; cbn [flat_map]; [split; intros x []|]. inversion S as [|? ? ? ? S1 S2]; subst. destruct (H _ _ S1) as [H1 H2]. destruct (IH _ S2) as [I1 I2]. split; intros x; rewrite !in_app_iff.
      - intros [X|X]; [apply H1 in X; apply in_app_or in X; tauto|]. apply I1 in X. rewrite !in_app_iff in X. pose proof (op_results_incl o x). tauto.
      - intros [X|X]; [apply H2 in X; apply in_app_or in X; tauto|]. apply I2 in X. rewrite !in_app_iff in X. tauto. }
    destruct (K _ S) as [K1 K2]. split; intros x X; [apply K1 in X|apply K2 in X]; rewrite !in_app_iff in *; cbn [In]; tauto.
Qed.

Section Sim.
  Variables (f g : N -> N) (LV LB : list N).
  Hypothesis If : one_to_one f LV.
  Hypothesis Ig : one_to_one g LB.
  Definition keyed (h : N -> N) (l : list (N * N)) : list (N * N) := map (fun e => (h (fst e), snd e)) l.
  Definition moved (st : names) : names := {| vals := keyed f (vals st); blks := keyed g (blks st); next_v := next_v st; next_b := next_b st |}.
  Definition inside_lists (st : names) : Prop := incl (dom (vals st)) LV /\ incl (dom (blks st)) LB.
  Lemma num_keyed h L l x : one_to_one h L -> incl (dom l) L -> In x L -> num (keyed h l) (h x) = num l x.
  Proof.
    intros I Il Ix. induction l as [|[y n] l IH]; auto. unfold keyed in *. cbn [map fst snd]. rewrite !num_cons. rewrite IH by (intros z Z; apply Il; right; exact Z).
    destruct (N.eqb_spec y x) as [->|E]; [rewrite N.eqb_refl; reflexivity|]. destruct (N.eqb_spec (h y) (h x)) as [Q|]; auto. destruct E. apply I; auto. apply Il. left. reflexivity.
  Qed.
  Lemma nums_keyed h L l xs : one_to_one h L -> incl (dom l) L -> incl xs L -> map (num (keyed h l)) (map h xs) = map (num l) xs.
  Proof. intros I Il Ix. rewrite map_map. apply map_ext_in. intros x X. eapply num_keyed; eauto. Qed.
  Lemma assign_moved : forall l st, inside_lists st -> incl l LV -> exists st' ns, assign_values st l = (st', ns) /\ assign_values (moved st) (map f l) = (moved st', ns) /\ inside_lists st'.
  Proof.
    induction l as [|v l IH]; intros st [A B] I; cbn [assign_values assign_value map]; [exists st, []; split; [|split; [|split]]; auto|].
    destruct (IH {| vals := (v, next_v st) :: vals st; blks := blks st; next_v := next_v st + 1; next_b := next_b st |}) as (st' & ns & E1 & E2 & K).
    - split; auto. cbn. intros x [<-|X]; [apply I; left; reflexivity|apply A; exact X].
    - intros x X. apply I. right. exact X.
    - exists st', (next_v st :: ns). rewrite E1. split; [reflexivity|]. split; auto.
      assert (E3 : assign_values {| vals := (f v, next_v st) :: keyed f (vals st); blks := keyed g (blks st); next_v := (next_v st + 1)%N; next_b := next_b st |} (map f l) = (moved st', ns)) by exact E2.
      change (vals (moved st)) with (keyed f (vals st)). change (blks (moved st)) with (keyed g (blks st)). change (next_v (moved st)) with (next_v st). change (next_b (moved st)) with (next_b st). rewrite E3. reflexivity.
  Qed.
  Lemma labels_moved : forall l st, inside_lists st -> incl l LB -> fold_left assign_label (map g l) (moved st) = moved (fold_left assign_label l st) /\ inside_lists (fold_left assign_label l st).
  Proof.
    induction l as [|v l IH]; intros st [A B] I; cbn [fold_left map]; [split; [reflexivity|split; auto]|].
    apply (IH (assign_label st v)).
    - split; auto. cbn. intros x [<-|X]; [apply I; left; reflexivity|apply B; exact X].
    - intros x X. apply I. right. exact X.
  Qed.
  Definition same_names {A} (name : names -> A -> option (names * A)) (re : A -> A) (x : A) (vs us bs ts : list N) : Prop :=
    forall st, inside_lists st -> incl vs LV -> incl us LV -> incl bs LB -> incl ts LB ->
    match name st x with
    | Some (st', y) => name (moved st) (re x) = Some (moved st', y) /\ inside_lists st'
    | None => name (moved st) (re x) = None
    end.
  Lemma thread_same {A} (name : names -> A -> option (names * A)) re (vs us bs ts : A -> list N) : forall l, Forall (fun x => same_names name re x (vs x) (us x) (bs x) (ts x)) l ->
    same_names (thread name) (map re) l (flat_map vs l) (flat_map us l) (flat_map bs l) (flat_map ts l).
  Proof.
    induction 1 as [|x l H F IH]; intros st K I1 I2 I3 I4; cbn [thread map flat_map] in *; [auto|].
    pose proof (H st K (incl_tran (incl_appl _ (incl_refl _)) I1) (incl_tran (incl_appl _ (incl_refl _)) I2) (incl_tran (incl_appl _ (incl_refl _)) I3) (incl_tran (incl_appl _ (incl_refl _)) I4)) as H1.
    destruct (name st x) as [[st1 y]|]; [|rewrite H1; reflexivity]. destruct H1 as [H1 K1]. rewrite H1.
    pose proof (IH st1 K1 (incl_tran (incl_appr _ (incl_refl _)) I1) (incl_tran (incl_appr _ (incl_refl _)) I2) (incl_tran (incl_appr _ (incl_refl _)) I3) (incl_tran (incl_appr _ (incl_refl _)) I4)) as H2.
    destruct (thread name st1 l) as [[st2 l2]|]; [|rewrite H2; reflexivity]. destruct H2 as [H2 K2]. rewrite H2. auto.
  Qed.
  Lemma reset_inside : inside_lists reset. Proof. split; intros x []. Qed.
  Lemma naming_same : (forall o, same_names name_op (rename f g) o (op_values o) (op_uses o) (op_blocks o) (op_targets o))
    /\ (forall r, same_names name_region (rename_region f g) r (region_values r) (region_uses r) (region_blocks r) (region_targets r))
    /\ (forall b, same_names name_block (rename_block f g) b (block_values b) (block_uses b) (block_blocks b) (block_targets b)).
  Proof.
    apply op_all.
    - intros results d n operands succs attrs rtypes regions F st K I1 I2 I3 I4. rewrite op_values_eq in I1. rewrite op_uses_eq in I2. rewrite op_blocks_eq in I3. rewrite op_targets_eq in I4. rewrite rename_op_eq. cbn [name_op].
      apply incl_app_inv in I1 as [I1 I1']. apply incl_app_inv in I2 as [I2 I2']. apply incl_app_inv in I4 as [I4 I4'].
      destruct (is_op d n "func" "func") eqn:NF.
      + destruct regions as [|r [|r' l]]; cbn [map].
        * split; [reflexivity|exact reset_inside].
        * cbn [flat_map] in *. rewrite app_nil_r in *. pose proof (Forall_inv F reset reset_inside I1' I2' I3 I4') as H. change (moved reset) with reset in H.
          destruct (name_region reset r) as [[st1 r1]|]; [|rewrite H; reflexivity]. destruct H as [H H']. rewrite H. auto.
        * reflexivity.
      + destruct (assign_moved results st K I1) as (st1 & ns & E1 & E2 & K1). rewrite E1, E2. destruct K1 as [K1 K2].
        change (vals (moved st1)) with (keyed f (vals st1)). change (blks (moved st1)) with (keyed g (blks st1)). rewrite (nums_keyed f LV _ _ If K1 I2), (nums_keyed g LB _ _ Ig K2 I4).
        destruct (all_some (map (num (vals st1)) operands)); [|reflexivity]. destruct (all_some (map (num (blks st1)) succs)); [|reflexivity].
        pose proof (thread_same name_region (rename_region f g) _ _ _ _ regions F st1 (conj K1 K2) I1' I2' I3 I4') as H. destruct (thread name_region st1 regions) as [[st2 rs]|]; [|rewrite H; reflexivity]. destruct H as [H H']. rewrite H. auto.
    - intros blocks F st K I1 I2 I3 I4. rewrite region_values_eq in I1. rewrite region_uses_eq in I2. rewrite region_blocks_eq in I3. rewrite region_targets_eq in I4. rewrite rename_region_eq. cbn [name_region].
      replace (map block_name (map (rename_block f g) blocks)) with (map g (map block_name blocks)) by (rewrite !map_map; apply map_ext; intros []; reflexivity).
      destruct (labels_moved (map block_name blocks) st K) as [E K1]; [intros x X; apply I3, names_incl, X|]. rewrite E.
      pose proof (thread_same name_block (rename_block f g) _ _ _ _ blocks F _ K1 I1 I2 I3 I4) as H. destruct (thread name_block _ blocks) as [[st2 rs]|]; [|rewrite H; reflexivity]. destruct H as [H H']. rewrite H. auto.
    - intros b args ops F st K I1 I2 I3 I4. rewrite block_values_eq in I1. rewrite block_uses_eq in I2. rewrite block_blocks_eq in I3. rewrite block_targets_eq in I4. rewrite rename_block_eq. cbn [name_block].
      apply incl_app_inv in I1 as [I1 I1']. replace (map fst (map (fun a : N * ty => (f (fst a), snd a)) args)) with (map f (map fst args)) by (rewrite !map_map; reflexivity).
      destruct (assign_moved (map fst args) st K I1) as (st1 & ns & E1 & E2 & K1). rewrite E1, E2. destruct K1 as [K1 K2]. change (blks (moved st1)) with (keyed g (blks st1)).
      rewrite (num_keyed g LB _ _ Ig K2) by (apply I3; left; reflexivity). destruct (num (blks st1) b); [|reflexivity].
      pose proof (thread_same name_op (rename f g) _ _ _ _ ops F st1 (conj K1 K2) I1' I2 (incl_tran (incl_tl _ (incl_refl _)) I3) I4) as H. destruct (thread name_op st1 ops) as [[st2 os]|]; [|rewrite H; reflexivity].
      destruct H as [H H']. rewrite H. rewrite map_map. auto.
  Qed.
End Sim.

Lemma top_uses o : top_level o -> incl (op_uses o) (op_values o) /\ incl (op_targets o) (op_blocks o).
Proof.
  intros T. inversion T as [d n operands succs attrs rtypes regions G S|attrs r ps P So Sy Ty_|attrs blocks P So Sy Ty_ En G S]; subst.
  - exact (proj1 uses_visible _ _ _ S).
  - split; intros x [].
  - rewrite op_uses_eq, op_targets_eq, op_values_eq, op_blocks_eq. cbn [flat_map app]. rewrite !app_nil_r, region_uses_eq, region_targets_eq, region_values_eq, region_blocks_eq.
    assert (K : forall env labs l, blocks_scoped env labs l -> incl (flat_map block_uses l) (env ++ flat_map block_values l) /\ incl (flat_map block_targets l) (labs ++ flat_map block_blocks l)).
    { intros env labs l. revert env. induction l as [|[b args ops] l IH]; intros env S'; cbn [flat_map]; [split; intros x []|]. inversion S' as [|? ? ? ? ? ? S1 S2]; subst.
      destruct (proj2 (proj2 uses_visible) (Block b args ops) env labs S1) as [H1 H2]. destruct (IH _ S2) as [I1 I2]. split; intros x; rewrite !in_app_iff.
      - intros [X|X]; [apply H1 in X; apply in_app_or in X; tauto|]. apply I1 in X. rewrite !in_app_iff in X. rewrite block_values_eq, in_app_iff. pose proof (results_incl ops x). tauto.
      - intros [X|X]; [apply H2 in X; apply in_app_or in X; tauto|]. apply I2 in X. rewrite !in_app_iff in X. tauto. }
    destruct (K _ _ _ S) as [K1 K2]. split; auto. intros x X. apply K2 in X. apply in_app_or in X as [X|X]; auto. apply names_incl, X.
Qed.
Lemma stable ops ops' : Forall top_level ops -> isomorphic ops ops' -> name_module ops' = name_module ops.
Proof.
  intros T (f & g & If & Ig & ->). unfold name_module. f_equal. rewrite map_map. apply map_ext_in. intros o I. rewrite Forall_forall in T. destruct (top_uses o (T o I)) as [U1 U2].
  assert (Jf : one_to_one f (op_values o)) by (intros x y X Y; apply If; apply in_flat_map; eauto). assert (Jg : one_to_one g (op_blocks o)) by (intros x y X Y; apply Ig; apply in_flat_map; eauto).
  pose proof (proj1 (naming_same f g (op_values o) (op_blocks o) Jf Jg) o reset (reset_inside _ _) (incl_refl _) U1 (incl_refl _) U2) as H. change (moved f g reset) with reset in H.
  destruct (name_op reset o) as [[st' on]|]; [destruct H as [H _]|]; rewrite H; reflexivity.
Qed.
