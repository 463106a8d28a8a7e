(** A relation between operations and what they become, and that it preserves behaviour. *)
From Coq Require Import Lia.
From Verif Require Export InlineSpec.
Local Open Scope N_scope.

Section Op_ind.
  Variables (P : op -> Prop) (Q : region -> Prop) (R : block -> Prop).
  Hypothesis HP : forall results k operands regions, Forall Q regions -> P (Op results k operands regions).
  Hypothesis HQ : forall blocks, Forall R blocks -> Q (Region blocks).
  Hypothesis HR : forall args ops, Forall P ops -> R (Block args ops).
  Fixpoint op_rec_ (o : op) : P o :=
    match o with Op results k operands regions => HP results k operands regions ((fix go l : Forall Q l := match l with [] => Forall_nil _ | r :: l => Forall_cons _ (region_rec_ r) (go l) end) regions) end
  with region_rec_ (r : region) : Q r :=
    match r with Region blocks => HQ blocks ((fix go l : Forall R l := match l with [] => Forall_nil _ | b :: l => Forall_cons _ (block_rec_ b) (go l) end) blocks) end
  with block_rec_ (b : block) : R b :=
    match b with Block args ops => HR args ops ((fix go l : Forall P l := match l with [] => Forall_nil _ | o :: l => Forall_cons _ (op_rec_ o) (go l) end) ops) end.
  Lemma op_all : (forall o, P o) /\ (forall r, Q r) /\ (forall b, R b).
  Proof. split; [exact op_rec_|split; [exact region_rec_|exact block_rec_]]. Qed.
End Op_ind.

Definition related (rho : list (N * N)) (xs xs' : list N) : Prop := Forall2 (fun x x' => In (x, x') rho) xs xs'.
Definition new (rho : list (N * N)) (rs rs' : list N) : Prop :=
  List.length rs = List.length rs' /\ NoDup rs /\ NoDup rs' /\ forall x x', In (x, x') rho -> ~ In x rs /\ ~ In x' rs'.
Definition inlinable (p : list func) (g : N) (params : list N) (body : list op) (ys : list N) : Prop :=
  exists rs rg, body_of p g = Some (Region [Block params (body ++ [Op rs Return ys rg])]).

Section Emulation.
  Variable leaves : N -> bool.
  Variable p : list func.
  Inductive emu : list (N * N) -> list op -> list op -> list (N * N) -> Prop :=
  | emu_nil rho : emu rho [] [] rho
  | emu_op rho rs rs' k xs xs' rg rg' l l' rho' : related rho xs xs' -> emu_regions rho rg rg' -> new rho rs rs' -> emu (combine rs rs' ++ rho) l l' rho' ->
      emu rho (Op rs k xs rg :: l) (Op rs' k xs' rg' :: l') rho'
  | emu_call rho rs g xs xs' rg l params body ys pre rho1 zs l' rho' :
      inlinable p g params body ys -> NoDup params -> List.length params = List.length xs -> related rho xs xs' -> emu (combine params xs') body pre rho1 -> related rho1 ys zs ->
      List.length rs = List.length ys -> Forall (straight leaves) body -> (forall x x', In (x, x') rho -> ~ In x' (flat_map op_results pre)) -> NoDup rs ->
      (forall x x', In (x, x') rho -> ~ In x rs) -> emu (combine rs zs ++ rho) l l' rho' ->
      emu rho (Op rs (Call g) xs rg :: l) (pre ++ l') rho'
  | emu_tail rho rs g xs xs' rg l params body ys pre rho1 zs l' rho' :
      inlinable p g params body ys -> NoDup params -> List.length params = List.length xs -> related rho xs xs' -> emu (combine params xs') body pre rho1 -> related rho1 ys zs ->
      Forall (straight leaves) body -> (forall x x', In (x, x') rho -> ~ In x' (flat_map op_results pre)) -> rs = [] -> emu rho l l' rho' ->
      emu rho (Op rs (TailCall g) xs rg :: l) (pre ++ Op [] Return zs [] :: l') rho'
  with emu_regions : list (N * N) -> list region -> list region -> Prop :=
  | emu_none rho : emu_regions rho [] []
  | emu_region rho ps ps' ops ops' rho1 l l' : new rho ps ps' -> emu (combine ps ps' ++ rho) ops ops' rho1 -> emu_regions rho l l' ->
      emu_regions rho (Region [Block ps ops] :: l) (Region [Block ps' ops'] :: l').
  Scheme emu_rec := Minimality for emu Sort Prop with emu_regions_rec := Minimality for emu_regions Sort Prop.
  Combined Scheme emu_all from emu_rec, emu_regions_rec.
End Emulation.

Section Sim.
  Context {V M : Type}.
  Variable act : N -> list V -> list (list V) -> M -> action V M.
  Variable leaves : N -> bool.
  Variable fval : N -> V.
  Variable external : N -> list V -> M -> list V -> M -> Prop.
  Notation run := (run act leaves fval).
  Notation steps := (steps act leaves fval).
  Notation env := (env V).
  Definition agree (rho : list (N * N)) (e e' : env) : Prop := forall x x', In (x, x') rho -> exists v, value e x = Some v /\ value e' x' = Some v.

  Lemma value_cons y v (e : env) x : value ((y, v) :: e) x = if y =? x then Some v else value e x.
  Proof. unfold value. cbn [find fst]. destruct (y =? x); reflexivity. Qed.
  Lemma values_related rho e e' xs xs' : agree rho e e' -> related rho xs xs' -> values e xs = values e' xs'.
  Proof. intros A R. induction R as [|x x' xs xs' H R IH]; auto. cbn. destruct (A _ _ H) as (v & -> & ->). rewrite IH. reflexivity. Qed.
  Lemma values_defined rho e e' xs xs' : agree rho e e' -> related rho xs xs' -> exists vs, values e xs = Some vs /\ values e' xs' = Some vs.
  Proof. intros A R. induction R as [|x x' xs xs' H R (vs & IH & IH')]; [exists []; auto|]. cbn. destruct (A _ _ H) as (v & -> & ->). rewrite IH, IH'. eauto. Qed.
  Lemma value_out rs (vs : list V) e x : ~ In x rs -> value (bind rs vs e) x = value e x.
  Proof.
    revert vs. induction rs as [|r rs IH]; intros vs H; [reflexivity|]. destruct vs as [|v vs]; [reflexivity|]. unfold bind in *. cbn [combine app]. rewrite value_cons, IH by (intros I; apply H; right; exact I).
    destruct (N.eqb_spec r x) as [->|]; auto. destruct H. left. reflexivity.
  Qed.
  Lemma values_length (e : env) xs vs : values e xs = Some vs -> List.length xs = List.length vs.
  Proof. revert vs. induction xs as [|x xs IH]; intros vs H; cbn in H; [injection H as <-; reflexivity|]. destruct (value e x), (values e xs); try discriminate. injection H as <-. cbn. f_equal. auto. Qed.
  (** Binding related names to the same values. *)
  Lemma bind_agree rho rs rs' (vs : list V) e e' : agree rho e e' -> new rho rs rs' -> List.length rs = List.length vs -> agree (combine rs rs' ++ rho) (bind rs vs e) (bind rs' vs e').
  Proof.
    intros A (L & D & D' & O) Lv x x' I. apply in_app_or in I as [I|I].
    - clear O. revert rs' vs L Lv D D' I. induction rs as [|r rs IH]; intros [|r' rs'] [|v vs] L Lv D D' I; cbn in *; try tauto; try discriminate. unfold bind in *. cbn [combine app]. rewrite !value_cons.
      inversion D; subst. inversion D'; subst. destruct I as [[= <- <-]|I]; [rewrite !N.eqb_refl; eauto|].
      pose proof (in_combine_l _ _ _ _ I). pose proof (in_combine_r _ _ _ _ I). destruct (N.eqb_spec r x); [subst; tauto|]. destruct (N.eqb_spec r' x'); [subst; tauto|]. apply IH; auto.
    - destruct (O x x' I). rewrite !value_out by auto. auto.
  Qed.
  (** Binding names on the left that stand for values known on the right. *)
  Lemma bind_left rho rs zs (ws : list V) e e' : agree rho e e' -> NoDup rs -> (forall x x', In (x, x') rho -> ~ In x rs) -> values e' zs = Some ws -> agree (combine rs zs ++ rho) (bind rs ws e) e'.
  Proof.
    intros A D O Z x x' I. apply in_app_or in I as [I|I].
    - clear O A. revert zs ws D Z I. induction rs as [|r rs IH]; intros [|z zs] ws D Z I; cbn in *; try tauto. destruct (value e' z) eqn:Ez; [|discriminate]. destruct (values e' zs) eqn:Ezs; [|discriminate]. injection Z as <-.
      inversion D; subst. unfold bind in *. cbn [combine app]. rewrite value_cons. destruct I as [[= <- <-]|I]; [rewrite N.eqb_refl; eauto|]. pose proof (in_combine_l _ _ _ _ I). destruct (N.eqb_spec r x); [subst; tauto|]. eapply IH; eauto.
    - rewrite value_out by eauto. auto.
  Qed.
  Lemma params_agree params xs' (vs : list V) e' : NoDup params -> List.length params = List.length xs' -> values e' xs' = Some vs -> agree (combine params xs') (bind params vs []) e'.
  Proof. intros D L H. rewrite <- (app_nil_r (combine params xs')). apply bind_left; auto; intros x x' []. Qed.

  Definition same (rho : list (N * N)) (o o' : outcome V M) : Prop :=
    match o, o' with
    | Through e m, Through e' m' => m = m' /\ agree rho e e'
    | Left_ vs m, Left_ vs' m' => vs = vs' /\ m = m'
    | Returned vs m, Returned vs' m' => vs = vs' /\ m = m'
    | _, _ => False
    end.

  Lemma run_app C e m a b o : run C e m (a ++ b) o -> (exists e1 m1, run C e m a (Through e1 m1) /\ run C e1 m1 b o) \/ (run C e m a o /\ forall e1 m1, o <> Through e1 m1).
  Proof.
    revert e m. induction a as [|x a IH]; intros e m H; cbn [app] in H; [left; exists e, m; split; [constructor|exact H]|].
    inversion H; subst; try (right; split; [econstructor; eassumption|intros; discriminate]).
    - match goal with K : run _ _ _ (a ++ b) _ |- _ => destruct (IH _ _ K) as [(e1 & m1 & K1 & K2)|(K1 & K2)] end; [left; exists e1, m1; split; [econstructor; eassumption|exact K2]|right; split; [econstructor; eassumption|exact K2]].
    - match goal with K : run _ _ _ (a ++ b) _ |- _ => destruct (IH _ _ K) as [(e1 & m1 & K1 & K2)|(K1 & K2)] end; [left; exists e1, m1; split; [econstructor; eassumption|exact K2]|right; split; [econstructor; eassumption|exact K2]].
    - match goal with K : run _ _ _ (a ++ b) _ |- _ => destruct (IH _ _ K) as [(e1 & m1 & K1 & K2)|(K1 & K2)] end; [left; exists e1, m1; split; [econstructor; eassumption|exact K2]|right; split; [econstructor; eassumption|exact K2]].
  Qed.
  Lemma run_before C a b : forall e m e1 m1 o, run C e m a (Through e1 m1) -> run C e1 m1 b o -> run C e m (a ++ b) o.
  Proof.
    induction a as [|x a IH]; intros e m e1 m1 o H K; cbn [app]; inversion H; subst; auto.
    - eapply run_call; eauto.
    - eapply run_constant; eauto.
    - eapply run_other; eauto.
  Qed.
  Lemma run_frame C a : forall e m e1 m1, run C e m a (Through e1 m1) -> forall x, ~ In x (flat_map op_results a) -> value e1 x = value e x.
  Proof.
    induction a as [|o a IH]; intros e m e1 m1 H x I; cbn [flat_map] in I; inversion H; subst; auto; rewrite in_app_iff in I; cbn [op_results] in I.
    - erewrite IH by eauto. apply value_out. tauto.
    - erewrite IH by eauto. apply value_out. tauto.
    - erewrite IH by eauto. apply value_out. tauto.
  Qed.

  (** No returns in regions without them. *)
  Definition quiet (ops : list op) : Prop := existsb returning (flat_map op_kinds ops) = false.
  Lemma existsb_app_false {A} (f : A -> bool) a b : existsb f (a ++ b) = false <-> existsb f a = false /\ existsb f b = false.
  Proof. rewrite existsb_app, orb_false_iff. reflexivity. Qed.
  Lemma quiet_region rg i params ops : existsb returning (flat_map region_kinds rg) = false -> nth_error rg i = Some (Region [Block params ops]) -> quiet ops.
  Proof.
    intros E I. apply nth_error_In in I. unfold quiet. apply Bool.not_true_is_false. intros T. apply existsb_exists in T as (k & K & R).
    assert (existsb returning (flat_map region_kinds rg) = true); [|congruence]. apply existsb_exists. exists k. split; auto. apply in_flat_map. exists (Region [Block params ops]). split; auto. cbn. rewrite app_nil_r. exact K.
  Qed.
  Scheme run_min := Minimality for InlineSpec.run Sort Prop with steps_min := Minimality for InlineSpec.steps Sort Prop.
  Combined Scheme run_all from run_min, steps_min.
  Lemma quiet_steps C : forall e rg k vs h m o, steps C e rg k vs h m o -> existsb returning (flat_map region_kinds rg) = false -> forall ws m', o <> Exits ws m'.
  Proof.
    intros e rg k vs h m o H.
    refine (steps_min V M act leaves fval C (fun e m ops o => quiet ops -> forall ws m', o <> Returned ws m') (fun e rg k vs h m o => existsb returning (flat_map region_kinds rg) = false -> forall ws m', o <> Exits ws m')
      _ _ _ _ _ _ _ _ _ _ _ _ _ e rg k vs h m o H); clear; unfold quiet; cbn [flat_map op_kinds app existsb returning]; intros; try discriminate;
      repeat match goal with Q : (_ || _)%bool = false |- _ => apply orb_false_iff in Q as [? Q] | Q : existsb _ (_ ++ _) = false |- _ => apply existsb_app_false in Q as [? Q] end; eauto.
    - intros _. match goal with K : _ -> forall ws m', Exits _ _ <> _ |- _ => eapply K; eauto end.
    - intros _. match goal with K : _ -> forall ws m', Returned _ _ <> _ |- _ => eapply K; eauto; eapply quiet_region; eauto end.
  Qed.
  Lemma stays C e rg k vs h m o : steps C e rg k vs h m o -> leaves k = false -> forall ws m', o <> Leaves ws m'.
  Proof. induction 1; intros; try discriminate; eauto. congruence. Qed.
  Lemma straight_through C body : Forall (straight leaves) body -> forall e m o, run C e m body o -> exists e1 m1, o = Through e1 m1.
  Proof.
    induction 1 as [|x l H F IH]; intros e m o R; inversion R; subst; eauto; cbn in H; try (destruct H; discriminate).
    - destruct H as (_ & K & _). exfalso. eapply stays; eauto.
    - destruct H as (_ & _ & K). exfalso. eapply quiet_steps; eauto.
  Qed.

  (** ** Runs with more calls *)
  Definition within (C C' : N -> list V -> M -> list V -> M -> Prop) : Prop := forall f vs m ws m', C f vs m ws m' -> C' f vs m ws m'.
  Lemma mono C C' : within C C' -> (forall e m ops o, run C e m ops o -> run C' e m ops o) /\ (forall e rg k vs h m o, steps C e rg k vs h m o -> steps C' e rg k vs h m o).
  Proof.
    intros W. apply run_all; intros.
    - apply run_nil.
    - apply run_return; auto.
    - eapply run_tail; eauto.
    - eapply run_call; eauto.
    - eapply run_constant; eauto.
    - eapply run_other; eauto.
    - eapply run_leave; eauto.
    - eapply run_exit; eauto.
    - eapply step_finish; eauto.
    - eapply step_leave; eauto.
    - eapply step_run; eauto.
    - eapply step_exit; eauto.
    - eapply step_invoke; eauto.
  Qed.
  Lemma run_mono C C' e m ops o : within C C' -> run C e m ops o -> run C' e m ops o.
  Proof. intros W. apply mono. exact W. Qed.
  Lemma steps_mono C C' e rg k vs h m o : within C C' -> steps C e rg k vs h m o -> steps C' e rg k vs h m o.
  Proof. intros W. apply mono. exact W. Qed.
  Notation call_at := (call_at act leaves fval external).
  Notation returns := (returns act leaves fval external).
  Lemma call_up p n : within (call_at p n) (call_at p (S n)).
  Proof.
    induction n as [|n IH]; intros f vs m ws m' H; [destruct H|]. cbn [InlineSpec.call_at] in H |- *. destruct (body_of p f) as [[[|[params ops] [|]]]|]; auto. destruct H as [L R]. split; auto. eapply run_mono; [|exact R]. exact IH.
  Qed.
  Lemma call_mono p n n' : (n <= n')%nat -> within (call_at p n) (call_at p n').
  Proof. induction 1 as [|n' L IH]; intros f vs m ws m' H; auto. apply call_up. apply IH. exact H. Qed.
  (** A run with calls of any depth is one with calls of some depth. *)
  Lemma depth_all p : (forall e m ops o, run (returns p) e m ops o -> exists n, run (call_at p n) e m ops o) /\ (forall e rg k vs h m o, steps (returns p) e rg k vs h m o -> exists n, steps (call_at p n) e rg k vs h m o).
  Proof.
    apply run_all; intros; repeat match goal with K : returns _ _ _ _ _ _ |- _ => destruct K as [? K] | K : exists n, _ |- _ => destruct K as [? K] end.
    - exists O. apply run_nil.
    - exists O. apply run_return; auto.
    - eexists. eapply run_tail; eauto.
    - exists (max x0 x). eapply run_call; eauto; [eapply call_mono; [|eassumption]; lia|eapply run_mono; [|eassumption]; apply call_mono; lia].
    - eexists. eapply run_constant; eauto.
    - exists (max x0 x). eapply run_other; eauto; [eapply steps_mono; [|eassumption]; apply call_mono; lia|eapply run_mono; [|eassumption]; apply call_mono; lia].
    - eexists. eapply run_leave; eauto.
    - eexists. eapply run_exit; eauto.
    - exists O. eapply step_finish; eauto.
    - exists O. eapply step_leave; eauto.
    - exists (max x0 x). eapply step_run; eauto; [eapply run_mono; [|eassumption]; apply call_mono; lia|eapply steps_mono; [|eassumption]; apply call_mono; lia].
    - eexists. eapply step_exit; eauto.
    - exists (max x0 x). eapply step_invoke; eauto; [eapply call_mono; [|eassumption]; lia|eapply steps_mono; [|eassumption]; apply call_mono; lia].
  Qed.
  Lemma run_depth p e m ops o : run (returns p) e m ops o -> exists n, run (call_at p n) e m ops o.
  Proof. apply depth_all. Qed.

  (** Regions that do the same. *)
  Lemma steps_sim C C' e e' rg rg' : within C C' ->
    (forall i params ops, nth_error rg i = Some (Region [Block params ops]) -> exists params' ops', nth_error rg' i = Some (Region [Block params' ops']) /\ List.length params = List.length params' /\
       forall args m ws m2, List.length params = List.length args ->
         (run C (bind params args e) m ops (Left_ ws m2) -> run C' (bind params' args e') m ops' (Left_ ws m2)) /\ (run C (bind params args e) m ops (Returned ws m2) -> run C' (bind params' args e') m ops' (Returned ws m2))) ->
    forall k vs h m o, steps C e rg k vs h m o -> steps C' e' rg' k vs h m o.
  Proof.
    intros W F k vs h m o H. induction H.
    - eapply step_finish; eauto.
    - eapply step_leave; eauto.
    - match goal with K : nth_error _ _ = _ |- _ => destruct (F _ _ _ K) as (params' & ops' & N1 & L & R) end. eapply step_run; eauto; [congruence|]. eapply R; eauto.
    - match goal with K : nth_error _ _ = _ |- _ => destruct (F _ _ _ K) as (params' & ops' & N1 & L & R) end. eapply step_exit; eauto; [congruence|]. eapply R; eauto.
    - eapply step_invoke; eauto.
  Qed.

  Section Module.
    Variable p : list func.
    Notation emu := (emu leaves p).
    Notation emu_regions := (emu_regions leaves p).
    Lemma related_in rho xs xs' : related rho xs xs' -> List.length xs = List.length xs'.
    Proof. induction 1; cbn; auto. Qed.
    Lemma agree_frame rho e e' e1' l : agree rho e e' -> (forall x x', In (x, x') rho -> ~ In x' l) -> (forall x, ~ In x l -> value e1' x = value e' x) -> agree rho e e1'.
    Proof. intros A O F x x' I. destruct (A _ _ I) as (v & E1 & E2). exists v. rewrite F by eauto. auto. Qed.

    Definition regions_sim (rho : list (N * N)) (C C' : N -> list V -> M -> list V -> M -> Prop) (flip : bool) (rg rg' : list region) : Prop :=
      forall e e', agree rho e e' -> forall i params ops, nth_error (if flip then rg' else rg) i = Some (Region [Block params ops]) -> exists params' ops', nth_error (if flip then rg else rg') i = Some (Region [Block params' ops']) /\ List.length params = List.length params' /\
       forall args m ws m2, List.length params = List.length args ->
         (run C (bind params args (if flip then e' else e)) m ops (Left_ ws m2) -> run C' (bind params' args (if flip then e else e')) m ops' (Left_ ws m2)) /\ (run C (bind params args (if flip then e' else e)) m ops (Returned ws m2) -> run C' (bind params' args (if flip then e else e')) m ops' (Returned ws m2)).

    (** What the operations do, their replacements do. *)
    Lemma forward : 
      (forall rho ops ops' rho', emu rho ops ops' rho' -> forall n C', within (call_at p n) C' -> forall e e' m o, agree rho e e' -> run (call_at p n) e m ops o -> exists o', run C' e' m ops' o' /\ same rho' o o') /\
      (forall rho rg rg', emu_regions rho rg rg' -> forall n C', within (call_at p n) C' -> regions_sim rho (call_at p n) C' false rg rg').
    Proof.
      apply emu_all.
      - intros rho n C' W e e' m o A R. inversion R; subst. exists (Through e' m). split; [constructor|]. split; auto.
      - intros rho rs rs' k xs xs' rg rg' l l' rho' X _ IHr Nw _ IHl n C' W e e' m o A R. pose proof (values_related _ _ _ _ _ A X) as Ev. pose proof Nw as (Ln & _).
        inversion R; subst; match goal with K : values e xs = _ |- _ => rewrite Ev in K | _ => idtac end.
        + eexists. split; [eapply run_return; eauto|]. split; auto.
        + eexists. split; [eapply run_tail; eauto|]. split; auto.
        + match goal with K : run _ (bind _ _ _) _ l _ |- _ => eapply IHl in K as (o' & K & S); [|exact W|apply bind_agree; eassumption] end. exists o'. split; auto. eapply run_call; eauto. congruence.
        + destruct rs' as [|r' [|]]; try discriminate. match goal with K : run _ (bind _ _ _) _ l _ |- _ => eapply IHl in K as (o' & K & S); [|exact W|apply bind_agree; [eassumption|exact Nw|reflexivity]] end. exists o'. split; auto. eapply run_constant; eauto.
        + match goal with K : run _ (bind _ _ _) _ l _ |- _ => eapply IHl in K as (o' & K & S); [|exact W|apply bind_agree; eassumption] end. exists o'. split; auto. eapply run_other; eauto; [|congruence].
          eapply steps_sim; [exact W|exact (IHr n C' W e e' A)|eassumption].
        + eexists. split; [eapply run_leave; eauto; eapply steps_sim; [exact W|exact (IHr n C' W e e' A)|eassumption]|split; auto].
        + eexists. split; [eapply run_exit; eauto; eapply steps_sim; [exact W|exact (IHr n C' W e e' A)|eassumption]|split; auto].
      - intros rho rs g xs xs' rg l params body ys pre rho1 zs l' rho' Hi Dp Lp X _ IHb Z Lr St Cl Dr Or _ IHl n C' W e e' m o A R. inversion R; subst.
        match goal with K : values e xs = _ |- _ => pose proof K as Ev; rewrite (values_related _ _ _ _ _ A X) in Ev end.
        match goal with K : call_at p n g _ _ _ _ |- _ => rename K into Ca end. destruct n as [|n]; [destruct Ca|]. destruct Hi as (rs0 & rg0 & Bo). cbn [InlineSpec.call_at] in Ca. rewrite Bo in Ca. destruct Ca as [La Ra].
        apply run_app in Ra as [(e1 & m1 & R1 & R2)|(R1 & No)].
        2: { eapply straight_through in R1 as (? & ? & ?); [exfalso; eapply No; eauto|exact St]. }
        inversion R2; subst.
        eapply (IHb n C') in R1 as (o1 & R1 & S1); [|intros f ? ? ? ? K; apply W, call_up, K|apply params_agree; [exact Dp|rewrite Lp; eapply related_in; eauto|exact Ev]].
        destruct o1 as [e1' m1'| |]; try destruct S1. subst m1'.
        match goal with K : values e1 ys = _ |- _ => rewrite (values_related _ _ _ _ _ H0 Z) in K; rename K into Ez end.
        assert (A1 : agree rho e e1') by (eapply agree_frame; [exact A|exact Cl|eapply run_frame; eauto]).
        match goal with K : run _ (bind _ _ _) _ l _ |- _ => eapply IHl in K as (o' & K & S); [|exact W|apply bind_left; [exact A1|exact Dr|exact Or|exact Ez]] end.
        exists o'. split; auto. eapply run_before; eauto.
      - intros rho rs g xs xs' rg l params body ys pre rho1 zs l' rho' Hi Dp Lp X _ IHb Z St _ _ _ _ n C' W e e' m o A R. inversion R; subst.
        match goal with K : values e xs = _ |- _ => pose proof K as Ev; rewrite (values_related _ _ _ _ _ A X) in Ev end.
        match goal with K : call_at p n g _ _ _ _ |- _ => rename K into Ca end. destruct n as [|n]; [destruct Ca|]. destruct Hi as (rs0 & rg0 & Bo). cbn [InlineSpec.call_at] in Ca. rewrite Bo in Ca. destruct Ca as [La Ra].
        apply run_app in Ra as [(e1 & m1 & R1 & R2)|(R1 & No)].
        2: { eapply straight_through in R1 as (? & ? & ?); [exfalso; eapply No; eauto|exact St]. }
        inversion R2; subst.
        eapply (IHb n C') in R1 as (o1 & R1 & S1); [|intros f ? ? ? ? K; apply W, call_up, K|apply params_agree; [exact Dp|rewrite Lp; eapply related_in; eauto|exact Ev]].
        destruct o1 as [e1' m1'| |]; try destruct S1. subst m1'.
        match goal with K : values e1 ys = _ |- _ => rewrite (values_related _ _ _ _ _ H0 Z) in K; rename K into Ez end.
        eexists. split; [eapply run_before; [exact R1|]; eapply run_return; eauto|]. split; auto.
      - intros rho n C' W e e' A [|i] params ops H; discriminate.
      - intros rho ps ps' ops ops' rho1 l l' Nw _ IHo _ IHl n C' W e e' A [|i] params ops1 H; cbn in H.
        + injection H as <- <-. exists ps', ops'. pose proof Nw as (Ln & _). repeat split; auto.
          * intros R. eapply IHo in R as (o' & R & S); [|exact W|apply bind_agree; [exact A|exact Nw|assumption]]. destruct o'; try destruct S. subst. exact R.
          * intros R. eapply IHo in R as (o' & R & S); [|exact W|apply bind_agree; [exact A|exact Nw|assumption]]. destruct o'; try destruct S. subst. exact R.
        + exact (IHl n C' W e e' A i params ops1 H).
    Qed.

    (** And the other way round. *)
    Lemma backward :
      (forall rho ops ops' rho', emu rho ops ops' rho' -> forall C', within C' (returns p) -> forall e e' m o', agree rho e e' -> run C' e' m ops' o' -> exists o, run (returns p) e m ops o /\ same rho' o o') /\
      (forall rho rg rg', emu_regions rho rg rg' -> forall C', within C' (returns p) -> regions_sim rho C' (returns p) true rg rg').
    Proof.
      apply emu_all.
      - intros rho C' W e e' m o A R. inversion R; subst. exists (Through e m). split; [constructor|]. split; auto.
      - intros rho rs rs' k xs xs' rg rg' l l' rho' X _ IHr Nw _ IHl C' W e e' m o A R. pose proof (values_related _ _ _ _ _ A X) as Ev. pose proof Nw as (Ln & _).
        inversion R; subst; match goal with K : values e' xs' = _ |- _ => rewrite <- Ev in K | _ => idtac end.
        + eexists. split; [eapply run_return; eauto|]. split; auto.
        + eexists. split; [eapply run_tail; eauto|]. split; auto.
        + match goal with K : run _ (bind _ _ _) _ l' _ |- _ => eapply IHl in K as (o' & K & S); [|exact W|apply bind_agree; [eassumption|eassumption|congruence]] end. exists o'. split; auto. eapply run_call; eauto. congruence.
        + destruct rs as [|r1 [|]]; try discriminate. match goal with K : run _ (bind _ _ _) _ l' _ |- _ => eapply IHl in K as (o' & K & S); [|exact W|apply bind_agree; [eassumption|exact Nw|reflexivity]] end. exists o'. split; auto. eapply run_constant; eauto.
        + match goal with K : run _ (bind _ _ _) _ l' _ |- _ => eapply IHl in K as (o' & K & S); [|exact W|apply bind_agree; [eassumption|eassumption|congruence]] end. exists o'. split; auto. eapply run_other; eauto; [|congruence].
          eapply steps_sim; [exact W|exact (IHr C' W e e' A)|eassumption].
        + eexists. split; [eapply run_leave; eauto; eapply steps_sim; [exact W|exact (IHr C' W e e' A)|eassumption]|split; auto].
        + eexists. split; [eapply run_exit; eauto; eapply steps_sim; [exact W|exact (IHr C' W e e' A)|eassumption]|split; auto].
      - intros rho rs g xs xs' rg l params body ys pre rho1 zs l' rho' Hi Dp Lp X _ IHb Z Lr St Cl Dr Or _ IHl C' W e e' m o' A R.
        destruct (values_defined _ _ _ _ _ A X) as (vs & E1 & E2). destruct Hi as (rs0 & rg0 & Bo).
        assert (Ap : agree (combine params xs') (bind params vs []) e') by (apply params_agree; [exact Dp|rewrite Lp; eapply related_in; eauto|exact E2]).
        assert (Lv : List.length params = List.length vs) by (rewrite Lp; eapply values_length; eauto).
        apply run_app in R as [(e1' & m1 & R1 & R2)|(R1 & No)].
        2: { pose proof R1 as R3. eapply (IHb C') in R3 as (o1 & R3 & S1); [|exact W|exact Ap]. destruct (straight_through _ _ St _ _ _ R3) as (? & ? & ->). destruct o'; try destruct S1. exfalso. eapply No; eauto. }
        pose proof (run_frame _ _ _ _ _ _ R1) as Fr.
        eapply (IHb C') in R1 as (o1 & R1 & S1); [|exact W|exact Ap]. destruct o1 as [e1 m1'| |]; try destruct S1. subst m1'.
        destruct (values_defined _ _ _ _ _ H0 Z) as (ws & Y1 & Y2).
        assert (A1 : agree rho e e1') by (eapply agree_frame; [exact A|exact Cl|exact Fr]).
        eapply IHl in R2 as (o & R2 & Sm); [|exact W|apply bind_left; [exact A1|exact Dr|exact Or|exact Y2]].
        exists o. split; auto. eapply run_call; [exact E1| |rewrite Lr; eapply values_length; eauto|exact R2].
        destruct (run_depth _ _ _ _ _ R1) as (n & Rn). exists (S n). cbn [InlineSpec.call_at]. rewrite Bo. split; auto. eapply run_before; [exact Rn|]. apply run_return. exact Y1.
      - intros rho rs g xs xs' rg l params body ys pre rho1 zs l' rho' Hi Dp Lp X _ IHb Z St _ _ _ _ C' W e e' m o' A R.
        destruct (values_defined _ _ _ _ _ A X) as (vs & E1 & E2). destruct Hi as (rs0 & rg0 & Bo).
        assert (Ap : agree (combine params xs') (bind params vs []) e') by (apply params_agree; [exact Dp|rewrite Lp; eapply related_in; eauto|exact E2]).
        assert (Lv : List.length params = List.length vs) by (rewrite Lp; eapply values_length; eauto).
        apply run_app in R as [(e1' & m1 & R1 & R2)|(R1 & No)].
        2: { pose proof R1 as R3. eapply (IHb C') in R3 as (o1 & R3 & S1); [|exact W|exact Ap]. destruct (straight_through _ _ St _ _ _ R3) as (? & ? & ->). destruct o'; try destruct S1. exfalso. eapply No; eauto. }
        eapply (IHb C') in R1 as (o1 & R1 & S1); [|exact W|exact Ap]. destruct o1 as [e1 m1'| |]; try destruct S1. subst m1'.
        destruct (values_defined _ _ _ _ _ H0 Z) as (ws & Y1 & Y2). inversion R2; subst. assert (vs0 = ws) by congruence. subst vs0.
        eexists. split; [eapply run_tail; [exact E1|]|split; reflexivity].
        destruct (run_depth _ _ _ _ _ R1) as (n & Rn). exists (S n). cbn [InlineSpec.call_at]. rewrite Bo. split; auto. eapply run_before; [exact Rn|]. apply run_return. exact Y1.
      - intros rho C' W e e' A [|i] params ops H; discriminate.
      - intros rho ps ps' ops ops' rho1 l l' Nw _ IHo _ IHl C' W e e' A [|i] params ops1 H; cbn in H.
        + injection H as <- <-. exists ps, ops. pose proof Nw as (Ln & _). repeat split; auto.
          * intros R. eapply IHo in R as (o' & R & S); [|exact W|apply bind_agree; [exact A|exact Nw|congruence]]. destruct o'; try destruct S. subst. exact R.
          * intros R. eapply IHo in R as (o' & R & S); [|exact W|apply bind_agree; [exact A|exact Nw|congruence]]. destruct o'; try destruct S. subst. exact R.
        + exact (IHl C' W e e' A i params ops1 H).
    Qed.

    (** ** Modules *)
    (** A module whose bodies emulate those of [p] has the same calls. *)
    Variable p' : list func.
    Definition body_emulated (f : N) : Prop :=
      match body_of p f, body_of p' f with
      | None, None => True
      | Some r, Some r' => r = r' \/ emu_regions [] [r] [r']
      | _, _ => False
      end.
    Lemma same_calls : (forall f, body_emulated f) -> forall f vs m ws m', returns p f vs m ws m' <-> returns p' f vs m ws m'.
    Proof.
      intros B f vs m ws m'. split; intros [n H].
      - exists n. revert f vs m ws m' H. induction n as [|n IH]; intros f vs m ws m' H; [destruct H|]. specialize (B f). unfold body_emulated in B. cbn [InlineSpec.call_at] in H |- *.
        destruct (body_of p f) as [r|], (body_of p' f) as [r'|]; try contradiction; auto. destruct B as [<-|B].
        + destruct r as [[|[params ops] [|]]]; auto. destruct H as [L R]. split; auto. eapply run_mono; [|exact R]. exact IH.
        + destruct (proj2 forward _ _ _ B n (call_at p' n) IH [] [] (fun x x' I => match I with end) O) with (params := match r with Region [Block ps _] => ps | _ => [] end) (ops := match r with Region [Block _ os] => os | _ => [] end) as (params' & ops' & E & L & Sm);
            inversion B; subst; cbn [nth_error] in *; auto. injection E as <- <-. destruct H as [L1 R]. split; [congruence|]. eapply Sm; eauto.
      - revert f vs m ws m' H. induction n as [|n IH]; intros f vs m ws m' H; [destruct H|]. specialize (B f). unfold body_emulated in B. cbn [InlineSpec.call_at] in H |- *.
        destruct (body_of p f) as [r|] eqn:Ep, (body_of p' f) as [r'|]; try contradiction; [|exists 1%nat; cbn [InlineSpec.call_at]; rewrite Ep; exact H]. destruct B as [<-|B].
        + destruct r as [[|[params ops] [|]]]; try contradiction. destruct H as [L R]. apply (run_mono _ (returns p)) in R; [|exact IH]. apply run_depth in R as (d & R). exists (S d). cbn [InlineSpec.call_at]. rewrite Ep. auto.
        + destruct (proj2 backward _ _ _ B (call_at p' n) IH [] [] (fun x x' I => match I with end) O) with (params := match r' with Region [Block ps _] => ps | _ => [] end) (ops := match r' with Region [Block _ os] => os | _ => [] end) as (params' & ops' & E & L & Sm);
            inversion B; subst; cbn [nth_error] in *; auto. injection E as <- <-. destruct H as [L1 R]. apply Sm in R; auto. apply run_depth in R as (d & R). exists (S d). cbn [InlineSpec.call_at]. rewrite Ep. split; [congruence|exact R].
    Qed.
  End Module.
End Sim.
