(** The printer's numbering is a renaming. *)
From Coq Require Import Lia.
From Verif Require Export BuildProofs.
Local Open Scope nat_scope.

Definition dom (l : list (N * N)) : list N := map fst l.
Definition fn (l : list (N * N)) (x : N) : N := match num l x with Some n => n | None => 0%N end.
Definition fresh_map (l : list (N * N)) (next : N) : Prop := NoDup (map fst l) /\ NoDup (map snd l) /\ forall n, In n (map snd l) -> (n < next)%N.
Definition grows (l l' : list (N * N)) (added : list N) : Prop := (forall x n, num l x = Some n -> num l' x = Some n) /\ forall x, In x (dom l') <-> In x added \/ In x (dom l).
Definition ok_names (st : names) : Prop := fresh_map (vals st) (next_v st) /\ fresh_map (blks st) (next_b st).
Definition step (st st' : names) (vs bs : list N) : Prop := ok_names st' /\ grows (vals st) (vals st') vs /\ grows (blks st) (blks st') bs.
Definition apart_ (l l' : list N) : Prop := forall x, In x l -> ~ In x l'.

Lemma num_cons v n l x : num ((v, n) :: l) x = if (v =? x)%N then Some n else num l x.
Proof. unfold num. cbn. destruct (v =? x)%N; reflexivity. Qed.
Lemma num_in l x : In x (dom l) <-> exists n, num l x = Some n.
Proof.
  induction l as [|[v n] l IH]; [cbn; firstorder discriminate|]. rewrite num_cons. unfold dom in *. cbn [map fst In]. destruct (N.eqb_spec v x) as [->|E]; [split; eauto|]. rewrite <- IH. tauto.
Qed.
Lemma num_pair l x n : num l x = Some n -> In (x, n) l.
Proof. induction l as [|[v m] l IH]; [discriminate|]. rewrite num_cons. destruct (N.eqb_spec v x) as [->|E]; intros H; [injection H as <-; left; reflexivity|right; auto]. Qed.
Lemma fn_in l x : In x (dom l) -> num l x = Some (fn l x).
Proof. intros I. apply num_in in I as [n E]. unfold fn. rewrite E. reflexivity. Qed.
Lemma fn_inj l next : fresh_map l next -> one_to_one (fn l) (dom l).
Proof.
  intros (_ & D & _) x y Ix Iy E. apply fn_in, num_pair in Ix. apply fn_in, num_pair in Iy. rewrite E in Ix. clear E. revert D Ix Iy. generalize (fn l y). intros n.
  induction l as [|[v m] l IH]; cbn [map snd]; intros D A B; [destruct A|]. inversion D as [|? ? Nn D']; subst.
  destruct A as [A|A], B as [B|B]; [congruence| | |auto]; exfalso; apply Nn.
  - injection A as _ ->. apply in_map_iff. exists (y, n). auto.
  - injection B as _ ->. apply in_map_iff. exists (x, n). auto.
Qed.
Lemma grows_agree l l' a : grows l l' a -> agree (fn l) (fn l') (dom l).
Proof. intros [G _] x I. pose proof (fn_in l x I) as E. unfold fn at 2. rewrite (G _ _ E). reflexivity. Qed.
Lemma grows_refl l : grows l l [].
Proof. split; cbn; tauto. Qed.
Lemma grows_trans l1 l2 l3 a b : grows l1 l2 a -> grows l2 l3 b -> grows l1 l3 (a ++ b).
Proof. intros [A1 A2] [B1 B2]. split; auto. intros x. rewrite B2, A2, in_app_iff. tauto. Qed.
Lemma grows_iff l l' a b : grows l l' a -> (forall x, In x a <-> In x b) -> grows l l' b.
Proof. intros [A1 A2] E. split; auto. intros x. rewrite A2, E. tauto. Qed.
Lemma grows_incl l l' a : grows l l' a -> incl (dom l) (dom l').
Proof. intros [_ G] x I. apply G. auto. Qed.
Lemma grows_added l l' a : grows l l' a -> incl a (dom l').
Proof. intros [_ G] x I. apply G. auto. Qed.
Lemma step_trans st1 st2 st3 a b a' b' : step st1 st2 a b -> step st2 st3 a' b' -> step st1 st3 (a ++ a') (b ++ b').
Proof. intros (_ & A & B) (O & C & D). split; auto. split; eapply grows_trans; eauto. Qed.
Lemma step_iff st st' a b a' b' : step st st' a b -> (forall x, In x a <-> In x a') -> (forall x, In x b <-> In x b') -> step st st' a' b'.
Proof. intros (O & A & B) E F. split; auto. split; eapply grows_iff; eauto. Qed.
Lemma step_refl st : ok_names st -> step st st [] [].
Proof. split; auto. split; apply grows_refl. Qed.

Lemma add_one l next x : fresh_map l next -> ~ In x (dom l) -> fresh_map ((x, next) :: l) (next + 1) /\ grows l ((x, next) :: l) [x].
Proof.
  intros (A & B & C) I. split.
  - split; [|split]; cbn [map fst snd].
    + constructor; auto. + constructor; auto. intros K. apply C in K. lia. + intros n [<-|K]; [lia|]. apply C in K. lia.
  - split. + intros y n E. rewrite num_cons. destruct (N.eqb_spec x y) as [->|]; auto. destruct I. apply num_in. eauto. + cbn. intros y. tauto.
Qed.
Lemma assign_ok : forall l st, ok_names st -> NoDup l -> apart_ l (dom (vals st)) -> exists st', assign_values st l = (st', map (fn (vals st')) l) /\ step st st' l [].
Proof.
  induction l as [|v l IH]; intros st O D A; cbn [assign_values assign_value].
  - exists st. split; auto. apply step_refl. exact O.
  - inversion D as [|? ? Nv D']; subst. destruct O as [Ov Ob]. destruct (add_one _ _ v Ov) as [F G]; [apply A; left; reflexivity|].
    set (st1 := {| vals := (v, next_v st) :: vals st; blks := blks st; next_v := next_v st + 1; next_b := next_b st |}).
    assert (S1 : step st st1 [v] []). { split; [split; assumption|]. split; [exact G|apply grows_refl]. }
    destruct (IH st1) as (st' & E & S2); auto; [split; assumption| |].
    { intros x I K. unfold st1 in K. cbn in K. destruct K as [->|K]; [auto|]. apply (A x); [right; exact I|exact K]. }
    exists st'. rewrite E. split; [|exact (step_trans _ _ _ _ _ _ _ S1 S2)]. cbn [map]. f_equal. f_equal.
    assert (K : num (vals st') v = Some (next_v st)). { destruct S2 as (_ & [S2 _] & _). apply S2. unfold st1. cbn [vals]. rewrite num_cons, N.eqb_refl. reflexivity. }
    unfold fn. rewrite K. reflexivity.
Qed.
Lemma labels_ok : forall l st, ok_names st -> NoDup l -> apart_ l (dom (blks st)) -> step st (fold_left assign_label l st) [] l.
Proof.
  induction l as [|b l IH]; intros st O D A; cbn [fold_left].
  - apply step_refl. exact O.
  - inversion D as [|? ? Nv D']; subst. destruct O as [Ov Ob]. destruct (add_one _ _ b Ob) as [F G]; [apply A; left; reflexivity|].
    assert (S1 : step st (assign_label st b) [] [b]). { split; [split; assumption|]. split; [apply grows_refl|exact G]. }
    apply (step_trans _ _ _ [] [b] [] l S1). apply IH; auto; [split; assumption|]. intros x I K. cbn in K. destruct K as [->|K]; [auto|]. apply (A x); [right; exact I|exact K].
Qed.
Lemma all_num l xs : incl xs (dom l) -> all_some (map (num l) xs) = Some (map (fn l) xs).
Proof. induction xs as [|x xs IH]; intros I; cbn; auto. rewrite (fn_in l x) by (apply I; left; reflexivity). rewrite IH; auto. intros y J. apply I. right. exact J. Qed.
Lemma combine_fst {A B C} (h : A -> C) (l : list (A * B)) : combine (map h (map fst l)) (map snd l) = map (fun a => (h (fst a), snd a)) l.
Proof. induction l as [|[a b] l IH]; cbn; congruence. Qed.

Lemma apart_sub a b a' b' : apart_ a b -> incl a' a -> incl b' b -> apart_ a' b'.
Proof. intros H I J x X Y. apply (H x); auto. Qed.
Lemma NoDup_cut {A} (a b : list A) : NoDup (a ++ b) -> NoDup a /\ NoDup b /\ forall x, In x a -> ~ In x b.
Proof.
  induction a as [|x a IH]; cbn; intros D; [repeat split; auto; constructor|]. inversion D as [|? ? Nx D']; subst. destruct (IH D') as (A1 & A2 & A3). rewrite in_app_iff in Nx.
  repeat split; auto; [constructor; tauto|]. intros y [<-|I]; auto.
Qed.
Lemma NoDup_paste {A} (a b : list A) : NoDup a -> NoDup b -> (forall x, In x a -> ~ In x b) -> NoDup (a ++ b).
Proof. induction 1 as [|x a Nx D IH]; cbn; auto. intros B H. constructor; [rewrite in_app_iff; firstorder|]. apply IH; auto. Qed.

(** Named as it should be. *)
Definition naming {A} (name : names -> A -> option (names * A)) (re : (N -> N) -> (N -> N) -> A -> A) (st : names) (x : A) (vs bs : list N) : Prop :=
  exists st', name st x = Some (st', re (fn (vals st')) (fn (blks st')) x) /\ step st st' vs bs.
Lemma thread_ok {A} (name : names -> A -> option (names * A)) re (values_ blocks_ : A -> list N) (scoped_ : list N -> list N -> list A -> Prop) (add : A -> list N) :
  (forall f f' g g' labs l env, scoped_ env labs l -> agree f f' (env ++ flat_map values_ l) -> agree g g' (labs ++ flat_map blocks_ l) -> map (re f g) l = map (re f' g') l) ->
  (forall env labs x l, scoped_ env labs (x :: l) -> scoped_ (add x ++ env) labs l) ->
  (forall x, incl (add x) (values_ x)) ->
  forall labs l, Forall (fun x => forall st env, scoped_ env labs [x] -> ok_names st -> incl env (dom (vals st)) -> incl labs (dom (blks st)) -> NoDup (values_ x) -> apart_ (values_ x) (dom (vals st)) ->
            NoDup (blocks_ x) -> apart_ (blocks_ x) (dom (blks st)) -> naming name re st x (values_ x) (blocks_ x)) l ->
  (forall env x l, scoped_ env labs (x :: l) -> scoped_ env labs [x]) ->
  forall st env, scoped_ env labs l -> ok_names st -> incl env (dom (vals st)) -> incl labs (dom (blks st)) -> NoDup (flat_map values_ l) -> apart_ (flat_map values_ l) (dom (vals st)) ->
            NoDup (flat_map blocks_ l) -> apart_ (flat_map blocks_ l) (dom (blks st)) -> naming (thread name) (fun f g => map (re f g)) st l (flat_map values_ l) (flat_map blocks_ l).
Proof.
  intros Ext Next Add labs l F One. induction F as [|x l H F IH]; intros st env S O E L DV AV DB AB.
  - exists st. split; [reflexivity|apply step_refl; exact O].
  - cbn [flat_map] in *. destruct (NoDup_cut _ _ DV) as (DV1 & DV2 & DV3). destruct (NoDup_cut _ _ DB) as (DB1 & DB2 & DB3).
    destruct (H st env) as (st1 & N1 & S1); eauto; [exact (apart_sub _ _ _ _ AV (incl_appl _ (incl_refl _)) (incl_refl _))|exact (apart_sub _ _ _ _ AB (incl_appl _ (incl_refl _)) (incl_refl _))|]. destruct S1 as (O1 & G1 & G2).
    destruct (IH st1 (add x ++ env)) as (st2 & N2 & S2); eauto.
    + intros y. rewrite in_app_iff. intros [I|I]; [apply (grows_added _ _ _ G1), Add, I|apply (grows_incl _ _ _ G1), E, I].
    + intros y I. apply (grows_incl _ _ _ G2), L, I.
    + intros y I K. apply (proj2 G1) in K as [K|K]; [exact (DV3 y K I)|]. apply (AV y); [apply in_or_app; auto|exact K].
    + intros y I K. apply (proj2 G2) in K as [K|K]; [exact (DB3 y K I)|]. apply (AB y); [apply in_or_app; auto|exact K].
    + exists st2. split.
      * cbn [thread]. rewrite N1, N2. f_equal. f_equal. cbn [map]. f_equal. destruct S2 as (_ & H1 & H2).
        pose proof (Ext (fn (vals st1)) (fn (vals st2)) (fn (blks st1)) (fn (blks st2)) labs [x] env (One _ _ _ S)) as K. cbn [flat_map map] in K. rewrite !app_nil_r in K. 
        assert (K' : [re (fn (vals st1)) (fn (blks st1)) x] = [re (fn (vals st2)) (fn (blks st2)) x]); [apply K|injection K' as ->; reflexivity].
        -- eapply agree_incl; [eapply grows_agree; exact H1|]. intros y. rewrite in_app_iff. intros [I|I]; [apply (grows_incl _ _ _ G1), E, I|apply (grows_added _ _ _ G1), I].
        -- eapply agree_incl; [eapply grows_agree; exact H2|]. intros y. rewrite in_app_iff. intros [I|I]; [apply (grows_incl _ _ _ G2), L, I|apply (grows_added _ _ _ G2), I].
      * eapply step_trans; [|exact S2]. split; auto.
Qed.
Definition inner_blocks (b : block) : list N := match b with Block _ _ ops => flat_map op_blocks ops end.
Lemma blocks_iff l : forall x, In x (flat_map block_blocks l) <-> In x (map block_name l) \/ In x (flat_map inner_blocks l).
Proof. induction l as [|[b args ops] l IH]; intros x; cbn [flat_map map block_name inner_blocks]; [tauto|]. rewrite block_blocks_eq. cbn [app In]. rewrite !in_app_iff, IH. tauto. Qed.
Lemma blocks_NoDup l : NoDup (flat_map block_blocks l) -> NoDup (map block_name l) /\ NoDup (flat_map inner_blocks l) /\ apart_ (flat_map inner_blocks l) (map block_name l).
Proof.
  induction l as [|[b args ops] l IH]; cbn [flat_map map block_name inner_blocks]; intros D.
  - repeat split; try constructor. intros x [].
  - rewrite block_blocks_eq in D. cbn [app] in D. inversion D as [|? ? Nb D']; subst. destruct (NoDup_cut _ _ D') as (A & B & C). destruct (IH B) as (I1 & I2 & I3).
    rewrite in_app_iff, blocks_iff in Nb. split; [constructor; tauto|]. split.
    + apply NoDup_paste; auto. intros x X Y. apply (C x X). apply blocks_iff. auto.
    + intros x. rewrite in_app_iff. intros [X|X] [<-|Y]; [tauto| |tauto|exact (I3 x X Y)]. apply (C x X). apply blocks_iff. auto.
Qed.
Definition within_labels (env labs : list N) (l : list block) : Prop := (exists labs0, incl labs0 labs /\ blocks_scoped env labs0 l) /\ incl (map block_name l) labs.
Lemma blocks_cons labs labs' env b args ops l : blocks_scoped env labs (Block b args ops :: l) -> incl labs labs' -> ops_scoped (map fst args ++ env) labs ops /\ blocks_scoped ((flat_map op_results ops ++ map fst args) ++ env) labs l.
Proof. intros S _. inversion S; subst. rewrite <- app_assoc. auto. Qed.

Lemma naming_region_ok blocks : Forall (fun b => match b with Block b args ops => forall st env labs, generic_block (Block b args ops) -> ops_scoped (map fst args ++ env) labs ops -> ok_names st -> incl env (dom (vals st)) -> incl labs (dom (blks st)) -> In b (dom (blks st)) ->
        NoDup (block_values (Block b args ops)) -> apart_ (block_values (Block b args ops)) (dom (vals st)) -> NoDup (flat_map op_blocks ops) -> apart_ (flat_map op_blocks ops) (dom (blks st)) ->
        naming name_block rename_block st (Block b args ops) (block_values (Block b args ops)) (flat_map op_blocks ops) end) blocks ->
  forall st env labs, Forall generic_block blocks -> blocks_scoped env labs blocks -> incl labs (map block_name blocks) -> ok_names st -> incl env (dom (vals st)) ->
     NoDup (flat_map block_values blocks) -> apart_ (flat_map block_values blocks) (dom (vals st)) -> NoDup (flat_map block_blocks blocks) -> apart_ (flat_map block_blocks blocks) (dom (blks st)) ->
     naming name_region rename_region st (Region blocks) (flat_map block_values blocks) (flat_map block_blocks blocks).
Proof.
  intros F st env labs G S L O E DV AV DB AB. destruct (blocks_NoDup _ DB) as (D1 & D2 & D3).
  assert (S0 : step st (fold_left assign_label (map block_name blocks) st) [] (map block_name blocks)).
  { apply labels_ok; auto. intros x I. apply AB. apply blocks_iff. auto. }
  set (st0 := fold_left assign_label (map block_name blocks) st) in *. destruct S0 as (O0 & G1 & G2).
  destruct (thread_ok name_block rename_block block_values inner_blocks within_labels (fun b => match b with Block _ args ops => flat_map op_results ops ++ map fst args end)) with (labs := map block_name blocks) (l := blocks) (st := st0) (env := env) as (st' & N1 & S1).
  - intros f f' g g' labs' l env' [(labs0 & I & B) I'] A1 A2. eapply rename_blocks_ext; [exact B|exact A1|]. eapply agree_incl; [exact A2|]. intros x. rewrite !in_app_iff, blocks_iff. intros [X|[X|X]]; auto.
  - intros env' labs' [b args ops] l [(labs0 & I & B) I']. split; [exists labs0; split; auto; eapply blocks_cons; eauto|]. intros x X. apply I'. right. exact X.
  - intros [b args ops] x. rewrite block_values_eq, !in_app_iff. intros [X|X]; auto. right. apply results_incl, X.
  - rewrite Forall_forall in *. intros [b args ops] I st1 env1 [(labs0 & I0 & B) I'] O1 E1 L1. apply blocks_cons with (labs' := labs0) in B as [B _]; [|apply incl_refl].
    intros W1 W2 W3 W4. apply (F _ I st1 env1 labs0 (G _ I) B O1 E1); auto. + intros x X. auto. + apply L1, I'. left. reflexivity.
  - intros env' [b args ops] l [(labs0 & I & B) I']. split; [exists labs0; split; auto; apply blocks_cons with (labs' := labs0) in B as [B _]; [|apply incl_refl]; constructor; [exact B|constructor]|].
    intros x [<-|[]]. apply I'. left. reflexivity.
  - split; [eauto|apply incl_refl].
  - exact O0.
  - intros x X. apply (grows_incl _ _ _ G1), E, X.
  - apply (grows_added _ _ _ G2).
  - exact DV.
  - intros x X Y. apply (proj2 G1) in Y as [[]|Y]. exact (AV x X Y).
  - exact D2.
  - intros x X Y. apply (proj2 G2) in Y as [Y|Y]; [exact (D3 x X Y)|]. apply (AB x); auto. apply blocks_iff. auto.
  - exists st'. split; [cbn [name_region]; fold st0; rewrite N1; reflexivity|].
    eapply step_iff; [eapply step_trans; [split; [exact O0|split; [exact G1|exact G2]]|exact S1]| |]; intros x; rewrite in_app_iff; [cbn; tauto|]. rewrite blocks_iff. tauto.
Qed.
Lemma naming_ok :
  (forall o, generic o -> forall st env labs, op_scoped env labs o -> ok_names st -> incl env (dom (vals st)) -> incl labs (dom (blks st)) -> NoDup (op_values o) -> apart_ (op_values o) (dom (vals st)) ->
     NoDup (op_blocks o) -> apart_ (op_blocks o) (dom (blks st)) -> naming name_op rename st o (op_values o) (op_blocks o))
  /\ (forall r, generic_region r -> forall st env, region_scoped env r -> ok_names st -> incl env (dom (vals st)) -> NoDup (region_values r) -> apart_ (region_values r) (dom (vals st)) ->
     NoDup (region_blocks r) -> apart_ (region_blocks r) (dom (blks st)) -> naming name_region rename_region st r (region_values r) (region_blocks r))
  /\ (forall b, match b with Block b args ops => forall st env labs, generic_block (Block b args ops) -> ops_scoped (map fst args ++ env) labs ops -> ok_names st -> incl env (dom (vals st)) -> incl labs (dom (blks st)) -> In b (dom (blks st)) ->
        NoDup (block_values (Block b args ops)) -> apart_ (block_values (Block b args ops)) (dom (vals st)) -> NoDup (flat_map op_blocks ops) -> apart_ (flat_map op_blocks ops) (dom (blks st)) ->
        naming name_block rename_block st (Block b args ops) (block_values (Block b args ops)) (flat_map op_blocks ops) end).
Proof.
  apply op_all.
  - intros results d n operands succs attrs rtypes regions F G st env labs S O E L DV AV DB AB. rewrite op_values_eq in *. rewrite op_blocks_eq in *.
    inversion G as [? ? ? ? ? ? ? ? NF _ _ _ _ _ GR]; subst. inversion S as [? ? ? ? ? ? ? ? ? ? I1 I2 SR]; subst. destruct (NoDup_cut _ _ DV) as (DV1 & DV2 & DV3).
    destruct (assign_ok results st O DV1) as (st1 & N1 & O1 & G1 & G2); [intros x X; apply AV, in_or_app; auto|].
    destruct (thread_ok name_region rename_region region_values region_blocks (fun env _ l => Forall (region_scoped env) l) (fun _ => [])) with (labs := @nil N) (l := regions) (st := st1) (env := env) as (st' & N2 & S2).
    + intros f f' g g' labs' l env' B A1 A2. apply map_ext_in. intros r I. rewrite Forall_forall in B. apply (proj1 (proj2 (rename_ext f f' g g')) r env' (B r I)); eapply agree_incl; eauto.
      * intros x. rewrite !in_app_iff, in_flat_map. intros [X|X]; eauto. * intros x X. apply in_or_app. right. apply in_flat_map. eauto.
    + intros env' labs' x l B. inversion B; assumption.
    + intros x y [].
    + rewrite Forall_forall in *. intros r I st2 env2 SR2 O2 E2 _ W1 W2 W3 W4. inversion SR2; subst. apply (F r I (GR r I) st2 env2); auto.
    + intros env' x l B. inversion B; subst. constructor; auto.
    + exact SR.
    + exact O1.
    + intros x X. apply (grows_incl _ _ _ G1), E, X.
    + intros x [].
    + exact DV2.
    + intros x X Y. apply (proj2 G1) in Y as [Y|Y]; [exact (DV3 x Y X)|]. apply (AV x); auto. apply in_or_app. auto.
    + exact DB.
    + intros x X Y. apply (proj2 G2) in Y as [[]|Y]. exact (AB x X Y).
    + exists st'. split; [|eapply step_iff; [eapply step_trans; [split; [exact O1|split; [exact G1|exact G2]]|exact S2]| |]; intros x; cbn; tauto].
      cbn [name_op]. rewrite NF, N1. rewrite all_num, all_num, N2; [|intros x X; apply (grows_incl _ _ _ G2), L, I2, X|intros x X; apply (grows_incl _ _ _ G1), E, I1, X].
      rewrite rename_op_eq. destruct S2 as (_ & H1 & H2). f_equal. f_equal. f_equal.
      * apply (agree_map _ _ _ _ (grows_agree _ _ _ H1)). apply (grows_added _ _ _ G1).
      * apply (agree_map _ _ _ _ (grows_agree _ _ _ H1)). intros x X. apply (grows_incl _ _ _ G1), E, I1, X.
      * apply (agree_map _ _ _ _ (grows_agree _ _ _ H2)). intros x X. apply (grows_incl _ _ _ G2), L, I2, X.
  - intros blocks F G st env S O E DV AV DB AB. inversion G; subst. inversion S as [? ? _ B]; subst. eapply naming_region_ok; eauto. apply named_incl.
  - intros b args ops F st env labs G S O E L Lb DV AV DB AB. rewrite block_values_eq in *. inversion G as [? ? ? _ GO]; subst. destruct (NoDup_cut _ _ DV) as (DV1 & DV2 & DV3).
    destruct (assign_ok (map fst args) st O DV1) as (st1 & N1 & O1 & G1 & G2); [intros x X; apply AV, in_or_app; auto|].
    destruct (thread_ok name_op rename op_values op_blocks ops_scoped op_results) with (labs := labs) (l := ops) (st := st1) (env := map fst args ++ env) as (st' & N2 & S2).
    + intros f f' g g' labs' l env' B A1 A2. eapply rename_ops_ext; eauto.
    + intros env' labs' x l B. inversion B; assumption.
    + intros [results d n operands succs attrs rtypes regions] x X. rewrite op_values_eq. apply in_or_app. auto.
    + rewrite Forall_forall in *. intros o I st2 env2 SR2 O2 E2 L2 W1 W2 W3 W4. inversion SR2; subst. apply (F o I (GO o I) st2 env2 labs); auto.
    + intros env' x l B. inversion B; subst. constructor; auto. constructor.
    + exact S.
    + exact O1.
    + intros x. rewrite in_app_iff. intros [X|X]; [apply (grows_added _ _ _ G1), X|apply (grows_incl _ _ _ G1), E, X].
    + intros x X. apply (grows_incl _ _ _ G2), L, X.
    + exact DV2.
    + intros x X Y. apply (proj2 G1) in Y as [Y|Y]; [exact (DV3 x Y X)|]. apply (AV x); auto. apply in_or_app. auto.
    + exact DB.
    + intros x X Y. apply (proj2 G2) in Y as [[]|Y]. exact (AB x X Y).
    + exists st'. split; [|eapply step_iff; [eapply step_trans; [split; [exact O1|split; [exact G1|exact G2]]|exact S2]| |]; intros x; cbn; tauto].
      cbn [name_block]. rewrite N1. rewrite (fn_in (blks st1) b) by (apply (grows_incl _ _ _ G2), Lb). rewrite N2. rewrite rename_block_eq. destruct S2 as (_ & H1 & H2). f_equal. f_equal. f_equal.
      * apply (grows_agree _ _ _ H2). apply (grows_incl _ _ _ G2), Lb.
      * rewrite combine_fst. apply map_ext_in. intros [v t] I. cbn [fst snd]. f_equal. apply (grows_agree _ _ _ H1). apply (grows_added _ _ _ G1). apply (in_map fst) in I. exact I.
Qed.
