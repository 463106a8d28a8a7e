(** Clones emulate what they were made from. *)
From Coq Require Import Lia FinFun.
From Verif Require Export InlineKeep.
Local Open Scope N_scope.

Lemma fresh_len next n : List.length (fresh next n) = n.
Proof. unfold fresh. rewrite map_length, seq_length. reflexivity. Qed.
Lemma fresh_in next n y : In y (fresh next n) <-> next <= y < next + N.of_nat n.
Proof.
  unfold fresh. rewrite in_map_iff. split.
  - intros (i & <- & I). apply in_seq in I. lia.
  - intros H. exists (N.to_nat (y - next)). split; [lia|]. apply in_seq. lia.
Qed.
Lemma fresh_nodup next n : NoDup (fresh next n).
Proof. unfold fresh. apply Injective_map_NoDup; [|apply seq_NoDup]. intros a b. lia. Qed.

Definition graph (m : mapping) (vis : list N) : list (N * N) := map (fun x => (x, look m x)) vis.
Lemma graph_in m vis x x' : In (x, x') (graph m vis) <-> In x vis /\ x' = look m x.
Proof. unfold graph. rewrite in_map_iff. split; [intros (y & [= -> <-] & I); auto|intros [I ->]; eauto]. Qed.
Lemma look_cons y v m x : look ((y, v) :: m) x = if y =? x then v else look m x.
Proof. unfold look. cbn [find fst]. destruct (y =? x); reflexivity. Qed.
Lemma look_out rs new m x : ~ In x rs -> look (combine rs new ++ m) x = look m x.
Proof.
  revert new. induction rs as [|r rs IH]; intros new H; auto. destruct new as [|v new]; auto. cbn [combine app]. rewrite look_cons, IH by (intros I; apply H; right; auto).
  destruct (N.eqb_spec r x) as [->|]; auto. destruct H. left. auto.
Qed.
Lemma graph_same m m' vis : (forall x, In x vis -> look m x = look m' x) -> graph m vis = graph m' vis.
Proof. intros H. unfold graph. apply map_ext_in. intros x I. rewrite H; auto. Qed.
Lemma graph_new rs new m : NoDup rs -> List.length rs = List.length new -> graph (combine rs new ++ m) rs = combine rs new.
Proof.
  revert new. induction rs as [|r rs IH]; intros [|v new] D L; try discriminate; auto. inversion D; subst. cbn [combine app graph map]. rewrite look_cons, N.eqb_refl. f_equal. transitivity (graph (combine rs new ++ m) rs); [|apply IH; auto].
  apply graph_same. intros x I. rewrite look_cons. destruct (N.eqb_spec r x); [subst; contradiction|auto].
Qed.
Lemma graph_bind rs new m vis : NoDup rs -> List.length rs = List.length new -> (forall x, In x vis -> ~ In x rs) -> graph (combine rs new ++ m) (rs ++ vis) = combine rs new ++ graph m vis.
Proof. intros D L O. unfold graph at 1. rewrite map_app. fold (graph (combine rs new ++ m) rs). rewrite graph_new by auto. f_equal. apply graph_same. intros x I. apply look_out. auto. Qed.
Lemma graph_related m vis xs : incl xs vis -> related (graph m vis) xs (map (look m) xs).
Proof. intros H. unfold related. induction xs as [|x xs IH]; cbn; constructor; [apply graph_in; split; auto; apply H; left; auto|apply IH; intros y I; apply H; right; auto]. Qed.

Definition tame (next : N) (m : mapping) (next' : N) (m' : mapping) (defs defs' : list N) : Prop :=
  next <= next' /\ (forall x, ~ In x defs -> look m' x = look m x) /\ (forall y, In y defs' -> next <= y < next') /\ NoDup defs'.
Lemma tame_trans next m next1 m1 next2 m2 d d1 e e1 : tame next m next1 m1 d d1 -> tame next1 m1 next2 m2 e e1 -> tame next m next2 m2 (d ++ e) (d1 ++ e1).
Proof.
  intros (A1 & A2 & A3 & A4) (B1 & B2 & B3 & B4). split; [lia|]. split; [|split].
  - intros x H. rewrite in_app_iff in H. rewrite B2, A2; tauto.
  - intros y H. apply in_app_or in H as [H|H]; [apply A3 in H|apply B3 in H]; lia.
  - apply nodup_app. repeat split; auto. intros x I J. apply A3 in I. apply B3 in J. lia.
Qed.
Lemma tame_perm next m next' m' d d' e e' : (forall x, In x d -> In x e) -> (forall x, In x e' <-> In x d') -> NoDup e' -> tame next m next' m' d d' -> tame next m next' m' e e'.
Proof. intros P Q D (A1 & A2 & A3 & A4). repeat split; auto; intros; apply A3; apply Q; auto. Qed.
Lemma tame_fresh next m rs : tame next m (next + N.of_nat (List.length rs)) (combine rs (fresh next (List.length rs)) ++ m) rs (fresh next (List.length rs)).
Proof. split; [lia|]. split; [intros; apply look_out; auto|]. split; [intros y; apply fresh_in|apply fresh_nodup]. Qed.

Section Clone.
  Variables (leaves : N -> bool) (p : list func).
  Notation emu := (emu leaves p).
  Notation emu_regions := (emu_regions leaves p).
  Definition bounded (m : mapping) (vis : list N) (next : N) : Prop := forall x, In x vis -> look m x < next.
  Definition apart (defs vis : list N) : Prop := forall x, In x vis -> ~ In x defs.
  Definition op_ok (o : op) : Prop := forall vis next m next' m' o', NoDup (op_defs o) -> apart (op_defs o) vis -> bounded m vis next -> scoped vis [o] -> clone_op next m o = (next', m', o') ->
    tame next m next' m' (op_defs o) (op_defs o') /\
    exists rs rs' k xs xs' rg rg', o = Op rs k xs rg /\ o' = Op rs' k xs' rg' /\ related (graph m vis) xs xs' /\ emu_regions (graph m vis) rg rg' /\ new (graph m vis) rs rs' /\ graph m' (rs ++ vis) = combine rs rs' ++ graph m vis.
  Definition region_ok (r : region) : Prop := forall vis next m next' m' r', NoDup (region_defs r) -> apart (region_defs r) vis -> bounded m vis next -> region_scoped vis r -> clone_region next m r = (next', m', r') ->
    tame next m next' m' (region_defs r) (region_defs r') /\ emu_regions (graph m vis) [r] [r'].
  Definition ops_ok (ops : list op) : Prop := forall vis next m next' m' ops', NoDup (flat_map op_defs ops) -> apart (flat_map op_defs ops) vis -> bounded m vis next -> scoped vis ops -> clone_list clone_op next m ops = (next', m', ops') ->
    tame next m next' m' (flat_map op_defs ops) (flat_map op_defs ops') /\ emu (graph m vis) ops ops' (graph m' (after vis ops)).

  Lemma bounded_keep m vis next m' next' defs defs' : bounded m vis next -> apart defs vis -> tame next m next' m' defs defs' -> bounded m' vis next'.
  Proof. intros B A (L & T & _) x I. rewrite T by (apply A; auto). apply B in I. lia. Qed.
  Lemma apart_app a b vis : apart (a ++ b) vis <-> apart a vis /\ apart b vis.
  Proof. unfold apart. split; [intros H; split; intros x I J; eapply H; eauto; apply in_or_app; auto|intros [H1 H2] x I J; apply in_app_or in J as [J|J]; [eapply H1|eapply H2]; eauto]. Qed.
  Lemma new_fresh m vis next rs : bounded m vis next -> NoDup rs -> apart rs vis -> new (graph m vis) rs (fresh next (List.length rs)).
  Proof. intros B D A. split; [rewrite fresh_len; auto|]. split; auto. split; [apply fresh_nodup|]. intros x x' I. apply graph_in in I as [I ->]. split; [apply A; auto|]. rewrite fresh_in. apply B in I. lia. Qed.

  Lemma ops_clone ops : Forall op_ok ops -> ops_ok ops.
  Proof.
    induction 1 as [|o l H F IH]; intros vis next m next' m' ops' D A B S E; cbn [clone_list] in E.
    - injection E as <- <- <-. split; [split; [lia|split; [auto|split; [intros y []|constructor]]]|constructor].
    - destruct (clone_op next m o) as [[next1 m1] o1] eqn:E1. destruct (clone_list clone_op next1 m1 l) as [[next2 m2] l1] eqn:E2. injection E as <- <- <-.
      cbn [flat_map] in *. apply nodup_app in D as (D1 & D2 & D3). apply apart_app in A as [A1 A2].
      assert (So : scoped vis [o]) by (inversion S; subst; constructor; auto; constructor).
      destruct (H _ _ _ _ _ _ D1 A1 B So E1) as (T & rs & rs' & k & xs & xs' & rg & rg' & -> & -> & R1 & R2 & R3 & R4).
      assert (Sl : scoped (rs ++ vis) l) by (inversion S; subst; auto).
      assert (B1 : bounded m1 (rs ++ vis) next1).
      { intros x I. assert (K : In (x, look m1 x) (combine rs rs' ++ graph m vis)) by (rewrite <- R4; apply graph_in; auto). apply in_app_or in K as [K|K].
        - apply in_combine_r in K. destruct T as (_ & _ & T & _). apply T. cbn [op_defs]. apply in_or_app. auto.
        - apply graph_in in K as [K ->]. apply B in K. destruct T. lia. }
      assert (A3 : apart (flat_map op_defs l) (rs ++ vis)).
      { intros x I. apply in_app_or in I as [I|I]; [apply D3; cbn [op_defs]; apply in_or_app; auto|apply A2; auto]. }
      destruct (IH _ _ _ _ _ _ D2 A3 B1 Sl E2) as [T2 M]. split; [eapply tame_trans; eauto|]. cbn [after op_results]. eapply emu_op; eauto. rewrite <- R4. exact M.
  Qed.
  Lemma regions_clone rg : Forall region_ok rg -> forall vis next m next' m' rg', NoDup (flat_map region_defs rg) -> apart (flat_map region_defs rg) vis -> bounded m vis next -> Forall (region_scoped vis) rg -> clone_list clone_region next m rg = (next', m', rg') ->
    tame next m next' m' (flat_map region_defs rg) (flat_map region_defs rg') /\ emu_regions (graph m vis) rg rg'.
  Proof.
    induction 1 as [|o l H F IH]; intros vis next m next' m' ops' D A B S E; cbn [clone_list] in E.
    - injection E as <- <- <-. split; [split; [lia|split; [auto|split; [intros y []|constructor]]]|constructor].
    - destruct (clone_region next m o) as [[next1 m1] o1] eqn:E1. destruct (clone_list clone_region next1 m1 l) as [[next2 m2] l1] eqn:E2. injection E as <- <- <-.
      cbn [flat_map] in *. apply nodup_app in D as (D1 & D2 & D3). apply apart_app in A as [A1 A2]. inversion S; subst.
      destruct (H _ _ _ _ _ _ D1 A1 B H2 E1) as [T R]. destruct (IH _ _ _ _ _ _ D2 A2 (bounded_keep _ _ _ _ _ _ _ B A1 T) H3 E2) as [T2 R2]. split; [eapply tame_trans; eauto|].
      rewrite (graph_same m1 m) in R2 by (intros x I; destruct T as (_ & T & _); apply T, A1, I). inversion R; subst. econstructor; eauto.
  Qed.
  Lemma clone_all : (forall o, op_ok o) /\ (forall r, region_ok r) /\ (forall b : block, match b with Block args ops => ops_ok ops end).
  Proof.
    apply op_all.
    - intros rs k xs rg IH vis next m next' m' o' D A B S E. cbn [clone_op] in E. destruct (clone_list clone_region next m rg) as [[next1 m1] rg1] eqn:E1. injection E as <- <- <-. cbn [op_defs] in *.
      pose proof D as D0. apply nodup_app in D as (D1 & D2 & D3). apply apart_app in A as [A1 A2]. inversion S as [|? ? ? ? ? ? Hx Hr]; subst.
      destruct (regions_clone rg IH _ _ _ _ _ _ D2 A2 B Hr E1) as [T R]. pose proof (bounded_keep _ _ _ _ _ _ _ B A2 T) as B1.
      pose proof (tame_trans _ _ _ _ _ _ _ _ _ _ T (tame_fresh next1 m1 rs)) as T2.
      assert (G : graph m1 vis = graph m vis) by (apply graph_same; intros x I; destruct T as (_ & T & _); apply T, A2, I).
      split.
      + eapply tame_perm; [| | |exact T2].
        * intros x. rewrite !in_app_iff. tauto.
        * intros x. rewrite !in_app_iff. tauto.
        * destruct T2 as (_ & _ & _ & T2). apply nodup_app in T2 as (X1 & X2 & X3). apply nodup_app. repeat split; auto. intros x I J. apply (X3 x); auto.
      + do 7 eexists. split; [reflexivity|]. split; [reflexivity|]. split; [apply graph_related; assumption|]. split; [exact R|]. split; [rewrite <- G; apply new_fresh; auto|].
        rewrite graph_bind; [rewrite G; reflexivity|exact D1|rewrite fresh_len; reflexivity|exact A1].
    - intros bs IH vis next m next' m' r' D A B S E. inversion S; subst. inversion IH as [|? ? IHo _]; subst. cbn [clone_region clone_args clone_blocks] in E. 
      destruct (clone_list clone_op (next + N.of_nat (List.length args)) (combine args (fresh next (List.length args)) ++ m) ops) as [[next1 m1] ops1] eqn:E1. injection E as <- <- <-.
      cbn [region_defs flat_map block_defs] in *. rewrite !app_nil_r in *. apply nodup_app in D as (D1 & D2 & D3). apply apart_app in A as [A1 A2].
      pose proof (tame_fresh next m args) as T0. assert (B0 : bounded (combine args (fresh next (List.length args)) ++ m) (args ++ vis) (next + N.of_nat (List.length args))).
      { intros x I. assert (K : In (x, look (combine args (fresh next (List.length args)) ++ m) x) (graph (combine args (fresh next (List.length args)) ++ m) (args ++ vis))) by (apply graph_in; auto).
        rewrite graph_bind in K; [|exact D1|rewrite fresh_len; reflexivity|exact A1]. apply in_app_or in K as [K|K]; [apply in_combine_r, fresh_in in K; lia|]. apply graph_in in K as [K ->]. apply B in K. lia. }
      assert (A3 : apart (flat_map op_defs ops) (args ++ vis)) by (intros x I; apply in_app_or in I as [I|I]; auto).
      destruct (IHo _ _ _ _ _ _ D2 A3 B0 H1 E1) as [T R]. split; [eapply tame_trans; eauto|]. econstructor; [apply new_fresh; eauto| |constructor].
      rewrite <- graph_bind; [exact R|exact D1|rewrite fresh_len; reflexivity|exact A1].
    - intros args ops IH. apply ops_clone. exact IH.
  Qed.
  Lemma clone_emulates ops : ops_ok ops.
  Proof. apply (proj2 (proj2 clone_all) (Block [] ops)). Qed.
End Clone.
