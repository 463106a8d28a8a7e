From Verif Require Import RcPairModel RcPairSpec.
From Coq Require Import Lia.
Import ListNotations.

(** ** Heaps *)
Lemma put_length {A} (l : list A) k x : List.length (put l k x) = List.length l.
Proof. revert k. induction l as [|y l IH]; intros [|k]; cbn; auto. Qed.
Lemma put_same {A} (l : list A) k x y : nth_error l k = Some y -> nth_error (put l k x) k = Some x.
Proof. revert k. induction l as [|z l IH]; intros [|k] H; try discriminate; cbn in *; auto. Qed.
Lemma put_other {A} (l : list A) k j x : j <> k -> nth_error (put l k x) j = nth_error l j.
Proof. revert k j. induction l as [|z l IH]; intros [|k] [|j] H; cbn; try congruence; auto. Qed.
Lemma put_put {A} (l : list A) k x y : put (put l k x) k y = put l k y.
Proof. revert k. induction l as [|z l IH]; intros [|k]; cbn; congruence. Qed.
Lemma put_comm {A} (l : list A) k j x y : k <> j -> put (put l k x) j y = put (put l j y) k x.
Proof. revert k j. induction l as [|z l IH]; intros [|k] [|j] H; cbn; auto; [congruence | f_equal; apply IH; lia]. Qed.
Lemma put_id {A} (l : list A) k x : nth_error l k = Some x -> put l k x = l.
Proof. revert k. induction l as [|z l IH]; intros [|k] H; cbn in *; [congruence | congruence | congruence | f_equal; auto]. Qed.
Lemma put_app {A} (l m : list A) k x : k < List.length l -> put (l ++ m) k x = put l k x ++ m.
Proof. revert k. induction l as [|z l IH]; intros [|k] H; cbn in *; try lia; [reflexivity | f_equal; apply IH; lia]. Qed.
Lemma get_some h a c : get h a = Some c <-> nth_error h a = Some (Some c).
Proof. unfold get. destruct (nth_error h a) as [[c'|]|]; split; congruence. Qed.
Lemma get_put_same h a c x : get h a = Some c -> get (put h a x) a = x.
Proof. intros H. apply get_some in H. unfold get. rewrite (put_same _ _ _ _ H). destruct x; reflexivity. Qed.
Lemma get_put_other h a b x : b <> a -> get (put h a x) b = get h b.
Proof. intros H. unfold get. rewrite put_other by exact H. reflexivity. Qed.
Lemma get_lt h a c : get h a = Some c -> a < List.length h.
Proof. intros H. apply get_some in H. apply nth_error_Some. congruence. Qed.

(** One heap has one count less at [a]. *)
Definition low (a : nat) (h h2 : heap) : Prop :=
  exists n fs, get h a = Some (mkCell (S (S n)) fs) /\ h2 = put h a (Some (mkCell (S n) fs)).
Lemma low_get a h h2 b : low a h h2 -> b <> a -> get h2 b = get h b.
Proof. intros (n & fs & _ & ->) H. apply get_put_other, H. Qed.
Lemma low_put a h h2 b x : low a h h2 -> b <> a -> low a (put h b x) (put h2 b x).
Proof.
  intros (n & fs & G & ->) H. exists n, fs. split; [rewrite get_put_other by congruence; exact G | apply put_comm; congruence].
Qed.
Lemma low_load a h h2 v off x : low a h h2 -> do_load h v off = Some x -> do_load h2 v off = Some x.
Proof.
  intros L H. unfold do_load in *. destruct v as [z|b]; [exact H|]. destruct (Nat.eq_dec b a) as [->|N]; [|rewrite (low_get a h h2 b L N); exact H].
  destruct L as (n & fs & G & ->). rewrite (get_put_same _ _ _ _ G). rewrite G in H. exact H.
Qed.
Lemma low_store a h h2 v off x h' : low a h h2 -> do_store h v off x = Some h' -> exists h2', do_store h2 v off x = Some h2' /\ low a h' h2'.
Proof.
  intros L H. unfold do_store in *. destruct v as [z|b]; [discriminate|]. destruct (Nat.eq_dec b a) as [->|N].
  - destruct L as (n & fs & G & ->). rewrite G in H. injection H as <-. rewrite (get_put_same _ _ _ _ G). eexists. split; [reflexivity|].
    cbn [cnt flds]. exists n, (put fs off x). split; [apply (get_put_same _ _ _ _ G)|]. rewrite !put_put. reflexivity.
  - rewrite (low_get a h h2 b L N). destruct (get h b) as [c|]; [|discriminate]. injection H as <-. eexists. split; [reflexivity|]. apply low_put; auto.
Qed.
Lemma low_retain a h h2 v h' : low a h h2 -> do_retain h v = Some h' -> exists h2', do_retain h2 v = Some h2' /\ low a h' h2'.
Proof.
  intros L H. unfold do_retain in *. destruct v as [z|b]; [injection H as <-; eauto|]. destruct (Nat.eq_dec b a) as [->|N].
  - destruct L as (n & fs & G & ->). rewrite G in H. cbn [cnt flds Nat.eqb] in H. injection H as <-. rewrite (get_put_same _ _ _ _ G). cbn [cnt flds Nat.eqb].
    eexists. split; [reflexivity|]. exists (S n), fs. split; [apply (get_put_same _ _ _ _ G)|]. rewrite !put_put. reflexivity.
  - rewrite (low_get a h h2 b L N). destruct (get h b) as [c|]; [|discriminate]. destruct (cnt c =? 0); [discriminate|]. injection H as <-. eexists. split; [reflexivity|]. apply low_put; auto.
Qed.
Lemma low_release a fuel : forall work h h2 h' lost, low a h h2 -> do_release fuel h work = Some (h', lost) -> ~ In a lost ->
  exists h2' lost2, do_release fuel h2 work = Some (h2', lost2) /\ low a h' h2'.
Proof.
  induction fuel as [|fuel IH]; intros work h h2 h' lost L H N; destruct work as [|v work]; cbn in H.
  - injection H as <- <-. exists h2, []. split; [reflexivity | exact L].
  - discriminate.
  - injection H as <- <-. exists h2, []. split; [reflexivity | exact L].
  - cbn. destruct v as [z|b]; [eapply IH; eauto|].
    destruct (Nat.eq_dec b a) as [->|Ne].
    + destruct L as (n & fs & G & ->). rewrite (get_put_same _ _ _ _ G). rewrite G in H. cbn [cnt flds] in *. destruct n as [|n].
      * exfalso. destruct (do_release fuel _ _) as [[h1 l]|]; [|discriminate]. injection H as <- <-. apply N. left. reflexivity.
      * assert (L1 : low a (put h a (Some (mkCell (S (S n)) fs))) (put h a (Some (mkCell (S n) fs)))).
        { exists n, fs. split; [apply (get_put_same _ _ _ _ G) | rewrite put_put; reflexivity]. }
        destruct (IH _ _ _ _ _ L1 H N) as (h2' & l2 & E2 & L2). destruct n; rewrite ?put_put, E2; eauto.
    + rewrite (low_get a h h2 b L Ne). destruct (get h b) as [c|]; [|discriminate]. destruct (cnt c) as [|[|[|n]]]; [discriminate| | |].
      * destruct (do_release fuel (put h b None) (flds c ++ work)) as [[h1 l]|] eqn:E; [|discriminate]. injection H as <- <-.
        destruct (IH _ _ (put h2 b None) _ _ (low_put a h h2 b None L Ne) E) as (h2' & l2 & E2 & L2); [intros I; apply N; right; exact I|].
        rewrite E2. eauto.
      * destruct (do_release fuel (put h b (Some (mkCell 1 (flds c)))) work) as [[h1 l]|] eqn:E; [|discriminate]. injection H as <- <-.
        destruct (IH _ _ (put h2 b (Some (mkCell 1 (flds c)))) _ _ (low_put a h h2 b _ L Ne) E) as (h2' & l2 & E2 & L2); [intros I; apply N; right; exact I|].
        rewrite E2. eauto.
      * exact (IH _ _ _ _ _ (low_put a h h2 b _ L Ne) H N).
Qed.
Lemma low_perform a fuel t : forall h h2 h' rs lost, low a h h2 -> perform fuel t h = Some (h', rs, lost) -> ~ In a lost ->
  exists h2' lost2, perform fuel t h2 = Some (h2', rs, lost2) /\ low a h' h2'.
Proof.
  induction t as [rs0|s k IH]; intros h h2 h' rs lost L H N; cbn in *.
  - injection H as <- <- <-. eauto.
  - destruct s as [v off|v off x|v|v|fs].
    + destruct (do_load h v off) as [x|] eqn:E; [|discriminate]. rewrite (low_load a h h2 v off x L E). eapply IH; eauto.
    + destruct (do_store h v off x) as [h1|] eqn:E; [|discriminate]. destruct (low_store a h h2 v off x h1 L E) as (h21 & -> & L1). eapply IH; eauto.
    + destruct (do_retain h v) as [h1|] eqn:E; [|discriminate]. destruct (low_retain a h h2 v h1 L E) as (h21 & -> & L1). eapply IH; eauto.
    + destruct (do_release fuel h [v]) as [[h1 l]|] eqn:E; [|discriminate].
      destruct (perform fuel (k (VInt 0)) h1) as [[[h3 rs3] l3]|] eqn:E3; [|discriminate]. injection H as <- <- <-.
      destruct (low_release a fuel _ _ _ _ _ L E) as (h21 & l21 & -> & L1); [intros I; apply N, in_app_iff; auto|].
      destruct (IH _ _ _ _ _ _ L1 E3) as (h22 & l22 & -> & L2); [intros I; apply N, in_app_iff; auto|]. eauto.
    + assert (Len : List.length h2 = List.length h) by (destruct L as (n & fs' & _ & ->); apply put_length). rewrite Len.
      eapply IH; eauto. destruct L as (n & fs' & G & ->). exists n, fs'. pose proof (get_lt _ _ _ G) as Lt. split.
      * apply get_some. rewrite nth_error_app1 by exact Lt. apply get_some, G.
      * rewrite put_app by exact Lt. reflexivity.
Qed.

(** ** Operations *)
Section Run.
  Variables (behave : nat -> list val -> act) (fuel : nat).
  Notation exec := (exec behave fuel). Notation execs := (execs behave fuel).

  Lemma execs_app os os' e h : execs (os ++ os') e h = match execs os e h with Some (e1, h1) => execs os' e1 h1 | None => None end.
  Proof. revert e h. induction os as [|o os IH]; intros e h; cbn; [reflexivity|]. destruct (exec o e h) as [[[e1 h1] l]|]; [apply IH | reflexivity]. Qed.

  Variables (ptr retained : nat).
  Hypothesis distinct : ptr <> retained.
  (** Values agree, but [retained] is read as [ptr]. *)
  Definition agree (e e2 : env) : Prop := (forall x, x <> retained -> e2 x = e x) /\ e retained = e ptr.
  Notation sub := (rename retained ptr). Notation sub_op := (rename_op retained ptr).
  Lemma agree_sub e e2 x : agree e e2 -> e2 (sub x) = e x.
  Proof. intros [A B]. unfold rename. destruct (Nat.eqb_spec x retained) as [->|N]; [rewrite (A _ distinct); auto | auto]. Qed.
  Lemma agree_map e e2 xs : agree e e2 -> map e2 (map sub xs) = map e xs.
  Proof. intros A. rewrite map_map. apply map_ext. intros x. apply agree_sub, A. Qed.
  Lemma agree_bind e e2 x v : agree e e2 -> x <> ptr -> x <> retained -> agree (bind e x v) (bind e2 x v).
  Proof.
    intros [A B] N1 N2. unfold bind. split.
    - intros y Ny. destruct (y =? x); auto.
    - destruct (Nat.eqb_spec retained x), (Nat.eqb_spec ptr x); congruence.
  Qed.
  Lemma agree_bind_all xs : forall e e2 vs, agree e e2 -> ~ In ptr xs -> ~ In retained xs -> agree (bind_all e xs vs) (bind_all e2 xs vs).
  Proof.
    induction xs as [|x xs IH]; intros e e2 [|v vs] A N1 N2; cbn; auto. cbn in N1, N2. apply IH; [apply agree_bind; auto | tauto | tauto].
  Qed.
  Definition fresh (o : pop) : Prop := ~ In ptr (p_results o) /\ ~ In retained (p_results o).

  (** With the same heap. *)
  Lemma exec_same o e e2 h e' h' lost : agree e e2 -> fresh o -> exec o e h = Some (e', h', lost) ->
    exists e2', exec (sub_op o) e2 h = Some (e2', h', lost) /\ agree e' e2'.
  Proof.
    intros A [F1 F2] H. unfold RcPairSpec.exec in *. cbn [p_kind p_args p_results p_captures rename_op]. destruct (p_kind o).
    - destruct (p_args o) as [|x [|]]; try discriminate. destruct (p_results o) as [|r [|]]; try discriminate. cbn [map]. rewrite (agree_sub e e2 x A).
      destruct (do_retain h (e x)); [|discriminate]. injection H as <- <- <-. eexists. split; [reflexivity|]. cbn in F1, F2. apply agree_bind; auto.
    - destruct (p_args o) as [|x [|]]; try discriminate. destruct (p_results o); try discriminate. cbn [map]. rewrite (agree_sub e e2 x A).
      destruct (do_release fuel h [e x]) as [[h1 l]|]; [|discriminate]. injection H as <- <- <-. eauto.
    - destruct (p_args o) as [|x [|]]; try discriminate. destruct (p_results o) as [|r [|]]; try discriminate. cbn [map]. rewrite (agree_sub e e2 x A).
      destruct (do_load h (e x) off); [|discriminate]. injection H as <- <- <-. eexists. split; [reflexivity|]. cbn in F1, F2. apply agree_bind; auto.
    - destruct (p_args o) as [|x [|y [|]]]; try discriminate. destruct (p_results o); try discriminate. cbn [map]. rewrite (agree_sub e e2 x A), (agree_sub e e2 y A).
      destruct (do_store h (e y) off (e x)); [|discriminate]. injection H as <- <- <-. eauto.
    - rewrite <- map_app, (agree_map e e2 _ A). destruct (perform fuel _ h) as [[[h1 vs] l]|]; [|discriminate]. injection H as <- <- <-.
      eexists. split; [reflexivity|]. apply agree_bind_all; auto.
  Qed.
  Lemma execs_same os : forall e e2 h e' h', agree e e2 -> Forall fresh os -> execs os e h = Some (e', h') ->
    exists e2', execs (map sub_op os) e2 h = Some (e2', h') /\ agree e' e2'.
  Proof.
    induction os as [|o os IH]; intros e e2 h e' h' A F H; cbn in *; [injection H as <- <-; eauto|]. inversion F; subst.
    destruct (exec o e h) as [[[e1 h1] l]|] eqn:E; [|discriminate]. destruct (exec_same o e e2 h e1 h1 l A) as (e21 & -> & A1); auto. eapply IH; eauto.
  Qed.
  (** With one count less. *)
  Lemma exec_low a o e e2 h h2 e' h' lost : agree e e2 -> fresh o -> low a h h2 -> exec o e h = Some (e', h', lost) -> ~ In a lost ->
    exists e2' h2' lost2, exec (sub_op o) e2 h2 = Some (e2', h2', lost2) /\ agree e' e2' /\ low a h' h2'.
  Proof.
    intros A [F1 F2] L H N. unfold RcPairSpec.exec in *. cbn [p_kind p_args p_results p_captures rename_op]. destruct (p_kind o).
    - destruct (p_args o) as [|x [|]]; try discriminate. destruct (p_results o) as [|r [|]]; try discriminate. cbn [map]. rewrite (agree_sub e e2 x A).
      destruct (do_retain h (e x)) as [h1|] eqn:E; [|discriminate]. injection H as <- <- <-. destruct (low_retain _ _ _ _ _ L E) as (h21 & -> & L1).
      do 3 eexists. split; [reflexivity|]. split; [|exact L1]. cbn in F1, F2. apply agree_bind; auto.
    - destruct (p_args o) as [|x [|]]; try discriminate. destruct (p_results o); try discriminate. cbn [map]. rewrite (agree_sub e e2 x A).
      destruct (do_release fuel h [e x]) as [[h1 l]|] eqn:E; [|discriminate]. injection H as <- <- <-. destruct (low_release _ _ _ _ _ _ _ L E N) as (h21 & l21 & -> & L1). eauto 8.
    - destruct (p_args o) as [|x [|]]; try discriminate. destruct (p_results o) as [|r [|]]; try discriminate. cbn [map]. rewrite (agree_sub e e2 x A).
      destruct (do_load h (e x) off) as [v|] eqn:E; [|discriminate]. injection H as <- <- <-. rewrite (low_load _ _ _ _ _ _ L E).
      do 3 eexists. split; [reflexivity|]. split; [|exact L]. cbn in F1, F2. apply agree_bind; auto.
    - destruct (p_args o) as [|x [|y [|]]]; try discriminate. destruct (p_results o); try discriminate. cbn [map]. rewrite (agree_sub e e2 x A), (agree_sub e e2 y A).
      destruct (do_store h (e y) off (e x)) as [h1|] eqn:E; [|discriminate]. injection H as <- <- <-. destruct (low_store _ _ _ _ _ _ _ L E) as (h21 & -> & L1). eauto 8.
    - rewrite <- map_app, (agree_map e e2 _ A). destruct (perform fuel _ h) as [[[h1 vs] l]|] eqn:E; [|discriminate]. injection H as <- <- <-.
      destruct (low_perform _ _ _ _ _ _ _ _ L E N) as (h21 & l21 & -> & L1). do 3 eexists. split; [reflexivity|]. split; [|exact L1]. apply agree_bind_all; auto.
  Qed.
  Lemma execs_low a os : forall e e2 h h2 e' h', agree e e2 -> Forall fresh os -> low a h h2 -> execs os e h = Some (e', h') ->
    (forall m1 o m2 e1 h1 e3 h3 lost, os = m1 ++ o :: m2 -> execs m1 e h = Some (e1, h1) -> exec o e1 h1 = Some (e3, h3, lost) -> ~ In a lost) ->
    exists e2' h2', execs (map sub_op os) e2 h2 = Some (e2', h2') /\ agree e' e2' /\ low a h' h2'.
  Proof.
    induction os as [|o os IH]; intros e e2 h h2 e' h' A F L H N; cbn in *; [injection H as <- <-; eauto|]. inversion F; subst.
    destruct (exec o e h) as [[[e1 h1] l]|] eqn:E; [|discriminate].
    destruct (exec_low a o e e2 h h2 e1 h1 l A) as (e21 & h21 & l21 & -> & A1 & L1); auto; [exact (N [] o os _ _ _ _ _ eq_refl eq_refl E)|].
    eapply IH; eauto. intros m1 o' m2 e3 h3 e4 h4 lost E1 E2 E3. apply (N (o :: m1) o' m2 e3 h3 e4 h4 lost); [rewrite E1; reflexivity | cbn; rewrite E; exact E2 | exact E3].
  Qed.
  (** The reference keeps its object. *)
  Lemma exec_ptr x o e h e' h' lost : ~ In x (p_results o) -> exec o e h = Some (e', h', lost) -> e' x = e x.
  Proof.
    intros N H. unfold RcPairSpec.exec in H.
    assert (BA : forall xs vs e0, ~ In x xs -> bind_all e0 xs vs x = e0 x).
    { induction xs as [|y xs IH]; intros [|v vs] e0 Nx; cbn; auto. rewrite IH by (cbn in Nx; tauto). unfold bind. cbn in Nx. destruct (Nat.eqb_spec x y); [subst; tauto | reflexivity]. }
    destruct (p_kind o); repeat match type of H with match ?l with _ => _ end = _ => destruct l; try discriminate | match match ?l with _ => _ end with _ => _ end = _ => destruct l eqn:?; try discriminate end;
      try (injection H as <- <- <-); auto; try (apply (BA [_] [_]); exact N); try (apply BA; exact N).
    all: unfold bind; cbn in N; destruct (Nat.eqb_spec x n0); [subst; tauto | reflexivity].
  Qed.
End Run.

(** ** What is removed *)
Lemma bad_operand_ok o ptr retained : forall args i, bad_operand o ptr retained i args = false <->
  (forall k x, nth_error args k = Some x -> x = ptr \/ x = retained -> proven_use o (i + k) = true).
Proof.
  induction args as [|y args IH]; intros i; cbn [bad_operand].
  - split; [intros _ [|k] x; discriminate | reflexivity].
  - rewrite Bool.orb_false_iff, IH. split.
    + intros [A B] [|k] x E O.
      * injection E as ->. rewrite Nat.add_0_r. destruct (proven_use o i); [reflexivity|]. cbn [negb] in A. rewrite Bool.andb_true_r in A.
        apply Bool.orb_false_iff in A. destruct A as [A1 A2]. apply Nat.eqb_neq in A1, A2. destruct O; congruence.
      * rewrite <- Nat.add_succ_comm. apply (B k x E O).
    + intros A. split.
      * destruct ((y =? ptr) || (y =? retained)) eqn:O; [|reflexivity]. cbn [andb].
        pose proof (A 0 y eq_refl) as A0. rewrite Nat.add_0_r in A0. rewrite A0; [reflexivity|].
        apply Bool.orb_true_iff in O. destruct O as [O|O]; apply Nat.eqb_eq in O; auto.
      * intros k x E O. rewrite Nat.add_succ_comm. apply (A (S k) x E O).
Qed.
Lemma proven_use_ok o k : proven_use o k = true <-> (exists off, p_kind o = PLoad off /\ k = 0) \/ (exists off, p_kind o = PStore off /\ k = 1).
Proof.
  unfold proven_use, is_load, is_store. destruct (p_kind o); rewrite ?Nat.eqb_eq; split; intros H; try discriminate; eauto;
    destruct H as [(off0 & E & K)|(off0 & E & K)]; congruence.
Qed.
Lemma barrier_ok o ptr retained : is_barrier o ptr retained = false <-> clear ptr retained o.
Proof.
  unfold is_barrier, clear. rewrite Bool.orb_false_iff, bad_operand_ok. cbn [Nat.add].
  split; intros [A B]; (split; [exact A|]); intros k x E O; specialize (B k x E O); apply proven_use_ok; exact B.
Qed.
Definition matching (ptr retained : nat) (o : pop) : bool :=
  match p_kind o, p_args o with PRelease, x :: _ => (x =? ptr) || (x =? retained) | _, _ => false end.
Lemma matching_ok ptr retained o : matching ptr retained o = true <-> p_kind o = PRelease /\ exists x l, p_args o = x :: l /\ (x = ptr \/ x = retained).
Proof.
  unfold matching. split.
  - destruct (p_kind o); try discriminate. destruct (p_args o) as [|x l]; try discriminate. intros H. split; [reflexivity|]. exists x, l. split; [reflexivity|].
    apply Bool.orb_true_iff in H. rewrite !Nat.eqb_eq in H. exact H.
  - intros (-> & x & l & -> & O). apply Bool.orb_true_iff. rewrite !Nat.eqb_eq. exact O.
Qed.
Lemma clear_not_matching ptr retained o : clear ptr retained o -> matching ptr retained o = false.
Proof.
  intros [_ C]. destruct (matching ptr retained o) eqn:M; [|reflexivity]. apply matching_ok in M. destruct M as (K & x & l & E & O).
  destruct (C 0 x) as [(off & K' & _)|(off & K' & _)]; [rewrite E; reflexivity | exact O | congruence | congruence].
Qed.
Lemma find_release_ok ptr retained : forall os mid post, find_release ptr retained os = Some (mid, post) <->
  exists r, os = mid ++ r :: post /\ matching ptr retained r = true /\ Forall (clear ptr retained) mid.
Proof.
  induction os as [|o os IH]; intros mid post; cbn [find_release].
  - split; [discriminate|]. intros (r & E & _). destruct mid; discriminate.
  - change (match p_kind o, p_args o with PRelease, x :: _ => (x =? ptr) || (x =? retained) | _, _ => false end) with (matching ptr retained o).
    destruct (matching ptr retained o) eqn:M.
    + split.
      * intros H. injection H as <- <-. exists o. auto.
      * intros (r & E & Mr & F). destruct mid as [|m mid]; [injection E as -> ->; reflexivity|]. injection E as <- E. inversion F; subst.
        rewrite clear_not_matching in M by assumption. discriminate.
    + destruct (is_barrier o ptr retained) eqn:B.
      * split; [discriminate|]. intros (r & E & Mr & F). destruct mid as [|m mid]; [injection E as <- E; congruence|]. injection E as <- E. inversion F; subst.
        match goal with C : clear _ _ o |- _ => apply barrier_ok in C; congruence end.
      * apply barrier_ok in B. destruct (find_release ptr retained os) as [[mid' post']|] eqn:Fr.
        -- split.
           ++ intros H. injection H as <- <-. destruct (proj1 (IH mid' post') eq_refl) as (r & -> & Mr & F). exists r. auto.
           ++ intros (r & E & Mr & F). destruct mid as [|m mid]; [injection E as <- E; congruence|]. injection E as <- E. inversion F; subst.
              assert (X : Some (mid', post') = Some (mid, post)) by (apply IH; exists r; auto). injection X as -> ->. reflexivity.
        -- split; [discriminate|]. intros (r & E & Mr & F). destruct mid as [|m mid]; [injection E as <- E; congruence|]. injection E as <- E. inversion F; subst.
           assert (X : @None (list pop * list pop) = Some (mid, post)) by (apply IH; exists r; auto). discriminate.
Qed.
Lemma eliminate_from_ok : forall os before os', eliminate_from before os = Some os' ->
  exists pre p ptr l retained l' mid r post, os = pre ++ p :: mid ++ r :: post /\ p_kind p = PRetain /\ p_args p = ptr :: l /\ p_results p = retained :: l' /\
    matching ptr retained r = true /\ Forall (clear ptr retained) mid /\ os' = map (rename_op retained ptr) (before ++ pre ++ mid ++ post).
Proof.
  induction os as [|o os IH]; intros before os' H; cbn [eliminate_from] in H; [discriminate|].
  assert (Next : eliminate_from (before ++ [o]) os = Some os' -> exists pre p ptr l retained l' mid r post, o :: os = pre ++ p :: mid ++ r :: post /\ p_kind p = PRetain /\ p_args p = ptr :: l /\ p_results p = retained :: l' /\
    matching ptr retained r = true /\ Forall (clear ptr retained) mid /\ os' = map (rename_op retained ptr) (before ++ pre ++ mid ++ post)).
  { intros E. destruct (IH _ _ E) as (pre & p & ptr & l & retained & l' & mid & r & post & -> & K & A & R & M & F & ->).
    exists (o :: pre), p, ptr, l, retained, l', mid, r, post. repeat (split; [auto|]). rewrite <- app_assoc. reflexivity. }
  destruct (p_kind o) eqn:K; try exact (Next H). destruct (p_args o) as [|ptr l] eqn:A; try exact (Next H). destruct (p_results o) as [|retained l'] eqn:R; try exact (Next H).
  destruct (find_release ptr retained os) as [[mid post]|] eqn:F; [|exact (Next H)]. injection H as <-.
  apply find_release_ok in F. destruct F as (r & -> & M & F). exists [], o, ptr, l, retained, l', mid, r, post. auto 10.
Qed.
Lemma eliminate_from_finds : forall os before pre p ptr l retained l' mid r post, os = pre ++ p :: mid ++ r :: post -> p_kind p = PRetain -> p_args p = ptr :: l ->
  p_results p = retained :: l' -> matching ptr retained r = true -> Forall (clear ptr retained) mid -> eliminate_from before os <> None.
Proof.
  induction os as [|o os IH]; intros before pre p ptr l retained l' mid r post E K A R M F; [destruct pre; discriminate|].
  cbn [eliminate_from]. destruct pre as [|x pre]; cbn in E; injection E as -> E.
  - rewrite K, A, R. rewrite (proj2 (find_release_ok ptr retained os mid post)); [discriminate|]. exists r. auto.
  - assert (N : eliminate_from (before ++ [x]) os <> None) by (eapply IH; eauto).
    destruct (p_kind x); auto. destruct (p_args x); auto. destruct (p_results x); auto. destruct (find_release _ _ _) as [[? ?]|]; [discriminate | exact N].
Qed.

(** ** SSA order *)
Lemma in_order_app os os' : in_order (os ++ os') -> in_order os' /\ (forall o x, In o os -> In x (p_args o ++ p_captures o ++ p_results o) -> ~ In x (flat_map p_results os')).
Proof.
  induction os as [|o os IH]; intros H; cbn in *; [split; [exact H | tauto]|]. destruct H as (H & A & B & _). destruct (IH H) as [I J]. split; [exact I|].
  intros o' x [<-|Io] Ix; [|exact (J o' x Io Ix)]. rewrite app_assoc in Ix. apply in_app_iff in Ix. rewrite flat_map_app in A, B.
  destruct Ix as [Ix|Ix]; [pose proof (B x Ix) as N | pose proof (proj2 (A x Ix)) as N]; rewrite in_app_iff in N; tauto.
Qed.
Lemma in_order_head o os : in_order (o :: os) -> (p_kind o = PRetain -> List.length (p_args o) = 1 /\ List.length (p_results o) = 1) /\
               (p_kind o = PRelease -> List.length (p_args o) = 1 /\ p_results o = []).
Proof. cbn. tauto. Qed.
Lemma one {A} (l : list A) : List.length l = 1 -> exists x, l = [x].
Proof. destruct l as [|x [|]]; try discriminate. eauto. Qed.
Lemma in_flat o x os : In o os -> In x (p_results o) -> In x (flat_map p_results os).
Proof. intros A B. apply in_flat_map. eauto. Qed.
Lemma rename_unused from to xs : ~ In from xs -> map (rename from to) xs = xs.
Proof.
  intros N. rewrite <- (map_id xs) at 2. apply map_ext_in. intros x I. unfold rename. destruct (Nat.eqb_spec x from); [subst; tauto | reflexivity].
Qed.
Lemma rename_op_unused from to o : ~ In from (p_args o ++ p_captures o) -> rename_op from to o = o.
Proof.
  intros N. rewrite in_app_iff in N. unfold rename_op. rewrite !rename_unused by tauto. destruct o; reflexivity.
Qed.

(** What a pair in ordered code gives. *)
Lemma pair_order ptr retained pre mid post os : in_order os -> pair ptr retained pre mid post os ->
  ptr <> retained /\ Forall (fresh ptr retained) (mid ++ post) /\ map (rename_op retained ptr) pre = pre.
Proof.
  intros O [p r x Kp Ap Rp Kr Ar X F ->]. destruct (in_order_app _ _ O) as [O' N]. cbn [in_order] in O'. destruct O' as (O' & D & U & _).
  rewrite Ap, Rp in *. split; [|split].
  - intros ->. destruct (D retained (or_introl eq_refl)) as [D1 _]. apply D1. left. reflexivity.
  - apply Forall_forall. intros o I. assert (Io : In o (mid ++ r :: post)) by (rewrite in_app_iff in *; cbn; tauto). split; intros Ix.
    + apply (U ptr); [left; reflexivity|]. eapply in_flat; eauto.
    + apply (proj2 (D retained (or_introl eq_refl))). eapply in_flat; eauto.
  - rewrite <- (map_id pre) at 2. apply map_ext_in. intros o I. apply rename_op_unused. intros Ix. apply (N o retained I).
    + rewrite app_assoc, in_app_iff. auto.
    + cbn [flat_map]. rewrite Rp. left. reflexivity.
Qed.
Lemma eliminate_one_pair os os' : in_order os -> eliminate_one os = Some os' ->
  exists ptr retained pre mid post, pair ptr retained pre mid post os /\ os' = pre ++ map (rename_op retained ptr) (mid ++ post).
Proof.
  intros O H. unfold eliminate_one in H. destruct (eliminate_from_ok _ _ _ H) as (pre & p & ptr & l & retained & l' & mid & r & post & E & K & A & R & M & F & E').
  assert (P : pair ptr retained pre mid post os).
  { rewrite E in O. destruct (in_order_app _ _ O) as [O' _]. destruct (proj1 (in_order_head _ _ O') K) as [L1 L2]. rewrite A in L1. rewrite R in L2.
    destruct l; [|discriminate]. destruct l'; [|discriminate]. change (p :: mid ++ r :: post) with ((p :: mid) ++ r :: post) in O'. destruct (in_order_app _ _ O') as [O'' _].
    apply matching_ok in M. destruct M as (Kr & x & lr & Er & X). destruct (proj2 (in_order_head _ _ O'') Kr) as [L3 _]. rewrite Er in L3. destruct lr; [|discriminate].
    eapply is_pair; eauto. }
  exists ptr, retained, pre, mid, post. split; [exact P|]. destruct (pair_order _ _ _ _ _ _ O P) as (_ & _ & Id). rewrite E'. cbn [app]. rewrite map_app, Id. reflexivity.
Qed.
Lemma eliminate_one_finds ptr retained pre mid post os : pair ptr retained pre mid post os -> eliminate_one os <> None.
Proof.
  intros [p r x Kp Ap Rp Kr Ar X F E]. unfold eliminate_one. eapply eliminate_from_finds; eauto. apply matching_ok. split; [exact Kr|]. exists x, []. auto.
Qed.

(** ** The removal keeps behaviour *)
Section Keep.
  Variables (behave : nat -> list val -> act) (fuel : nat).
  Notation exec := (exec behave fuel). Notation execs := (execs behave fuel).
  Lemma release_one a h h' c l : get h a = Some (mkCell (S (S c)) l) -> do_release fuel h [VPtr a] = Some h' -> fst h' = put h a (Some (mkCell (S c) l)).
  Proof.
    intros G H. destruct fuel as [|f]; [discriminate|]. cbn in H. rewrite G in H. cbn [cnt flds] in H. destruct c as [|c], f; cbn in H; injection H as <-; reflexivity.
  Qed.
  Lemma execs_fixed x os : forall e h e' h', ~ In x (flat_map p_results os) -> execs os e h = Some (e', h') -> e' x = e x.
  Proof.
    induction os as [|o os IH]; intros e h e' h' N H; cbn in *; [congruence|]. destruct (exec o e h) as [[[e1 h1] l]|] eqn:E; [|discriminate].
    rewrite in_app_iff in N. rewrite (IH _ _ _ _ (fun I => N (or_intror I)) H). eapply exec_ptr; eauto.
  Qed.
  Lemma keep ptr retained pre mid post os e h e1 h1 : in_order os -> pair ptr retained pre mid post os -> execs os e h = Some (e1, h1) ->
    (forall r e0 h0, p_kind r = PRetain -> p_args r = [ptr] -> p_results r = [retained] -> execs (pre ++ [r]) e h = Some (e0, h0) -> owned_elsewhere behave fuel ptr mid e0 h0) ->
    exists e2, execs (pre ++ map (rename_op retained ptr) (mid ++ post)) e h = Some (e2, h1) /\ (forall x, x <> retained -> e2 x = e1 x).
  Proof.
    intros O P H LA. destruct (pair_order _ _ _ _ _ _ O P) as (D & F & _). destruct P as [p r x Kp Ap Rp Kr Ar X C E]. subst os.
    rewrite execs_app in H. rewrite execs_app. destruct (execs pre e h) as [[ea ha]|] eqn:Epre; [|discriminate].
    cbn [RcPairSpec.execs] in H. unfold RcPairSpec.exec in H at 1. rewrite Kp, Ap, Rp in H.
    destruct (do_retain ha (ea ptr)) as [hb|] eqn:Eret; [|discriminate].
    set (eb := bind ea retained (ea ptr)) in *.
    assert (Ag : agree ptr retained eb ea).
    { split; unfold eb, bind; [intros y Ny|]; [destruct (Nat.eqb_spec y retained); congruence|]. rewrite Nat.eqb_refl. destruct (ptr =? retained); reflexivity. }
    specialize (LA p eb hb Kp Ap Rp). rewrite execs_app, Epre in LA. cbn [RcPairSpec.execs] in LA. unfold RcPairSpec.exec in LA at 1. rewrite Kp, Ap, Rp, Eret in LA. specialize (LA eq_refl).
    apply Forall_app in F. destruct F as [F1 F2]. rewrite execs_app in H. rewrite map_app.
    destruct (execs mid eb hb) as [[ec hc]|] eqn:Emid; [|discriminate].
    cbn [RcPairSpec.execs] in H. unfold RcPairSpec.exec in H at 1. rewrite Kr, Ar in H.
    assert (Nr : p_results r = []) by (destruct (p_results r); [reflexivity | discriminate]). rewrite Nr in H.
    destruct (do_release fuel hc [ec x]) as [[hd l]|] eqn:Erel; [|discriminate].
    assert (Vp : eb ptr = ea ptr) by (unfold eb, bind; destruct (ptr =? retained); reflexivity).
    assert (Fl : forall y, (y = ptr \/ y = retained) -> ~ In y (flat_map p_results mid)).
    { intros y Y I. apply in_flat_map in I. destruct I as (o & Io & Iy). rewrite Forall_forall in F1. destruct (F1 o Io) as [Q1 Q2]. destruct Y; subst; auto. }
    assert (Vx : ec x = ea ptr).
    { rewrite (execs_fixed x mid _ _ _ _ (Fl x X) Emid). destruct X; subst x; [exact Vp|]. unfold eb, bind. rewrite Nat.eqb_refl. reflexivity. }
    rewrite Vx in Erel.
    assert (Main : exists e2, execs (map (rename_op retained ptr) mid) ea ha = Some (e2, hd) /\ agree ptr retained ec e2).
    { destruct (ea ptr) as [z|a] eqn:V.
      - cbn in Eret. injection Eret as <-. assert (hd = hc) as -> by (destruct fuel as [|[|f]]; cbn in Erel; congruence).
        destruct (execs_same behave fuel ptr retained D mid eb ea ha ec hc Ag F1 Emid) as (e2 & Q & Q'). eauto.
      - cbn in Eret. destruct (get ha a) as [c|] eqn:G; [|discriminate]. destruct (cnt c) as [|n] eqn:Cn; [discriminate|]. cbn [Nat.eqb] in Eret. injection Eret as <-.
        assert (L0 : low a (put ha a (Some (mkCell (S (S n)) (flds c)))) ha).
        { exists n, (flds c). split; [apply (get_put_same _ _ _ _ G)|]. rewrite put_put. symmetry. apply put_id. apply get_some in G. rewrite G. destruct c; cbn in *; congruence. }
        destruct (execs_low behave fuel ptr retained D a mid eb ea _ ha ec hc Ag F1 L0 Emid) as (e2 & h2 & Q & Q' & L2).
        + intros m1 o m2 e3 h3 e4 h4 lost Em E3 E4. exact (LA m1 o m2 e3 h3 e4 h4 lost a Em E3 E4 Vp).
        + destruct L2 as (n2 & fs2 & G2 & ->). pose proof (release_one _ _ _ _ _ G2 Erel) as Eq. cbn in Eq. subst hd. eauto. }
    destruct Main as (e2 & Q & Ag2). rewrite execs_app, Q. destruct (execs_same behave fuel ptr retained D post ec e2 hd e1 h1 Ag2 F2 H) as (e3 & Q3 & Ag3).
    exists e3. split; [exact Q3 | apply Ag3].
  Qed.
End Keep.

(** ** Code that takes no counts *)
Lemma quiet_perform fuel t : quiet_act t -> forall h h' rs lost, perform fuel t h = Some (h', rs, lost) -> lost = [].
Proof.
  induction 1 as [rs0|s k N Q IH]; intros h h' rs lost H; cbn in H; [congruence|].
  destruct s; repeat match type of H with match ?t with _ => _ end = _ => destruct t; try discriminate end; try (eapply IH; exact H).
  all: exfalso; eapply N; reflexivity.
Qed.
Lemma quiet_exec behave fuel o e h e' h' lost : quiet behave o -> exec behave fuel o e h = Some (e', h', lost) -> lost = [].
Proof.
  unfold quiet, exec. intros Q H. destruct (p_kind o); [| tauto | | |];
    try (repeat match type of H with match ?t with _ => _ end = _ => destruct t; try discriminate end; congruence).
  destruct (perform fuel _ h) as [[[h1 rs] l]|] eqn:E; [|discriminate]. injection H as <- <- <-. eapply quiet_perform; eauto.
Qed.
Lemma quiet_owned behave fuel ptr mid e h : Forall (quiet behave) mid -> owned_elsewhere behave fuel ptr mid e h.
Proof.
  intros Q m1 o m2 e1 h1 e2 h2 lost a -> _ E _. rewrite Forall_forall in Q. rewrite (quiet_exec _ _ _ _ _ _ _ _ (Q o ltac:(rewrite in_app_iff; cbn; auto)) E). auto.
Qed.
Lemma in_rename from to x xs : In x (map (rename from to) xs) -> x = to \/ In x xs.
Proof. intros I. apply in_map_iff in I. destruct I as (y & <- & I). unfold rename. destruct (y =? from); auto. Qed.
Lemma in_order_rename from to os : in_order os -> ~ In to (flat_map p_results os) -> in_order (map (rename_op from to) os).
Proof.
  induction os as [|o os IH]; intros H N; cbn in *; [exact I|]. destruct H as (H & A & B & C & D & E). rewrite in_app_iff in N.
  assert (FM : flat_map p_results (map (rename_op from to) os) = flat_map p_results os) by (clear; induction os; cbn; congruence).
  assert (Ix : forall x, In x (map (rename from to) (p_args o) ++ map (rename from to) (p_captures o)) -> x = to \/ In x (p_args o ++ p_captures o)).
  { intros x Hx. rewrite <- map_app in Hx. apply in_rename in Hx. exact Hx. }
  split; [apply IH; tauto|]. rewrite FM. split; [|split; [|split; [|split]]].
  - intros x Hx. destruct (A x Hx) as [A1 A2]. split; [|exact A2]. intros Hy. apply Ix in Hy. destruct Hy as [->|Hy]; [tauto | exact (A1 Hy)].
  - intros x Hx. apply Ix in Hx. destruct Hx as [->|Hx]; [tauto | apply B, Hx].
  - intros R. rewrite (C R). reflexivity.
  - rewrite map_length. exact D.
  - rewrite map_length. exact E.
Qed.
Lemma in_order_join os os' : in_order os -> in_order os' -> (forall o x, In o os -> In x (p_args o ++ p_captures o ++ p_results o) -> ~ In x (flat_map p_results os')) -> in_order (os ++ os').
Proof.
  induction os as [|o os IH]; intros H H' N; cbn in *; [exact H'|]. destruct H as (H & A & B & C & D & E). split; [apply (IH H H'); intros o' x I; apply N; right; exact I|]. rewrite flat_map_app.
  split; [|split; [|auto]].
  - intros x Hx. destruct (A x Hx) as [A1 A2]. split; [exact A1|]. rewrite in_app_iff. intros [I|I]; [tauto|]. eapply (N o x); eauto. rewrite !in_app_iff. auto.
  - intros x Hx. rewrite in_app_iff. intros [I|I]; [exact (B x Hx I)|]. eapply (N o x); eauto. rewrite !in_app_iff. rewrite in_app_iff in Hx. tauto.
Qed.
Lemma in_order_front os os' : in_order (os ++ os') -> in_order os.
Proof.
  induction os as [|o os IH]; intros H; cbn in *; [exact I|]. destruct H as (H & A & B & C & D & E). rewrite flat_map_app in A, B. split; [auto|]. split; [|split; [|auto]].
  - intros x Hx. destruct (A x Hx) as [A1 A2]. rewrite in_app_iff in A2. tauto.
  - intros x Hx. pose proof (B x Hx) as Q. rewrite in_app_iff in Q. tauto.
Qed.
Lemma in_order_drop pre o post : in_order (pre ++ o :: post) -> in_order (pre ++ post).
Proof.
  intros H. destruct (in_order_app _ _ H) as [[H' _] N]. apply in_order_join; [eapply in_order_front; eauto | exact H'|].
  intros o' x I Ix Q. apply (N o' x I Ix). cbn. rewrite in_app_iff. auto.
Qed.
Lemma pair_result_order ptr retained pre mid post os : in_order os -> pair ptr retained pre mid post os -> in_order (pre ++ map (rename_op retained ptr) (mid ++ post)).
Proof.
  intros O P. destruct (pair_order _ _ _ _ _ _ O P) as (D & F & Id). destruct P as [p r x Kp Ap Rp Kr Ar X C ->].
  pose proof (in_order_drop _ _ _ O) as O1. rewrite app_assoc in O1. apply in_order_drop in O1. rewrite <- app_assoc in O1.
  destruct (in_order_app _ _ O1) as [O2 N2]. apply in_order_join.
  - eapply in_order_front; eauto.
  - apply in_order_rename; [exact O2|]. intros I. apply in_flat_map in I. destruct I as (o & Io & Ix). rewrite Forall_forall in F. destruct (F o Io) as [Q _]. exact (Q Ix).
  - intros o y I Iy. replace (flat_map p_results (map (rename_op retained ptr) (mid ++ post))) with (flat_map p_results (mid ++ post)); [exact (N2 o y I Iy)|].
    clear. induction (mid ++ post); cbn; congruence.
Qed.

(** ** All pairs *)
Lemma pair_counts ptr retained pre mid post os : pair ptr retained pre mid post os -> let os' := pre ++ map (rename_op retained ptr) (mid ++ post) in
  retains os = S (retains os') /\ releases os = S (releases os') /\ others os' = others os /\ List.length os = S (S (List.length os')).
Proof.
  intros [p r x Kp Ap Rp Kr Ar X C ->] os'. unfold retains, releases, others, os'.
  assert (M : forall (f : pop -> bool) l, (forall o, f (rename_op retained ptr o) = f o) -> filter f (map (rename_op retained ptr) l) = map (rename_op retained ptr) (filter f l)).
  { intros f l Hf. induction l as [|o l IH]; cbn; [reflexivity|]. rewrite Hf, IH. destruct (f o); reflexivity. }
  assert (Kp' : is_rc_op p = true) by (unfold is_rc_op; rewrite Kp; reflexivity). assert (Kr' : is_rc_op r = true) by (unfold is_rc_op; rewrite Kr; reflexivity).
  rewrite !filter_app. rewrite !M by reflexivity. cbn [filter]. rewrite !filter_app. cbn [filter]. rewrite Kp', Kr', Kp, Kr. cbn [negb].
  rewrite !app_length, !map_length, !app_length, !map_app. cbn [length]. rewrite !app_length. cbn [length]. repeat split; try lia.
  rewrite !map_map. reflexivity.
Qed.
Lemma eliminate_all_ok : forall fuel os, List.length os < fuel -> in_order os ->
  exists os', eliminate_all fuel os = Some os' /\ in_order os' /\ (forall ptr retained pre mid post, ~ pair ptr retained pre mid post os') /\ others os' = others os /\
    retains os + releases os' = releases os + retains os'.
Proof.
  induction fuel as [|fuel IH]; intros os L O; [lia|]. cbn [eliminate_all]. destruct (eliminate_one os) as [os1|] eqn:E.
  - destruct (eliminate_one_pair os os1 O E) as (ptr & retained & pre & mid & post & P & Eq). pose proof (pair_counts _ _ _ _ _ _ P) as Q. cbn zeta in Q. rewrite <- Eq in Q.
    destruct Q as (Q1 & Q2 & Q3 & Q4). destruct (IH os1) as (os' & A & B & C & D & F); [lia | rewrite Eq; eapply pair_result_order; eauto|].
    exists os'. split; [exact A|]. split; [exact B|]. split; [exact C|]. split; [congruence | lia].
  - exists os. split; [reflexivity|]. split; [exact O|]. split; [|split; [reflexivity | lia]]. intros ptr retained pre mid post P. exact (eliminate_one_finds _ _ _ _ _ _ P E).
Qed.
Lemma eliminate_one_keeps behave fuel os os' : in_order os -> eliminate_one os = Some os' ->
  exists ptr retained pre mid post, pair ptr retained pre mid post os /\ others os' = others os /\
    forall e h e1 h1, execs behave fuel os e h = Some (e1, h1) ->
      (forall r e0 h0, p_kind r = PRetain -> p_args r = [ptr] -> p_results r = [retained] -> execs behave fuel (pre ++ [r]) e h = Some (e0, h0) ->
         owned_elsewhere behave fuel ptr mid e0 h0) ->
      exists e2, execs behave fuel os' e h = Some (e2, h1) /\ (forall x, x <> retained -> e2 x = e1 x).
Proof.
  intros O E. destruct (eliminate_one_pair os os' O E) as (ptr & retained & pre & mid & post & P & ->). exists ptr, retained, pre, mid, post. split; [exact P|].
  split; [apply (pair_counts _ _ _ _ _ _ P)|]. intros e h e1 h1 H LA. eapply keep; eauto.
Qed.
Lemma quiet_keep behave fuel ptr retained pre mid post os e h e1 h1 : in_order os ->
  pair ptr retained pre mid post os -> Forall (quiet behave) mid -> execs behave fuel os e h = Some (e1, h1) ->
  exists e2, execs behave fuel (pre ++ map (rename_op retained ptr) (mid ++ post)) e h = Some (e2, h1) /\ (forall x, x <> retained -> e2 x = e1 x).
Proof. intros O P Q H. eapply keep; eauto. intros. apply quiet_owned, Q. Qed.
Lemma eliminate_all_end os : in_order os ->
  exists os', eliminate_all (S (List.length os)) os = Some os' /\ in_order os' /\ (forall ptr retained pre mid post, ~ pair ptr retained pre mid post os') /\
    others os' = others os /\ retains os + releases os' = releases os + retains os'.
Proof. apply eliminate_all_ok. lia. Qed.
