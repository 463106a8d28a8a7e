(** The analysis' sets are the specification's. *)
From Verif Require Import RcLiveModel RcLiveSpec RcLiveProofs.
From Coq Require Import Lia.
Import ListNotations.

Lemma NoDup_flat_inj {A B} (g : A -> list B) l a b x : NoDup (flat_map g l) -> In a l -> In b l -> In x (g a) -> In x (g b) -> a = b.
Proof.
  induction l as [|c l IH]; intros N Ia Ib Xa Xb; [destruct Ia|]. cbn in N.
  pose proof (NoDup_app_disj _ _ N) as D. apply NoDup_app_r in N.
  destruct Ia as [->|Ia], Ib as [->|Ib]; [reflexivity| | |auto].
  - exfalso. apply (D x Xa), in_flat_map. eauto.
  - exfalso. apply (D x Xb), in_flat_map. eauto.
Qed.

Lemma cast_trans f a b c : cast_of f a b -> cast_of f b c -> cast_of f a c.
Proof. intros H1 H2. induction H2; [exact H1 | eapply cast_step; eauto]. Qed.

Lemma split_order {A} (p1 p2 : list A) o1 o2 q1 q2 : p1 ++ o1 :: q1 = p2 ++ o2 :: q2 -> List.length p1 <= List.length p2 ->
  exists m, o1 :: q1 = m ++ o2 :: q2.
Proof.
  revert p2. induction p1 as [|x p1 IH]; intros p2 E L; cbn in *; [exists p2; exact E|].
  destruct p2 as [|y p2]; cbn in *; [lia|]. injection E as -> E. apply (IH p2 E). lia.
Qed.

Lemma cast_later f (O : casts_in_order f) a b : cast_of f a b ->
  a = b \/ exists pre o post, f_ops f = pre ++ o :: post /\ In b (o_results o) /\ ~ In a (flat_map o_results (o :: post)).
Proof.
  induction 1 as [|o x y rest more Io K A R I H IH]; [left; reflexivity|]. right.
  destruct (in_split o (f_ops f) Io) as [pre [post E]].
  pose proof (proj2 O pre o post x rest E K A) as NX.
  exists pre, o, post. split; [exact E|]. split; [rewrite R; left; reflexivity|].
  destruct IH as [->|(pre' & o' & post' & E' & Ix & Na)]; [exact NX|].
  destruct (Nat.le_gt_cases (List.length pre) (List.length pre')) as [L|L].
  - exfalso. rewrite E in E'. destruct (split_order _ _ _ _ _ _ E' L) as [m M]. apply NX. rewrite M.
    rewrite flat_map_app. apply in_app_iff. right. cbn. apply in_app_iff. left. exact Ix.
  - rewrite E in E'. symmetry in E'. destruct (split_order _ _ _ _ _ _ E' ltac:(lia)) as [m M].
    intros Ia. apply Na. rewrite M, flat_map_app. apply in_app_iff. right. exact Ia.
Qed.
Lemma cast_antisym f (O : casts_in_order f) a b : cast_of f a b -> cast_of f b a -> a = b.
Proof.
  intros H1 H2. destruct (cast_later f O a b H1) as [E|(p1 & o1 & q1 & E1 & I1 & N1)]; [exact E|].
  destruct (cast_later f O b a H2) as [E|(p2 & o2 & q2 & E2 & I2 & N2)]; [auto|]. exfalso.
  destruct (Nat.le_gt_cases (List.length p1) (List.length p2)) as [L|L].
  - rewrite E1 in E2. destruct (split_order _ _ _ _ _ _ E2 L) as [m M]. apply N1. rewrite M, flat_map_app.
    apply in_app_iff. right. cbn. apply in_app_iff. left. exact I2.
  - rewrite E1 in E2. symmetry in E2. destruct (split_order _ _ _ _ _ _ E2 ltac:(lia)) as [m M]. apply N2. rewrite M, flat_map_app.
    apply in_app_iff. right. cbn. apply in_app_iff. left. exact I1.
Qed.

Section Exact.
  Variables (f : nfunc) (deps : nat -> option nat) (U : list nat) (fuel : nat).
  Hypothesis one : one_definition f.
  Hypothesis order : casts_in_order f.
  Hypothesis range : forall x y, deps x = Some y -> In y U.
  Hypothesis enough : List.length U < fuel.

  Lemma results_nodup : NoDup (flat_map o_results (f_ops f)).
  Proof. exact (NoDup_app_r _ _ one). Qed.

  Lemma def_op_some v o : def_op f v = Some o <-> In o (f_ops f) /\ In v (o_results o).
  Proof.
    unfold def_op. split.
    - intros E. apply find_some in E as [I H]. apply has_In in H. auto.
    - intros [I H]. destruct (find (fun o => has v (o_results o)) (f_ops f)) as [o'|] eqn:E.
      + apply find_some in E as [I' H']. apply has_In in H'. f_equal. exact (NoDup_flat_inj _ _ _ _ v results_nodup I' I H' H).
      + pose proof (find_none _ _ E o I) as N. cbn in N. apply has_false in N. contradiction.
  Qed.
  Lemma is_static_ok v : is_static f v = true <-> static f v.
  Proof.
    unfold is_static, static. destruct (def_op f v) as [o|] eqn:E.
    - pose proof (proj1 (def_op_some v o) E) as [I H]. split.
      + intros S. exists o. split; [exact I|]. split; [exact H|]. destruct (o_kind o) eqn:K; try discriminate; [|left; reflexivity].
        apply andb_prop in S as [S1 S2]. apply Z.eqb_eq in S2. subst. right. auto.
      + intros (o' & I' & H' & C). pose proof (proj2 (def_op_some v o') (conj I' H')) as E'. rewrite E in E'. injection E' as <-.
        destruct C as [->|[-> A]]; [reflexivity|]. rewrite A. reflexivity.
    - split; [discriminate|]. intros (o' & I' & H' & _). pose proof (proj2 (def_op_some v o') (conj I' H')) as E'. rewrite E in E'. discriminate.
  Qed.
  Lemma not_static v : negb (is_static f v) = true <-> ~ static f v.
  Proof. rewrite <- is_static_ok. destruct (is_static f v); cbn; split; congruence. Qed.

  Lemma in_ops o : In o (f_ops f) <-> exists b, In b (f_blocks f) /\ In o (b_ops b).
  Proof. apply in_flat_map. Qed.

  Lemma collect_ok v : In v (collect_ptr_values f) <-> counted f v.
  Proof.
    unfold collect_ptr_values, counted. rewrite in_app_iff, !in_flat_map. split.
    - intros [(b & Ib & H)|(o & Io & H)].
      + apply in_app_iff in H as [H|H].
        * apply filter_In in H as [H A]. split; [exact A|]. left. eauto.
        * apply in_flat_map in H as (o & Io & H). apply filter_In in H as [H M]. apply andb_prop in M as [A N]. apply not_static in N.
          split; [exact A|]. right. split; [exact N|]. exists o. split; [apply in_ops; eauto | left; exact H].
      + apply filter_In in H as [H M]. apply andb_prop in M as [A N]. apply not_static in N.
        split; [exact A|]. right. split; [exact N|]. exists o. auto.
    - intros [A [(b & Ib & H)|(N & o & Io & [H|H])]].
      + left. exists b. split; [exact Ib|]. apply in_app_iff. left. apply filter_In. auto.
      + apply not_static in N. left. apply in_ops in Io as (b & Ib & Io). exists b. split; [exact Ib|]. apply in_app_iff. right.
        apply in_flat_map. exists o. split; [exact Io|]. apply filter_In. rewrite A, N. auto.
      + apply not_static in N. right. exists o. split; [exact Io|]. apply filter_In. rewrite A, N. auto.
  Qed.

  Notation analysis := (analyse f deps fuel).

  Lemma alias_parts : (forall y r, aget (i_alias analysis) y = Some r <-> (In r (i_ptrs analysis) /\ cast_of f r y /\ y <> r)) /\
    (forall v, In v (i_ptrs analysis) <-> (counted f v /\ forall r, In r (i_ptrs analysis) -> cast_of f r v -> r = v)).
  Proof.
    pose proof (alias_exact f order (collect_ptr_values f)) as H. unfold analyse.
    destruct (build_alias_map f (collect_ptr_values f)) as [al ps]. cbn [i_alias i_ptrs]. destruct H as [H1 H2].
    split; [exact H1|]. intros v. rewrite <- collect_ok. apply H2.
  Qed.
  Lemma roots_ok v : In v (i_ptrs analysis) <-> root f v.
  Proof.
    destruct alias_parts as [A P]. split.
    - intros I. pose proof (proj1 (P v) I) as [C M]. constructor; [exact C|]. intros r Cr H.
      destruct (has r (i_ptrs analysis)) eqn:E; [apply has_In in E; apply M; assumption|]. apply has_false in E.
      destruct (aget (i_alias analysis) r) as [r0|] eqn:G.
      + apply (proj1 (A r r0)) in G as (G1 & G2 & G3). pose proof (M r0 G1 (cast_trans _ _ _ _ G2 H)) as ->.
        apply (cast_antisym f order); assumption.
      + exfalso. apply E, P. split; [exact Cr|]. intros r0 I0 H0.
        destruct (Nat.eq_dec r0 r) as [->|D]; [reflexivity|]. exfalso.
        pose proof (proj2 (A r r0) (conj I0 (conj H0 (not_eq_sym D)))) as X. rewrite G in X. discriminate.
    - intros [C M]. apply P. split; [exact C|]. intros r I H. apply M; [|exact H]. apply P in I. tauto.
  Qed.
  Lemma refers_ok v x : In v (refers analysis x) <-> uses_value f deps v x.
  Proof.
    destruct alias_parts as [A P]. unfold refers, uses_value. rewrite !in_app_iff.
    assert (O : In v (owners (i_fuel analysis) (i_deps analysis) [] x) <-> keeps deps x v).
    { unfold analyse. destruct (build_alias_map f _). cbn [i_fuel i_deps]. apply (owners_exact deps U); assumption. }
    rewrite O. split.
    - intros [H|[H|H]]; [|left|right; exact H].
      + left. destruct (has x (i_ptrs analysis)) eqn:E; [|destruct H]. destruct H as [<-|[]]. apply has_In in E.
        split; [apply roots_ok, E | constructor].
      + destruct (aget (i_alias analysis) x) as [r|] eqn:E; [|destruct H]. destruct H as [<-|[]].
        apply (proj1 (A x r)) in E as (E1 & E2 & _). split; [apply roots_ok, E1 | exact E2].
    - intros [[R C]|K]; [|right; right; exact K]. apply roots_ok in R.
      destruct (Nat.eq_dec x v) as [->|D].
      + left. apply has_In in R. rewrite R. left. reflexivity.
      + right. left. rewrite (proj2 (A x v) (conj R (conj C D))). left. reflexivity.
  Qed.
  Lemma op_defs_ok o v : In o (f_ops f) -> (In v (op_defs f analysis o) <-> defines f o v).
  Proof.
    intros Io. unfold op_defs, defines. rewrite filter_In, <- roots_ok. split.
    - intros [I H]. apply andb_prop in H as [_ H]. apply has_In in H. auto.
    - intros [I R]. split; [exact I|]. pose proof (proj1 (roots_ok v) R) as [[A C] _]. apply has_In in R.
      rewrite A, R. replace (negb (is_static f v)) with true; [reflexivity|]. symmetry. apply not_static.
      destruct C as [(b & Ib & Ia)|[N _]]; [|exact N]. exfalso.
      apply (NoDup_app_disj _ _ one v); apply in_flat_map; eauto.
  Qed.
  Lemma goes_ok b s : In s (successors (blk f b)) <-> goes_to f b s.
  Proof.
    unfold successors, goes_to. destruct (rev (b_ops (blk f b))) as [|o r] eqn:E.
    - apply (f_equal (@rev _)) in E. rewrite rev_involutive in E. rewrite E. split; [intros [] | intros (ops & o & H & _)].
      destruct ops; discriminate H.
    - apply (f_equal (@rev _)) in E. rewrite rev_involutive in E. cbn in E. rewrite E. split.
      + intros I. eauto.
      + intros (ops & o' & H & I). apply app_inj_tail in H as [_ ->]. exact I.
  Qed.
  Lemma takes_ok b v : In v (arg_defs f (blk f b)) <-> takes f b v.
  Proof. unfold arg_defs, takes. apply filter_In. Qed.
  Lemma op_in b k o : nth_error (b_ops (blk f b)) k = Some o -> In o (f_ops f).
  Proof.
    intros E. apply nth_error_In in E. apply in_ops. exists (blk f b). split; [|exact E]. unfold blk in *.
    destruct (nth_in_or_default b (f_blocks f) (mkNblock [] [])) as [I|D]; [exact I|]. rewrite D in E. destruct E.
  Qed.

  Lemma needed_ok v b k : used_later f analysis v b k <-> needed f deps v b k.
  Proof.
    split; induction 1.
    - eapply needed_here; eauto. apply refers_ok. assumption.
    - eapply needed_after; eauto. rewrite <- op_defs_ok; [assumption | eapply op_in; eauto].
    - eapply needed_next; eauto; [apply goes_ok; assumption | rewrite <- takes_ok; assumption].
    - eapply used_here; eauto. apply refers_ok. assumption.
    - eapply used_after; eauto. rewrite op_defs_ok; [assumption | eapply op_in; eauto].
    - eapply used_next; eauto; [apply goes_ok; assumption | rewrite takes_ok; assumption].
  Qed.
  Lemma start_ok v b : live_at_start f analysis v b <-> needed_at_start f deps v b.
  Proof. unfold live_at_start, needed_at_start. rewrite needed_ok, takes_ok. reflexivity. Qed.
  Lemma end_ok v b : live_at_end f analysis v b <-> needed_at_end f deps v b.
  Proof.
    unfold live_at_end, needed_at_end. split; intros (s & G & H); exists s; (split; [apply goes_ok, G | apply start_ok, H]).
  Qed.

  Definition liveness_right (l : live) : Prop := forall b, b < List.length (f_blocks f) -> forall v,
    (In v (l_in l b) <-> needed_at_start f deps v b) /\ (In v (l_out l b) <-> needed_at_end f deps v b).
  Lemma liveness_spec rounds l : compute_liveness rounds f analysis = Some l -> liveness_right l.
  Proof. intros E b Hb v. destruct (liveness_exact f analysis rounds l E b Hb v) as [H1 H2]. rewrite H1, H2, start_ok, end_ok. tauto. Qed.
  Lemma liveness_ends : exists rounds l, compute_liveness rounds f analysis = Some l.
  Proof. destruct (liveness_ok f analysis (S (bound f analysis)) (Nat.lt_succ_diag_r _)) as [l [E _]]. eauto. Qed.
End Exact.
