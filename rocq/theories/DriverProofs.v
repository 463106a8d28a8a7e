From Verif Require Import DriverSpec.

Section OpInd.
  Variable P : op -> Prop.
  Hypothesis H : forall d rs, Forall (Forall (Forall P)) rs -> P (Op d rs).
  Fixpoint op_ind' (o : op) : P o :=
    let fix os (l : list op) : Forall P l := match l with [] => Forall_nil _ | o :: l' => Forall_cons _ (op_ind' o) (os l') end in
    let fix bs (l : list (list op)) : Forall (Forall P) l := match l with [] => Forall_nil _ | b :: l' => Forall_cons _ (os b) (bs l') end in
    let fix rs (l : list (list (list op))) : Forall (Forall (Forall P)) l := match l with [] => Forall_nil _ | r :: l' => Forall_cons _ (bs r) (rs l') end in
    match o with Op d r => H d r (rs r) end.
End OpInd.

Lemma sub_nil x : sub [] x = x.
Proof. reflexivity. Qed.
Lemma rdata_nil d : rdata [] d = d.
Proof. destruct d as [k os r]. unfold rdata. cbn. f_equal. induction os as [|x os IH]; cbn; [reflexivity|]. f_equal. exact IH. Qed.
Lemma map_id_in {A} (f : A -> A) l : (forall x, In x l -> f x = x) -> List.map f l = l.
Proof. induction l as [|x l IH]; intros H; cbn; [reflexivity|]. rewrite H by (cbn; auto). f_equal. apply IH. intros y I. apply H. cbn. auto. Qed.
Lemma rop_nil o : rop [] o = o.
Proof.
  induction o as [d rs H] using op_ind'. cbn [rop]. rewrite rdata_nil. f_equal.
  rewrite Forall_forall in H. apply map_id_in. intros r Ir. apply map_id_in. intros b Ib. apply map_id_in. intros o Io.
  specialize (H r Ir). rewrite Forall_forall in H. specialize (H b Ib). rewrite Forall_forall in H. auto.
Qed.
Lemma rops_nil l : rops [] l = l.
Proof. apply map_id_in. intros x _. apply rop_nil. Qed.
Lemma rblocks_nil r : List.map (rops []) r = r.
Proof. apply map_id_in. intros x _. apply rops_nil. Qed.

(** ** Sequences of visits *)
Section Seqs.
  Context {A B : Type}.
  Variable rn : subst -> B -> B.
  Variable f : subst -> nat -> A -> res B.

  (** No change in a sequence means none in its parts. *)
  Lemma seq_still (g : subst -> A -> B) (Q : subst -> A -> Prop) (Rn : forall b, rn [] b = b) l : forall s n,
    (forall a, In a l -> forall s n, changes (f s n a) = 0 -> out (f s n a) = g s a /\ ren (f s n a) = [] /\ extra (f s n a) = [] /\ Q s a) ->
    changes (seq rn f s n l) = 0 ->
    out (seq rn f s n l) = List.map (g s) l /\ ren (seq rn f s n l) = [] /\ extra (seq rn f s n l) = [] /\ forall a, In a l -> Q s a.
  Proof.
    induction l as [|a l IH]; intros s n H C; cbn [seq] in *; [cbn; repeat split; auto; intros a []|].
    unfold chain, both in *. cbn [changes out ren extra] in *.
    destruct (H a ltac:(cbn; auto) s n ltac:(lia)) as (O & R & X & q). rewrite R in *. rewrite app_nil_r in *.
    destruct (IH s (next (f s n a)) ltac:(intros b Ib; apply H; cbn; auto) ltac:(lia)) as (O' & R' & X' & q').
    rewrite O, O', R', X, X', Rn. cbn. repeat split; auto. intros b [<-|Ib]; auto.
  Qed.
  Lemma seq_zero l : forall s n, (forall a, In a l -> forall s n, changes (f s n a) = 0) -> changes (seq rn f s n l) = 0.
  Proof.
    induction l as [|a l IH]; intros s n H; cbn [seq]; [reflexivity|]. unfold chain, both. cbn [changes].
    rewrite H by (cbn; auto). rewrite IH; [reflexivity|]. intros b Ib. apply H. cbn. auto.
  Qed.
  (** What holds of the parts holds of the whole. *)
  Lemma seq_all (Pb : B -> Prop) (Po : op -> Prop) (Rb : forall s b, Pb b -> Pb (rn s b)) (Ro : forall s o, Po o -> Po (rop s o)) l : forall s n,
    (forall a, In a l -> forall s n, Pb (out (f s n a)) /\ Forall Po (extra (f s n a))) ->
    Forall Pb (out (seq rn f s n l)) /\ Forall Po (extra (seq rn f s n l)).
  Proof.
    induction l as [|a l IH]; intros s n H; cbn [seq]; [cbn; auto|]. unfold chain, both. cbn [out extra].
    destruct (H a ltac:(cbn; auto) s n) as [P1 P2]. destruct (IH (s ++ ren (f s n a)) (next (f s n a)) ltac:(intros b Ib; apply H; cbn; auto)) as [P3 P4].
    split; [constructor; auto|]. apply Forall_app. split; [|exact P4]. unfold rops. apply Forall_forall. intros x I. apply in_map_iff in I as (y & <- & I).
    apply Ro. rewrite Forall_forall in P2. auto.
  Qed.
End Seqs.

(** ** Ranks *)
Section Below.
  Variable recursive : op -> bool.
  Variable rank : nat -> nat.
  Notation below := (below recursive rank).
  Lemma below_eq R d rs : below R (Op d rs) <->
    recursive (Op d rs) = true \/ (rank (kind d) <= R /\ forall r b o, In r rs -> In b r -> In o b -> below R o).
  Proof.
    cbn [DriverSpec.below].
    assert (Os : forall b (P : Prop), fold_right (fun o P => below R o /\ P) P b <-> P /\ forall o, In o b -> below R o).
    { induction b as [|o b IH]; intros P; cbn; [tauto|]. rewrite IH. split; [intros (A & B & C); split; auto; intros x [<-|I]; auto|intros (A & B); repeat split; auto]. }
    assert (Bs : forall r (P : Prop), fold_right (fun b P => fold_right (fun o P => below R o /\ P) P b) P r <-> P /\ forall b o, In b r -> In o b -> below R o).
    { induction r as [|b r IH]; intros P; cbn [fold_right In]; [firstorder|]. rewrite Os, IH. split; [intros ((A & B) & C); split; auto; intros b' o [<-|I] J; eauto|intros (A & B); repeat split; eauto]. }
    assert (Rs : forall l, fold_right (fun r P => fold_right (fun b P => fold_right (fun o P => below R o /\ P) P b) P r) True l <-> forall r b o, In r l -> In b r -> In o b -> below R o).
    { induction l as [|r l IH]; cbn [fold_right In]; [firstorder|]. rewrite Bs, IH. split; [intros (A & B) r' b o [<-|I]; eauto|intros A; split; eauto]. }
    rewrite Rs. reflexivity.
  Qed.
End Below.

Section Engine.
  Variable ps : list pattern.
  Variable constrained : bool.
  Variable legal : op -> legality.
  Variable recursive : op -> bool.
  Variable at_module : bool.
  Let skip (o : op) : bool := constrained && recursive o.
  Let vis := visit ps constrained legal recursive at_module.
  Let idle (o : op) : Prop := constrained = false \/ legal o <> Legal.
  Definition quiet (o : op) : Prop := forall x, seen skip o x -> idle x -> at_rest ps x.

  Lemma no_mutations m : has_mutations m = false <-> no_change m.
  Proof.
    unfold has_mutations, no_change. destruct (prefix m), (replacement m), (erase_values m), (module_ops m); cbn; split; try discriminate; auto; intros (A & B & C & D); congruence.
  Qed.
  Lemma try_none l : forall n o n', try l n o = (None, n') -> at_rest l o.
  Proof.
    induction l as [|p l IH]; intros n o n' E q I M; [destruct I|]. cbn [try] in E. destruct (p_make p n o) as [m n1] eqn:Em.
    destruct (p_match p o && has_mutations m) eqn:B; [discriminate|]. destruct I as [<-|I].
    - rewrite M in B. cbn in B. exists n. rewrite Em. apply no_mutations, B.
    - apply (IH n1 o n' E q I M).
  Qed.

  Lemma visit_eq s n d rs : vis s n (Op d rs) =
    if skip (rop s (Op d rs)) then Res [rop s (Op d rs)] [] n 0 []
    else work ps constrained legal at_module s d (seq (fun s r => List.map (rops s) r) (visit_region ps constrained legal recursive at_module) s n rs).
  Proof. reflexivity. Qed.

  Lemma concat_single {A} (l : list A) : concat (List.map (fun x => [x]) l) = l.
  Proof. induction l as [|x l IH]; cbn; [reflexivity|]. f_equal. exact IH. Qed.

  (** A visit without changes leaves everything as it is, and finds nothing to do. *)
  Definition still (o : op) : Prop := forall s n, changes (vis s n o) = 0 ->
    out (vis s n o) = [rop s o] /\ ren (vis s n o) = [] /\ extra (vis s n o) = [] /\ quiet (rop s o).

  Lemma block_still b : Forall still b -> forall s n, changes (visit_block ps constrained legal recursive at_module s n b) = 0 ->
    out (visit_block ps constrained legal recursive at_module s n b) = rops s b /\ ren (visit_block ps constrained legal recursive at_module s n b) = [] /\
    extra (visit_block ps constrained legal recursive at_module s n b) = [] /\ forall o, In o b -> quiet (rop s o).
  Proof.
    intros F s n C. unfold visit_block, flat in *. cbn [changes out ren extra] in *.
    destruct (seq_still rops vis (fun s o => [rop s o]) (fun s o => quiet (rop s o)) rops_nil b s n) as (O & R & X & Q); [|exact C|].
    - intros a Ia s0 n0 C0. rewrite Forall_forall in F. apply F; auto.
    - fold vis. rewrite O. split; [|auto]. unfold rops. rewrite <- (map_map (rop s) (fun x => [x])). apply concat_single.
  Qed.
  Lemma region_still r : Forall (Forall still) r -> forall s n, changes (visit_region ps constrained legal recursive at_module s n r) = 0 ->
    out (visit_region ps constrained legal recursive at_module s n r) = List.map (rops s) r /\ ren (visit_region ps constrained legal recursive at_module s n r) = [] /\
    extra (visit_region ps constrained legal recursive at_module s n r) = [] /\ forall b, In b r -> forall o, In o b -> quiet (rop s o).
  Proof.
    intros F s n C. unfold visit_region in *.
    apply (seq_still rops _ rops (fun s b => forall o, In o b -> quiet (rop s o)) rops_nil r s n); [|exact C].
    intros b Ib. apply block_still. rewrite Forall_forall in F. auto.
  Qed.
  Lemma op_still o : still o.
  Proof.
    induction o as [d rs H] using op_ind'. intros s n. rewrite visit_eq. destruct (skip (rop s (Op d rs))) eqn:K.
    - intros _. cbn [out ren extra]. repeat split; auto. intros x S _. exfalso. cbn [rop] in S, K. inversion S; subst; congruence.
    - unfold work. set (a := seq _ _ s n rs).
      assert (A : changes a = 0 -> out a = List.map (List.map (rops s)) rs /\ ren a = [] /\ extra a = [] /\ forall r, In r rs -> forall b, In b r -> forall o, In o b -> quiet (rop s o)).
      { intros C. apply (seq_still (fun s r => List.map (rops s) r) _ (fun s r => List.map (rops s) r) (fun s r => forall b, In b r -> forall o, In o b -> quiet (rop s o)) rblocks_nil rs s n); [|exact C].
        intros r Ir. apply region_still. rewrite Forall_forall in H. auto. }
      assert (Q : forall (W : idle (rop s (Op d rs)) -> at_rest ps (rop s (Op d rs))), changes a = 0 -> quiet (rop s (Op d rs))).
      { intros W C x S Ix. destruct (A C) as (_ & _ & _ & q). cbn [rop] in S, W. inversion S as [o N|d' rs' r b o x' N Ir Ib Io S']; subst; [apply W, Ix|].
        apply in_map_iff in Ir as (r0 & <- & Ir). apply in_map_iff in Ib as (b0 & <- & Ib). apply in_map_iff in Io as (o0 & <- & Io).
        apply (q r0 Ir b0 Ib o0 Io x S' Ix). }
      assert (E : changes a = 0 -> Op (rdata (s ++ ren a) d) (out a) = rop s (Op d rs)).
      { intros C. destruct (A C) as (-> & -> & _). rewrite app_nil_r. reflexivity. }
      destruct (constrained && _) eqn:Lg; cbn [changes out ren extra].
      + intros C. destruct (A C) as (_ & R & X & _). rewrite (E C) in *. repeat split; auto. apply Q; [|exact C].
        intros [Z|Z]; [rewrite Z in Lg; discriminate|]. destruct (legal (rop s (Op d rs))) eqn:El; [exfalso; apply Z; first [exact El|reflexivity]| |]; rewrite andb_false_r in Lg; discriminate.
      + destruct (try ps (next a) _) as [[m|] n'] eqn:T; cbn [changes out ren extra].
        * destruct (apply_mutations _ _ _) as [[new t] mops]. cbn [changes]. discriminate.
        * intros C. destruct (A C) as (_ & R & X & _). rewrite (E C) in *. repeat split; auto. apply Q; [|exact C]. intros _. eapply try_none, T.
  Qed.

  Lemma region_quiet n r : changes (visit_region ps constrained legal recursive at_module [] n r) = 0 ->
    fst (fst (iteration ps constrained legal recursive at_module n r)) = r /\ forall x, in_region skip r x -> idle x -> at_rest ps x.
  Proof.
    intros C. destruct (region_still r) with (s := @nil (nat * nat)) (n := n) as (O & R & X & Q); [|exact C|].
    - apply Forall_forall. intros b _. apply Forall_forall. intros o _. apply op_still.
    - unfold iteration. cbn [fst]. rewrite O, X, rblocks_nil. split.
      + destruct r as [|b r]; cbn; [reflexivity|]. rewrite app_nil_r. reflexivity.
      + intros x (b & o & Ib & Io & S) Ix. specialize (Q b Ib o Io). rewrite rop_nil in Q. apply Q; auto.
  Qed.

  Lemma apply_rest max : forall done total n r a, apply ps constrained legal recursive at_module max done total n r = a -> reached_fixpoint a = true ->
    forall x, in_region skip (a_region a) x -> idle x -> at_rest ps x.
  Proof.
    induction max as [|max IH]; intros done total n r a E; cbn [apply] in E; [subst a; discriminate|].
    destruct (iteration ps constrained legal recursive at_module n r) as [[r' n'] c] eqn:It. destruct (Nat.eqb_spec c 0) as [->|N].
    - intros _. subst a. cbn [a_region]. unfold iteration in It. injection It as E1 E2 E3.
      destruct (region_quiet n r E3) as [K Q]. unfold iteration in K. cbn [fst] in K. rewrite E1 in K. rewrite K. exact Q.
    - intros F. apply (IH _ _ _ _ a E F).
  Qed.

  Variable rank : nat -> nat.
  Hypothesis D : descending ps legal recursive rank.
  Notation below := (below recursive rank).

  Lemma rec_kind o o' : kind (op_data o) = kind (op_data o') -> recursive o = recursive o'.
  Proof. intros E. apply (by_kind _ _ _ _ D o o' E). Qed.
  Lemma below_rop R s o : below R o -> below R (rop s o).
  Proof.
    induction o as [d rs H] using op_ind'. rewrite below_eq. intros [K|[K F]]; cbn [rop]; apply below_eq.
    - left. rewrite <- K. apply rec_kind. reflexivity.
    - right. split; [exact K|]. intros r b o Ir Ib Io. apply in_map_iff in Ir as (r0 & <- & Ir). apply in_map_iff in Ib as (b0 & <- & Ib). apply in_map_iff in Io as (o0 & <- & Io).
      rewrite Forall_forall in H. specialize (H r0 Ir). rewrite Forall_forall in H. specialize (H b0 Ib). rewrite Forall_forall in H. eauto.
  Qed.
  Lemma below_le R R' o : R <= R' -> below R o -> below R' o.
  Proof.
    intros L. induction o as [d rs H] using op_ind'. rewrite !below_eq. intros [K|[K F]]; [auto|]. right. split; [lia|].
    intros r b o Ir Ib Io. rewrite Forall_forall in H. specialize (H r Ir). rewrite Forall_forall in H. specialize (H b Ib). rewrite Forall_forall in H. eauto.
  Qed.

  Lemma try_some l : forall n o m n', try l n o = (Some m, n') -> exists p n1, In p l /\ p_match p o = true /\ p_make p n1 o = (m, n') /\ has_mutations m = true.
  Proof.
    induction l as [|p l IH]; intros n o m n' E; cbn [try] in E; [discriminate|]. destruct (p_make p n o) as [m1 n1] eqn:Em.
    destruct (p_match p o && has_mutations m1) eqn:B.
    - injection E as -> ->. apply andb_true_iff in B as [B1 B2]. exists p, n. cbn. auto.
    - destruct (IH _ _ _ _ E) as (q & k & I & R). exists q, k. cbn. auto.
  Qed.
  Lemma taken_mutates p n o : In p ps -> p_match p o = true -> has_mutations (fst (p_make p n o)) = true.
  Proof.
    intros I M. pose proof (taken_replaced _ _ _ _ D p n o I M) as [Z|Z]; unfold has_mutations.
    - destruct (replacement _); [|congruence]. rewrite orb_true_r. reflexivity.
    - destruct (erase_values _); [|congruence]. rewrite !orb_true_r. reflexivity.
  Qed.
  Lemma high_done n o n' : try ps n o = (None, n') -> rank (kind (op_data o)) = 0.
  Proof.
    intros T. destruct (Nat.eq_dec (rank (kind (op_data o))) 0) as [|N]; [assumption|]. exfalso.
    destruct (high_taken _ _ _ _ D o N) as (p & I & M). destruct (try_none _ _ _ _ T p I M) as [k K]. apply no_mutations in K. rewrite (taken_mutates p k o I M) in K. discriminate.
  Qed.

  (** One visit lowers all ranks by one. *)
  Definition lowers (R : nat) (o : op) : Prop := below R o -> forall s n, Forall (below (pred R)) (out (vis s n o)) /\ Forall (below (pred R)) (extra (vis s n o)).
  Lemma Forall_rops R s l : Forall (below R) l -> Forall (below R) (rops s l).
  Proof. intros F. unfold rops. apply Forall_forall. intros x I. apply in_map_iff in I as (y & <- & I). apply below_rop. rewrite Forall_forall in F. auto. Qed.

  Lemma block_lowers R b : Forall (lowers R) b -> Forall (below R) b -> forall s n,
    Forall (below (pred R)) (out (visit_block ps constrained legal recursive at_module s n b)) /\ Forall (below (pred R)) (extra (visit_block ps constrained legal recursive at_module s n b)).
  Proof.
    intros F G s n. unfold visit_block, flat. cbn [out extra].
    destruct (seq_all rops vis (Forall (below (pred R))) (below (pred R))) with (l := b) (s := s) (n := n) as [A B].
    - intros s0 l. apply Forall_rops.
    - intros s0 o. apply below_rop.
    - intros a Ia. rewrite Forall_forall in F, G. apply F; auto.
    - split; [|exact B]. apply Forall_concat. exact A.
  Qed.
  Lemma region_lowers R r : Forall (Forall (lowers R)) r -> Forall (Forall (below R)) r -> forall s n,
    Forall (Forall (below (pred R))) (out (visit_region ps constrained legal recursive at_module s n r)) /\ Forall (below (pred R)) (extra (visit_region ps constrained legal recursive at_module s n r)).
  Proof.
    intros F G s n. unfold visit_region. apply seq_all.
    - intros s0 l. apply Forall_rops.
    - intros s0 o. apply below_rop.
    - intros a Ia. rewrite Forall_forall in F, G. apply block_lowers; auto.
  Qed.
  Hypothesis Con : constrained = true.

  Lemma op_lowers R o : lowers R o.
  Proof.
    induction o as [d rs H] using op_ind'. intros Bl s n. rewrite visit_eq. destruct (skip (rop s (Op d rs))) eqn:K.
    - cbn [out extra]. split; [|constructor]. constructor; [|constructor]. unfold skip in K. apply andb_true_iff in K as [_ K].
      cbn [rop] in *. apply below_eq. left. exact K.
    - destruct (proj1 (below_eq _ _ _ _ _) Bl) as [Rc|[Lr F]].
      { exfalso. unfold skip in K. rewrite Con in K. cbn [andb] in K. rewrite (rec_kind _ (Op d rs)) in K; [congruence|reflexivity]. }
      unfold work. set (a := seq _ _ s n rs).
      assert (A : Forall (Forall (Forall (below (pred R)))) (out a) /\ Forall (below (pred R)) (extra a)).
      { apply seq_all.
        - intros s0 r G. apply Forall_forall. intros x I. apply in_map_iff in I as (y & <- & I). apply Forall_rops. rewrite Forall_forall in G. auto.
        - intros s0 o. apply below_rop.
        - intros r Ir. apply region_lowers.
          + rewrite Forall_forall in H. auto.
          + apply Forall_forall. intros b Ib. apply Forall_forall. intros o Io. eauto. }
      destruct A as [A1 A2]. set (o := Op (rdata (s ++ ren a) d) (out a)).
      assert (Ko : kind (op_data o) = kind d) by reflexivity.
      assert (Ch : forall r b c, In r (out a) -> In b r -> In c b -> below (pred R) c).
      { intros r b c Ir Ib Ic. rewrite Forall_forall in A1. specialize (A1 r Ir). rewrite Forall_forall in A1. specialize (A1 b Ib). rewrite Forall_forall in A1. auto. }
      assert (Z : rank (kind (op_data o)) = 0 -> below (pred R) o).
      { intros Z. rewrite Ko in Z. apply below_eq. right. split; [cbn [kind rdata]; lia|exact Ch]. }
      destruct (constrained && _) eqn:Lg; cbn [out extra].
      + split; [|exact A2]. constructor; [|constructor]. apply Z. apply (legal_low _ _ _ _ D). destruct (legal o); [reflexivity| |]; rewrite andb_false_r in Lg; discriminate.
      + destruct (try ps (next a) o) as [[m|] n'] eqn:T; cbn [out extra].
        * destruct (try_some _ _ _ _ _ T) as (p & k & I & M & E & _).
          pose proof (low_left _ _ _ _ D p o I M) as N.
          assert (Lo : rank (kind (op_data o)) <= S (pred R)) by (rewrite Ko; lia).
          assert (W : forall x, In x (prefix m) \/ replacement m = Some x \/ In x (module_ops m) -> below (pred R) x).
          { intros x Ix. apply (taken_lowers _ _ _ _ D p k o (pred R) x I M Lo); [exact Ch|]. rewrite E. exact Ix. }
          assert (Wm : forall t, Forall (below (pred R)) (rops t (if at_module then module_ops m else []))).
          { intros t. apply Forall_rops. apply Forall_forall. intros x Ix. apply W, or_intror, or_intror. revert Ix. case at_module; [auto|intros []]. }
          assert (Wp : forall t, Forall (below (pred R)) (rops t (prefix m))) by (intros t; apply Forall_rops, Forall_forall; intros x Ix; apply W; auto).
          pose proof (taken_replaced _ _ _ _ D p k o I M) as Tr. rewrite E in Tr. cbn [fst] in Tr.
          unfold apply_mutations. destruct (replacement m) as [new|] eqn:Er; [|destruct (erase_values m) as [vs|] eqn:Ee].
          -- cbn [out extra]. split; [|apply Forall_app; split; [apply Forall_rops; exact A2|apply Wm]].
             apply Forall_app. split; [apply Wp|]. constructor; [|constructor]. apply below_rop, W. auto.
          -- cbn [out extra]. split; [apply Wp|]. apply Forall_app. split; [apply Forall_rops; exact A2|apply Wm].
          -- exfalso. destruct Tr; congruence.
        * split; [|exact A2]. constructor; [|constructor]. apply Z. eapply high_done, T.
  Qed.

  Lemma below_rank0 d rs : below 0 (Op d rs) -> rank (kind d) = 0.
  Proof.
    intros B. apply below_eq in B as [K|[K _]]; [|lia]. apply (legal_low _ _ _ _ D (Op d rs)). apply (recursive_legal _ _ _ _ D). exact K.
  Qed.
  Lemma try_low n o : rank (kind (op_data o)) = 0 -> fst (try ps n o) = None.
  Proof.
    intros Z. destruct (try ps n o) as [[m|] n'] eqn:T; [|reflexivity]. destruct (try_some _ _ _ _ _ T) as (p & k & I & M & _).
    destruct (low_left _ _ _ _ D p o I M Z).
  Qed.
  Lemma op_low o : below 0 o -> forall s n, changes (vis s n o) = 0.
  Proof.
    induction o as [d rs H] using op_ind'. intros Bl s n. rewrite visit_eq. destruct (skip (rop s (Op d rs))) eqn:K; [reflexivity|].
    destruct (proj1 (below_eq _ _ _ _ _) Bl) as [Rc|[Lr F]].
    { exfalso. unfold skip in K. rewrite Con in K. cbn [andb] in K. rewrite (rec_kind _ (Op d rs)) in K; [congruence|reflexivity]. }
    unfold work. set (a := seq _ _ s n rs).
    assert (A : changes a = 0).
    { apply seq_zero. intros r Ir s0 n0. apply seq_zero. intros b Ib s1 n1. unfold visit_block, flat. cbn [changes]. apply seq_zero. intros o Io s2 n2.
      rewrite Forall_forall in H. specialize (H r Ir). rewrite Forall_forall in H. specialize (H b Ib). rewrite Forall_forall in H. apply H; eauto. }
    destruct (constrained && _); [exact A|].
    pose proof (try_low (next a) (Op (rdata (s ++ ren a) d) (out a))) as T. cbn [op_data kind rdata] in T. specialize (T ltac:(lia)).
    destruct (try ps _ _) as [[m|] n']; [discriminate|]. exact A.
  Qed.

  Lemma iteration_lowers R n r : region_below recursive rank R r ->
    region_below recursive rank (pred R) (fst (fst (iteration ps constrained legal recursive at_module n r))).
  Proof.
    intros B. destruct (region_lowers R r) with (s := @nil (nat * nat)) (n := n) as [A1 A2].
    - apply Forall_forall. intros b _. apply Forall_forall. intros o _. apply op_lowers.
    - apply Forall_forall. intros b Ib. apply Forall_forall. intros o Io. eauto.
    - unfold iteration. cbn [fst]. destruct (out _) as [|b0 bs]; cbn [push].
      + intros b o [].
      + intros b o Ib Io. rewrite Forall_forall in A1, A2. destruct Ib as [<-|Ib].
        * apply in_app_iff in Io as [Io|Io]; [|auto]. specialize (A1 b0 (or_introl eq_refl)). rewrite Forall_forall in A1. auto.
        * specialize (A1 b (or_intror Ib)). rewrite Forall_forall in A1. auto.
  Qed.
  Lemma iteration_low n r : region_below recursive rank 0 r -> snd (iteration ps constrained legal recursive at_module n r) = 0.
  Proof.
    intros B. unfold iteration. cbn [snd]. unfold visit_region. apply seq_zero. intros b Ib s1 n1. unfold visit_block, flat. cbn [changes].
    apply seq_zero. intros o Io s2 n2. apply op_low. eauto.
  Qed.

  Lemma apply_descends R : forall max done total n r a, region_below recursive rank R r -> R < max ->
    apply ps constrained legal recursive at_module max done total n r = a -> reached_fixpoint a = true /\ iterations a <= done + S R.
  Proof.
    induction R as [|R IH]; intros max done total n r a B L E; (destruct max as [|max]; [lia|]); cbn [apply] in E.
    - pose proof (iteration_low n r B) as Z. destruct (iteration _ _ _ _ _ n r) as [[r' n'] c]. cbn [snd] in Z. subst c. cbn [Nat.eqb] in E. subst a. cbn. split; [reflexivity|lia].
    - pose proof (iteration_lowers (S R) n r B) as Z. destruct (iteration _ _ _ _ _ n r) as [[r' n'] c]. cbn [fst pred] in Z.
      destruct (c =? 0); [subst a; cbn; split; [reflexivity|lia]|]. assert (L' : R < max) by lia. destruct (IH _ _ _ _ _ a Z L' E) as [F G]. split; [exact F|lia].
  Qed.

  Lemma apply_done max n r : reached_fixpoint (apply ps constrained legal recursive at_module max 0 0 n r) = true ->
    forall x, in_region recursive (a_region (apply ps constrained legal recursive at_module max 0 0 n r)) x -> rank (kind (op_data x)) = 0.
  Proof.
    intros F x S. destruct (legal x) eqn:El; [apply (legal_low _ _ _ _ D x El)| |].
    all: destruct (Nat.eq_dec (rank (kind (op_data x))) 0) as [|N]; [assumption|exfalso].
    all: destruct (high_taken _ _ _ _ D x N) as (p & I & M).
    all: assert (W : at_rest ps x) by (apply (apply_rest max 0 0 n r _ eq_refl F x);
      [unfold skip; rewrite Con in *; exact S|right; congruence]).
    all: destruct (W p I M) as [k K]; apply no_mutations in K; rewrite (taken_mutates p k x I M) in K; discriminate.
  Qed.
End Engine.

(** ** Verification *)
Section Verify.
  Variable legal : op -> legality.
  Variable recursive : op -> bool.
  Lemma flat_map_nil {A B} (f : A -> list B) l : flat_map f l = [] <-> forall x, In x l -> f x = [].
  Proof.
    induction l as [|x l IH]; cbn; [firstorder|]. split.
    - intros E. apply app_eq_nil in E as [E1 E2]. intros y [<-|I]; [exact E1|]. apply IH; auto.
    - intros H. rewrite (H x) by auto. apply IH. auto.
  Qed.
  Lemma verify_seen md o : verify legal recursive md o = [] -> forall x, seen recursive o x -> failed legal md x = false.
  Proof.
    intros V x S. induction S as [o N|d rs r b o x N Ir Ib Io S IH].
    - destruct o as [d rs]. cbn [verify] in V. apply app_eq_nil in V as [V _]. destruct (failed legal md (Op d rs)); [discriminate|reflexivity].
    - apply IH. cbn [verify] in V. apply app_eq_nil in V as [_ V]. rewrite N in V.
      rewrite flat_map_nil in V. specialize (V r Ir). rewrite flat_map_nil in V. specialize (V b Ib). rewrite flat_map_nil in V. auto.
  Qed.
  Lemma seen_verify md (Rl : forall o, recursive o = true -> failed legal md o = false) o :
    (forall x, seen recursive o x -> failed legal md x = false) -> verify legal recursive md o = [].
  Proof.
    induction o as [d rs H] using op_ind'. intros F. cbn [verify]. destruct (recursive (Op d rs)) eqn:K.
    - rewrite (Rl _ K). reflexivity.
    - rewrite (F (Op d rs)) by (constructor; exact K). cbn [app]. apply flat_map_nil. intros r Ir. apply flat_map_nil. intros b Ib. apply flat_map_nil. intros o Io.
      rewrite Forall_forall in H. specialize (H r Ir). rewrite Forall_forall in H. specialize (H b Ib). rewrite Forall_forall in H. apply H; auto.
      intros x S. apply F. econstructor; eauto.
  Qed.
  Lemma verify_region md (Rl : forall o, recursive o = true -> failed legal md o = false) r :
    flat_map (flat_map (verify legal recursive md)) r = [] <-> forall x, in_region recursive r x -> failed legal md x = false.
  Proof.
    split.
    - intros V x (b & o & Ib & Io & S). rewrite flat_map_nil in V. specialize (V b Ib). rewrite flat_map_nil in V. eapply verify_seen; eauto.
    - intros F. apply flat_map_nil. intros b Ib. apply flat_map_nil. intros o Io. apply seen_verify; [exact Rl|]. intros x S. apply F. exists b, o. auto.
  Qed.
End Verify.

(** ** Code that is legal already *)
Section Legal.
  Variable ps : list pattern.
  Variable legal : op -> legality.
  Variable recursive : op -> bool.
  Variable at_module : bool.
  Let vis := visit ps true legal recursive at_module.

  Lemma seq_fresh {A B} (rn : subst -> B -> B) (f : subst -> nat -> A -> res B) l : forall n,
    (forall a, In a l -> forall n, changes (f [] n a) = 0 /\ ren (f [] n a) = []) -> changes (seq rn f [] n l) = 0 /\ ren (seq rn f [] n l) = [].
  Proof.
    induction l as [|a l IH]; intros n H; cbn [seq]; [cbn; auto|]. unfold chain, both. cbn [changes ren].
    destruct (H a ltac:(cbn; auto) n) as [C R]. rewrite C, R. cbn [app Nat.add]. apply IH. intros b Ib. apply H. cbn. auto.
  Qed.
  Lemma op_legal o : (forall x, seen recursive o x -> legal x = Legal) -> forall n, changes (vis [] n o) = 0 /\ ren (vis [] n o) = [].
  Proof.
    induction o as [d rs H] using op_ind'. intros L n. unfold vis. rewrite visit_eq. rewrite rop_nil. cbn [andb].
    destruct (recursive (Op d rs)) eqn:K; [cbn; auto|].
    assert (A : forall n, changes (seq (fun s r => List.map (rops s) r) (visit_region ps true legal recursive at_module) [] n rs) = 0 /\
      ren (seq (fun s r => List.map (rops s) r) (visit_region ps true legal recursive at_module) [] n rs) = []).
    { intros m. apply seq_fresh. intros r Ir m1. apply seq_fresh. intros b Ib m2. unfold visit_block, flat. cbn [changes ren]. apply seq_fresh. intros o Io m3.
      rewrite Forall_forall in H. specialize (H r Ir). rewrite Forall_forall in H. specialize (H b Ib). rewrite Forall_forall in H.
      apply H; [exact Io|]. intros x S. apply L. econstructor; eauto. }
    destruct (A n) as [C R].
    unfold work. set (a := seq _ _ [] n rs) in *.
    assert (O : out a = rs).
    { destruct (seq_still (fun s r => List.map (rops s) r) (visit_region ps true legal recursive at_module) (fun s r => List.map (rops s) r) (fun _ _ => True) rblocks_nil rs [] n) as (O & _).
      - intros r _ s0 n0 C0. destruct (region_still ps true legal recursive at_module r) with (s := s0) (n := n0) as (X1 & X2 & X3 & _); auto.
        apply Forall_forall. intros b _. apply Forall_forall. intros o _. apply op_still.
      - exact C.
      - fold a in O. rewrite O. apply map_id_in. intros r _. apply rblocks_nil. }
    rewrite R, O. cbn [app]. rewrite rdata_nil. rewrite (L (Op d rs)) by (constructor; exact K). cbn [andb changes ren]. auto.
  Qed.
  Lemma region_legal n r : (forall x, in_region recursive r x -> legal x = Legal) -> changes (visit_region ps true legal recursive at_module [] n r) = 0.
  Proof.
    intros L. apply seq_fresh. intros b Ib m. unfold visit_block, flat. cbn [changes ren]. apply seq_fresh. intros o Io m1. apply op_legal.
    intros x S. apply L. exists b, o. auto.
  Qed.
  Lemma apply_legal max n r : (forall x, in_region recursive r x -> legal x = Legal) ->
    let a := apply ps true legal recursive at_module (S max) 0 0 n r in a_region a = r /\ iterations a = 1 /\ total_changes a = 0 /\ reached_fixpoint a = true.
  Proof.
    intros L. pose proof (region_legal n r L) as C. destruct (region_quiet ps true legal recursive at_module n r C) as [K _].
    cbn [apply]. unfold iteration in *. cbn [fst] in K. rewrite K, C. cbn. auto.
  Qed.
End Legal.

(** ** Without a target *)
Section NoTarget.
  Variable ps : list pattern.
  Variable legal : op -> legality.
  Variable recursive : op -> bool.
  Variable at_module : bool.
  Let unknown (_ : op) : legality := Unknown.
  Let never (_ : op) : bool := false.

  Lemma seq_ext {A B} (rn : subst -> B -> B) (f g : subst -> nat -> A -> res B) l :
    (forall a, In a l -> forall s n, f s n a = g s n a) -> forall s n, seq rn f s n l = seq rn g s n l.
  Proof.
    induction l as [|a l IH]; intros H s n; cbn [seq]; [reflexivity|]. unfold chain. rewrite (H a) by (cbn; auto).
    rewrite IH; [reflexivity|]. intros b Ib. apply H. cbn. auto.
  Qed.
  Lemma visit_free o : forall s n, visit ps false legal recursive at_module s n o = visit ps true unknown never at_module s n o.
  Proof.
    induction o as [d rs H] using op_ind'. intros s n. rewrite !visit_eq. cbn [andb]. unfold work. cbn [andb].
    rewrite (seq_ext _ _ (visit_region ps true unknown never at_module)); [reflexivity|].
    intros r Ir. apply seq_ext. intros b Ib s1 n1. unfold visit_block, flat. f_equal; rewrite (seq_ext rops _ (visit ps true unknown never at_module) b); try reflexivity.
    all: intros o Io; rewrite Forall_forall in H; specialize (H r Ir); rewrite Forall_forall in H; specialize (H b Ib); rewrite Forall_forall in H; apply H, Io.
  Qed.
  Lemma iteration_free n r : iteration ps false legal recursive at_module n r = iteration ps true unknown never at_module n r.
  Proof.
    unfold iteration, visit_region. rewrite (seq_ext rops _ (visit_block ps true unknown never at_module)); [reflexivity|].
    intros b _ s1 n1. unfold visit_block. rewrite (seq_ext rops _ (visit ps true unknown never at_module) b); [reflexivity|]. intros o _. apply visit_free.
  Qed.
  Lemma apply_free max : forall done total n r, apply ps false legal recursive at_module max done total n r = apply ps true unknown never at_module max done total n r.
  Proof.
    induction max as [|max IH]; intros done total n r; cbn [apply]; [reflexivity|]. rewrite iteration_free.
    destruct (iteration _ _ _ _ _ n r) as [[r' n'] c]. destruct (c =? 0); [reflexivity|]. apply IH.
  Qed.
End NoTarget.

(** ** What one pattern records *)
Lemma kind_rop s o : kind (op_data (rop s o)) = kind (op_data o).
Proof. destruct o. reflexivity. Qed.
Lemma no_change_has m : ~ no_change m -> has_mutations m = true.
Proof.
  intros H. unfold has_mutations. destruct m as [[|x pf] [rp|] [ev|] [|y mo]]; cbn; try reflexivity. destruct H. repeat split.
Qed.
Lemma one_put_in p constrained legal recursive at_module n d m n' : p_match p (Op d []) = true -> p_make p n (Op d []) = (m, n') -> ~ no_change m ->
  constrained = false \/ (legal (Op d []) <> Legal /\ recursive (Op d []) = false) ->
  exists r, iteration [p] constrained legal recursive at_module n [[Op d []]] = (r, n', 1) /\
  List.map (List.map (fun o => kind (op_data o))) r =
    [List.map (fun o => kind (op_data o)) (prefix m) ++
     match replacement m, erase_values m with Some x, _ => [kind (op_data x)] | None, Some _ => [] | None, None => [kind d] end ++
     if at_module then List.map (fun o => kind (op_data o)) (module_ops m) else []].
Proof.
  intros M E H L. apply no_change_has in H.
  assert (V : visit [p] constrained legal recursive at_module [] n (Op d []) =
    let '(new, t, mops) := apply_mutations at_module (Op d []) m in Res new t n' 1 mops).
  { cbn [visit]. cbn [rop List.map]. rewrite rdata_nil. replace (constrained && recursive (Op d [])) with false by (destruct L as [-> |[_ ->]]; [reflexivity|rewrite andb_false_r; reflexivity]).
    cbn [seq]. unfold work. cbn [ren out next changes extra app]. rewrite rdata_nil.
    replace (constrained && _) with false by (destruct L as [-> |[L _]]; [reflexivity|destruct (legal (Op d [])); [congruence| |]; rewrite andb_false_r; reflexivity]).
    cbn [try]. rewrite E, M, H. cbn [andb]. destruct (apply_mutations at_module (Op d []) m) as [[new t] mops]. cbn [rops List.map app]. reflexivity. }
  unfold iteration, visit_region, visit_block. cbn [seq]. rewrite V. unfold apply_mutations.
  destruct (replacement m) as [x|]; [|destruct (erase_values m) as [vs|]]; eexists; (split; [cbn; reflexivity|]); cbn [List.map].
  all: fold (rops []); rewrite ?app_nil_r, ?map_app; unfold rops; rewrite ?map_map; cbn [List.map].
  all: assert (K : forall s l, List.map (fun x => kind (op_data (rop [] (rop [] (rop s x))))) l = List.map (fun o => kind (op_data o)) l) by (intros s l; apply map_ext; intros x0; rewrite !kind_rop; reflexivity).
  all: assert (K' : forall l, List.map (fun x => kind (op_data (rop [] (rop [] x)))) l = List.map (fun o => kind (op_data o)) l) by (intros l; apply map_ext; intros x0; rewrite !kind_rop; reflexivity).
  all: destruct at_module; rewrite ?map_map, ?K, ?K', ?kind_rop; cbn [List.map]; rewrite <- ?app_assoc, ?app_nil_r; try reflexivity.
Qed.
