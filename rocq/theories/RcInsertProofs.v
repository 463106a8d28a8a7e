From Verif Require Import RcLiveModel RcLiveSpec RcLiveProofs RcLiveExact RcInsertModel RcInsertSpec.
From Coq Require Import Lia Permutation.
Import ListNotations.

Lemma count_app v l m : count v (l ++ m) = count v l + count v m.
Proof. unfold count. induction l as [|x l IH]; cbn; [reflexivity|]. destruct (Nat.eq_dec x v); cbn; lia. Qed.
Lemma count_not v l : ~ In v l -> count v l = 0.
Proof. apply count_occ_not_In. Qed.
Lemma count_pos v l : In v l -> 0 < count v l.
Proof. intros H. apply (count_occ_In Nat.eq_dec) in H. exact H. Qed.
Lemma count_nodup v l : NoDup l -> count v l = if has v l then 1 else 0.
Proof.
  intros N. destruct (has v l) eqn:E; [apply has_In in E | apply has_false in E; apply count_not, E].
  apply (NoDup_count_occ' Nat.eq_dec); assumption.
Qed.
Lemma has_app v l m : has v (l ++ m) = has v l || has v m.
Proof. unfold has. apply existsb_app. Qed.
Lemma count_perm v l m : Permutation l m -> count v l = count v m.
Proof. intros P. induction P; cbn; unfold count in *; cbn; repeat destruct (Nat.eq_dec _ _); lia. Qed.

(** ** Runs *)
Section Runs.
  Variables (f : nfunc) (i : info) (always : list nat).
  Notation act := (act f i always). Notation run := (run f i always). Notation usable := (usable i always).
  Hypothesis names : forall x, In x (i_ptrs i) -> aget (i_alias i) x = None.
  Hypothesis alias_root : forall x r, aget (i_alias i) x = Some r -> In r (i_ptrs i).

  Lemma named_cases x : named i x = [] \/ exists v, named i x = [v] /\ In v (i_ptrs i).
  Proof.
    unfold named. destruct (has x (i_ptrs i)) eqn:E.
    - apply has_In in E. rewrite (names x E). right. exists x. auto.
    - destruct (aget (i_alias i) x) as [r|] eqn:A; [|left; reflexivity]. right. exists r. split; [reflexivity|]. eapply alias_root; eauto.
  Qed.
  Lemma named_root v : In v (i_ptrs i) -> named i v = [v].
  Proof. intros I. unfold named. rewrite (names v I). apply has_In in I. rewrite I. reflexivity. Qed.
  Lemma named_owned x v : In v (named i x) -> named i x = [v] /\ In v (i_ptrs i) /\ owned_name i x = v.
  Proof.
    intros I. destruct (named_cases x) as [E|[u [E P]]]; rewrite E in I; [destruct I|]. destruct I as [->|[]].
    split; [exact E|]. split; [exact P|]. unfold named in E. unfold owned_name. destruct (has x (i_ptrs i)) eqn:H.
    - apply has_In in H. rewrite (names x H) in *. cbn in E. injection E as ->. reflexivity.
    - destruct (aget (i_alias i) x); cbn in E; [injection E as ->; reflexivity | discriminate].
  Qed.

  Lemma run_app os os' st : run (os ++ os') st = match run os st with Some st' => run os' st' | None => None end.
  Proof. revert st. induction os as [|o os IH]; intros st; cbn; [reflexivity|]. destruct (act o st); [apply IH | reflexivity]. Qed.

  Lemma alive_mono st st' v : hold st v <= hold st' v -> alive always st v = true -> alive always st' v = true.
  Proof. unfold alive. intros L H. apply Bool.orb_true_iff in H as [H|H]; [|rewrite H; apply Bool.orb_true_r]. apply Nat.ltb_lt in H. rewrite (proj2 (Nat.ltb_lt _ _)) by lia. reflexivity. Qed.
  Lemma usable_mono st st' v : (forall u, hold st u <= hold st' u) -> incl (lent st) (lent st') -> usable st v = true -> usable st' v = true.
  Proof.
    intros L I H. unfold RcInsertSpec.usable in *. apply Bool.orb_true_iff in H as [H|H]; [apply Bool.orb_true_iff in H as [H|H]|].
    - rewrite (alive_mono st st' v (L v) H). reflexivity.
    - apply has_In in H. apply I, has_In in H. rewrite H, Bool.orb_true_r. reflexivity.
    - apply existsb_exists in H as [u [Iu H]]. replace (existsb _ _) with true; [apply Bool.orb_true_r|]. symmetry.
      apply existsb_exists. exists u. split; [exact Iu|]. eapply alive_mono; eauto.
  Qed.
  Lemma usable_hold st v : 0 < hold st v -> usable st v = true.
  Proof. intros H. unfold RcInsertSpec.usable, alive. rewrite (proj2 (Nat.ltb_lt _ _) H). reflexivity. Qed.

  Lemma act_ok o st : (forall v, In v (uses_of_op i o) -> usable st v = true) ->
    (forall v, In v (takes_counts f i o) -> count v (takes_counts f i o) <= hold st v) ->
    exists st', act o st = Some st' /\
      (forall v, hold st' v = hold st v - count v (takes_counts f i o) + count v (gives_counts f i o)) /\
      lent st' = match o_kind o with KRetain => lent st | KLoad => op_defs f i o | _ => [] end.
  Proof.
    intros H1 H2. unfold RcInsertSpec.act.
    rewrite (proj2 (forallb_forall (usable st) _) H1). rewrite (proj2 (forallb_forall _ (takes_counts f i o))).
    - cbn [andb]. eexists. split; [reflexivity|]. split; reflexivity.
    - intros v I. apply Nat.leb_le, H2, I.
  Qed.

  Lemma run_retains xs : forall st, (forall x, In x xs -> exists v, named i x = [v] /\ usable st v = true) ->
    exists st', run (map retain xs) st = Some st' /\ lent st' = lent st /\
      forall v, hold st' v = hold st v + count v (flat_map (named i) xs).
  Proof.
    induction xs as [|x xs IH]; intros st H; cbn [map].
    - exists st. repeat split. intros v. cbn. lia.
    - destruct (H x (or_introl eq_refl)) as [v [E Uv]].
      assert (U1 : uses_of_op i (retain x) = [v]) by (unfold uses_of_op, retain; cbn [o_args flat_map]; rewrite E; reflexivity).
      destruct (act_ok (retain x) st) as (st1 & A & Hh & Hl).
      { rewrite U1. intros u [<-|[]]. exact Uv. }
      { cbn. intros u []. }
      cbn [RcInsertSpec.run]. rewrite A.
      assert (Hh' : forall u, hold st1 u = hold st u + count u [v]).
      { intros u. rewrite Hh. change (takes_counts f i (retain x)) with (@nil nat). change (gives_counts f i (retain x)) with (uses_of_op i (retain x)).
        rewrite U1. cbn. lia. }
      destruct (IH st1) as (st' & R & L & Hf).
      { intros y Iy. destruct (H y (or_intror Iy)) as [u [Eu Uu]]. exists u. split; [exact Eu|].
        eapply usable_mono; [| |exact Uu]; [intros z; rewrite Hh'; lia | rewrite Hl; intros z Iz; exact Iz]. }
      exists st'. split; [exact R|]. split; [rewrite L; exact Hl|]. intros u. rewrite Hf, Hh'. cbn [flat_map]. rewrite E, count_app. lia.
  Qed.

  Lemma run_releases vs : forall st, NoDup vs -> (forall v, In v vs -> In v (i_ptrs i) /\ 0 < hold st v) ->
    exists st', run (map release vs) st = Some st' /\ forall v, hold st' v = hold st v - count v vs.
  Proof.
    induction vs as [|v vs IH]; intros st N H; cbn [map].
    - exists st. split; [reflexivity|]. intros u. cbn. lia.
    - inversion N as [|? ? N1 N2]; subst. destruct (H v (or_introl eq_refl)) as [P Hv].
      assert (U1 : uses_of_op i (release v) = [v]) by (unfold uses_of_op, release; cbn [o_args flat_map]; rewrite (named_root v P); reflexivity).
      assert (T1 : takes_counts f i (release v) = [v]) by exact U1.
      destruct (act_ok (release v) st) as (st1 & A & Hh & _).
      { rewrite U1. intros u [<-|[]]. apply usable_hold, Hv. }
      { rewrite T1. intros u [<-|[]]. cbn. destruct (Nat.eq_dec v v); [lia | contradiction]. }
      cbn [RcInsertSpec.run]. rewrite A.
      assert (Hh' : forall u, hold st1 u = hold st u - count u [v]).
      { intros u. rewrite Hh, T1. change (gives_counts f i (release v)) with (@nil nat). change (count u []) with 0. lia. }
      destruct (IH st1 N2) as (st' & R & Hf).
      { intros u Iu. destruct (H u (or_intror Iu)) as [Pu Hu]. split; [exact Pu|]. rewrite Hh'. cbn.
        destruct (Nat.eq_dec v u) as [->|D]; [contradiction | lia]. }
      exists st'. split; [exact R|]. intros u. rewrite Hf, Hh'. change (v :: vs) with ([v] ++ vs). rewrite count_app. lia.
  Qed.
End Runs.

Lemma NoDup_front {B} (l m : list B) : NoDup (l ++ m) -> NoDup l.
Proof.
  induction l as [|x l IH]; intros N; [constructor|]. cbn in N. inversion N as [|? ? N1 N2]; subst. constructor; [|auto].
  intros I. apply N1, in_app_iff. auto.
Qed.

(** ** Blocks *)
Lemma last_use_from_some i v os : forall k j, last_use_from i k os v = Some j ->
  k <= j /\ (exists o, nth_error os (j - k) = Some o /\ In v (flat_map (refers i) (o_args o))) /\
  forall m o, j < m -> k <= m -> nth_error os (m - k) = Some o -> ~ In v (flat_map (refers i) (o_args o)).
Proof.
  induction os as [|o os IH]; intros k j E; cbn [last_use_from] in E; [discriminate|].
  destruct (last_use_from i (S k) os v) as [j'|] eqn:L.
  - injection E as ->. destruct (IH (S k) j L) as (A & (p & P1 & P2) & C). split; [lia|]. split.
    + exists p. replace (j - k) with (S (j - S k)) by lia. auto.
    + intros m q M1 M2 Q. replace (m - k) with (S (m - S k)) in Q by lia. apply (C m q); [lia | lia | exact Q].
  - destruct (has v _) eqn:Hv; [|discriminate]. injection E as <-. apply has_In in Hv. split; [lia|]. split.
    + exists o. rewrite Nat.sub_diag. auto.
    + intros m q M1 M2 Q. replace (m - k) with (S (m - S k)) in Q by lia. cbn in Q. clear - L M1 Q.
      assert (G : forall os k, last_use_from i k os v = None -> forall m q, nth_error os m = Some q -> ~ In v (flat_map (refers i) (o_args q))).
      { clear. induction os as [|o os IH]; intros k L m q Q; [destruct m; discriminate|]. cbn in L.
        destruct (last_use_from i (S k) os v) eqn:L'; [discriminate|]. destruct (has v _) eqn:Hv; [discriminate|].
        destruct m as [|m]; cbn in Q; [injection Q as <-; apply has_false, Hv | exact (IH _ L' m q Q)]. }
      exact (G os _ L _ _ Q).
Qed.
Lemma last_use_from_none i v os : forall k, last_use_from i k os v = None -> forall m q, nth_error os m = Some q -> ~ In v (flat_map (refers i) (o_args q)).
Proof.
  induction os as [|o os IH]; intros k L m q Q; [destruct m; discriminate|]. cbn in L.
  destruct (last_use_from i (S k) os v) eqn:L'; [discriminate|]. destruct (has v _) eqn:Hv; [discriminate|].
  destruct m as [|m]; cbn in Q; [injection Q as <-; apply has_false, Hv | exact (IH _ L' m q Q)].
Qed.
Lemma position_of_some v os : forall k j, position_of k os v = Some j ->
  k <= j /\ exists o, nth_error os (j - k) = Some o /\ In v (o_results o).
Proof.
  induction os as [|o os IH]; intros k j E; cbn in E; [discriminate|]. destruct (has v (o_results o)) eqn:Hv.
  - injection E as <-. apply has_In in Hv. split; [lia|]. exists o. rewrite Nat.sub_diag. auto.
  - destruct (IH (S k) j E) as (L & p & P1 & P2). split; [lia|]. exists p. replace (j - k) with (S (j - S k)) by lia. auto.
Qed.
Lemma position_of_none v os : forall k, position_of k os v = None -> forall o, In o os -> ~ In v (o_results o).
Proof.
  induction os as [|o os IH]; intros k E p I; [destruct I|]. cbn in E. destruct (has v (o_results o)) eqn:Hv; [discriminate|].
  destruct I as [<-|I]; [apply has_false, Hv | exact (IH _ E p I)].
Qed.
Lemma place_eqb_ok p q : place_eqb p q = true <-> p = q.
Proof. destruct p, q; cbn; rewrite ?Nat.eqb_eq; split; congruence. Qed.

Lemma op_defs_results f i o v : In v (op_defs f i o) -> In v (o_results o) /\ In v (i_ptrs i) /\ f_anyref f v = true /\ is_static f v = false.
Proof.
  unfold op_defs. rewrite filter_In. intros [I H]. apply andb_prop in H as [H H3]. apply andb_prop in H as [H1 H2]. apply has_In in H3.
  apply Bool.negb_true_iff in H2. auto.
Qed.

(** ** Groups of transferred arguments *)
Definition bump (i : info) (x : nat) := fix bump (gs : list (nat * (nat * nat))) := match gs with
  | [] => [(owned_name i x, (x, 1))]
  | (r, (y, n)) :: gs => if r =? owned_name i x then (r, (y, S n)) :: gs else (r, (y, n)) :: bump gs
  end.
Definition group_get (v : nat) (gs : list (nat * (nat * nat))) : nat :=
  match find (fun g => fst g =? v) gs with Some (_, (_, n)) => n | None => 0 end.
Definition group_ok (i : info) (gs : list (nat * (nat * nat))) : Prop :=
  NoDup (map fst gs) /\ Forall (fun g => named i (fst (snd g)) = [fst g]) gs.
Lemma group_step i x xs gs : group i (x :: xs) gs = group i xs (bump i x gs).
Proof. reflexivity. Qed.
Lemma bump_get i x v gs : group_get v (bump i x gs) = group_get v gs + if owned_name i x =? v then 1 else 0.
Proof.
  unfold group_get. induction gs as [|[r [y n]] gs IH]; cbn.
  - destruct (owned_name i x =? v); reflexivity.
  - destruct (Nat.eqb_spec r (owned_name i x)) as [->|Ne]; cbn.
    + destruct (owned_name i x =? v) eqn:E; cbn; lia.
    + destruct (Nat.eqb_spec r v) as [->|Nv]; [|exact IH]. destruct (Nat.eqb_spec (owned_name i x) v); [congruence | lia].
Qed.
Lemma bump_keys i x gs r : In r (map fst (bump i x gs)) -> In r (map fst gs) \/ r = owned_name i x.
Proof.
  induction gs as [|[q [y n]] gs IH]; cbn; [intuition congruence|]. destruct (q =? owned_name i x); cbn; intuition.
Qed.
Lemma bump_ok i x gs : named i x = [owned_name i x] -> group_ok i gs -> group_ok i (bump i x gs).
Proof.
  intros E [N F]. induction gs as [|[r [y n]] gs IH]; cbn.
  - split; [repeat constructor; intros [] | repeat constructor; exact E].
  - cbn in N. inversion N as [|? ? N1 N2]; subst. inversion F as [|? ? F1 F2]; subst. cbn in F1.
    destruct (Nat.eqb_spec r (owned_name i x)) as [->|Ne].
    + split; [cbn; exact N | constructor; [exact F1 | exact F2]].
    + destruct (IH N2 F2) as [N' F']. split; [|constructor; [exact F1 | exact F']]. cbn. constructor; [|exact N'].
      intros I. apply bump_keys in I as [I|I]; [contradiction | congruence].
Qed.
Lemma group_run i xs : forall gs, (forall x, In x xs -> named i x = [owned_name i x]) -> group_ok i gs ->
  group_ok i (group i xs gs) /\ forall v, group_get v (group i xs gs) = group_get v gs + count v (flat_map (named i) xs).
Proof.
  induction xs as [|x xs IH]; intros gs Hx O; [split; [exact O | cbn; intros; lia]|].
  rewrite group_step. destruct (IH (bump i x gs)) as [O' Hg]; [intros; apply Hx; right; assumption | apply bump_ok; [apply Hx; left; reflexivity | exact O]|].
  split; [exact O'|]. intros v. rewrite Hg, bump_get. cbn [flat_map]. rewrite count_app, (Hx x (or_introl eq_refl)). unfold count at 2. cbn.
  destruct (Nat.eqb_spec (owned_name i x) v), (Nat.eq_dec (owned_name i x) v); try congruence; lia.
Qed.
Lemma count_repeat i x r n v : named i x = [r] -> count v (flat_map (named i) (repeat x n)) = if r =? v then n else 0.
Proof.
  intros E. induction n as [|n IH]; cbn [repeat flat_map]; [destruct (r =? v); reflexivity|]. rewrite count_app, IH, E. unfold count. cbn.
  destruct (Nat.eq_dec r v), (Nat.eqb_spec r v); try congruence; lia.
Qed.
Lemma group_retains i (bo : nat -> nat -> bool) gs v : group_ok i gs ->
  (forall g, In g gs -> bo (fst g) (fst (snd g)) = bo (fst g) (fst g)) ->
  count v (flat_map (named i) (flat_map (fun g : nat * (nat * nat) => match g with (r, (x, n)) => repeat x (if bo r x then n else n - 1) end) gs)) =
  if bo v v then group_get v gs else group_get v gs - 1.
Proof.
  intros [N F] B. unfold group_get. induction gs as [|[r [x n]] gs IH]; [cbn; destruct (bo v v); reflexivity|].
  cbn in N. inversion N as [|? ? N1 N2]; subst. inversion F as [|? ? F1 F2]; subst. cbn in F1.
  cbn [flat_map]. rewrite flat_map_app, count_app, (count_repeat i x r _ v F1). cbn [find fst].
  rewrite IH by (auto; intros g Ig; apply B; right; exact Ig). pose proof (B _ (or_introl eq_refl)) as B0. cbn in B0. rewrite B0.
  destruct (Nat.eqb_spec r v) as [->|Ne]; [|reflexivity].
  replace (find (fun g => fst g =? v) gs) with (@None (nat * (nat * nat))); [destruct (bo v v); lia|]. symmetry.
  destruct (find _ gs) as [g|] eqn:Fg; [|reflexivity]. exfalso. apply find_some in Fg as [Ig Eg]. apply Nat.eqb_eq in Eg. apply N1.
  rewrite <- Eg. apply in_map, Ig.
Qed.

(** What the analyses guarantee. *)
Record analysed (f : nfunc) (i : info) (lv : live) : Prop := {
  an_one : one_definition f;
  an_names : forall x, In x (i_ptrs i) -> aget (i_alias i) x = None;
  an_alias : forall x r, aget (i_alias i) x = Some r -> In r (i_ptrs i);
  an_args : forall b v, In v (arg_defs f (blk f b)) -> In v (i_ptrs i);
  an_load : forall o r, In o (f_ops f) -> o_kind o = KLoad -> In r (o_results o) -> f_anyref f r = true -> In r (op_defs f i o);
  an_store : forall o x, In o (f_ops f) -> In x (o_args o) -> f_anyref f x = true -> is_static f x = false -> named i x <> [];
  an_in : forall b v, b < List.length (f_blocks f) -> (In v (l_in lv b) <-> In v (uses_of f i b) \/ (In v (l_out lv b) /\ ~ In v (defs_of f i b)));
  an_out : forall b v, b < List.length (f_blocks f) -> (In v (l_out lv b) -> exists s, In s (successors (blk f b)) /\ In v (l_in lv s));
  an_edge : forall b s v, b < List.length (f_blocks f) -> s < List.length (f_blocks f) -> In s (successors (blk f b)) -> In v (l_in lv s) -> In v (l_out lv b);
  an_arg_in : forall b v, b < List.length (f_blocks f) -> In v (l_in lv b) -> ~ In v (arg_defs f (blk f b));
  an_ptr : forall b v, b < List.length (f_blocks f) -> In v (l_in lv b) -> In v (i_ptrs i)
}.

Section Blocks.
  Variables (f : nfunc) (i : info) (w : borrows) (lv : live) (order : list nat -> list nat).
  Hypothesis A : analysed f i lv.
  Hypothesis G : insertable f i w lv.
  Hypothesis shuffles : forall l, Permutation (order l) l.
  Notation always := (callers f w).
  Notation run := (run f i always). Notation usable := (usable i always).
  Notation nb := (List.length (f_blocks f)).

  Definition ownedb (v : nat) : bool := has v (i_ptrs i) && negb (borrowed w v).
  Lemma ownedb_ok v : ownedb v = true <-> owned i w v.
  Proof.
    unfold ownedb, owned, borrowed. rewrite Bool.andb_true_iff, has_In, Bool.negb_true_iff, Bool.orb_false_iff, !has_false. tauto.
  Qed.

  Section One.
    Variable b : nat.
    Hypothesis Hb : b < nb.
    Notation os := (b_ops (blk f b)).
    Notation dying := (dying f i w lv b).
    Notation placement := (placement f i lv b).

    Lemma in_block : In (blk f b) (f_blocks f).
    Proof. unfold blk. apply nth_In. exact Hb. Qed.
    Lemma op_of k o : nth_error os k = Some o -> In o (f_ops f).
    Proof. apply op_in. Qed.
    (** Definitions are unique. *)
    Lemma def_unique k o k' o' v : nth_error os k = Some o -> nth_error os k' = Some o' -> In v (o_results o) -> In v (o_results o') -> k = k'.
    Proof.
      intros E E' I I'. pose proof (NoDup_app_r _ _ (an_one _ _ _ A)) as N.
      assert (N' : NoDup (flat_map o_results os)).
      { clear - N Hb. unfold f_ops in N. rewrite flat_map_concat_map, concat_map in N || idtac.
        pose proof in_block as Ib. apply in_split in Ib as (l1 & l2 & El).
        unfold f_ops in N. rewrite El in N. rewrite flat_map_app in N. cbn [flat_map] in N.
        rewrite !flat_map_app in N. apply NoDup_app_r in N. revert N. generalize (flat_map o_results (flat_map b_ops l2)). intros m N.
        revert N. generalize (flat_map o_results (b_ops (blk f b))). clear. intros l N.
        induction l as [|x l IH]; [constructor|]. cbn in N. inversion N; subst. constructor; [|auto]. intros I. apply H1, in_app_iff. auto. }
      clear N. revert k k' E E' N'. generalize os as l.
      induction l as [|p l IH]; intros k k' E E' N; [destruct k; discriminate|]. cbn in N.
      pose proof (NoDup_app_disj _ _ N v) as D. apply NoDup_app_r in N.
      destruct k as [|k], k' as [|k']; cbn in E, E'; [reflexivity| | |f_equal; eauto].
      - injection E as ->. exfalso. apply (D I), in_flat_map. exists o'. split; [eapply nth_error_In; eauto | exact I'].
      - injection E' as ->. exfalso. apply (D I'), in_flat_map. exists o. split; [eapply nth_error_In; eauto | exact I].
    Qed.
    Lemma arg_not_result v o c : In v (arg_defs f (blk f c)) -> In o (f_ops f) -> ~ In v (o_results o).
    Proof.
      intros Ia Io Ir. apply (NoDup_app_disj _ _ (an_one _ _ _ A) v); apply in_flat_map.
      - unfold arg_defs in Ia. apply filter_In in Ia as [Ia _]. exists (blk f c). split; [|exact Ia]. unfold blk in *.
        destruct (nth_in_or_default c (f_blocks f) (mkNblock [] [])) as [I|D]; [exact I|]. rewrite D in Ia. destruct Ia.
      - eauto.
    Qed.

    Definition avail (k : nat) (v : nat) : bool :=
      has v (l_in lv b) || has v (arg_defs f (blk f b)) || has v (flat_map (op_defs f i) (firstn k os)).
    Definition gone (k : nat) (v : nat) : bool :=
      has v dying && match placement v with AtStart => true | Before j | After j => j <? k | Nowhere => false end.
    Definition expect (k : nat) (v : nat) : nat := if ownedb v && avail k v && negb (gone k v) then 1 else 0.

    Lemma avail_ok k v : avail k v = true <-> In v (l_in lv b) \/ In v (arg_defs f (blk f b)) \/
      exists j o, j < k /\ nth_error os j = Some o /\ In v (op_defs f i o).
    Proof.
      unfold avail. rewrite !Bool.orb_true_iff, !has_In, in_flat_map, or_assoc.
      assert (E : (exists o, In o (firstn k os) /\ In v (op_defs f i o)) <-> exists j o, j < k /\ nth_error os j = Some o /\ In v (op_defs f i o)).
      { split.
        - intros (o & I & D). apply In_nth_error in I as [j E]. 
          assert (L : j < k). { destruct (Nat.lt_ge_cases j k) as [L|L]; [exact L|]. exfalso.
            assert (j < List.length (firstn k os)) by (apply nth_error_Some; congruence). rewrite firstn_length in H. lia. }
          exists j, o. split; [exact L|]. split; [|exact D]. rewrite nth_error_firstn in E by exact L. exact E.
        - intros (j & o & L & E & D). exists o. split; [|exact D]. apply (nth_error_In _ j). rewrite nth_error_firstn by exact L. exact E. }
      rewrite E. reflexivity.
    Qed.
    Lemma use_avail k o x v : nth_error os k = Some o -> In x (o_args o) -> In v (refers i x) -> avail k v = true.
    Proof.
      intros E I R. destruct (avail k v) eqn:N; [reflexivity|]. exfalso.
      assert (K : ~ avail k v = true) by congruence. rewrite avail_ok in K. apply K. left.
      apply (an_in _ _ _ A b v Hb). left. apply uses_ok. exists k, o, x. repeat split; auto.
      intros j p Lj Ej Dj. apply K. right. right. eauto 6.
    Qed.
    Lemma use_stays k o x v : nth_error os k = Some o -> In x (o_args o) -> In v (refers i x) -> gone k v = false.
    Proof.
      intros E I R. unfold gone. destruct (has v dying); [|reflexivity]. cbn [andb].
      assert (Iu : In v (flat_map (refers i) (o_args o))) by (apply in_flat_map; eauto).
      unfold RcInsertModel.placement. destruct (last_use f i b v) as [j|] eqn:L.
      - unfold last_use, ops in L. destruct (last_use_from_some _ _ _ _ _ L) as (_ & _ & C).
        assert (Lj : k <= j). { destruct (Nat.le_gt_cases k j) as [X|X]; [exact X|]. exfalso. apply (C k o X (Nat.le_0_l _)); [rewrite Nat.sub_0_r; exact E | exact Iu]. }
        assert (F : (j <? k) = false) by (apply Nat.ltb_ge; exact Lj).
        destruct (nth_error (ops f b) j) as [p|]; [|reflexivity]. destruct (o_kind p); try reflexivity; destruct (is_terminator p); exact F.
      - exfalso. exact (last_use_from_none _ _ _ _ L _ _ E Iu).
    Qed.
    Lemma use_expect k o x v : nth_error os k = Some o -> In x (o_args o) -> In v (refers i x) -> owned i w v -> expect k v = 1.
    Proof.
      intros E I R O. apply ownedb_ok in O. unfold expect. rewrite O, (use_avail _ _ _ _ E I R), (use_stays _ _ _ _ E I R). reflexivity.
    Qed.
    Lemma named_refers x v : In v (named i x) -> In v (refers i x).
    Proof. unfold named, refers. rewrite !in_app_iff. tauto. Qed.
    (** Operands may be used. *)
    Lemma use_usable k o x v st : nth_error os k = Some o -> In x (o_args o) -> In v (named i x) ->
      (forall u, expect k u <= hold st u) -> usable st v = true.
    Proof.
      intros E I R L. destruct (named_owned i (an_names _ _ _ A) (an_alias _ _ _ A) x v R) as (Nx & Pv & _).
      assert (Al : forall u, In u (i_ptrs i) -> ~ In u (w_temps w) -> In u (refers i x) -> alive always st u = true).
      { intros u Pu Tu Ru. destruct (has u (w_params w)) eqn:W.
        - apply has_In in W. apply (ok_params _ _ _ _ G) in W. unfold alive. rewrite (proj2 (has_In _ _) W). apply Bool.orb_true_r.
        - apply has_false in W. pose proof (use_expect k o x u E I Ru (conj Pu (conj W Tu))) as X. specialize (L u).
          unfold alive. rewrite (proj2 (Nat.ltb_lt _ _)) by lia. reflexivity. }
      destruct (has v (w_temps w)) eqn:T.
      - apply has_In in T. destruct (ok_temps _ _ _ _ G v T) as (_ & _ & (u & Ou & Pu & Tu) & D). specialize (D x R).
        assert (Ou' : In u (owners (i_fuel i) (i_deps i) [] x)).
        { destruct (i_fuel i) as [|fu]; [destruct Ou|]. cbn in *. rewrite D. exact Ou. }
        unfold RcInsertSpec.usable. replace (existsb _ _) with true; [apply Bool.orb_true_r|]. symmetry. apply existsb_exists. exists u. split; [exact Ou|].
        apply Al; [exact Pu | exact Tu|]. unfold refers. rewrite !in_app_iff. auto.
      - apply has_false in T. unfold RcInsertSpec.usable. rewrite (Al v Pv T (named_refers _ _ R)). reflexivity.
    Qed.

    (** ** Releases *)
    Lemma dying_ok v : In v dying <-> (In v (l_in lv b) \/ (In v (defs_of f i b) /\ is_alloc_intermediate f v = false)) /\
      ~ In v (l_out lv b) /\ ~ In v (returned f i b) /\ ~ In v (transferred f i b) /\ borrowed w v = false.
    Proof.
      unfold RcInsertModel.dying. rewrite nodup_In, in_app_iff, !filter_In. fold (defs_of f i b).
      assert (D : dies f i w lv b v = true <-> ~ In v (l_out lv b) /\ ~ In v (returned f i b) /\ ~ In v (transferred f i b) /\ borrowed w v = false).
      { unfold dies. rewrite !Bool.andb_true_iff, !Bool.negb_true_iff, !has_false. tauto. }
      rewrite Bool.andb_true_iff, Bool.negb_true_iff, D. tauto.
    Qed.
    Lemma defs_ptr v : In v (defs_of f i b) -> In v (i_ptrs i).
    Proof. rewrite defs_ok. intros [I|(o & _ & D)]; [eapply an_args; eauto | apply op_defs_results in D; tauto]. Qed.
    Lemma dying_owned v : In v dying -> owned i w v.
    Proof.
      intros D. apply dying_ok in D as (D & _ & _ & _ & B). apply ownedb_ok. unfold ownedb. rewrite B.
      rewrite (proj2 (has_In _ _)); [reflexivity|]. destruct D as [D|[D _]]; [exact (an_ptr _ _ _ A b v Hb D) | apply defs_ptr, D].
    Qed.
    Lemma releases_ok p v : In v (releases f i w lv order b p) <-> In v dying /\ placement v = p.
    Proof.
      unfold releases. rewrite filter_In, place_eqb_ok. split; intros [I E]; (split; [|exact E]).
      - eapply Permutation_in; [apply shuffles | exact I].
      - eapply Permutation_in; [apply Permutation_sym, shuffles | exact I].
    Qed.
    Lemma releases_nodup p : NoDup (releases f i w lv order b p).
    Proof.
      unfold releases. apply NoDup_filter. apply (Permutation_NoDup (Permutation_sym (shuffles _))). apply NoDup_nodup.
    Qed.
    Lemma releases_nil p : (forall v, In v dying -> placement v <> p) -> releases f i w lv order b p = [].
    Proof.
      intros H. destruct (releases f i w lv order b p) as [|v l] eqn:E; [reflexivity|]. exfalso.
      assert (I : In v (releases f i w lv order b p)) by (rewrite E; left; reflexivity). apply releases_ok in I as [I P]. exact (H v I P).
    Qed.

    (** Where releases are placed. *)
    Lemma def_op_here k o v : nth_error os k = Some o -> In v (o_results o) -> exists p, def_op f v = Some p.
    Proof.
      intros E I. unfold def_op. destruct (find _ (f_ops f)) eqn:F; [eauto|]. exfalso.
      pose proof (find_none _ _ F o (op_of _ _ E)) as N. cbn in N. apply has_false in N. contradiction.
    Qed.
    Lemma arg_no_op v c : In v (arg_defs f (blk f c)) -> def_op f v = None.
    Proof.
      intros I. unfold def_op. destruct (find _ (f_ops f)) as [o|] eqn:F; [|reflexivity]. exfalso.
      apply find_some in F as [Io Hv]. apply has_In in Hv. exact (arg_not_result _ _ _ I Io Hv).
    Qed.
    Lemma last_use_op v k : last_use f i b v = Some k -> exists o, nth_error os k = Some o /\ In v (flat_map (refers i) (o_args o)).
    Proof.
      intros L. destruct (last_use_from_some _ _ _ _ _ L) as (_ & (o & E & I) & _). rewrite Nat.sub_0_r in E. eauto.
    Qed.
    Lemma used_here k o v : nth_error os k = Some o -> In v (flat_map (refers i) (o_args o)) -> owned i w v -> expect k v = 1.
    Proof. intros E I O. apply in_flat_map in I as (x & Ix & R). eapply use_expect; eauto. Qed.

    Inductive placed (v : nat) : place -> Prop :=
    | p_start : last_use f i b v = None -> In v (l_in lv b) \/ In v (arg_defs f (blk f b)) -> placed v AtStart
    | p_before : forall k o, nth_error os k = Some o -> In v (flat_map (refers i) (o_args o)) -> is_terminator o = true ->
        o_kind o <> KReturn -> o_kind o <> KJump -> placed v (Before k)
    | p_after : forall k o, nth_error os k = Some o -> In v (flat_map (refers i) (o_args o)) -> is_terminator o = false -> placed v (After k)
    | p_unused : forall k o, nth_error os k = Some o -> In v (op_defs f i o) -> ~ In v (l_in lv b) -> placed v (After k)
    | p_nowhere : forall k o, nth_error os k = Some o -> In v (flat_map (refers i) (o_args o)) ->
        o_kind o = KReturn \/ o_kind o = KJump -> placed v Nowhere.
    Lemma placed_ok v : In v dying -> placed v (placement v).
    Proof.
      intros D. apply dying_ok in D as (D & _). unfold RcInsertModel.placement. destruct (last_use f i b v) as [k|] eqn:L.
      - destruct (last_use_op _ _ L) as (o & E & I). unfold ops. rewrite E.
        destruct (o_kind o) eqn:K; try (eapply p_nowhere; eauto; fail); destruct (is_terminator o) eqn:T;
          try (eapply p_before; eauto; congruence); try (eapply p_after; eauto; fail).
      - destruct (has v (l_in lv b)) eqn:Hi; [apply has_In in Hi; apply p_start; auto|]. apply has_false in Hi.
        destruct D as [D|[D _]]; [contradiction|]. rewrite defs_ok in D. destruct D as [D|(o & Io & D)].
        + rewrite (arg_no_op _ _ D). apply p_start; auto.
        + apply In_nth_error in Io as [k E]. pose proof (op_defs_results _ _ _ _ D) as [R _].
          destruct (def_op_here _ _ _ E R) as [p ->]. destruct (position_of 0 (ops f b) v) as [j|] eqn:P.
          * apply position_of_some in P as (_ & q & Eq & Rq). rewrite Nat.sub_0_r in Eq.
            assert (j = k) by (eapply def_unique; eauto). subst j. exact (p_unused v k o E D Hi).
          * exfalso. exact (position_of_none _ _ _ P o (nth_error_In _ _ E) R).
    Qed.

    Lemma gone_ok k v : gone k v = true <-> In v dying /\ (placement v = AtStart \/ exists j, j < k /\ (placement v = Before j \/ placement v = After j)).
    Proof.
      unfold gone. rewrite Bool.andb_true_iff, has_In. apply and_iff_compat_l.
      destruct (placement v) as [|j|j|]; rewrite ?Nat.ltb_lt; split; try tauto; try discriminate.
      - intros L. right. eauto.
      - intros [?|(j' & L & [E|E])]; congruence.
      - intros L. right. eauto.
      - intros [?|(j' & L & [E|E])]; congruence.
      - intros [?|(j' & L & [E|E])]; congruence.
    Qed.
    Lemma expect_ok k v : expect k v = 1 <-> owned i w v /\ avail k v = true /\ gone k v = false.
    Proof.
      unfold expect. rewrite <- ownedb_ok. destruct (ownedb v), (avail k v), (gone k v); cbn; split; intuition discriminate.
    Qed.
    Lemma expect_cases k v : expect k v = 0 \/ expect k v = 1.
    Proof. unfold expect. destruct (_ && _ && _); auto. Qed.

    (** A definition is new. *)
    Lemma new_avail k o v : nth_error os k = Some o -> In v (op_defs f i o) -> avail k v = false.
    Proof.
      intros E D. destruct (avail k v) eqn:V; [|reflexivity]. exfalso. apply avail_ok in V as [V|[V|(j & p & L & Ep & Dp)]].
      - exact (ok_defs _ _ _ _ G b v o Hb (nth_error_In _ _ E) D V).
      - apply op_defs_results in D as [D _]. exact (arg_not_result _ _ _ V (op_of _ _ E) D).
      - apply op_defs_results in D as [D _]. apply op_defs_results in Dp as [Dp _]. pose proof (def_unique _ _ _ _ _ Ep E Dp D). lia.
    Qed.
    Lemma avail_mono j k v : j <= k -> avail j v = true -> avail k v = true.
    Proof. rewrite !avail_ok. intros L [H|[H|(m & o & Lm & H)]]; auto. right. right. exists m, o. split; [lia | exact H]. Qed.
    Lemma new_stays k o v : nth_error os k = Some o -> In v (op_defs f i o) -> gone k v = false.
    Proof.
      intros E D. destruct (gone k v) eqn:V; [|reflexivity]. exfalso. pose proof (new_avail _ _ _ E D) as N.
      pose proof (op_defs_results _ _ _ _ D) as [R _].
      apply gone_ok in V as (Dy & P). pose proof (placed_ok _ Dy) as Q. destruct P as [P|(j & L & P)].
      - rewrite P in Q. inversion Q as [? [X|X]| | | |]; subst.
        + exact (ok_defs _ _ _ _ G b v o Hb (nth_error_In _ _ E) D X).
        + exact (arg_not_result _ _ _ X (op_of _ _ E) R).
      - assert (U : forall p, nth_error os j = Some p -> In v (flat_map (refers i) (o_args p)) -> False).
        { intros p Ep I. apply in_flat_map in I as (x & Ix & Rx). pose proof (use_avail _ _ _ _ Ep Ix Rx) as V.
          apply (avail_mono j k) in V; [congruence | lia]. }
        destruct P as [P|P]; rewrite P in Q; inversion Q; subst; try (eapply U; eauto; fail).
        match goal with H : In v (op_defs f i ?p), H' : nth_error os j = Some ?p |- _ => apply op_defs_results in H as [H _]; pose proof (def_unique _ _ _ _ _ H' E H R) end. lia.
    Qed.
    Lemma op_defs_nodup k o : nth_error os k = Some o -> NoDup (op_defs f i o).
    Proof.
      intros E. unfold op_defs. apply NoDup_filter. pose proof (NoDup_app_r _ _ (an_one _ _ _ A)) as N.
      pose proof (op_of _ _ E) as I. apply in_split in I as (l1 & l2 & El). rewrite El, flat_map_app in N. apply NoDup_app_r in N. cbn in N.
      revert N. generalize (flat_map o_results l2). generalize (o_results o). clear. intros l m N.
      induction l as [|x l IH]; [constructor|]. cbn in N. inversion N; subst. constructor; [|auto]. intros I. apply H1, in_app_iff. auto.
    Qed.
    Lemma param_arg v : In v (w_params w) -> In v (arg_defs f (blk f 0)).
    Proof. intros I. apply (ok_params _ _ _ _ G) in I. apply filter_In in I as [I _]. exact I. Qed.
    Lemma op_def_owned k o v : nth_error os k = Some o -> In v (op_defs f i o) -> (owned i w v <-> ~ In v (w_temps w)).
    Proof.
      intros E D. pose proof (op_defs_results _ _ _ _ D) as (R & P & _). unfold owned. split; [tauto|]. intros T. split; [exact P|]. split; [|exact T].
      intros W. apply param_arg in W. exact (arg_not_result _ _ _ W (op_of _ _ E) R).
    Qed.

    (** One operation further. *)
    Lemma expect_step k o v : nth_error os k = Some o -> (forall u, placement u = Before k -> ~ In u dying) ->
      expect (S k) v + (if has v (releases f i w lv order b (After k)) then 1 else 0) =
      expect k v + (if has v (op_defs f i o) && negb (has v (w_temps w)) then 1 else 0) /\
      (has v (releases f i w lv order b (After k)) = true -> expect (S k) v = 0).
    Proof.
      intros E NB.
      assert (AS : avail (S k) v = avail k v || has v (op_defs f i o)).
      { apply Bool.eq_iff_eq_true. rewrite Bool.orb_true_iff, !avail_ok, has_In. split.
        - intros [H|[H|(j & p & L & Ep & D)]]; auto. destruct (Nat.eq_dec j k) as [->|Ne].
          + rewrite E in Ep. injection Ep as <-. auto.
          + left. right. right. exists j, p. split; [lia | auto].
        - intros [[H|[H|(j & p & L & H)]]|H]; auto; right; right; [exists j, p; split; [lia | auto] | exists k, o; auto]. }
      assert (GS : gone (S k) v = gone k v || has v (releases f i w lv order b (After k))).
      { apply Bool.eq_iff_eq_true. rewrite Bool.orb_true_iff, !gone_ok, has_In, releases_ok. split.
        - intros [D [P|(j & L & P)]]; [tauto|]. destruct (Nat.eq_dec j k) as [->|Ne].
          + destruct P as [P|P]; [destruct (NB _ P D) | auto].
          + left. split; [exact D|]. right. exists j. split; [lia | exact P].
        - intros [[D [P|(j & L & P)]]|[D P]]; (split; [exact D|]); [auto | right; exists j; split; [lia | exact P] | right; exists k; split; [lia | auto]]. }
      assert (RL : has v (releases f i w lv order b (After k)) = true -> ownedb v = true /\ avail (S k) v = true /\ gone k v = false).
      { rewrite has_In, releases_ok. intros [D P]. pose proof (placed_ok v D) as Q. rewrite P in Q.
        split; [apply ownedb_ok, dying_owned, D|]. split.
        - rewrite AS. inversion Q; subst.
          + match goal with H : In v (flat_map _ _), H' : nth_error os k = Some ?p |- _ => apply in_flat_map in H as (x & Ix & Rx); rewrite (use_avail _ _ _ _ H' Ix Rx) end. reflexivity.
          + match goal with H : In v (op_defs f i ?p), H' : nth_error os k = Some ?p |- _ => rewrite E in H'; injection H' as <-; apply has_In in H; rewrite H end. apply Bool.orb_true_r.
        - destruct (gone k v) eqn:Gv; [|reflexivity]. apply gone_ok in Gv as (_ & [X|(j & L & [X|X])]); rewrite P in X; try discriminate. injection X as ->. lia. }
      assert (OD : has v (op_defs f i o) = true -> avail k v = false /\ gone k v = false /\ ownedb v = negb (has v (w_temps w))).
      { rewrite has_In. intros D. split; [eapply new_avail; eauto|]. split; [eapply new_stays; eauto|].
        apply Bool.eq_iff_eq_true. rewrite ownedb_ok, Bool.negb_true_iff, has_false. eapply op_def_owned; eauto. }
      unfold expect. rewrite GS. rewrite AS in *. revert RL OD.
      destruct (has v (releases f i w lv order b (After k))), (has v (op_defs f i o)), (ownedb v), (avail k v), (gone k v), (has v (w_temps w)); cbn;
        intros RL OD; try (destruct (RL eq_refl) as (? & ? & ?)); try (destruct (OD eq_refl) as (? & ? & ?)); try discriminate; split; (reflexivity || (intros; congruence)).
    Qed.

    Lemma names_eq x : named i x <> [] -> exists v, named i x = [v].
    Proof. intros H. destruct (named_cases i (an_names _ _ _ A) (an_alias _ _ _ A) x) as [E|(v & E & _)]; [contradiction | eauto]. Qed.
    Lemma contract_operand o c p : In p (contract_args o c) -> In (fst p) (o_args o).
    Proof.
      intros I. destruct p as [x a]. apply in_combine_l in I. destruct (k_indirect c); [|exact I]. destruct (o_args o); [exact I | right; exact I].
    Qed.
    (** What an inner operation is given before is what it takes. *)
    Lemma retained_taken k o : nth_error os k = Some o -> inner f i w o ->
      takes_counts f i o = flat_map (named i) (contract_retains i w o ++ store_retains f o) /\
      (forall x, In x (contract_retains i w o ++ store_retains f o) -> In x (o_args o) /\ named i x <> []).
    Proof.
      intros E [(NT & NR1 & NR2) Hc _ _].
      destruct (o_contract o) as [c|] eqn:C.
      - destruct (Hc c eq_refl) as (K & T & Hp). unfold contract_retains. rewrite C, T.
        assert (S0 : store_retains f o = []) by (unfold store_retains; destruct K as [-> | ->]; reflexivity). rewrite S0, app_nil_r. split.
        + assert (TK : takes_counts f i o = flat_map (fun p => match snd p with Borrow => [] | _ => named i (fst p) end) (contract_args o c)).
          { unfold takes_counts. rewrite C. destruct K as [-> | ->]; reflexivity. }
          rewrite TK. clear TK. revert Hp. generalize (contract_args o c) as l. induction l as [|[x a] l IH]; intros Hp; [reflexivity|].
          cbn [flat_map filter map snd fst]. rewrite IH by (intros p Ip; apply Hp; right; exact Ip).
          destruct (Hp _ (or_introl eq_refl)) as [Nt _]. destruct a; cbn; try reflexivity. cbn in Nt. contradiction.
        + intros x I. apply in_map_iff in I as (p & <- & I). apply filter_In in I as [I Q]. split; [eapply contract_operand; eauto|].
          apply (Hp p I). destruct (snd p); [discriminate | reflexivity | discriminate].
      - unfold contract_retains. rewrite C. cbn [app].
        destruct (o_kind o) eqn:K; try (unfold takes_counts, store_retains; rewrite K, C; split; [reflexivity | intros x []]; fail);
          try (unfold is_terminator in NT; rewrite K in NT; discriminate); try contradiction.
        unfold takes_counts, store_retains. rewrite K. destruct (o_args o) as [|x xs] eqn:Ea; [split; [reflexivity | intros x []]|].
        destruct (f_anyref f x && negb (is_static f x)) eqn:Q; [|split; [reflexivity | intros y []]]. split; [cbn; rewrite app_nil_r; reflexivity|].
        intros y [<-|[]]. split; [left; reflexivity|]. apply andb_prop in Q as [Q1 Q2]. apply Bool.negb_true_iff in Q2.
        apply (an_store _ _ _ A o x (op_of _ _ E)); auto. rewrite Ea. left. reflexivity.
    Qed.

    Lemma term_last k o p : nth_error os k = Some o -> inner f i w o -> nth_error os k = Some p -> is_terminator p = true -> False.
    Proof. intros E [(N & _) _ _ _] E' T. congruence. Qed.

    (** What a load is given after. *)
    Lemma loaded k o : nth_error os k = Some o -> inner f i w o -> forall v,
      count v (gives_counts f i o) + count v (flat_map (named i) (load_retains f w o)) =
      (if has v (op_defs f i o) && negb (has v (w_temps w)) then 1 else 0).
    Proof.
      intros E [(NT & NR1 & NR2) _ Hl Ht] v. destruct (o_kind o) eqn:K; try contradiction.
      2-17: (assert (Z : load_retains f w o = []) by (unfold load_retains; rewrite K; reflexivity);
        assert (Z' : gives_counts f i o = op_defs f i o) by (unfold gives_counts; rewrite K; reflexivity); rewrite Z, Z'; cbn [flat_map]; change (count v []) with 0;
        rewrite (count_nodup v _ (op_defs_nodup _ _ E)); destruct (has v (op_defs f i o)) eqn:D; [|reflexivity]; apply has_In in D;
        destruct (has v (w_temps w)) eqn:T; [|reflexivity]; apply has_In in T; specialize (Ht v D T); congruence).
      unfold gives_counts, load_retains. rewrite K. change (count v []) with 0. cbn [plus].
      specialize (Hl eq_refl). destruct (o_results o) as [|r [|]] eqn:Er; [| |cbn in Hl; lia].
      - replace (op_defs f i o) with (@nil nat) by (unfold op_defs; rewrite Er; reflexivity). reflexivity.
      - destruct (f_anyref f r) eqn:Fr.
        + assert (D : In r (op_defs f i o)) by (apply (an_load _ _ _ A o r (op_of _ _ E) K); [rewrite Er; left; reflexivity | exact Fr]).
          assert (D1 : op_defs f i o = [r]).
          { unfold op_defs in *. rewrite Er in *. cbn in *. destruct (_ && _ && _); [reflexivity | destruct D]. }
          rewrite D1. cbn [andb]. destruct (has r (w_temps w)) eqn:T; cbn [negb flat_map].
          * unfold has at 1. cbn [existsb]. destruct (Nat.eqb_spec v r) as [->|Ne]; [rewrite T|]; reflexivity.
          * pose proof (op_defs_results _ _ _ _ D) as (_ & P & _). rewrite (named_root i (an_names _ _ _ A) r P). cbn.
            destruct (Nat.eq_dec r v) as [->|Ne]; [rewrite Nat.eqb_refl, T; reflexivity|]. destruct (Nat.eqb_spec v r); [congruence | reflexivity].
        + replace (op_defs f i o) with (@nil nat) by (unfold op_defs; rewrite Er; cbn; rewrite Fr; reflexivity). reflexivity.
    Qed.

    Lemma inner_group k o st : nth_error os k = Some o -> inner f i w o -> (forall v, hold st v = expect k v) ->
      exists st', run (around f i w lv order b k o) st = Some st' /\ forall v, hold st' v = expect (S k) v.
    Proof.
      intros E In0 H0. pose proof (an_names _ _ _ A) as NM. pose proof (an_alias _ _ _ A) as AL.
      destruct (retained_taken _ _ E In0) as [TK RO].
      assert (NB : forall u, placement u = Before k -> ~ In u dying).
      { intros u P D. pose proof (placed_ok u D) as Q. rewrite P in Q. inversion Q; subst.
        match goal with H : nth_error os k = Some ?p, T : is_terminator ?p = true |- _ => exact (term_last _ _ _ E In0 H T) end. }
      unfold around. rewrite (releases_nil (Before k)) by (intros v D P; exact (NB v P D)). cbn [map app]. rewrite run_app.
      destruct (run_retains f i always NM AL (contract_retains i w o ++ store_retains f o) st) as (st1 & R1 & L1 & H1).
      { intros x Ix. destruct (RO x Ix) as [Ia Nn]. destruct (names_eq x Nn) as [v Ev]. exists v. split; [exact Ev|].
        apply (use_usable k o x v st E Ia); [rewrite Ev; left; reflexivity | intros u; rewrite H0; reflexivity]. }
      rewrite R1. cbn [RcInsertSpec.run]. rewrite <- TK in H1.
      destruct (act_ok f i always o st1) as (st2 & A2 & H2 & L2).
      { intros v Iv. apply in_flat_map in Iv as (x & Ix & Nx). apply (use_usable k o x v st1 E Ix Nx). intros u. rewrite H1, H0. lia. }
      { intros v _. rewrite H1. lia. }
      rewrite A2, run_app.
      assert (LR : forall x, In x (load_retains f w o) -> o_kind o = KLoad /\ In x (op_defs f i o)).
      { intros x Ix. unfold load_retains in Ix. destruct (o_kind o) eqn:K; try destruct Ix. split; [reflexivity|].
        destruct (o_results o) as [|r rs] eqn:Er; [destruct Ix|]. destruct (f_anyref f r) eqn:Fr; [|destruct Ix]. cbn in Ix.
        destruct (has r (w_temps w)); [destruct Ix|]. destruct Ix as [<-|[]]. apply (an_load _ _ _ A o r (op_of _ _ E) K); [rewrite Er; left; reflexivity | exact Fr]. }
      destruct (run_retains f i always NM AL (load_retains f w o) st2) as (st3 & R3 & L3 & H3).
      { intros x Ix. destruct (LR x Ix) as [K D]. pose proof (op_defs_results _ _ _ _ D) as (_ & P & _). exists x. split; [apply named_root; auto|].
        unfold RcInsertSpec.usable. rewrite L2, K. rewrite (proj2 (has_In _ _) D), Bool.orb_true_r. reflexivity. }
      rewrite R3.
      assert (H3' : forall v, hold st3 v = expect (S k) v + (if has v (releases f i w lv order b (After k)) then 1 else 0)).
      { intros v. rewrite H3, H2, H1, H0. pose proof (loaded _ _ E In0 v) as X. destruct (expect_step k o v E NB) as [Y _]. lia. }
      destruct (run_releases f i always NM AL (releases f i w lv order b (After k)) st3 (releases_nodup _)) as (st4 & R4 & H4).
      { intros v Iv. split; [apply releases_ok in Iv as [Iv _]; apply (dying_owned v Iv)|]. rewrite H3'. rewrite (proj2 (has_In _ _) Iv). lia. }
      exists st4. split; [exact R4|]. intros v. rewrite H4, H3'. rewrite (count_nodup v _ (releases_nodup _)). lia.
    Qed.

    Lemma body_runs body : forall k rest st, os = firstn k os ++ body ++ rest -> Forall (inner f i w) body -> k <= List.length os ->
      (forall v, hold st v = expect k v) ->
      exists st', run (around_all f i w lv order b k body) st = Some st' /\ forall v, hold st' v = expect (k + List.length body) v.
    Proof.
      induction body as [|o body IH]; intros k rest st Eos F Lk H.
      - exists st. cbn. rewrite Nat.add_0_r. auto.
      - inversion F as [|? ? Fo Fb]; subst. assert (E : nth_error os k = Some o).
        { rewrite Eos. rewrite nth_error_app2; rewrite firstn_length, (Nat.min_l k) by exact Lk; [|lia]. rewrite Nat.sub_diag. reflexivity. }
        destruct (inner_group k o st E Fo H) as (st1 & R1 & H1). cbn [around_all]. rewrite run_app, R1.
        assert (Lk' : S k <= List.length os) by (assert (k < List.length os) by (apply nth_error_Some; congruence); lia).
        destruct (IH (S k) rest st1) as (st2 & R2 & H2); auto.
        { rewrite Eos at 1. rewrite <- (firstn_skipn k os) at 2. rewrite firstn_app, firstn_length, (Nat.min_l k) by exact (Nat.lt_le_incl _ _ Lk').
          rewrite firstn_firstn, Nat.min_r by lia. replace (S k - k) with 1 by lia.
          assert (Sk : skipn k os = o :: body ++ rest).
          { rewrite Eos at 1. rewrite skipn_app, firstn_length, (Nat.min_l k) by exact Lk. rewrite skipn_all2 by (rewrite firstn_length; lia).
            rewrite Nat.sub_diag. reflexivity. }
          rewrite Sk. cbn. rewrite <- app_assoc. reflexivity. }
        exists st2. split; [exact R2|]. intros v. rewrite H2. f_equal. cbn. lia.
    Qed.

    (** ** The last operation *)
    Section Last.
      Variables (body : list nop) (last : nop).
      Hypothesis Eos : os = body ++ [last].
      Hypothesis Fb : Forall (inner f i w) body.
      Hypothesis Fl : final f i w lv b last.
      Notation k := (List.length body).

      Lemma nth_last : nth_error os k = Some last.
      Proof. rewrite Eos, nth_error_app2, Nat.sub_diag by lia. reflexivity. Qed.
      Lemma last_kind : is_terminator last = true.
      Proof. destruct Fl as [_ K]. unfold is_terminator. destruct (o_kind last); try reflexivity; destruct K. Qed.
      Lemma before_last j o : nth_error os j = Some o -> (j < k /\ In o body) \/ (j = k /\ o = last).
      Proof.
        intros E. destruct (Nat.lt_ge_cases j k) as [L|L].
        - left. split; [exact L|]. rewrite Eos, nth_error_app1 in E by exact L. eapply nth_error_In; eauto.
        - right. assert (j < List.length os) by (apply nth_error_Some; congruence). rewrite Eos, app_length in H. cbn in H.
          assert (j = k) by lia. subst j. rewrite nth_last in E. injection E as ->. auto.
      Qed.
      Lemma succs_last : successors (blk f b) = o_succs last.
      Proof. unfold successors. rewrite Eos, rev_app_distr. reflexivity. Qed.
      Lemma body_inner o : In o body -> inner f i w o.
      Proof. apply Forall_forall. exact Fb. Qed.
      Lemma last_defs : op_defs f i last = [].
      Proof. unfold op_defs. rewrite (fin_results _ _ _ _ _ _ Fl). reflexivity. Qed.
      Lemma returned_last : returned f i b = match o_kind last with KReturn => flat_map (named i) (o_args last) | _ => [] end.
      Proof. unfold returned, ops. rewrite Eos, rev_app_distr. reflexivity. Qed.
      Lemma inner_transfers o : inner f i w o -> transfers o = [].
      Proof. intros [_ Hc _ _]. unfold transfers. destruct (o_contract o) as [c|] eqn:C; [|reflexivity]. destruct (Hc c eq_refl) as (_ & -> & _). reflexivity. Qed.
      Lemma transferred_last v : In v (transferred f i b) <-> exists x, In x (transfers last) /\ (v = x \/ v = owned_name i x).
      Proof.
        unfold transferred, ops. rewrite Eos, flat_map_app, in_app_iff. cbn [flat_map]. rewrite app_nil_r. split.
        - intros [I|I].
          + apply in_flat_map in I as (o & Io & I). rewrite (inner_transfers o (body_inner o Io)) in I. destruct I.
          + apply in_flat_map in I as (x & Ix & I). exists x. cbn in I. intuition.
        - intros (x & Ix & I). right. apply in_flat_map. exists x. cbn. intuition.
      Qed.
      Lemma after_last : releases f i w lv order b (After k) = [].
      Proof.
        apply releases_nil. intros v D P. pose proof (placed_ok v D) as Q. rewrite P in Q. inversion Q as [| |? o E ? T|? o E D'|]; subst; rewrite nth_last in E; injection E as <-.
        - rewrite last_kind in T. discriminate.
        - rewrite last_defs in D'. destruct D'.
      Qed.
      Lemma before_used v : In v (releases f i w lv order b (Before k)) ->
        In v dying /\ In v (flat_map (refers i) (o_args last)) /\ o_kind last <> KReturn /\ o_kind last <> KJump /\ owned i w v /\ expect k v = 1.
      Proof.
        intros I. apply releases_ok in I as [D P]. pose proof (placed_ok v D) as Q. rewrite P in Q. inversion Q as [|? o E I' T N1 N2| | |]; subst.
        rewrite nth_last in E. injection E as <-. pose proof (dying_owned v D) as O. repeat split; auto; try apply O. eapply used_here; eauto. apply nth_last.
      Qed.
      Lemma out_expect v : owned i w v -> In v (l_out lv b) -> expect k v = 1.
      Proof.
        intros O L. apply expect_ok. split; [exact O|]. split.
        - apply avail_ok. destruct (In_dec_nat v (defs_of f i b)) as [D|D].
          + rewrite defs_ok in D. destruct D as [D|(o & Io & D)]; [auto|]. right. right. apply In_nth_error in Io as [j E].
            destruct (before_last _ _ E) as [[Lj _]|[-> ->]]; [exists j, o; auto|]. rewrite last_defs in D. destruct D.
          + left. apply (an_in _ _ _ A b v Hb). auto.
        - destruct (gone k v) eqn:Gv; [|reflexivity]. apply gone_ok in Gv as [D _]. apply dying_ok in D as (_ & N & _). contradiction.
      Qed.
      Lemma accounted v : expect k v = 1 -> In v (l_out lv b) \/ In v (returned f i b) \/ In v (transferred f i b) \/
        In v (releases f i w lv order b (Before k)) \/
        ((o_kind last = KReturn \/ o_kind last = KJump) /\ In v (flat_map (refers i) (o_args last))).
      Proof.
        intros X. apply expect_ok in X as (O & V & Gn).
        destruct (In_dec_nat v (l_out lv b)) as [?|NL]; [auto|]. destruct (In_dec_nat v (returned f i b)) as [?|NR]; [auto|].
        destruct (In_dec_nat v (transferred f i b)) as [?|NT]; [auto|]. right. right. right.
        assert (D : In v dying).
        { apply dying_ok. split.
          - apply avail_ok in V as [V|[V|(j & o & L & E & D)]]; [auto| |]; right; (split; [apply defs_ok | apply (ok_alloc _ _ _ _ G), O]); [auto|].
            right. exists o. split; [eapply nth_error_In; eauto | exact D].
          - repeat split; auto. apply ownedb_ok in O. unfold ownedb in O. apply andb_prop in O as [_ O]. apply Bool.negb_true_iff, O. }
        pose proof (placed_ok v D) as Q. destruct (placement v) as [|j|j|] eqn:P.
        - exfalso. rewrite (proj2 (gone_ok k v)) in Gn by auto. discriminate.
        - left. apply releases_ok. split; [exact D|]. rewrite P. f_equal. destruct (Nat.lt_ge_cases j k) as [L|L].
          + rewrite (proj2 (gone_ok k v)) in Gn; [discriminate|]. split; [exact D|]. right. eauto.
          + inversion Q as [|? o E| | |]; subst. destruct (before_last _ _ E) as [[? _]|[? _]]; lia.
        - exfalso. destruct (Nat.lt_ge_cases j k) as [L|L].
          + rewrite (proj2 (gone_ok k v)) in Gn; [discriminate|]. split; [exact D|]. right. eauto.
          + assert (I : In v (releases f i w lv order b (After k))); [|rewrite after_last in I; destruct I].
            apply releases_ok. split; [exact D|]. rewrite P. f_equal.
            inversion Q as [| |? o E|? o E|]; subst; destruct (before_last _ _ E) as [[? _]|[? _]]; lia.
        - right. inversion Q as [| | | |? o E I K]; subst. destruct (before_last _ _ E) as [[_ Io]|[_ ->]]; [|auto].
          destruct (body_inner o Io) as [(N & _) _ _ _]. unfold is_terminator in N. destruct K as [K|K]; rewrite K in N; discriminate.
      Qed.

      Definition kept (v : nat) : nat := if ownedb v && has v (l_out lv b) then 1 else 0.
      Lemma kept_out v : owned i w v -> In v (l_out lv b) -> kept v = 1.
      Proof. intros O I. unfold kept. rewrite (proj2 (ownedb_ok v) O), (proj2 (has_In _ _) I). reflexivity. Qed.
      Lemma kept_not v : ~ In v (l_out lv b) -> kept v = 0.
      Proof. intros I. unfold kept. rewrite (proj2 (has_false _ _) I). destruct (ownedb v); reflexivity. Qed.
      Lemma kept_le v : kept v <= expect k v.
      Proof.
        destruct (kept v) eqn:K; [lia|]. unfold kept in K. destruct (ownedb v && has v (l_out lv b)) eqn:X; [|discriminate].
        apply andb_prop in X as [X Y]. apply ownedb_ok in X. apply has_In in Y. rewrite (out_expect v X Y). injection K as <-. reflexivity.
      Qed.
      Lemma expect_owned v : expect k v = 1 -> owned i w v.
      Proof. intros X. apply expect_ok in X. apply X. Qed.
      Lemma no_out v : o_succs last = [] -> ~ In v (l_out lv b).
      Proof. intros E I. destruct (an_out _ _ _ A b v Hb I) as (s & Is & _). rewrite succs_last, E in Is. destruct Is. Qed.
      Lemma no_transferred v : o_contract last = None -> ~ In v (transferred f i b).
      Proof. intros C I. apply transferred_last in I as (x & Ix & _). unfold transfers in Ix. rewrite C in Ix. destruct Ix. Qed.
      Lemma around_last : around f i w lv order b k last =
        map retain (contract_retains i w last) ++ map release (releases f i w lv order b (Before k)) ++ [last].
      Proof.
        unfold around. rewrite after_last. pose proof last_kind as T. unfold is_terminator in T.
        unfold store_retains, load_retains. destruct (o_kind last); try discriminate; rewrite !app_nil_r; reflexivity.
      Qed.
      Lemma last_gives : gives_counts f i last = [].
      Proof. pose proof last_kind as T. unfold is_terminator in T. unfold gives_counts. destruct (o_kind last); try discriminate; apply last_defs. Qed.
      Lemma last_uses_usable st : (forall v, expect k v <= hold st v) -> forall v, In v (uses_of_op i last) -> usable st v = true.
      Proof. intros H v I. apply in_flat_map in I as (x & Ix & Nx). eapply use_usable; eauto. apply nth_last. Qed.

      (** Return and jump. *)
      Lemma giving st : o_contract last = None -> gives_up i w last -> (o_kind last = KReturn \/ o_kind last = KJump) ->
        takes_counts f i last = flat_map (named i) (o_args last) ->
        (forall v, In v (flat_map (named i) (o_args last)) -> ~ In v (l_out lv b)) ->
        (forall v, hold st v = expect k v) ->
        exists st', run (around f i w lv order b k last) st = Some st' /\ forall v, hold st' v = kept v.
      Proof.
        intros C [N D] K T NO H. rewrite around_last. unfold contract_retains. rewrite C.
        rewrite (releases_nil (Before k)); cycle 1.
        { intros v Dy P. assert (I : In v (releases f i w lv order b (Before k))) by (apply releases_ok; auto).
          apply before_used in I as (_ & _ & N1 & N2 & _). destruct K; contradiction. }
        cbn [map app RcInsertSpec.run].
        assert (US : forall v, In v (flat_map (named i) (o_args last)) -> expect k v = 1).
        { intros v I. apply in_flat_map in I as (x & Ix & Nx). apply (used_here k last v nth_last); [|apply (D x Ix); exact Nx].
          apply in_flat_map. exists x. split; [exact Ix | apply named_refers, Nx]. }
        destruct (act_ok f i always last st) as (st' & A' & H' & _).
        { apply last_uses_usable. intros v. rewrite H. lia. }
        { rewrite T. intros v I. rewrite (count_nodup v _ N), (proj2 (has_In _ _) I), H, (US v I). lia. }
        rewrite A'. exists st'. split; [reflexivity|]. intros v. rewrite H', H, last_gives, T, (count_nodup v _ N). change (count v []) with 0.
        destruct (has v (flat_map (named i) (o_args last))) eqn:Hv.
        - apply has_In in Hv. rewrite (US v Hv), (kept_not v (NO v Hv)). lia.
        - apply has_false in Hv. destruct (expect_cases k v) as [X|X]; [pose proof (kept_le v); lia|]. rewrite X.
          rewrite (kept_out v (expect_owned v X)); [lia|]. destruct (accounted v X) as [Y|[Y|[Y|[Y|[_ Y]]]]]; [exact Y| | | |]; exfalso.
          + rewrite returned_last in Y. destruct (o_kind last); try destruct Y. exact (Hv Y).
          + exact (no_transferred v C Y).
          + apply before_used in Y as (_ & _ & N1 & N2 & _). destruct K; contradiction.
          + apply Hv. apply in_flat_map in Y as (x & Ix & Rx). apply in_flat_map. exists x. split; [exact Ix|].
            destruct (D x Ix) as [Nd _]. unfold refers in Rx. unfold named. rewrite !in_app_iff in Rx. rewrite in_app_iff.
            destruct Rx as [Rx|[Rx|Rx]]; auto. destruct (i_fuel i); cbn in Rx; [destruct Rx|]. rewrite Nd in Rx. destruct Rx.
      Qed.

      (** Branches and traps. *)
      Lemma branching st : o_contract last = None -> flat_map (refers i) (o_args last) = [] -> o_kind last <> KReturn -> takes_counts f i last = [] ->
        (forall v, hold st v = expect k v) ->
        exists st', run (around f i w lv order b k last) st = Some st' /\ forall v, hold st' v = kept v.
      Proof.
        intros C R NR T H. rewrite around_last. unfold contract_retains. rewrite C.
        rewrite (releases_nil (Before k)); cycle 1.
        { intros v Dy P. assert (I : In v (releases f i w lv order b (Before k))) by (apply releases_ok; auto).
          apply before_used in I as (_ & I & _). rewrite R in I. destruct I. }
        cbn [map app RcInsertSpec.run].
        destruct (act_ok f i always last st) as (st' & A' & H' & _).
        { apply last_uses_usable. intros v. rewrite H. lia. }
        { rewrite T. intros v []. }
        rewrite A'. exists st'. split; [reflexivity|]. intros v. rewrite H', H, last_gives, T. change (count v []) with 0.
        destruct (expect_cases k v) as [X|X]; [pose proof (kept_le v); lia|]. rewrite X.
        rewrite (kept_out v (expect_owned v X)); [lia|]. destruct (accounted v X) as [Y|[Y|[Y|[Y|[_ Y]]]]]; [exact Y| | | |]; exfalso.
        - rewrite returned_last in Y. destruct (o_kind last); try destruct Y. congruence.
        - exact (no_transferred v C Y).
        - apply before_used in Y as (_ & Y & _). rewrite R in Y. destruct Y.
        - rewrite R in Y. destruct Y.
      Qed.

      (** Tail calls. *)
      Lemma tail_plain st : o_contract last = None -> o_succs last = [] -> o_kind last <> KReturn -> o_kind last <> KJump ->
        incl (flat_map (refers i) (o_args last)) always -> takes_counts f i last = [] -> (forall v, hold st v = expect k v) ->
        exists st', run (around f i w lv order b k last) st = Some st' /\ forall v, hold st' v = kept v.
      Proof.
        intros C SU NR NJ IC T H. rewrite around_last. unfold contract_retains. rewrite C. cbn [map app]. rewrite run_app.
        destruct (run_releases f i always (an_names _ _ _ A) (an_alias _ _ _ A) (releases f i w lv order b (Before k)) st (releases_nodup _)) as (st1 & R1 & H1).
        { intros v I. apply before_used in I as (_ & _ & _ & _ & O & X). split; [apply O | rewrite H, X; lia]. }
        rewrite R1. cbn [RcInsertSpec.run].
        destruct (act_ok f i always last st1) as (st' & A' & H' & _).
        { intros v I. apply in_flat_map in I as (x & Ix & Nx). unfold RcInsertSpec.usable, alive.
          rewrite (proj2 (has_In v always)), Bool.orb_true_r; [reflexivity|]. apply IC, in_flat_map. exists x. split; [exact Ix | apply named_refers, Nx]. }
        { rewrite T. intros v []. }
        rewrite A'. exists st'. split; [reflexivity|]. intros v. rewrite H', H1, H, last_gives, T, (count_nodup v _ (releases_nodup _)). change (count v []) with 0.
        rewrite (kept_not v (no_out v SU)). destruct (expect_cases k v) as [X|X]; [lia|].
        destruct (accounted v X) as [Y|[Y|[Y|[Y|[Y _]]]]].
        - destruct (no_out v SU Y).
        - rewrite returned_last in Y. destruct (o_kind last); try destruct Y. congruence.
        - destruct (no_transferred v C Y).
        - rewrite (proj2 (has_In _ _) Y). lia.
        - destruct Y; contradiction.
      Qed.

      Lemma tail_contract c st : o_contract last = Some c -> o_succs last = [] -> o_kind last = KReturnCall \/ o_kind last = KReturnCallIndirect ->
        k_tail c = true -> (forall p, In p (contract_args last c) -> snd p <> Acquire) ->
        (forall x, In x (transfers last) -> named i x <> []) ->
        (forall x, In x (o_args last) -> named i x <> [] -> In x (transfers last)) -> (forall v, hold st v = expect k v) ->
        exists st', run (around f i w lv order b k last) st = Some st' /\ forall v, hold st' v = kept v.
      Proof.
        intros C SU K TC NA NT AT H. pose proof (an_names _ _ _ A) as NM. pose proof (an_alias _ _ _ A) as AL.
        assert (NK : o_kind last <> KReturn /\ o_kind last <> KJump) by (destruct K as [-> | ->]; split; discriminate).
        assert (TO : forall x, In x (transfers last) -> In x (o_args last)).
        { intros x Ix. unfold transfers in Ix. rewrite C, TC in Ix. apply in_map_iff in Ix as (p & <- & Ip). apply filter_In in Ip as [Ip _]. eapply contract_operand; eauto. }
        assert (NX : forall x, In x (transfers last) -> named i x = [owned_name i x] /\ In (owned_name i x) (i_ptrs i)).
        { intros x Ix. destruct (names_eq x (NT x Ix)) as [v Ev]. destruct (named_owned i NM AL x v) as (E1 & P & E2); [rewrite Ev; left; reflexivity|]. subst v. auto. }
        assert (TK : takes_counts f i last = flat_map (named i) (transfers last)).
        { assert (TK0 : takes_counts f i last = flat_map (fun p => match snd p with Borrow => [] | _ => named i (fst p) end) (contract_args last c)).
          { unfold takes_counts. rewrite C. destruct K as [-> | ->]; reflexivity. }
          rewrite TK0. unfold transfers. rewrite C, TC. revert NA. generalize (contract_args last c) as l. induction l as [|[x a] l IH]; intros Hp; [reflexivity|].
          cbn [flat_map filter map snd fst]. rewrite IH by (intros p Ip; apply Hp; right; exact Ip).
          pose proof (Hp _ (or_introl eq_refl)) as Nt. destruct a; cbn; try reflexivity. cbn in Nt. contradiction. }
        set (n := fun v => count v (flat_map (named i) (transfers last))).
        destruct (group_run i (transfers last) [] (fun x Ix => proj1 (NX x Ix))) as [GO GG]; [split; constructor|].
        assert (GM : forall g, In g (group i (transfers last) []) -> In (fst (snd g)) (transfers last)).
        { clear. assert (X : forall xs gs (P : nat -> Prop), (forall g, In g gs -> P (fst (snd g))) -> (forall x, In x xs -> P x) -> forall g, In g (group i xs gs) -> P (fst (snd g))).
          { induction xs as [|x xs IH]; intros gs P Hg Hx g Ig; [apply Hg, Ig|]. rewrite group_step in Ig. revert g Ig. apply IH; [|intros; apply Hx; right; assumption].
            clear - Hg Hx. induction gs as [|[r [y m]] gs IHg]; cbn; [intros g [<-|[]]; apply Hx; left; reflexivity|].
            pose proof (Hg _ (or_introl eq_refl)) as Hy. cbn in Hy. destruct (r =? owned_name i x).
            - intros g [<-|Ig]; [exact Hy | apply Hg; right; exact Ig].
            - intros g [<-|Ig]; [exact Hy | apply IHg; [intros; apply Hg; right; assumption | exact Ig]]. }
          intros g. apply (X _ _ (fun x => In x (transfers last))); [intros ? [] | auto]. }
        assert (BO : forall v, count v (flat_map (named i) (contract_retains i w last)) = if borrowed w v then n v else n v - 1).
        { intros v. unfold contract_retains. rewrite C, TC.
          rewrite (group_retains i (fun r x => borrowed w r || borrowed w x) _ v GO).
          - rewrite Bool.orb_diag, GG. reflexivity.
          - intros g Ig. rewrite Bool.orb_diag. pose proof (GM g Ig) as Ix. destruct (NX _ Ix) as [Ex Px].
            pose proof (proj1 (Forall_forall _ _) (proj2 GO) g Ig) as Eg. cbn in Eg. rewrite Ex in Eg. injection Eg as Eg.
            destruct (borrowed w (fst (snd g))) eqn:Bx; [|apply Bool.orb_false_r].
            assert (Pp : In (fst (snd g)) (i_ptrs i)).
            { unfold borrowed in Bx. apply Bool.orb_true_iff in Bx as [Bx|Bx]; apply has_In in Bx; [exact (an_args _ _ _ A 0 _ (param_arg _ Bx)) | apply (ok_temps _ _ _ _ G _ Bx)]. }
            assert (Es : fst g = fst (snd g)) by (rewrite <- Eg; unfold owned_name; rewrite (NM _ Pp); reflexivity). rewrite Es, Bx. reflexivity. }
        rewrite around_last, run_app.
        destruct (run_retains f i always NM AL (contract_retains i w last) st) as (st1 & R1 & L1 & H1).
        { intros x Ix. assert (It : In x (transfers last)).
          { unfold contract_retains in Ix. rewrite C, TC in Ix. apply in_flat_map in Ix as ([r [y m]] & Ig & Ix). apply repeat_spec in Ix. subst y. apply (GM _ Ig). }
          destruct (NX x It) as [Ex _]. eexists. split; [exact Ex|]. apply (use_usable k last x _ st nth_last (TO x It)); [rewrite Ex; left; reflexivity|]. intros u. rewrite H. lia. }
        rewrite R1, run_app.
        assert (TR : forall v, In v (flat_map (named i) (transfers last)) <-> exists x, In x (transfers last) /\ v = owned_name i x).
        { intros v. rewrite in_flat_map. split; intros (x & Ix & E); exists x; (split; [exact Ix|]).
          - destruct (NX x Ix) as [Ex _]. rewrite Ex in E. destruct E as [E|[]]. auto.
          - destruct (NX x Ix) as [Ex _]. rewrite Ex, E. left. reflexivity. }
        assert (NREL : forall v, In v (releases f i w lv order b (Before k)) -> ~ In v (flat_map (named i) (transfers last))).
        { intros v I J. apply before_used in I as (D & _). apply dying_ok in D as (_ & _ & _ & N & _). apply N, transferred_last.
          apply TR in J as (x & Ix & E). eauto. }
        destruct (run_releases f i always NM AL (releases f i w lv order b (Before k)) st1 (releases_nodup _)) as (st2 & R2 & H2).
        { intros v I. apply before_used in I as (_ & _ & _ & _ & O & X). split; [apply O | rewrite H1, H, X; lia]. }
        rewrite R2. cbn [RcInsertSpec.run].
        assert (HN : forall v, In v (flat_map (named i) (transfers last)) -> hold st2 v = n v /\ 0 < n v).
        { intros v I. assert (Pn : 0 < n v) by (apply count_pos, I). split; [|exact Pn]. rewrite H2, H1, H, BO.
          rewrite (count_not v (releases f i w lv order b (Before k))) by (intros J; exact (NREL v J I)).
          destruct (borrowed w v) eqn:Bv.
          - assert (Z : expect k v = 0); [|rewrite Z; lia]. destruct (expect_cases k v) as [Z|Z]; [exact Z|]. apply expect_owned, ownedb_ok in Z. unfold ownedb in Z. rewrite Bv, Bool.andb_false_r in Z. discriminate.
          - assert (Z : expect k v = 1); [|rewrite Z; lia]. pose proof (proj1 (TR v) I) as (x & Ix & Ev). destruct (NX x Ix) as [Ex Px].
            apply (use_expect k last x v nth_last (TO x Ix)); [apply named_refers; rewrite Ex, Ev; left; reflexivity|].
            apply ownedb_ok. unfold ownedb. rewrite Bv. rewrite Ev, (proj2 (has_In _ _) Px). reflexivity. }
        destruct (act_ok f i always last st2) as (st' & A' & H' & _).
        { intros v I. apply in_flat_map in I as (x & Ix & Nx). apply usable_hold.
          assert (It : In x (transfers last)) by (apply AT; [exact Ix | intros Z; rewrite Z in Nx; destruct Nx]).
          destruct (HN v) as [Ev Pv]; [apply in_flat_map; eauto | lia]. }
        { rewrite TK. intros v I. destruct (HN v I) as [Ev _]. rewrite Ev. unfold n. lia. }
        rewrite A'. exists st'. split; [reflexivity|]. intros v. rewrite H', last_gives, TK, (kept_not v (no_out v SU)). change (count v []) with 0. fold (n v).
        destruct (In_dec_nat v (flat_map (named i) (transfers last))) as [I|I]; [destruct (HN v I); lia|].
        assert (Z : n v = 0) by (apply count_not, I). rewrite Z, H2, H1, H, BO, Z, (count_nodup v _ (releases_nodup _)).
        assert (X0 : (if borrowed w v then 0 else 0 - 1) = 0) by (destruct (borrowed w v); reflexivity). rewrite X0.
        destruct (expect_cases k v) as [X|X]; [lia|]. destruct (accounted v X) as [Y|[Y|[Y|[Y|[Y _]]]]].
        - destruct (no_out v SU Y).
        - rewrite returned_last in Y. destruct (o_kind last); try destruct Y. destruct NK; congruence.
        - exfalso. apply transferred_last in Y as (x & Ix & [Ev|Ev]); apply I, TR; exists x; (split; [exact Ix|]); [|exact Ev].
          subst x. pose proof (expect_owned v X) as (P & _). unfold owned_name. rewrite (NM v P). reflexivity.
        - rewrite (proj2 (has_In _ _) Y). lia.
        - destruct NK, Y; contradiction.
      Qed.

      Lemma last_group st : (forall v, hold st v = expect k v) ->
        exists st', run (around f i w lv order b k last) st = Some st' /\ forall v, hold st' v = kept v.
      Proof.
        intros H. pose proof (fin_kind _ _ _ _ _ _ Fl) as K. destruct (o_kind last) eqn:E; try destruct K.
        - destruct H1 as [SU GU]. apply giving; auto; [unfold takes_counts; rewrite E; reflexivity|]. intros v _. apply no_out, SU.
        - destruct H1 as (GU & NO & HO & _). apply giving; auto. unfold takes_counts. rewrite E. exact HO.
        - destruct H1 as [R _]. apply branching; auto; [congruence|]. unfold takes_counts. rewrite E, H0. reflexivity.
        - destruct H1 as [R _]. apply branching; auto; [congruence|]. unfold takes_counts. rewrite E, H0. reflexivity.
        - destruct H1 as [R _]. apply branching; auto; [congruence|]. unfold takes_counts. rewrite E, H0. reflexivity.
        - destruct (o_contract last) as [c|] eqn:C.
          + destruct H1 as (T & NA & NT & AT). eapply tail_contract; eauto.
          + apply tail_plain; auto; try congruence. unfold takes_counts. rewrite E, C. reflexivity.
        - destruct (o_contract last) as [c|] eqn:C.
          + destruct H1 as (T & NA & NT & AT). eapply tail_contract; eauto.
          + apply tail_plain; auto; try congruence. unfold takes_counts. rewrite E, C. reflexivity.
      Qed.
    End Last.

    (** The start of the block. *)
    Lemma start_runs st : (forall v, hold st v + (if b =? 0 then count v (entry_retains f w b) else 0) = if ownedb v && (has v (l_in lv b) || has v (arg_defs f (blk f b))) then 1 else 0) ->
      exists st', run (map retain (entry_retains f w b) ++ map release (releases f i w lv order b AtStart)) st = Some st' /\ forall v, hold st' v = expect 0 v.
    Proof.
      intros H. pose proof (an_names _ _ _ A) as NM. pose proof (an_alias _ _ _ A) as AL.
      assert (ER : forall x, In x (entry_retains f w b) -> b = 0 /\ In x (i_ptrs i) /\ In x always).
      { intros x Ix. unfold entry_retains in Ix. destruct (Nat.eqb_spec b 0) as [->|]; [|destruct Ix]. apply filter_In in Ix as [Ix Q].
        apply andb_prop in Q as [Q Q3]. apply andb_prop in Q as [Q1 Q2].
        assert (Ia : In x (arg_defs f (blk f 0))) by (apply filter_In; auto). split; [reflexivity|]. split; [eapply an_args; eauto|].
        apply filter_In. split; [exact Ia | exact Q3]. }
      rewrite run_app. destruct (run_retains f i always NM AL (entry_retains f w b) st) as (st1 & R1 & _ & H1).
      { intros x Ix. destruct (ER x Ix) as (_ & P & C). exists x. split; [apply named_root; auto|]. unfold RcInsertSpec.usable, alive.
        rewrite (proj2 (has_In _ _) C), Bool.orb_true_r. reflexivity. }
      rewrite R1.
      assert (FN : forall v, count v (flat_map (named i) (entry_retains f w b)) = count v (entry_retains f w b)).
      { intros v. revert ER. generalize (entry_retains f w b) as l. induction l as [|x l IH]; intros ER; [reflexivity|]. cbn [flat_map].
        rewrite count_app, IH by (intros; apply ER; right; assumption). destruct (ER x (or_introl eq_refl)) as (_ & P & _).
        rewrite (named_root i NM x P). change (x :: l) with ([x] ++ l). rewrite count_app. reflexivity. }
      assert (H1' : forall v, hold st1 v = if ownedb v && (has v (l_in lv b) || has v (arg_defs f (blk f b))) then 1 else 0).
      { intros v. rewrite H1, FN, <- H. destruct (Nat.eqb_spec b 0) as [E|E]; [reflexivity|]. unfold entry_retains. rewrite (proj2 (Nat.eqb_neq _ _) E). reflexivity. }
      assert (SR : forall v, In v (releases f i w lv order b AtStart) -> owned i w v /\ (In v (l_in lv b) \/ In v (arg_defs f (blk f b)))).
      { intros v I. apply releases_ok in I as [D P]. split; [apply dying_owned, D|]. pose proof (placed_ok v D) as Q. rewrite P in Q. inversion Q; subst; auto. }
      destruct (run_releases f i always NM AL (releases f i w lv order b AtStart) st1 (releases_nodup _)) as (st2 & R2 & H2).
      { intros v I. destruct (SR v I) as [O V]. split; [apply O|]. rewrite H1', (proj2 (ownedb_ok v) O). cbn [andb].
        destruct V as [V|V]; rewrite (proj2 (has_In _ _) V); rewrite ?Bool.orb_true_r; cbn; lia. }
      exists st2. split; [exact R2|]. intros v. rewrite H2, H1', (count_nodup v _ (releases_nodup _)).
      assert (EG : gone 0 v = has v (releases f i w lv order b AtStart)).
      { apply Bool.eq_iff_eq_true. rewrite gone_ok, has_In, releases_ok. split; [intros [D [P|(j & L & _)]]; [auto | lia] | tauto]. }
      unfold expect. rewrite EG. unfold avail. cbn [firstn flat_map]. change (has v []) with false. rewrite Bool.orb_false_r.
      destruct (ownedb v && _), (has v (releases f i w lv order b AtStart)); reflexivity.
    Qed.

    Lemma block_runs st : (forall v, hold st v + (if b =? 0 then count v (entry_retains f w b) else 0) = if ownedb v && (has v (l_in lv b) || has v (arg_defs f (blk f b))) then 1 else 0) ->
      exists body last st', b_ops (blk f b) = body ++ [last] /\ final f i w lv b last /\ run (insert_block f i w lv order b) st = Some st' /\
        (forall v, hold st' v = kept v) /\ nth_error (rev (insert_block f i w lv order b)) 0 = Some last.
    Proof.
      intros H. destruct (ok_blocks _ _ _ _ G b Hb) as (body & last & Eos & Fb & Fl). exists body, last.
      destruct (start_runs st H) as (st0 & R0 & H0).
      destruct (body_runs body 0 [last] st0 Eos Fb (Nat.le_0_l _) H0) as (st1 & R1 & H1). cbn [plus] in H1.
      destruct (last_group body last Eos Fb Fl st1 H1) as (st2 & R2 & H2). exists st2.
      assert (AA : forall os1 os2 k, around_all f i w lv order b k (os1 ++ os2) = around_all f i w lv order b k os1 ++ around_all f i w lv order b (k + List.length os1) os2).
      { induction os1 as [|o os1 IH]; intros os2 k; cbn [around_all app List.length]; [rewrite Nat.add_0_r; reflexivity|].
        rewrite IH, app_assoc. f_equal. f_equal. lia. }
      assert (IB : insert_block f i w lv order b = (map retain (entry_retains f w b) ++ map release (releases f i w lv order b AtStart)) ++ around_all f i w lv order b 0 body ++ around f i w lv order b (List.length body) last).
      { unfold insert_block, ops. rewrite Eos at 1. rewrite AA. cbn [around_all plus]. rewrite app_nil_r, <- app_assoc. reflexivity. }
      split; [exact Eos|]. split; [exact Fl|]. split; [rewrite IB, run_app, R0, run_app, R1; exact R2|]. split; [exact H2|].
      rewrite IB. rewrite (around_last body last Eos Fl). rewrite !app_assoc, rev_app_distr. reflexivity.
    Qed.
  End One.

  Lemma args_unique b s v : In v (arg_defs f (blk f b)) -> In v (arg_defs f (blk f s)) -> b < nb -> s < nb -> b = s.
  Proof.
    intros I J Lb Ls. apply filter_In in I as [I _]. apply filter_In in J as [J _].
    assert (N : NoDup (flat_map b_args (f_blocks f))).
    { exact (NoDup_front _ _ (an_one _ _ _ A)). }
    unfold blk in *. revert b s Lb Ls I J. induction (f_blocks f) as [|x l IH]; intros b s Lb Ls I J; [cbn in Lb; lia|]. cbn in N.
    pose proof (NoDup_app_disj _ _ N v) as D. apply NoDup_app_r in N. destruct b as [|b], s as [|s]; cbn in *; [reflexivity| | |f_equal; apply IH; auto; lia].
    - exfalso. apply (D I), in_flat_map. exists (nth s l (mkNblock [] [])). split; [apply nth_In; lia | exact J].
    - exfalso. apply (D J), in_flat_map. exists (nth b l (mkNblock [] [])). split; [apply nth_In; lia | exact I].
  Qed.
  Lemma args_nodup b : NoDup (arg_defs f (blk f b)).
  Proof.
    unfold arg_defs. apply NoDup_filter. destruct (Nat.lt_ge_cases b nb) as [L|L]; [|rewrite blk_out by exact L; constructor].
    pose proof (an_one _ _ _ A) as N. pose proof (nth_In _ (mkNblock [] []) L) as I. fold (blk f b) in I. apply in_split in I as (l1 & l2 & El).
    unfold one_definition in N. rewrite El in N at 1. rewrite flat_map_app, <- app_assoc in N. apply NoDup_app_r in N. cbn in N. rewrite <- app_assoc in N.
    exact (NoDup_front _ _ N).
  Qed.

  Definition ready (b : nat) (st : counts) : Prop :=
    forall v, hold st v + (if b =? 0 then count v (entry_retains f w b) else 0) = if ownedb v && (has v (l_in lv b) || has v (arg_defs f (blk f b))) then 1 else 0.
  Lemma ready_balanced n : forall b st, b < nb -> ready b st -> balanced f i always (insert_block f i w lv order) n b st.
  Proof.
    induction n as [|n IH]; intros b st Lb R; [exact I|]. cbn [balanced].
    destruct (block_runs b Lb st R) as (body & last & st' & Eos & Fl & Rn & H & El). exists st'. split; [exact Rn|].
    intros o Eo. rewrite El in Eo. injection Eo as <-.
    assert (SU : successors (blk f b) = o_succs last) by (unfold successors; rewrite Eos, rev_app_distr; reflexivity). split.
    - intros Lv v. rewrite H. unfold kept. destruct (has v (l_out lv b)) eqn:Hv; [|rewrite Bool.andb_false_r; reflexivity]. exfalso. apply has_In in Hv.
      destruct (an_out _ _ _ A b v Lb Hv) as (s & Is & _). rewrite SU in Is. pose proof (fin_kind _ _ _ _ _ _ Fl) as K. unfold leaves in Lv.
      destruct (o_kind last); try discriminate; [destruct K as (_ & K & _) | destruct K as (K & _) | destruct K as (K & _)]; rewrite K in Is; destruct Is.
    - intros s Is. assert (Is' : In s (successors (blk f b))) by (rewrite SU; exact Is). destruct (ok_targets _ _ _ _ G b s Lb Is') as [Z Ls].
      apply IH; [exact Ls|]. intros v. rewrite (proj2 (Nat.eqb_neq s 0)) by lia. rewrite Nat.add_0_r. unfold enter. cbn [hold]. rewrite H.
      assert (HO : count v (map snd (hands_over f i last)) = if has v (arg_defs f (blk f s)) then 1 else 0).
      { assert (Q : map snd (hands_over f i last) = arg_defs f (blk f s)).
        { pose proof (fin_kind _ _ _ _ _ _ Fl) as K. unfold hands_over. destruct (o_kind last) eqn:Ek; try destruct K.
          - destruct H1 as [X _]. rewrite X in Is. destruct Is.
          - destruct H1 as (_ & _ & _ & X). rewrite <- (X s Is). unfold hands_over. rewrite Ek. reflexivity.
          - destruct H1 as [_ X]. rewrite (X s Is). reflexivity.
          - destruct H1 as [_ X]. rewrite (X s Is). reflexivity.
          - destruct H1 as [_ X]. rewrite X in Is. destruct Is.
          - rewrite H0 in Is. destruct Is.
          - rewrite H0 in Is. destruct Is. }
        rewrite Q. apply count_nodup, args_nodup. }
      rewrite HO. unfold kept.
      assert (X1 : ownedb v && has v (l_out lv b) = ownedb v && has v (l_in lv s)).
      { apply Bool.eq_iff_eq_true. rewrite !Bool.andb_true_iff, ownedb_ok, !has_In. split; intros [O V]; (split; [exact O|]).
        - exact (ok_edges _ _ _ _ G b s v Lb Is' O V).
        - exact (an_edge _ _ _ A b s v Lb Ls Is' V). }
      rewrite X1. destruct (has v (arg_defs f (blk f s))) eqn:Va.
      + apply has_In in Va. assert (O : ownedb v = true).
        { apply ownedb_ok. split; [eapply an_args; eauto|]. split.
          - intros W. apply param_arg in W. assert (0 = s) by (eapply args_unique; eauto; lia). lia.
          - intros T. apply (ok_temps _ _ _ _ G) in T as (_ & T & _). exact (T s Va). }
        rewrite O. cbn [andb]. destruct (has v (l_in lv s)) eqn:Vi; [|reflexivity]. exfalso. apply has_In in Vi. exact (an_arg_in _ _ _ A s v Ls Vi Va).
      + rewrite Bool.orb_false_r. lia.
  Qed.

  Lemma ready_entry : 0 < nb -> ready 0 (at_entry f w).
  Proof.
    intros L v. change (0 =? 0) with true. unfold at_entry. cbn [hold].
    assert (LI : has v (l_in lv 0) = false) by (apply has_false, (ok_entry _ _ _ _ G)). rewrite LI. cbn [orb].
    assert (NE : NoDup (entry_retains f w 0)).
    { unfold entry_retains. cbn. pose proof (args_nodup 0) as N. unfold arg_defs in N. revert N. generalize (b_args (blk f 0)) as l. induction l as [|x l IH]; cbn; intros N; [constructor|].
      destruct (f_anyref f x); cbn; [|apply IH, N]. inversion N as [|? ? N1 N2]; subst. destruct (negb _ && negb _); [|apply IH, N2]. constructor; [|apply IH, N2].
      intros I. apply filter_In in I as [I Q]. apply N1, filter_In. split; [exact I|]. apply andb_prop in Q as [Q _]. apply andb_prop in Q as [Q _]. exact Q. }
    rewrite (count_nodup v _ NE). change (parameters f) with (arg_defs f (blk f 0)).
    assert (ER : has v (entry_retains f w 0) = has v (arg_defs f (blk f 0)) && negb (has v (w_params w)) && negb (has v (w_consumed w))).
    { apply Bool.eq_iff_eq_true. rewrite !Bool.andb_true_iff, !has_In. unfold entry_retains, arg_defs. cbn. rewrite !filter_In, !Bool.andb_true_iff. tauto. }
    rewrite ER. destruct (has v (arg_defs f (blk f 0))) eqn:Va; cbn [andb]; [|rewrite Bool.andb_false_r; reflexivity].
    apply has_In in Va. pose proof (an_args _ _ _ A 0 v Va) as P.
    unfold ownedb, borrowed. rewrite (proj2 (has_In _ _) P). cbn [andb]. rewrite Bool.andb_true_r.
    assert (T : has v (w_temps w) = false) by (apply has_false; intros T; apply (ok_temps _ _ _ _ G) in T as (_ & T & _); exact (T 0 Va)).
    rewrite T, Bool.orb_false_r. destruct (has v (w_params w)) eqn:W; cbn; [|destruct (has v (w_consumed w)); reflexivity].
    apply has_In in W. apply (ok_params _ _ _ _ G), filter_In in W as [_ W]. apply Bool.negb_true_iff in W. rewrite W. reflexivity.
  Qed.
End Blocks.

(** ** What the analyses guarantee *)
Lemma analysed_ok f deps fuel rounds lv : one_definition f -> casts_in_order f ->
  (forall x u, deps x = Some u -> In u (i_ptrs (analyse f deps fuel))) ->
  compute_liveness rounds f (analyse f deps fuel) = Some lv -> analysed f (analyse f deps fuel) lv.
Proof.
  intros one order own L. destruct (alias_parts f deps fuel one order) as [AL PT].
  pose proof (liveness_exact _ _ _ _ L) as LV. set (i := analyse f deps fuel) in *.
  assert (CV : forall v o, In o (f_ops f) -> In v (o_results o) -> o_kind o <> KCast -> forall r, cast_of f r v -> r = v).
  { intros v o Io Iv K r C. inversion C as [|o' x y rest more Io' K' Ea Er Fy Cx]; subst; [reflexivity|]. exfalso. apply K.
    rewrite (NoDup_flat_inj o_results (f_ops f) o o' v (results_nodup f one) Io Io' Iv); [exact K' | rewrite Er; left; reflexivity]. }
  constructor.
  - exact one.
  - intros x Ix. destruct (aget (i_alias i) x) as [r|] eqn:E; [|reflexivity]. exfalso. apply (proj1 (AL x r)) in E as (I & C & N).
    apply (PT x) in Ix as [_ M]. apply N. symmetry. apply M; assumption.
  - intros x r E. apply (proj1 (AL x r)) in E. tauto.
  - intros b v I. apply (roots_ok f deps fuel one order). apply filter_In in I as [I Fv].
    assert (Ib : exists b', In b' (f_blocks f) /\ In v (b_args b')).
    { exists (blk f b). split; [|exact I]. unfold blk in *. destruct (nth_in_or_default b (f_blocks f) (mkNblock [] [])) as [J|D]; [exact J|]. rewrite D in I. destruct I. }
    constructor; [split; auto|]. intros r _ C. inversion C as [|o' x y rest more Io' K' Ea Er Fy Cx]; subst; [reflexivity|]. exfalso.
    destruct Ib as (b' & Ib & Ia). apply (NoDup_app_disj _ _ one v); apply in_flat_map; [eauto|]. exists o'. split; [exact Io' | rewrite Er; left; reflexivity].
  - intros o r Io K Ir Fr. apply (op_defs_ok f deps fuel one order o r Io). split; [exact Ir|].
    assert (C : counted f r).
    { split; [exact Fr|]. right. split; [|exists o; auto]. intros (o' & Io' & Ir' & S).
      rewrite <- (NoDup_flat_inj o_results (f_ops f) o o' r (results_nodup f one) Io Io' Ir Ir') in S. destruct S as [S|[S _]]; congruence. }
    constructor; [exact C|]. intros r' _ Cr. apply (CV r o Io Ir); [congruence | exact Cr].
  - intros o x Io Ix Fx Sx N. unfold named in N. apply app_eq_nil in N as [N1 N2].
    destruct (has x (i_ptrs i)) eqn:E; [discriminate|]. apply has_false in E. destruct (aget (i_alias i) x) as [r|] eqn:Ea; [discriminate|].
    apply E, PT. split.
    + split; [exact Fx|]. right. split; [|exists o; auto]. rewrite <- (is_static_ok f one), Sx. discriminate.
    + intros r Ir C. destruct (Nat.eq_dec r x) as [->|Ne]; [reflexivity|]. exfalso.
      rewrite (proj2 (AL x r) (conj Ir (conj C (not_eq_sym Ne)))) in Ea. discriminate.
  - intros b v Lb. destruct (LV b Lb v) as [H1 H2]. rewrite H1, H2. apply live_start_eq.
  - intros b v Lb I. destruct (LV b Lb v) as [_ H2]. apply H2 in I as (s & Is & St). exists s. split; [exact Is|].
    destruct (Nat.lt_ge_cases s (List.length (f_blocks f))) as [Ls|Ls]; [apply (LV s Ls v), St|]. exfalso. destruct St as [_ St].
    pose proof (blk_out f s Ls) as E.
    inversion St as [b0 k o x E'|b0 k o E'|b0 s' Is']; subst.
    + rewrite E in E'. discriminate.
    + rewrite E in E'. discriminate.
    + rewrite E in Is'. destruct Is'.
  - intros b s v Lb Ls Is Iv. apply (LV b Lb v). exists s. split; [exact Is|]. apply (LV s Ls v), Iv.
  - intros b v Lb Iv. apply (LV b Lb v) in Iv. apply Iv.
  - intros b v Lb Iv. apply (LV b Lb v) in Iv as [_ Iv].
    assert (X : exists x, In v (refers i x)) by (clear - Iv; induction Iv; eauto). destruct X as [x X]. unfold refers in X. rewrite !in_app_iff in X. destruct X as [X|[X|X]].
    + destruct (has x (i_ptrs i)) eqn:E; [|destruct X]. destruct X as [<-|[]]. apply has_In, E.
    + destruct (aget (i_alias i) x) as [r|] eqn:E; [|destruct X]. destruct X as [<-|[]]. apply (proj1 (AL x r)) in E. tauto.
    + replace (i_deps i) with deps in X by (unfold i, analyse; destruct (build_alias_map f _); reflexivity). apply owners_sound in X. induction X; eauto.
Qed.

Lemma insert_balanced f deps fuel rounds lv w order : one_definition f -> casts_in_order f -> f_blocks f <> [] ->
  compute_liveness rounds f (analyse f deps fuel) = Some lv -> (forall l, Permutation (order l) l) ->
  insertable f (analyse f deps fuel) w lv ->
  forall n, balanced f (analyse f deps fuel) (callers f w) (insert_block f (analyse f deps fuel) w lv order) n 0 (at_entry f w).
Proof.
  intros one co ne L sh G n.
  assert (ID : i_deps (analyse f deps fuel) = deps) by (unfold analyse; destruct (build_alias_map f _); reflexivity).
  assert (A : analysed f (analyse f deps fuel) lv).
  { apply (analysed_ok f deps fuel rounds lv one co); [|exact L]. intros x u E. apply (ok_owners _ _ _ _ G x). rewrite ID. exact E. }
  assert (Ln : 0 < List.length (f_blocks f)) by (destruct (f_blocks f); [contradiction | cbn; lia]).
  apply (ready_balanced f _ w lv order A G sh n 0 _ Ln). apply (ready_entry f _ w lv A G Ln).
Qed.
