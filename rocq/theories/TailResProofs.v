From Verif Require Import TailResModel TailResSpec IrProps.
From Coq Require Import Lia.

Section Detect.
  Variables is_resume is_yield : nat -> bool.
  Lemma uses_one c dead v o i : uses_exact c dead -> ((exists j, uses c v = [(o, j)]) /\ reads c o i v <-> uses c v = [(o, i)]).
  Proof.
    intros U. destruct (U v) as [ND E]. split.
    - intros [[j H] R]. rewrite H in *. destruct (proj1 (E o j) (or_introl eq_refl)) as [L _].
      destruct (proj2 (E o i) (conj L R)) as [X|[]]. injection X as ->. reflexivity.
    - intros H. split; [eauto|]. rewrite H in E. destruct (proj1 (E o i) (or_introl eq_refl)) as [_ R]. exact R.
  Qed.
  Lemma only_reader_ok c dead v o i : uses_exact c dead -> uses c v = [(o, i)] -> only_reader c dead v o i /\ ~ In o dead.
  Proof.
    intros U H. destruct (U v) as [ND E]. rewrite H in E. destruct (proj1 (E o i) (or_introl eq_refl)) as [L R]. split; [|exact L].
    intros o' i' L'. split.
    - intros R'. destruct (proj2 (E o' i') (conj L' R')) as [X|[]]. injection X as <- <-. auto.
    - intros [-> ->]. exact R.
  Qed.
  Lemma only_reader_back c dead v o i : uses_exact c dead -> only_reader c dead v o i -> ~ In o dead -> uses c v = [(o, i)].
  Proof.
    intros U O L. destruct (U v) as [ND E].
    assert (I : In (o, i) (uses c v)) by (apply E; split; [exact L | apply O; auto]).
    destruct (uses c v) as [|[o1 i1] l]; [destruct I|]. destruct (proj1 (E o1 i1) (or_introl eq_refl)) as [L1 R1]. apply (O o1 i1 L1) in R1. destruct R1 as [-> ->].
    destruct l as [|[o2 i2] l]; [reflexivity|]. destruct (proj1 (E o2 i2) (or_intror (or_introl eq_refl))) as [L2 R2]. apply (O o2 i2 L2) in R2. destruct R2 as [-> ->].
    inversion ND as [|? ? N _]. exfalso. apply N. left. reflexivity.
  Qed.

  Lemma detect_sound c dead body r v : uses_exact c dead -> tail_resumptive is_resume is_yield c body = Some (Some (r, v)) ->
    exists prefix k x y, resumes_last is_resume is_yield c dead body prefix k r v x y.
  Proof.
    intros U H. unfold tail_resumptive in H.
    destruct (nth_error (regions c) body) as [rd|] eqn:Er; [|discriminate]. destruct (r_blocks rd) as [|b bs] eqn:Eb; [discriminate|].
    destruct (block_args c b) as [|k args] eqn:Ea; [discriminate|]. destruct (uses c k) as [|[u iu] [|]] eqn:Eu; try discriminate.
    destruct (nth_error (ops c) u) as [d|] eqn:Ed; [|discriminate]. destruct (is_resume (o_kind d)) eqn:K; [|discriminate].
    destruct (nth_error (o_operands d) 0) as [k0|] eqn:E0; [|discriminate]. destruct (Nat.eqb_spec k0 k) as [->|]; [|discriminate].
    destruct (nth_error (o_operands d) 1) as [v'|] eqn:E1; [|discriminate]. destruct (nth_error (op_results c u) 0) as [x|] eqn:Ex; [|discriminate].
    destruct (uses c x) as [|[y iy] [|]] eqn:Ey; try discriminate. destruct (nth_error (ops c) y) as [dy|] eqn:Edy; [|discriminate].
    destruct (is_yield (o_kind dy)) eqn:Ky; [|discriminate]. destruct (nth_error (blocks c) b) as [bd|] eqn:Ebd; [|discriminate].
    destruct (rev (b_ops bd)) as [|l0 before] eqn:Rv; [discriminate|]. destruct (Nat.eqb_spec l0 y) as [->|]; [|discriminate].
    destruct before as [|s before]; [discriminate|]. destruct (Nat.eqb_spec s u) as [->|]; [|discriminate]. injection H as <- <-.
    exists (rev before), k, x, y. split.
    - exists rd, b, bs, bd, args. repeat (split; [assumption|]). rewrite <- (rev_involutive (b_ops bd)), Rv. cbn. rewrite <- app_assoc. reflexivity.
    - destruct (o_operands d) as [|a1 [|a2 vs]] eqn:Eo; try discriminate. cbn in E0, E1. exists d, vs. split; [exact Ed|]. split; [exact K|]. congruence.
    - destruct (op_results c u) as [|x' xs]; [discriminate|]. cbn in Ex. exists xs. congruence.
    - exists dy. auto.
    - apply only_reader_ok; [exact U|]. apply (uses_one c dead k u 0 U). split; [eauto|]. exists d. auto.
    - exists iy. apply (only_reader_ok c dead x y iy U Ey).
  Qed.
  Lemma detect_complete c dead body r v prefix k x y : uses_exact c dead -> (~ In r dead) -> (~ In y dead) ->
    resumes_last is_resume is_yield c dead body prefix k r v x y -> tail_resumptive is_resume is_yield c body = Some (Some (r, v)).
  Proof.
    intros U Lr Ly [(rd & b & bs & bd & args & Er & Eb & Ea & Ebd & Eo) (d & vs & Ed & K & Eod) (xs & Ex) (dy & Edy & Ky) O1 [iy O2]].
    unfold tail_resumptive. rewrite Er, Eb, Ea. rewrite (only_reader_back c dead k r 0 U O1 Lr). rewrite Ed, K, Eod. cbn [nth_error].
    rewrite Nat.eqb_refl, Ex. cbn [nth_error]. rewrite (only_reader_back c dead x y iy U O2 Ly). rewrite Edy, Ky, Ebd, Eo, rev_app_distr. cbn.
    rewrite !Nat.eqb_refl. reflexivity.
  Qed.
End Detect.

Section Run.
  Context {V St : Type}.
  Variables (c : ctx) (behave : @behaviour V St).
  Hypothesis local : sees_only_what_it_reads c behave.
  Lemma bind_agree names : forall (e e' : nat -> V) vs v, e v = e' v -> DceSpec.bind e names vs v = DceSpec.bind e' names vs v.
  Proof.
    induction names as [|n names IH]; intros e e' [|w vs] v H; cbn; auto. apply IH. unfold fupd. destruct (v =? n); [reflexivity | exact H].
  Qed.
  Lemma run_all_agree k l : (forall o x i, In o l -> within c o x -> ~ reads c x i k) ->
    forall e e' st, (forall v, v <> k -> e v = e' v) ->
    match run_all c behave l e st, run_all c behave l e' st with
    | Some (e1, s1), Some (e2, s2) => s1 = s2 /\ forall v, v <> k -> e1 v = e2 v
    | None, None => True
    | _, _ => False
    end.
  Proof.
    induction l as [|o l IH]; intros N e e' st A; cbn; [auto|].
    rewrite (local o e e' st) by (intros x i v W R; apply A; intros ->; exact (N o x i (or_introl eq_refl) W R)).
    destruct (behave o e' st) as [[vs st1]|]; [|exact I]. apply IH.
    - intros o' x i I. apply N. right. exact I.
    - intros v Nv. apply bind_agree, A, Nv.
  Qed.
  Lemma bind_skip k names : ~ In k names -> forall (e : nat -> V) vs, DceSpec.bind e names vs k = e k.
  Proof.
    intros N. induction names as [|n names IH]; intros e [|w vs]; cbn; auto. cbn in N. rewrite IH by tauto. unfold fupd. destruct (Nat.eqb_spec k n); [subst; tauto | reflexivity].
  Qed.
  Lemma run_all_keeps k l : (forall o, ~ In k (op_results c o)) -> forall e st e1 st1, run_all c behave l e st = Some (e1, st1) -> e1 k = e k.
  Proof.
    intros N. induction l as [|o l IH]; intros e st e1 st1 H; cbn in H; [congruence|]. destruct (behave o e st) as [[vs st']|]; [|discriminate].
    rewrite (IH _ _ _ _ H). apply bind_skip, N.
  Qed.
  Lemma within_inv o z : within c o z -> z = o \/ exists w, within c o w /\ nested_in c z w.
  Proof. intros W. inversion W; subst; eauto. Qed.
  Variables is_resume is_yield : nat -> bool.
  Lemma plain_ok (rank : nat -> nat) dead body prefix k r v x y (resume : V -> V -> St -> option (V * St)) (e : nat -> V) (kv kv' : V) st :
    placed c -> defs_exact c -> (forall z o, nested_in c z o -> rank z < rank o) ->
    resumes_last is_resume is_yield c dead body prefix k r v x y -> (forall z, inside c body z -> ~ In z dead) -> List.length (operands c y) = 1 ->
    run_body c behave prefix r y resume (fupd e k kv) st =
    match run_plain c behave prefix v (fupd e k kv') st with
    | Some (w, st1) => match resume kv w st1 with Some (w', st2) => Some ([w'], st2) | None => None end
    | None => None
    end.
  Proof.
    intros Pl De Rk [(rd & b & bs & bd & args & Er & Eb & Ea & Ebd & Eo) (d & vs & Ed & K & Eod) (xs & Ex) (dy & Edy & Ky) O1 [iy O2]] L One.
    assert (In0 : forall o, In o (b_ops bd) -> inside c body o).
    { intros o I. eapply inside_top; eauto. rewrite Eb. left. reflexivity. }
    assert (Lr : ~ In r dead) by (apply L, In0; rewrite Eo, in_app_iff; cbn; auto).
    assert (Ly : ~ In y dead) by (apply L, In0; rewrite Eo, in_app_iff; cbn; auto).
    assert (RW : forall o z, within c o z -> rank z <= rank o).
    { intros o z W. induction W as [|z1 z2 W IH Ne]; [lia|]. apply Rk in Ne. lia. }
    assert (NoK : forall o z i, In o prefix -> within c o z -> ~ reads c z i k).
    { intros o z i I W R. assert (Iz : inside c body z).
      { clear R. induction W as [|z1 z2 W IH Ne]; [apply In0; rewrite Eo, in_app_iff; auto|]. eapply inside_nested; eauto. }
      apply (O1 z i (L z Iz)) in R. destruct R as [-> ->].
      destruct (within_inv _ _ W) as [->|(w & W' & Ne)].
      - assert (ND : NoDup (b_ops bd)) by (eapply pl_op_once; eauto). rewrite Eo in ND. apply NoDup_remove_2 in ND. apply ND. rewrite in_app_iff. auto.
      - destruct Ne as (dw & q & qd & b' & bd' & Ew & Iq & Eq & Ib' & Eb' & Ir).
        assert (P1 : op_parent c r b) by (apply (pl_op c Pl); exists bd; split; [exact Ebd | rewrite Eo, in_app_iff; cbn; auto]).
        assert (P2 : op_parent c r b') by (apply (pl_op c Pl); exists bd'; auto).
        destruct P1 as (d1 & E1 & E1'), P2 as (d2 & E2 & E2'). assert (b' = b) as -> by congruence.
        assert (Nw : nested_in c o w). { exists dw, q, qd, b, bd. repeat (split; [assumption|]). rewrite Eo, in_app_iff. auto. }
        apply Rk in Nw. apply RW in W'. lia. }
    assert (Kres : forall o, ~ In k (op_results c o)).
    { intros o I. apply In_nth_error in I. destruct I as [i I]. apply (de_result c De) in I.
      assert (A : nth_error (block_args c b) 0 = Some k) by (rewrite Ea; reflexivity). apply (de_arg c De) in A. congruence. }
    assert (Nv : v <> k).
    { intros ->. assert (R : reads c r 1 k) by (exists d; rewrite Eod; auto). apply (O1 r 1 Lr) in R. lia. }
    unfold run_body, run_plain. unfold operands at 1. rewrite Ed, Eod.
    pose proof (run_all_agree k prefix NoK (fupd e k kv) (fupd e k kv') st) as Ag.
    destruct (run_all c behave prefix (fupd e k kv) st) as [[e1 s1]|] eqn:R1.
    - destruct (run_all c behave prefix (fupd e k kv') st) as [[e2 s2]|]; [|exfalso; apply Ag; intros z Nz; unfold fupd; destruct (Nat.eqb_spec z k); congruence].
      destruct Ag as [-> Ag]; [intros z Nz; unfold fupd; destruct (Nat.eqb_spec z k); congruence|].
      rewrite (run_all_keeps k prefix Kres _ _ _ _ R1). unfold fupd at 1. rewrite Nat.eqb_refl. rewrite (Ag v Nv).
      destruct (resume kv (e2 v) s2) as [[w' s3]|]; [|reflexivity]. f_equal. f_equal.
      destruct (operands c y) as [|z [|]] eqn:Oy; try discriminate. cbn [map]. f_equal.
      assert (z = x) as ->.
      { assert (R : reads c y iy x) by (apply (O2 y iy Ly); auto). destruct R as (dy' & E & N'). unfold operands in Oy. rewrite E in Oy. rewrite Oy in N'.
        destruct iy as [|[|]]; cbn in N'; try discriminate. congruence. }
      unfold results_bound. rewrite Ex. cbn. destruct xs; cbn; unfold fupd; rewrite Nat.eqb_refl; reflexivity.
    - destruct (run_all c behave prefix (fupd e k kv') st) as [[e2 s2]|]; [|reflexivity].
      exfalso. apply Ag. intros z Nz. unfold fupd. destruct (Nat.eqb_spec z k); congruence.
  Qed.
End Run.

(** ** For contexts built through the API *)
Lemma detection xs c dead is_resume is_yield body r v : exec_all (empty_ctx, []) xs = Some (c, dead) -> (forall z, inside c body z -> ~ In z dead) ->
  (tail_resumptive is_resume is_yield c body = Some (Some (r, v)) <-> exists prefix k x y, resumes_last is_resume is_yield c dead body prefix k r v x y).
Proof.
  intros R L. pose proof (use_lists_exact _ _ _ R) as U. split; [apply detect_sound, U|]. intros (prefix & k & x & y & H).
  assert (I : forall o, o = r \/ o = y -> ~ In o dead).
  { intros o E. apply L. destruct H as [(rd & b & bs & bd & args & Er & Eb & Ea & Ebd & Eo) _ _ _ _ _]. eapply inside_top; eauto; [rewrite Eb; left; reflexivity|].
    rewrite Eo, in_app_iff. cbn. destruct E; subst; auto. }
  eapply detect_complete; eauto.
Qed.
Lemma detection_total xs c dead is_resume is_yield body : exec_all (empty_ctx, []) xs = Some (c, dead) -> body < List.length (regions c) ->
  (forall o d, nth_error (ops c) o = Some d -> is_resume (o_kind d) = true -> 2 <= List.length (o_operands d) /\ 1 <= List.length (op_results c o)) ->
  tail_resumptive is_resume is_yield c body <> None.
Proof.
  intros R L W. pose proof (use_lists_exact _ _ _ R) as U. pose proof (value_definitions_exact _ _ _ R) as De. unfold tail_resumptive.
  destruct (nth_error (regions c) body) as [rd|] eqn:Er; [|apply nth_error_None in Er; lia]. destruct (r_blocks rd) as [|b bs] eqn:Eb; [discriminate|].
  destruct (block_args c b) as [|k args] eqn:Ea; [discriminate|]. destruct (uses c k) as [|[u iu] [|]] eqn:Eu; try discriminate.
  assert (X : forall z o i, uses c z = [(o, i)] -> exists d, nth_error (ops c) o = Some d).
  { intros z o i E. destruct (U z) as [_ Q]. rewrite E in Q. destruct (proj1 (Q o i) (or_introl eq_refl)) as [_ (d & Hd & _)]. eauto. }
  destruct (X _ _ _ Eu) as [d Ed]. rewrite Ed. destruct (is_resume (o_kind d)) eqn:K; [|discriminate]. destruct (W u d Ed K) as [W1 W2].
  destruct (o_operands d) as [|a0 [|a1 l]]; cbn in W1; try lia. cbn [nth_error]. destruct (a0 =? k); [|discriminate].
  destruct (op_results c u) as [|x0 xs']; cbn in W2; try lia. cbn [nth_error]. destruct (uses c x0) as [|[y iy] [|]] eqn:Ey; try discriminate.
  destruct (X _ _ _ Ey) as [dy Edy]. rewrite Edy. destruct (is_yield (o_kind dy)); [|discriminate].
  destruct (nth_error (blocks c) b) as [bd|] eqn:Ebd.
  - destruct (rev (b_ops bd)) as [|l0 [|s rest]]; try discriminate; destruct (l0 =? y); try discriminate. destruct (s =? u); discriminate.
  - exfalso. apply nth_error_None in Ebd. rewrite (de_arg_range c De b Ebd) in Ea. discriminate.
Qed.
Lemma plain xs c dead is_resume is_yield body r v : exec_all (empty_ctx, []) xs = Some (c, dead) -> (forall z, inside c body z -> ~ In z dead) ->
  (exists rank : nat -> nat, forall z o, nested_in c z o -> rank z < rank o) -> tail_resumptive is_resume is_yield c body = Some (Some (r, v)) ->
  exists prefix k y, (exists rd b bs, nth_error (regions c) body = Some rd /\ r_blocks rd = b :: bs /\ block_ops_of c b = prefix ++ [r; y] /\ hd_error (block_args c b) = Some k) /\
    forall V St (behave : @behaviour V St) resume e kv kv' st, sees_only_what_it_reads c behave -> List.length (operands c y) = 1 ->
    run_body c behave prefix r y resume (fupd e k kv) st =
    match run_plain c behave prefix v (fupd e k kv') st with
    | Some (w, st1) => match resume kv w st1 with Some (w', st2) => Some ([w'], st2) | None => None end
    | None => None
    end.
Proof.
  intros R L [rank Rk] T. pose proof (use_lists_exact _ _ _ R) as U. destruct (detect_sound _ _ _ _ _ _ _ U T) as (prefix & k & x & y & H).
  exists prefix, k, y. split.
  - destruct H as [(rd & b & bs & bd & args & Er & Eb & Ea & Ebd & Eo) _ _ _ _ _]. exists rd, b, bs. unfold block_ops_of. rewrite Ebd, Ea. auto.
  - intros V St behave resume e kv kv' st Loc One. eapply plain_ok; eauto.
    + exact (placement_consistent _ _ _ R).
    + exact (value_definitions_exact _ _ _ R).
Qed.
