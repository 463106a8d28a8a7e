From Verif Require Import Base IrModel IrSpec IrTreeSpec DceModel DceSpec DceProofs.

Section Sim.
  Context {V E A : Type}.
  Variable pure : nat -> bool.
  Variable compute : nat -> list V -> option (list V).
  Variable effect : nat -> list V -> @act V E A.
  Variable answer : list (E * A) -> E -> A.
  Variables (c c' : ctx) (r : nat) (rem : list nat).
  Hypothesis Pr : prunes c c' rem.
  Hypothesis Pure : forall o, In o rem -> exists d, nth_error (ops c) o = Some d /\ pure (o_kind d) = true.
  Hypothesis Total : forall o d xs, In o rem -> nth_error (ops c) o = Some d -> compute (o_kind d) xs <> None.
  Hypothesis Free : forall x o, inside c' r x -> In o rem -> ~ reads_result c' x o.

  Definition gone (v : nat) : Prop := exists o, In o rem /\ In v (op_results c o).
  Definition agree (e e' : nat -> V) : Prop := forall v, ~ gone v -> e v = e' v.

  Lemma bind_agree : forall vs xs e e', agree e e' -> agree (bind e vs xs) (bind e' vs xs).
  Proof.
    induction vs as [|v vs IH]; intros [|x xs] e e' H; cbn [bind]; try exact H. apply IH. intros w Hw. unfold fupd. destruct (Nat.eqb w v); [reflexivity|apply H, Hw].
  Qed.
  Lemma bind_gone : forall vs xs e e', (forall v, In v vs -> gone v) -> agree e e' -> agree (bind e vs xs) e'.
  Proof.
    induction vs as [|v vs IH]; intros [|x xs] e e' Hg H; cbn [bind]; try exact H. apply IH; [intros w Hw; apply Hg; right; exact Hw|].
    intros w Hw. unfold fupd. destruct (Nat.eqb_spec w v) as [->|]; [exfalso; apply Hw, Hg; left; reflexivity|apply H, Hw].
  Qed.

  Definition ours' (r' : nat) : Prop := r' = r \/ exists z, inside c' r z /\ region_in c' r' z.
  Notation kept := (filter (fun o => negb (member o rem))).
  Definition known (l : list nat) : Prop := forall x, In x l -> In x rem \/ inside c' r x.

  Definition steps_alike (g1 g2 : nat -> nat -> op -> list nat -> (nat -> V) -> list (E * A) -> @act V E A -> @outcome V * list (E * A)) : Prop :=
    forall r' o d d' rest e e' tr a, ours' r' -> nth_error (ops c) o = Some d -> nth_error (ops c') o = Some d' -> ~ In o rem -> inside c' r o ->
      known rest -> agree e e' -> same_run gone (g1 r' o d rest e tr a) (g2 r' o d' (kept rest) e' tr a).

  Lemma operands_agree : forall o d e e', inside c' r o -> nth_error (ops c') o = Some d -> agree e e' -> map e (o_operands d) = map e' (o_operands d).
  Proof.
    intros o d e e' Ho Ed He. apply map_ext_in. intros v Hv. apply He. intros (o' & Ho' & Hv'). apply (Free o o' Ho Ho').
    exists d, v. rewrite (pr_results _ _ _ Pr). repeat split; assumption.
  Qed.

  Lemma ops_alike : forall g1 g2 r', steps_alike g1 g2 -> ours' r' -> forall l e e' tr, known l -> agree e e' ->
    same_run gone (run_ops pure compute effect c g1 r' l e tr) (run_ops pure compute effect c' g2 r' (kept l) e' tr).
  Proof.
    intros g1 g2 r' Hg Hr l. induction l as [|o l IH]; intros e e' tr Hl He; [split; [reflexivity|exact I]|].
    assert (Hl' : known l) by (intros x Hx; apply Hl; right; exact Hx). cbn [filter]. destruct (member o rem) eqn:Em; cbn [negb].
    - apply member_In in Em. destruct (Pure o Em) as (d & Ed & Ep). cbn [run_ops]. rewrite Ed, Ep.
      destruct (compute (o_kind d) (map e (o_operands d))) as [rs|] eqn:Ec; [|exfalso; eapply Total; eassumption].
      apply IH; [exact Hl'|]. apply bind_gone; [|exact He]. intros v Hv. exists o. split; assumption.
    - apply member_not in Em. assert (Hin : inside c' r o) by (destruct (Hl o (or_introl eq_refl)); [contradiction|assumption]).
      cbn [run_ops]. destruct (nth_error (ops c) o) as [d|] eqn:Ed.
      + destruct (prunes_op_fwd _ _ _ _ _ Pr Ed) as (d' & Ed' & Ek & Eop & _). rewrite Ed', Ek.
        assert (Em2 : map e (o_operands d) = map e' (o_operands d')) by (rewrite <- Eop; eapply operands_agree; eassumption). rewrite Em2.
        destruct (pure (o_kind d)).
        * destruct (compute (o_kind d) (map e' (o_operands d'))) as [rs|]; [|split; [reflexivity|exact I]]. apply IH; [exact Hl'|]. rewrite (pr_results _ _ _ Pr). apply bind_agree, He.
        * apply Hg; assumption.
      + rewrite (pr_ops _ _ _ Pr), Ed. split; [reflexivity|exact I].
  Qed.
  Lemma block_known : forall r' rd b bd, ours' r' -> nth_error (regions c) r' = Some rd -> In b (r_blocks rd) -> nth_error (blocks c) b = Some bd -> known (b_ops bd).
  Proof.
    intros r' rd b bd Hr Er Hb Eb x Hx. destruct (member x rem) eqn:Em; [left; apply member_In, Em|right].
    destruct (prunes_block_fwd _ _ _ _ _ Pr Eb) as (bd' & Eb' & Eo). assert (Hx' : In x (b_ops bd')) by (rewrite Eo; apply filter_In; split; [exact Hx|rewrite Em; reflexivity]).
    rewrite <- (pr_regions _ _ _ Pr) in Er. destruct Hr as [->|(z & Hz & d & Ed & Hrd)]; [eapply inside_top; eassumption|].
    eapply inside_nested; [exact Hz|]. exists d, r', rd, b, bd'. repeat split; assumption.
  Qed.
  Lemma block_alike : forall g1 g2 r' rd b args e e' tr, steps_alike g1 g2 -> ours' r' -> nth_error (regions c) r' = Some rd -> In b (r_blocks rd) -> agree e e' ->
    same_run gone (run_block pure compute effect c g1 r' b args e tr) (run_block pure compute effect c' g2 r' b args e' tr).
  Proof.
    intros g1 g2 r' rd b args e e' tr Hg Hr Er Hb He. unfold run_block. destruct (nth_error (blocks c) b) as [bd|] eqn:Eb.
    - destruct (prunes_block_fwd _ _ _ _ _ Pr Eb) as (bd' & -> & ->). rewrite (pr_args _ _ _ Pr). apply ops_alike; [exact Hg|exact Hr| |apply bind_agree, He].
      eapply block_known; eassumption.
    - rewrite (pr_blocks _ _ _ Pr), Eb. split; [reflexivity|exact I].
  Qed.
  Lemma entry_alike : forall g1 g2 r' args e e' tr, steps_alike g1 g2 -> ours' r' -> agree e e' ->
    same_run gone (run_entry pure compute effect c g1 r' args e tr) (run_entry pure compute effect c' g2 r' args e' tr).
  Proof.
    intros g1 g2 r' args e e' tr Hg Hr He. unfold run_entry. rewrite (pr_regions _ _ _ Pr). destruct (nth_error (regions c) r') as [rd|] eqn:Er; [|split; [reflexivity|exact I]].
    destruct (r_blocks rd) as [|b bs] eqn:Eb; [split; [reflexivity|exact I]|]. eapply block_alike; [exact Hg|exact Hr|exact Er|rewrite Eb; left; reflexivity|exact He].
  Qed.
  Lemma go_alike : forall n, steps_alike (go pure compute effect answer n c) (go pure compute effect answer n c').
  Proof.
    induction n as [|n IH]; intros r' o d d' rest e e' tr a Hr Ed Ed' No Hin Hk He; cbn [go]; [split; [reflexivity|exact I]|].
    destruct (prunes_op_fwd _ _ _ _ _ Pr Ed) as (d2 & Ed2 & _ & _ & Er & Es). rewrite Ed' in Ed2. injection Ed2 as <-. destruct a as [rs|i args|vs| |ev k|i args k].
    - apply ops_alike; [exact IH|exact Hr|exact Hk|]. rewrite (pr_results _ _ _ Pr). apply bind_agree, He.
    - rewrite Es, (pr_regions _ _ _ Pr). destruct (nth_error (o_succs d) i) as [b|]; [|split; [reflexivity|exact I]].
      destruct (nth_error (regions c) r') as [rd|] eqn:Erd; [|split; [reflexivity|exact I]]. destruct (member b (r_blocks rd)) eqn:Em; [|split; [reflexivity|exact I]].
      apply member_In in Em. eapply block_alike; eassumption.
    - split; [reflexivity|]. split; [reflexivity|exact He].
    - split; [reflexivity|exact I].
    - cbn zeta. apply IH; assumption.
    - rewrite Er. destruct (nth_error (o_regions d) i) as [r2|] eqn:Ei; [|split; [reflexivity|exact I]].
      assert (Hr2 : ours' r2) by (right; exists o; split; [exact Hin|exists d'; split; [exact Ed'|rewrite Er; eapply nth_error_In; exact Ei]]).
      pose proof (entry_alike _ _ r2 args e e' tr IH Hr2 He) as S.
      destruct (run_entry pure compute effect c (go pure compute effect answer n c) r2 args e tr) as [x t1], (run_entry pure compute effect c' (go pure compute effect answer n c') r2 args e' tr) as [y t2].
      destruct S as (S1 & S2). cbn [fst snd] in S1, S2. subst t2. destruct x, y; try contradiction; try (split; [reflexivity|exact I]).
      destruct S2 as (<- & Hee). apply IH; assumption.
  Qed.
  Lemma region_alike : forall n args e tr, same_run gone (run_region pure compute effect answer n c r args e tr) (run_region pure compute effect answer n c' r args e tr).
  Proof. intros n args e tr. apply entry_alike; [apply go_alike|left; reflexivity|intros v _; reflexivity]. Qed.
End Sim.

Lemma runs_preserved : forall (V E A : Type) pure compute effect answer xs c dead rb fuel depth maxit recursive c' res,
  exec_all (empty_ctx, []) xs = Some (c, dead) -> region_tree_of c rb -> (forall t, In t (region_trees rb) -> IrWalkProofs.height t < fuel /\ IrWalkProofs.height t <= depth) -> 0 < fuel ->
  (forall x, inside c (fst rb) x -> ~ In x dead) ->
  eliminate_dead_code pure fuel depth maxit recursive c [fst rb] = Some (c', res) ->
  (forall k vs, pure k = true -> compute k vs <> None) ->
  exists rem, prunes c c' rem /\ forall n args env tr,
    same_run (fun v => exists o, In o rem /\ In v (op_results c o))
      (run_region (V := V) (E := E) (A := A) pure compute effect answer n c (fst rb) args env tr)
      (run_region pure compute effect answer n c' (fst rb) args env tr).
Proof.
  intros V E A pure compute effect answer xs c dead rb fuel depth maxit recursive c' res H T Hh Hf L He Ht.
  destruct (only_dead_pure_removed pure xs c dead rb fuel depth maxit recursive H T Hh Hf L) as (c2 & res2 & rem & E2 & Pr & _ & _ & Pu & Fr & _).
  rewrite He in E2. injection E2 as <- <-. exists rem. split; [exact Pr|]. intros n args env tr. apply region_alike; [exact Pr| | |exact Fr].
  - intros o Ho. apply Pu, Ho.
  - intros o d vs Ho Ed. destruct (Pu o Ho) as (_ & d' & Ed' & Hp). rewrite Ed in Ed'. injection Ed' as <-. apply Ht, Hp.
Qed.
