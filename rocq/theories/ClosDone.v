(** Lemmas: both passes together. *)
From Verif Require Export ClosRounds.
From Coq Require Import Lia.
Local Open Scope list_scope.

Lemma evidence_in f e : func_evidence f = Some e -> In e (f_params f).
Proof. unfold func_evidence. destruct (f_ev f); [|discriminate]. destruct (f_params f); [discriminate|]. intros E. injection E as ->. now left. Qed.

Lemma lift_funcs_names P : forall st, map f_name (fst (lift_funcs P st)) = map f_name P.
Proof.
  induction P as [|f P IH]; intros st; [reflexivity|]. cbn [lift_funcs]. unfold lift_func.
  destruct (lift (f_name f) (func_evidence f) (f_body f) st) as [b' st1]. specialize (IH st1).
  destruct (lift_funcs P st1) as [P' st2]. cbn in *. now rewrite IH.
Qed.

Lemma lift_funcs_grows P : forall st, s_next st <= s_next (snd (lift_funcs P st)) /\ exists new, s_new (snd (lift_funcs P st)) = s_new st ++ new.
Proof.
  induction P as [|f P IH]; intros st; [split; [cbn; lia|exists []; now rewrite app_nil_r]|]. cbn [lift_funcs]. unfold lift_func.
  pose proof (lift_grows (f_name f) (func_evidence f) (f_body f) st) as G.
  pose proof (lift_new (f_name f) (func_evidence f) (f_body f) st) as [l1 N].
  destruct (lift (f_name f) (func_evidence f) (f_body f) st) as [b' st1]. destruct (IH st1) as [G2 [l2 N2]].
  destruct (lift_funcs P st1) as [P' st2]. cbn [fst snd] in *. split; [lia|]. exists (l1 ++ l2). rewrite N2, N, app_assoc. reflexivity.
Qed.

Lemma lift_funcs_find P : forall st f g, find_func P f = Some g -> exists st1, s_next st <= s_next st1
  /\ find_func (fst (lift_funcs P st)) f = Some (mkFunc (f_name g) (f_ev g) (f_params g) (fst (lift (f_name g) (func_evidence g) (f_body g) st1)))
  /\ incl (s_new (snd (lift (f_name g) (func_evidence g) (f_body g) st1))) (s_new (snd (lift_funcs P st))).
Proof.
  induction P as [|h P IH]; intros st f g Hf; [discriminate|].
  unfold find_func in *. cbn [find] in Hf. cbn [lift_funcs]. unfold lift_func.
  pose proof (lift_grows (f_name h) (func_evidence h) (f_body h) st) as G.
  destruct (lift (f_name h) (func_evidence h) (f_body h) st) as [b' st1] eqn:Eb.
  specialize (IH st1). destruct (lift_funcs_grows P st1) as [G2 [l2 N2]].
  destruct (lift_funcs P st1) as [P' st2]. cbn [fst snd find f_name] in *.
  destruct (String.eqb (f_name h) f).
  - injection Hf as <-. exists st. split; [lia|]. rewrite Eb. cbn [fst snd]. split; [reflexivity|]. rewrite N2. apply incl_appl. apply incl_refl.
  - destruct (IH f g Hf) as (s & H1 & H2 & H3). exists s. repeat split; auto. lia.
Qed.

Lemma lift_funcs_ok B names n0 P : forall st, Forall (func_ok n0) P -> n0 <= s_next st ->
  (forall f, In f P -> nesting (f_body f) <= B) -> new_ok B st -> names_ok names st ->
  let r := lift_funcs P st in
  Forall (fun f => func_ok (s_next (snd r)) f /\ lambda_free (f_body f) = true) (fst r) /\ new_ok B (snd r) /\ names_ok names (snd r).
Proof.
  induction P as [|f P IH]; intros st HP Hn HB Hok Hnm; [cbn; auto|].
  apply Forall_cons_iff in HP as [Hf HP]. cbn [lift_funcs]. unfold lift_func.
  destruct Hf as (F1 & F2 & F3 & F4 & F5).
  assert (Hlt : forall v, In v (f_params f) -> v < n0) by (rewrite Forall_forall in F2; auto).
  destruct (lift_ok (f_name f) B names n0 (f_body f) (func_evidence f) (f_params f) (f_params f) st) as (L1 & L2 & L3 & L4 & L5); auto.
  - intros e E. now apply evidence_in.
  - apply incl_refl.
  - intros v Hv. specialize (Hlt v Hv). lia.
  - apply HB. now left.
  - pose proof (lift_grows (f_name f) (func_evidence f) (f_body f) st) as G.
    destruct (lift (f_name f) (func_evidence f) (f_body f) st) as [b' st1]. cbn [fst snd] in *.
    destruct (IH st1) as (I1 & I2 & I3); auto; [lia|intros g Hg; apply HB; now right|].
    destruct (lift_funcs_grows P st1) as [G2 _].
    destruct (lift_funcs P st1) as [P' st2]. cbn [fst snd] in *. split; [|auto].
    constructor; [|assumption]. cbn [f_body]. split; [|assumption].
    repeat split; cbn [f_params f_ev f_body]; auto.
    + apply Forall_forall. intros v Hv. specialize (Hlt v Hv). lia.
    + eapply below_mono; [eassumption|lia].
Qed.

Lemma lambda_free_nesting c : lambda_free c = true <-> nesting c = 0.
Proof.
  induction c as [v|i r k IH|x t IHt e IHe r k IHk|cv caps ps b IHb r k IHk]; cbn [lambda_free nesting]; [tauto|assumption| |].
  - rewrite !andb_true_iff, IHt, IHe, IHk. lia.
  - split; [discriminate|lia].
Qed.

Lemma progress_spec c : forall ev sc, scoped ev sc c -> lambda_free c = false -> progress c = true.
Proof.
  induction c as [v|i r k IH|x t IHt e IHe r k IHk|cv caps ps b IHb r k IHk]; intros ev sc Hs Hl; cbn [lambda_free progress] in *.
  - discriminate.
  - destruct Hs as (_ & _ & _ & Hs). eauto.
  - destruct Hs as (_ & Ht & He & _ & Hk).
    destruct (lambda_free t) eqn:Et; [|rewrite (IHt _ _ Ht eq_refl); reflexivity].
    destruct (lambda_free e) eqn:Ee; [|rewrite (IHe _ _ He eq_refl), orb_true_r; reflexivity].
    rewrite (IHk _ _ Hk Hl). apply orb_true_r.
  - destruct Hs as (_ & _ & _ & Hh & _). rewrite hid_lowerable by (now apply scoped_hid). reflexivity.
Qed.

Lemma find_func_app P Q f g : find_func P f = Some g -> find_func (P ++ Q) f = Some g.
Proof. unfold find_func. induction P as [|h P IH]; cbn; [discriminate|]. destruct (String.eqb (f_name h) f); auto. Qed.

Definition inv (n : nat) (P : cmodule) (t : counters) : Prop :=
  Forall (func_ok n) P /\ NoDup (map f_name P) /\ claims t (map f_name P).

Section Whole.
  Variable W : Type.
  Variable prim : nat -> list Z -> W -> option (Z * W).

  Definition refines (P P' : cmodule) : Prop :=
    forall fuel f zs w, observe (run W prim P fuel f zs w) <> RWrong ->
      observe (run W prim P' fuel f zs w) = observe (run W prim P fuel f zs w).

  Lemma refines_trans P Q R : refines P Q -> refines Q R -> refines P R.
  Proof. intros H1 H2 fuel f zs w Hw. rewrite (H2 fuel f zs w); [now apply H1|]. rewrite (H1 fuel f zs w Hw). assumption. Qed.

  Lemma round_ok n P t B : inv n P t -> (forall f, In f P -> nesting (f_body f) <= S B) ->
    let '(P', t', n') := round P t n in
    inv n' P' t' /\ (forall f, In f P' -> nesting (f_body f) <= B) /\ refines P P' /\ incl (map f_name P) (map f_name P').
  Proof.
    intros (H1 & H2 & H3) HB. unfold round.
    destruct (lift_funcs_ok (S B) (map f_name P) n P (mkState t n [])) as (L1 & L2 & L3); auto.
    { unfold new_ok. constructor. }
    { unfold names_ok. cbn. rewrite app_nil_r. auto. }
    pose proof (lift_funcs_names P (mkState t n [])) as Hnm.
    pose proof (lift_funcs_find P (mkState t n [])) as Hfind.
    destruct (lift_funcs P (mkState t n [])) as [P' st]. cbn [fst snd s_next] in *.
    destruct L3 as [N1 N2].
    assert (Hn : map f_name (P' ++ s_new st) = map f_name P ++ map f_name (s_new st)) by (rewrite map_app, Hnm; reflexivity).
    split; [|split; [|split]].
    - repeat split.
      + apply Forall_app. split; [eapply Forall_impl; [|exact L1]; intros f0 [Hf0 _]; exact Hf0|].
        eapply Forall_impl; [|exact L2]. intros f0 [Hf0 _]; exact Hf0.
      + now rewrite Hn.
      + now rewrite Hn.
    - intros f Hf. apply in_app_or in Hf as [Hf|Hf].
      + rewrite Forall_forall in L1. destruct (L1 f Hf) as [_ E]. apply lambda_free_nesting in E. lia.
      + unfold new_ok in L2. rewrite Forall_forall in L2. destruct (L2 f Hf). lia.
    - intros fuel f zs w Hw. apply (turn_run W prim P (P' ++ s_new st) n); [|assumption].
      intros f0 g Hg. split; [rewrite Forall_forall in H1; apply H1; now apply find_func_in in Hg|].
      destruct (Hfind f0 g Hg) as (st1 & S1 & S2 & S3). exists st1. split; [assumption|]. split.
      + now apply find_func_app.
      + intros h Hh. apply find_func_nodup; [now rewrite Hn|]. apply in_or_app. right. apply S3. exact Hh.
    - rewrite Hn. apply incl_appl, incl_refl.
  Qed.

  Lemma lower_lambdas_ok B : forall fuel P t n, B < fuel -> inv n P t -> (forall f, In f P -> nesting (f_body f) <= B) ->
    exists P1 n1 t1, lower_lambdas fuel P t n = Some (P1, n1) /\ inv n1 P1 t1
      /\ (forall f, In f P1 -> lambda_free (f_body f) = true) /\ refines P P1 /\ incl (map f_name P) (map f_name P1).
  Proof.
    induction B as [|B IH]; intros fuel P t n Hfuel Hinv HB; destruct fuel as [|fuel]; try lia; cbn [lower_lambdas];
      destruct (forallb (fun f => lambda_free (f_body f)) P) eqn:Ef.
    1, 3: rewrite forallb_forall in Ef; exists P, n, t; split; [reflexivity|]; split; [exact Hinv|]; split; [exact Ef|];
      split; [intros fuel0 f zs w Hw; reflexivity|apply incl_refl].
    - exfalso. assert (forallb (fun f => lambda_free (f_body f)) P = true); [|congruence].
      apply forallb_forall. intros f Hf. apply lambda_free_nesting. specialize (HB f Hf). lia.
    - pose proof (round_ok n P t B Hinv HB) as Hr. destruct (round P t n) as [[P' t'] n']. destruct Hr as (R1 & R2 & R3 & R4).
      assert (Hp : existsb (fun f => progress (f_body f)) P = true).
      { assert (exists f, In f P /\ lambda_free (f_body f) = false) as (f & Hf & El).
        { clear - Ef. induction P as [|f P IH]; [discriminate|]. cbn in Ef. destruct (lambda_free (f_body f)) eqn:E.
          - destruct (IH Ef) as (g & Hg & Eg). exists g. split; [now right|assumption].
          - exists f. split; [now left|assumption]. }
        apply existsb_exists. exists f. split; [assumption|]. destruct Hinv as (H1 & _). rewrite Forall_forall in H1.
        destruct (H1 f Hf) as (_ & _ & _ & _ & Hs). eapply progress_spec; eauto. }
      rewrite Hp. destruct (IH fuel P' t' n') as (P1 & n1 & t1 & E & I1 & I2 & I3 & I4); auto; [lia|].
      exists P1, n1, t1. split; [assumption|]. split; [assumption|]. split; [assumption|]. split.
      + eapply refines_trans; eauto.
      + intros x Hx. auto.
  Qed.

  Lemma lower_closures_names P : forall n, map f_name (fst (lower_closures P n)) = map f_name P.
  Proof.
    induction P as [|f P IH]; intros n; [reflexivity|]. cbn [lower_closures].
    destruct (pair_up (func_evidence f) n (f_body f)) as [b' n1]. specialize (IH n1). destruct (lower_closures P n1). cbn in *. now rewrite IH.
  Qed.

  Lemma lower_closures_first P : forall n n0, Forall (func_ok n0) P -> (forall f, In f P -> lambda_free (f_body f) = true) ->
    Forall (fun f => first_order (f_body f)) (fst (lower_closures P n)).
  Proof.
    induction P as [|f P IH]; intros n n0 HP Hl; [constructor|]. apply Forall_cons_iff in HP as [Hf HP]. cbn [lower_closures].
    destruct Hf as (_ & _ & _ & _ & Hs).
    pose proof (pair_first_order _ _ n _ (Hl f (or_introl eq_refl)) Hs (func_evidence f)) as Hp.
    destruct (pair_up (func_evidence f) n (f_body f)) as [b' n1]. specialize (IH n1 n0 HP (fun g Hg => Hl g (or_intror Hg))).
    destruct (lower_closures P n1). cbn in *. constructor; auto.
  Qed.

  Lemma convert_ok n P fuel : program_ok n P -> (forall f, In f P -> nesting (f_body f) < fuel) -> 0 < fuel ->
    exists P2, convert_closures fuel P n = Some P2 /\ Forall (fun f => first_order (f_body f)) P2
      /\ NoDup (map f_name P2) /\ incl (map f_name P) (map f_name P2) /\ refines P P2.
  Proof.
    intros (H1 & H2 & H3) Hn Hfuel. unfold convert_closures.
    assert (Hinv : inv n P []).
    { repeat split; auto. intros p c Hin. apply in_map_iff in Hin as (f & E & Hf). exfalso. apply (H3 p c f Hf). exact E. }
    destruct (lower_lambdas_ok (fuel - 1) fuel P [] n) as (P1 & n1 & t1 & -> & (I1 & I2 & _) & HL & HR & HI); auto.
    { lia. }
    { intros f Hf. specialize (Hn f Hf). lia. }
    exists (fst (lower_closures P1 n1)). split; [reflexivity|]. split; [now apply (lower_closures_first P1 n1 n1)|].
    rewrite lower_closures_names. split; [assumption|]. split; [assumption|].
    eapply refines_trans; [exact HR|]. intros fu f zs w Hw. apply pair_run; [|assumption].
    intros g Hg. rewrite Forall_forall in I1. destruct (I1 g Hg) as (F1 & F2 & F3 & F4 & F5). repeat split; auto.
  Qed.
End Whole.

Lemma lower_lambdas_more fuel : forall P t n r k, lower_lambdas fuel P t n = Some r -> lower_lambdas (fuel + k) P t n = Some r.
Proof.
  induction fuel as [|fuel IH]; intros P t n r k H; [discriminate|]. cbn [lower_lambdas Nat.add] in *.
  destruct (forallb (fun f => lambda_free (f_body f)) P); [assumption|].
  destruct (round P t n) as [[P' t'] n']. destruct (existsb (fun f => progress (f_body f)) P); auto.
Qed.

Lemma convert_same fuel fuel' P n P2 P2' : convert_closures fuel P n = Some P2 -> convert_closures fuel' P n = Some P2' -> P2 = P2'.
Proof.
  unfold convert_closures. intros H H'.
  destruct (lower_lambdas fuel P [] n) as [[P1 n1]|] eqn:E; [|discriminate].
  destruct (lower_lambdas fuel' P [] n) as [[P1' n1']|] eqn:E'; [|discriminate].
  apply (lower_lambdas_more _ _ _ _ _ fuel') in E. apply (lower_lambdas_more _ _ _ _ _ fuel) in E'.
  rewrite Nat.add_comm, E in E'. congruence.
Qed.

Definition depth (P : cmodule) : nat := fold_right (fun f d => Nat.max (nesting (f_body f)) d) 0 P.
Lemma depth_max P f : In f P -> nesting (f_body f) <= depth P.
Proof. induction P as [|g P IH]; [intros []|]. unfold depth in *. cbn [fold_right]. intros [->|H]; [lia|]. specialize (IH H). lia. Qed.

Lemma convert_any n P fuel P2 : program_ok n P -> convert_closures fuel P n = Some P2 ->
  Forall (fun f => first_order (f_body f)) P2 /\ NoDup (map f_name P2) /\ incl (map f_name P) (map f_name P2)
  /\ forall W prim, refines W prim P P2.
Proof.
  intros Hok Hc.
  assert (H : forall W prim, Forall (fun f => first_order (f_body f)) P2 /\ NoDup (map f_name P2) /\ incl (map f_name P) (map f_name P2)
    /\ refines W prim P P2).
  { intros W prim. destruct (convert_ok W prim n P (S (depth P)) Hok) as (P2' & E & H).
    - intros f Hf. apply depth_max in Hf. lia.
    - lia.
    - rewrite (convert_same _ _ _ _ _ _ Hc E). exact H. }
  destruct (H unit (fun _ _ _ => None)) as (H1 & H2 & H3 & _). repeat split; auto. intros W prim. apply H.
Qed.

Lemma convert_ends n P fuel : program_ok n P -> (forall f, In f P -> nesting (f_body f) < fuel) -> 0 < fuel ->
  exists P2, convert_closures fuel P n = Some P2.
Proof.
  intros Hok Hn Hf. destruct (convert_ok unit (fun _ _ _ => None) n P fuel Hok Hn Hf) as (P2 & E & _). eauto.
Qed.

