(** After the lowering no structured control flow is left. *)
From Verif Require Import ScfModel ScfSpec IrProofs IrInvProofs IrMainProofs ScfSim ScfRun ScfArena ScfLower ScfExits ScfObl ScfIf ScfLoop ScfSwitch ScfSwitchMain ScfMain ScfOrder.
From Coq Require Import Lia.

Section Clean.
  Context {V E A : Type}.
  Variable shape_of : nat -> shape.
  Variable case_value : nat -> nat.
  Variable effect : nat -> list V -> act (V := V) (E := E) (A := A).
  Variable truth : V -> bool.
  Variable equal : V -> nat -> bool.
  Variable answer : list (E * A) -> E -> A.
  Variables br_kind cond_br_kind cmp_kind bool_type : nat.
  Variable const_kind : nat -> nat.
  Variable lit : nat -> V.
  Hypothesis Kb : shape_of br_kind = SBr.
  Hypothesis Kc : shape_of cond_br_kind = SCondBr.
  Hypothesis Kk : forall a, shape_of (const_kind a) = SPlain.
  Hypothesis Kq : shape_of cmp_kind = SPlain.
  Hypothesis const_effect : forall a, effect (const_kind a) [] = Finish [lit a].
  Hypothesis cmp_effect : forall v a, exists w, effect cmp_kind [v; lit a] = Finish [w] /\ truth w = equal v a.
  Local Notation settled := (settled shape_of case_value effect truth equal answer).
  Local Notation progress := (progress shape_of case_value effect truth equal answer).
  Local Notation ready := (ready shape_of).
  Local Notation few := (few shape_of).
  Local Notation deep := (deep).

  Definition clean (c : ctx) (q : nat) : Prop := forall x y, deep c q x -> shape_at shape_of c x = Some y -> control y = false.
  Definition bclean (c : ctx) (b : nat) : Prop := forall x, In x (bops (blocks c) b) -> (forall y, shape_at shape_of c x = Some y -> control y = false) /\ forall r, region_parent c r x -> clean c r.
  Definition all_few (c : ctx) (q : nat) : Prop := forall x, deep c q x -> few c x.
  Lemma deep_split c q x : deep c q x -> stands c x q \/ exists o r, stands c o q /\ region_parent c r o /\ deep c r x.
  Proof.
    induction 1 as [x H|x q' o H H' D IH]; [left; exact H|]. right. destruct IH as [S|(o' & r & S & R & D')].
    - exists o, q'. split; [exact S|]. split; [exact H' | apply deep_here; exact H].
    - exists o', r. split; [exact S|]. split; [exact R|]. eapply deep_in; eassumption.
  Qed.
  Lemma blocks_clean c dead q : inv c dead -> (forall b, In b (rblks (regions c) q) -> bclean c b) -> clean c q.
  Proof.
    intros I Bc x y D Sy. assert (Here : forall o, stands c o q -> (forall z, shape_at shape_of c o = Some z -> control z = false) /\ forall r, region_parent c r o -> clean c r).
    { intros o S. apply (stands_par c dead o q I) in S. destruct S as (b & Pb & Pq). apply (Bc b); [apply (in_rblks c dead b q I); exact Pq | apply (in_bops c dead o b I); exact Pb]. }
    destruct (deep_split c q x D) as [S|(o & r & S & R & D')]; [apply (proj1 (Here x S) y Sy) | apply (proj2 (Here o S) r R x y D' Sy)].
  Qed.

  (** What work inside [R] also keeps. *)
  Record neat (R : nat) (c c1 : ctx) : Prop := {
    ne_rblks : forall q, outer c R q -> q <> R -> rblks (regions c1) q = rblks (regions c) q;
    ne_bops : forall q b, outer c R q -> q <> R -> In b (rblks (regions c) q) -> bops (blocks c1) b = bops (blocks c) b;
    ne_deep : forall R' x, x < length (ops c) -> deep c1 R' x -> deep c R' x;
    ne_kind : forall x k, kd c1 x = Some k -> kd c x = Some k \/ control (shape_of k) = false;
    ne_results : forall x, x < length (ops c) -> op_results c1 x = op_results c x;
    ne_len : length (ops c) <= length (ops c1);
  }.
  Lemma neat_refl R c : neat R c c.
  Proof. constructor; auto. Qed.
  Lemma neat_trans R c dead c1 dead1 c2 : progress R c dead c1 dead1 -> neat R c c1 -> neat R c1 c2 -> neat R c c2.
  Proof.
    intros Pg N1 N2. constructor.
    - intros q O Nq. rewrite (ne_rblks _ _ _ N2 q (pr_outer _ _ _ _ _ _ _ _ _ _ _ Pg R q O) Nq). apply (ne_rblks _ _ _ N1 q O Nq).
    - intros q b O Nq K. rewrite (ne_bops _ _ _ N2 q b (pr_outer _ _ _ _ _ _ _ _ _ _ _ Pg R q O) Nq); [apply (ne_bops _ _ _ N1 q b O Nq K)|]. rewrite (ne_rblks _ _ _ N1 q O Nq). exact K.
    - intros R' x Lx D. apply (ne_deep _ _ _ N1 R' x Lx). apply (ne_deep _ _ _ N2 R' x); [|exact D]. pose proof (ne_len _ _ _ N1). lia.
    - intros x k K. destruct (ne_kind _ _ _ N2 x k K) as [K1|K1]; [apply (ne_kind _ _ _ N1 x k K1) | right; exact K1].
    - intros x Lx. rewrite (ne_results _ _ _ N2 x); [apply (ne_results _ _ _ N1 x Lx)|]. pose proof (ne_len _ _ _ N1). lia.
    - pose proof (ne_len _ _ _ N1). pose proof (ne_len _ _ _ N2). lia.
  Qed.
  Lemma neat_up P r o c c1 : region_parent c r o -> stands c o P -> neat r c c1 -> neat P c c1.
  Proof.
    intros Ro S N. assert (Up : forall q, outer c P q -> outer c r q) by (intros q O z Rz D; apply (O z Rz); eapply deep_trans; [apply deep_here; exact S | exact Ro | exact D]).
    assert (Ne : forall q, outer c P q -> q <> r) by (intros q O ->; apply (O o Ro); apply deep_here; exact S).
    constructor; [| |apply (ne_deep _ _ _ N) | apply (ne_kind _ _ _ N) | apply (ne_results _ _ _ N) | apply (ne_len _ _ _ N)].
    - intros q O _. apply (ne_rblks _ _ _ N); [apply Up | apply Ne]; exact O.
    - intros q b O _ K. apply (ne_bops _ _ _ N q); [apply Up; exact O | apply Ne; exact O | exact K].
  Qed.
  Lemma shape_old c x : x < length (ops c) -> exists y, shape_at shape_of c x = Some y.
  Proof. intros L. unfold shape_at. destruct (nth_error (ops c) x) eqn:E0; [eexists; reflexivity|]. apply nth_error_None in E0. lia. Qed.
  Lemma shape_kd c x y : shape_at shape_of c x = Some y -> exists k, kd c x = Some k /\ shape_of k = y.
  Proof. unfold shape_at, kd. destruct (nth_error (ops c) x) as [d|]; [|discriminate]. intros [= <-]. exists (o_kind d). split; reflexivity. Qed.
  Lemma new_plain R c c1 x y : neat R c c1 -> length (ops c) <= x -> shape_at shape_of c1 x = Some y -> control y = false.
  Proof.
    intros N L S. destruct (shape_kd c1 x y S) as (k & K & <-). destruct (ne_kind _ _ _ N x k K) as [K1|K1]; [|exact K1]. exfalso. unfold kd in K1. apply nth_error_None in L. rewrite L in K1. discriminate.
  Qed.
  Lemma clean_kept R c dead c1 dead1 q : progress R c dead c1 dead1 -> neat R c c1 -> clean c q -> clean c1 q.
  Proof.
    intros Pg N C x y D S. destruct (Nat.lt_ge_cases x (length (ops c))) as [L|L]; [|eapply new_plain; eassumption]. destruct (shape_old c x L) as (y0 & S0). pose proof (pr_shape _ _ _ _ _ _ _ _ _ _ _ Pg x y0 S0) as S1. assert (y = y0) as -> by congruence. apply (C x y0 (ne_deep _ _ _ N q x L D) S0).
  Qed.
  Lemma few_kept R c dead c1 dead1 q : progress R c dead c1 dead1 -> neat R c c1 -> all_few c q -> all_few c1 q.
  Proof.
    intros Pg N C x D. destruct (Nat.lt_ge_cases x (length (ops c))) as [L|L].
    - destruct (shape_old c x L) as (y0 & S0). specialize (C x (ne_deep _ _ _ N q x L D)). unfold ScfMain.few in *. rewrite (pr_shape _ _ _ _ _ _ _ _ _ _ _ Pg x y0 S0), (ne_results _ _ _ N x L). rewrite S0 in C. exact C.
    - unfold ScfMain.few. destruct (shape_at shape_of c1 x) as [y|] eqn:S; [|exact Logic.I]. pose proof (new_plain R c c1 x y N L S) as K. destruct y; try exact Logic.I; discriminate K.
  Qed.
  Lemma op_kept R c dead c1 dead1 x : inv c dead -> progress R c dead c1 dead1 -> neat R c c1 -> (exists b, In x (bops (blocks c) b)) ->
    (forall y, shape_at shape_of c x = Some y -> control y = false) /\ (forall r, region_parent c r x -> clean c r) ->
    (forall y, shape_at shape_of c1 x = Some y -> control y = false) /\ (forall r, region_parent c1 r x -> clean c1 r).
  Proof.
    intros I Pg N (b & K) (C1 & C2). apply (in_bops c dead x b I) in K. destruct (par_old c dead I x b K) as (L & _). destruct (shape_old c x L) as (y0 & S0). split.
    - intros y S. rewrite (pr_shape _ _ _ _ _ _ _ _ _ _ _ Pg x y0 S0) in S. injection S as <-. apply C1. exact S0.
    - intros r Rr. apply (rparent_pr shape_of case_value effect truth equal answer _ _ _ _ _ r x Pg) in Rr. eapply clean_kept; eauto.
  Qed.
  Lemma bclean_kept R c dead c1 dead1 b : inv c dead -> progress R c dead c1 dead1 -> neat R c c1 -> bops (blocks c1) b = bops (blocks c) b -> bclean c b -> bclean c1 b.
  Proof. intros I Pg N Eb C x K. rewrite Eb in K. eapply op_kept; eauto. Qed.

  (** Only structured operations, and what is in them, may be disposed. *)
  Definition spared (c : ctx) (x : nat) : Prop := forall s y, shape_at shape_of c s = Some y -> control y = true -> x <> s /\ ~ inside_op c s x.
  Definition spares (c : ctx) (dead : list nat) (c1 : ctx) (dead1 : list nat) : Prop := forall x, x < length (ops c) -> spared c x -> ~ In x dead -> ~ In x dead1.
  Lemma spares_trans R c dead c1 dead1 c2 dead2 : progress R c dead c1 dead1 -> neat R c c1 -> spares c dead c1 dead1 -> spares c1 dead1 c2 dead2 -> spares c dead c2 dead2.
  Proof.
    intros Pg N S1 S2 x Lx Sp Nd. pose proof (S1 x Lx Sp Nd) as Nd1. pose proof (ne_len _ _ _ N) as Le. apply S2; [lia | | exact Nd1]. intros s y Sy Cy. destruct (Nat.lt_ge_cases s (length (ops c))) as [L|L].
    - destruct (shape_old c s L) as (y0 & S0). pose proof (pr_shape _ _ _ _ _ _ _ _ _ _ _ Pg s y0 S0) as S3. assert (y = y0) as -> by congruence. destruct (Sp s y0 S0 Cy) as (A1 & A2). split; [exact A1|]. intros (q & Rq & D). apply A2. exists q. split; [apply (rparent_pr shape_of case_value effect truth equal answer _ _ _ _ _ q s Pg); exact Rq | apply (ne_deep _ _ _ N q x Lx D)].
    - pose proof (new_plain R c c1 s y N L Sy). congruence.
  Qed.

  (** ** One lowering *)
  Lemma lowering_neat c dead c' b s P bs A0 B0 : inv c dead -> tidy c dead -> settled c dead c' b s P bs -> ordered shape_of c b s P A0 c' -> rblks (regions c) P = A0 ++ b :: B0 ->
    neat P c c' /\ (forall a, In a A0 -> bops (blocks c') a = bops (blocks c) a) /\
    (forall pre post, bops (blocks c) b = pre ++ s :: post -> ~ In s pre -> exists tail, bops (blocks c') b = pre ++ tail /\ forall z, In z tail -> length (ops c) <= z).
  Proof.
    intros I T (dead' & m & pre & post & Q & log & tail & arg & L & _) (O1 & O2 & O3) Fr. pose proof (s_stands shape_of _ _ _ _ _ _ _ _ _ _ _ _ _ _ I L) as Ss. pose proof (deep_here c P s Ss) as Ds.
    assert (Same : forall q a, (outer c P q \/ q = P) -> a <> b -> bpar (blocks c) a = Some q -> bops (blocks c') a = bops (blocks c) a).
    { intros q a O Na Pa. rewrite (lo_bops _ _ _ _ _ _ _ _ _ _ _ _ _ _ _ L a (bpar_old c a q Pa)). apply relist_none.
      - intros K. apply (in_bops c dead s a I) in K. assert (Kb' : In s (bops (blocks c) b)) by (rewrite (lo_home _ _ _ _ _ _ _ _ _ _ _ _ _ _ _ L); apply in_elt). apply (in_bops c dead s b I) in Kb'. congruence.
      - intros x K. assert (Sx : stands c x q). { apply (stands_par c dead x q I). exists a. split; [apply (in_bops c dead x a I); exact K | exact Pa]. }
        destruct (image log x) as [z|] eqn:Im; [|reflexivity]. exfalso. destruct (exit_elsewhere shape_of _ _ _ _ _ _ _ _ _ _ _ _ _ _ I T L x z Im) as (_ & Ne). destruct O as [O| ->]; [|contradiction].
        destruct (lo_log _ _ _ _ _ _ _ _ _ _ _ _ _ _ _ L x z Im) as (_ & _ & (q1 & R1 & D1)). destruct D1 as [x S1|x q' o S1 Ro D1].
        * assert (q1 = q) as -> by (eapply stands_unique; eassumption). exact (O s R1 Ds).
        * assert (q' = q) as -> by (eapply stands_unique; eassumption). apply (O o Ro). eapply deep_trans; eassumption. }
    assert (Nd : NoDup (A0 ++ b :: B0)). { destruct I as (_ & (_ & (_ & N) & _) & _). rewrite <- Fr. apply N. }
    assert (InP : forall a, In a (A0 ++ b :: B0) -> bpar (blocks c) a = Some P) by (intros a K; apply (in_rblks c dead a P I); rewrite Fr; exact K).
    split; [|split].
    - constructor.
      + intros q O Nq. apply O1; [exact Nq|]. intros Ch. unfold child in Ch. destruct (shape_at shape_of c s) as [[]|]; try contradiction; try (exact (O s Ch Ds)). destruct Ch as (x & q1 & H1 & _ & H2 & H3). apply (O x H1). eapply deep_in; eassumption.
      + intros q a O Nq K. apply (in_rblks c dead a q I) in K. apply (Same q a (or_introl O)); [|exact K]. intros ->. apply Nq. pose proof (InP b (in_elt b A0 B0)). congruence.
      + intros R' x Lx D. eapply deep_before; eassumption.
      + exact O3.
      + exact (lo_results _ _ _ _ _ _ _ _ _ _ _ _ _ _ _ L).
      + eapply low_olen. exact L.
    - intros a K. apply (Same P a (or_intror eq_refl)); [|apply InP; apply in_or_app; left; exact K]. intros ->. apply NoDup_remove_2 in Nd. apply Nd. apply in_or_app. left. exact K.
    - intros pre1 post1 E1 N1. exists tail. split; [|exact (lo_tail _ _ _ _ _ _ _ _ _ _ _ _ _ _ _ L)]. rewrite (lo_bops _ _ _ _ _ _ _ _ _ _ _ _ _ _ _ L b (bpar_old c b P (InP b (in_elt b A0 B0)))), E1. unfold relist. rewrite existsb_app. cbn [existsb]. rewrite Nat.eqb_refl, orb_true_r. f_equal. apply before_split. exact N1.
  Qed.

  (** ** The recursion *)
  Local Notation block_at := (transform_block shape_of br_kind cond_br_kind cmp_kind bool_type const_kind case_value).
  Definition fit (P : nat) (c : ctx) (dead : list nat) : Prop := ready c dead P /\ all_few c P.
  (** Progress that is neat, and whatever [keep] says. *)
  Definition going (P : nat) (keep : ctx -> ctx -> Prop) (c : ctx) (dead : list nat) (c1 : ctx) (dead1 : list nat) : Prop := progress P c dead c1 dead1 /\ neat P c c1 /\ spares c dead c1 dead1 /\ keep c c1.
  Lemma fit_after P keep c dead c1 dead1 : fit P c dead -> going P keep c dead c1 dead1 -> fit P c1 dead1.
  Proof.
    intros (Rd & Fw) (Pg & Ne & _ & _). split; [|eapply few_kept; eassumption]. eapply ready_after; [exact Rd | eapply (self_outer shape_of); exact (proj1 (proj2 Rd)) | exact Pg].
  Qed.
  Lemma going_refl P (keep : ctx -> ctx -> Prop) c dead : (forall c, keep c c) -> fit P c dead -> going P keep c dead c dead.
  Proof. intros K ((I & T & Ba & _) & _). split; [apply progress_refl; assumption|]. split; [apply neat_refl|]. split; [intros x _ _ K'; exact K' | apply K]. Qed.
  Lemma going_trans P (keep : ctx -> ctx -> Prop) c dead c1 dead1 c2 dead2 : (forall c1 c2 c3, keep c1 c2 -> keep c2 c3 -> keep c1 c3) -> fit P c dead -> going P keep c dead c1 dead1 -> going P keep c1 dead1 c2 dead2 -> going P keep c dead c2 dead2.
  Proof.
    intros K (Rd & _) (P1 & N1 & X1 & K1) (P2 & N2 & X2 & K2). split; [eapply progress_trans; [exact (proj1 Rd) | exact P1 | exact P2]|]. split; [eapply neat_trans; eassumption|]. split; [eapply spares_trans; eassumption | eapply K; eassumption].
  Qed.
  Lemma iter_going P (keep : ctx -> ctx -> Prop) (f : ctx -> nat -> option ctx) (ok good : ctx -> nat -> Prop) l :
    (forall c dead x c', fit P c dead -> ok c x -> f c x = Some c' -> exists dead', going P keep c dead c' dead' /\ good c' x) ->
    (forall c, keep c c) -> (forall c1 c2 c3, keep c1 c2 -> keep c2 c3 -> keep c1 c3) ->
    (forall c dead c1 dead1 x, fit P c dead -> going P keep c dead c1 dead1 -> ok c x -> ok c1 x) ->
    (forall c dead c1 dead1 x, fit P c dead -> going P keep c dead c1 dead1 -> good c x -> good c1 x) ->
    forall c dead c', fit P c dead -> (forall x, In x l -> ok c x) -> iter f c l = Some c' -> exists dead', going P keep c dead c' dead' /\ forall x, In x l -> good c' x.
  Proof.
    intros F K0 K2 Ko Kg. induction l as [|x l IH]; intros c dead c' Fi O H; cbn [iter] in H.
    - injection H as <-. exists dead. split; [apply going_refl; assumption | intros x []].
    - bindin H c1 E1. destruct (F c dead x c1 Fi (O x (or_introl eq_refl)) E1) as (dead1 & G1 & Gd). pose proof (fit_after _ _ _ _ _ _ Fi G1) as Fi1.
      destruct (IH c1 dead1 c' Fi1) as (dead2 & G2 & Al); [intros y Hy; eapply Ko; [exact Fi | exact G1 | apply O; right; exact Hy] | exact H|]. exists dead2. split; [eapply going_trans; eassumption|]. intros y [<-|Hy]; [eapply Kg; eassumption | apply Al; exact Hy].
  Qed.
  Definition any (c c' : ctx) : Prop := True.
  (** A block is cleaned; blocks before it stay. *)
  Definition cleans (P : nat) (f : ctx -> nat -> option ctx) : Prop := forall c dead b c' A0 B0, fit P c dead -> rblks (regions c) P = A0 ++ b :: B0 -> f c b = Some c' ->
    exists dead' B', going P any c dead c' dead' /\ rblks (regions c') P = A0 ++ b :: B' /\ (forall a, In a A0 -> bops (blocks c') a = bops (blocks c) a) /\ bclean c' b.
  Lemma nth_front {X} (l : list X) i x : nth_error l i = Some x -> exists A0 B0, l = A0 ++ x :: B0 /\ firstn i l = A0 /\ forall B', firstn (S i) (A0 ++ x :: B') = A0 ++ [x].
  Proof.
    intros H. exists (firstn i l), (skipn (S i) l). assert (L : i < length l) by (apply nth_error_Some; congruence). split; [|split; [reflexivity|]].
    - transitivity (firstn i l ++ skipn i l); [symmetry; apply firstn_skipn|]. f_equal. clear L. revert l H. induction i as [|i IH]; intros [|y l] H; try discriminate; cbn in *; [congruence | apply IH; exact H].
    - intros B'. rewrite firstn_app, firstn_firstn, firstn_length, Nat.min_r, Nat.min_l by lia. replace (S i - i) with 1 by lia. reflexivity.
  Qed.
  Lemma loop_cleans P block n : cleans P block -> forall i c dead c', fit P c dead -> (forall a, In a (firstn i (rblks (regions c) P)) -> bclean c a) -> region_loop block n c P i = Some c' -> exists dead', going P any c dead c' dead' /\ clean c' P.
  Proof.
    intros W. induction n as [|n IH]; intros i c dead c' Fi Ca H; cbn [region_loop] in H; [discriminate|]. bindin H rgd Eg. pose proof (rblks_nth c P rgd Eg) as Er. rewrite <- Er in H. destruct (nth_error (rblks (regions c) P) i) as [b|] eqn:Eb.
    - bindin H c1 E1. destruct (nth_front _ _ _ Eb) as (A0 & B0 & Ef & Ea & Es). rewrite Ea in Ca. destruct (W c dead b c1 A0 B0 Fi Ef E1) as (dead1 & B' & G1 & Ef1 & Sa & Cb). pose proof (fit_after _ _ _ _ _ _ Fi G1) as Fi1.
      destruct (IH (S i) c1 dead1 c' Fi1) as (dead2 & G2 & C2); [|exact H|].
      + intros a K. rewrite Ef1, Es in K. apply in_app_or in K. destruct K as [K|[<-|[]]]; [|exact Cb]. destruct G1 as (P1 & N1 & _). eapply bclean_kept; [exact (proj1 (proj1 Fi)) | exact P1 | exact N1 | apply Sa; exact K | apply Ca; exact K].
      + exists dead2. split; [|exact C2]. eapply going_trans; [intros; exact Logic.I | exact Fi | exact G1 | exact G2].
    - injection H as <-. exists dead. split; [apply going_refl; [intros; exact Logic.I | exact Fi]|]. apply nth_error_None in Eb. rewrite firstn_all2 in Ca by exact Eb. eapply blocks_clean; [exact (proj1 (proj1 Fi)) | exact Ca].
  Qed.
  (** The blocks of [P] are as before. *)
  Definition still (P : nat) (c c' : ctx) : Prop := rblks (regions c') P = rblks (regions c) P /\ forall b, In b (rblks (regions c) P) -> bops (blocks c') b = bops (blocks c) b.
  Lemma still_refl P c : still P c c.
  Proof. split; reflexivity. Qed.
  Lemma still_trans P c1 c2 c3 : still P c1 c2 -> still P c2 c3 -> still P c1 c3.
  Proof. intros (A1 & A2) (B1 & B2). split; [congruence|]. intros b K. rewrite B2 by (rewrite A1; exact K). apply A2. exact K. Qed.
  Lemma still_stands P c dead c1 dead1 x : inv c dead -> inv c1 dead1 -> still P c c1 -> stands c x P -> stands c1 x P.
  Proof.
    intros I I1 (S1 & S2) S. apply (stands_par c dead x P I) in S. destruct S as (b & Pb & Pq). apply (in_rblks c dead b P I) in Pq. apply (in_bops c dead x b I) in Pb. apply (stands_par c1 dead1 x P I1). exists b. split; [apply (in_bops c1 dead1 x b I1); rewrite S2; assumption | apply (in_rblks c1 dead1 b P I1); rewrite S1; exact Pq].
  Qed.
  Local Notation nested := (nested shape_of).
  Lemma region_cleans depth fuel n P : (forall R, cleans R (block_at fuel depth)) -> forall c dead r c', fit P c dead -> nested P c r -> region_loop (block_at fuel depth) n c r 0 = Some c' -> exists dead', going P (still P) c dead c' dead' /\ clean c' r.
  Proof.
    intros W c dead r c' (Rd & Fw) Ne H. assert (Fr : fit r c dead). { split; [eapply nested_ready; eassumption|]. destruct Ne as (o & Ro & S & _). intros x D. apply Fw. eapply deep_trans; [apply deep_here; exact S | exact Ro | exact D]. }
    destruct (loop_cleans r _ n (W r) 0 c dead c' Fr ltac:(intros a []) H) as (dead' & (Pg & N & Sx & _) & C). exists dead'. split; [|exact C]. destruct Ne as (o & Ro & S & _). destruct Rd as (I & T & _). destruct (up_outer shape_of c dead r o P T Ro S) as (O & Nq).
    split; [eapply progress_up; eassumption|]. split; [eapply neat_up; eassumption|]. split; [exact Sx|]. split; [apply (ne_rblks _ _ _ N); assumption|]. intros b K. eapply (ne_bops _ _ _ N); eassumption.
  Qed.
  Lemma nested_still P c dead c1 dead1 r : fit P c dead -> going P (still P) c dead c1 dead1 -> nested P c r -> nested P c1 r.
  Proof.
    intros (Rd & _) (Pg & _ & _ & St) Ne. eapply nested_kept; [exact (proj1 Rd) | exact Pg | | exact Ne]. intros x S. eapply still_stands; [exact (proj1 Rd) | apply Pg | exact St | exact S].
  Qed.
  (** The regions of an operation that is not control flow are clean. *)
  Definition inner_clean (c : ctx) (x : nat) : Prop := (forall y, shape_at shape_of c x = Some y -> control y = false) -> forall r, region_parent c r x -> clean c r.
  Lemma inner_kept P keep c dead c1 dead1 x : fit P c dead -> going P keep c dead c1 dead1 -> inner_clean c x -> inner_clean c1 x.
  Proof.
    intros (Rd & _) (Pg & N & _) C Ny r Rr. apply (rparent_pr shape_of case_value effect truth equal answer _ _ _ _ _ r x Pg) in Rr. eapply clean_kept; [exact Pg | exact N|]. apply C; [|exact Rr]. intros y S. apply Ny. apply (pr_shape _ _ _ _ _ _ _ _ _ _ _ Pg). exact S.
  Qed.
  Lemma nested_cleans depth fuel n P : (forall R, cleans R (block_at fuel depth)) -> forall c dead o c', fit P c dead -> stands c o P -> nested_first shape_of (fun c r => region_loop (block_at fuel depth) n c r 0) c o = Some c' ->
    exists dead', going P (still P) c dead c' dead' /\ inner_clean c' o.
  Proof.
    intros W c dead o c' Fi S H. unfold nested_first in H. bindin H d Ed. assert (Sd : shape_at shape_of c o = Some (shape_of (o_kind d))) by (unfold shape_at; rewrite Ed; reflexivity). destruct (control (shape_of (o_kind d))) eqn:Ct.
    - injection H as <-. exists dead. split; [apply going_refl; [apply still_refl | exact Fi]|]. intros Ny. specialize (Ny _ Sd). congruence.
    - destruct (iter_going P (still P) _ (nested P) clean (o_regions d) (region_cleans depth fuel n P W) (still_refl P) (still_trans P) (nested_still P) ltac:(intros c0 dead0 c1 dead1 x _ (Pg & N & _) C; eapply clean_kept; eassumption) c dead c' Fi) as (dead' & G & Al).
      + intros r K. exists o. split; [eapply regions_owned; [exact (proj1 (proj1 Fi)) | exact Ed | exact K]|]. split; [exact S|]. rewrite Sd. intros [= X]. rewrite X in Ct. discriminate.
      + exact H.
      + exists dead'. split; [exact G|]. intros _ r Rr. destruct G as (Pg & _). apply (rparent_pr shape_of case_value effect truth equal answer _ _ _ _ _ r o Pg) in Rr. apply Al. apply rpar_in in Rr. apply (in_oregs c dead r o (proj1 (proj1 Fi))) in Rr. unfold oregs in Rr. rewrite Ed in Rr. exact Rr.
  Qed.
  Lemma find_before {X} (f : X -> bool) l s : find f l = Some s -> exists pre post, l = pre ++ s :: post /\ forall x, In x pre -> f x = false.
  Proof.
    induction l as [|x l IH]; cbn; [discriminate|]. destruct (f x) eqn:Fx.
    - intros [= ->]. exists [], l. split; [reflexivity | intros y []].
    - intros H. destruct (IH H) as (pre & post & -> & K). exists (x :: pre), post. split; [reflexivity|]. intros y [<-|Hy]; [exact Fx | apply K; exact Hy].
  Qed.
  Lemma block_cleans depth fuel : forall P, cleans P (block_at fuel depth).
  Proof.
    induction fuel as [|fuel IH]; intros P c dead b c' A0 B0 Fi Ef H; cbn [transform_block] in H; [discriminate|]. bindin H bd Eb. bindin H c1 E1. pose proof (bops_nth c b bd Eb) as Eo. rewrite <- Eo in *.
    pose proof (proj1 (proj1 Fi)) as I. assert (Inb : In b (rblks (regions c) P)) by (rewrite Ef; apply in_elt). assert (Bp : bpar (blocks c) b = Some P) by (apply (in_rblks c dead b P I); exact Inb).
    assert (Sb : forall x, In x (bops (blocks c) b) -> stands c x P) by (intros x K; apply (stands_par c dead x P I); exists b; split; [apply (in_bops c dead x b I); exact K | exact Bp]).
    destruct (iter_going P (still P) _ (fun c x => stands c x P) inner_clean (bops (blocks c) b) (nested_cleans depth fuel fuel P IH) (still_refl P) (still_trans P)
      ltac:(intros c2 dead2 c3 dead3 x F2 (Pg & _ & _ & St) K; eapply still_stands; [exact (proj1 (proj1 F2)) | apply Pg | exact St | exact K]) ltac:(intros c2 dead2 c3 dead3 x F2 G K; eapply inner_kept; eassumption) c dead c1 Fi Sb E1) as (dead1 & G1 & In1).
    pose proof (fit_after _ _ _ _ _ _ Fi G1) as Fi1. pose proof G1 as (P1 & N1 & X1 & (R1 & S1)). pose proof (proj1 (proj1 Fi1)) as I1. pose proof (S1 b Inb) as Ob. rewrite <- Ob in H, In1. rewrite Ef in R1.
    assert (Keep1 : forall a, In a A0 -> bops (blocks c1) a = bops (blocks c) a) by (intros a K; apply S1; rewrite Ef; apply in_or_app; left; exact K).
    assert (Bp1 : bpar (blocks c1) b = Some P) by (apply (in_rblks c1 dead1 b P I1); rewrite R1; apply in_elt).
    assert (Gany : going P any c dead c1 dead1) by (split; [exact P1|]; split; [exact N1|]; split; [exact X1 | exact Logic.I]).
    assert (Sh1 : forall x, In x (bops (blocks c1) b) -> exists y, shape_at shape_of c1 x = Some y) by (intros x K; apply (in_bops c1 dead1 x b I1) in K; apply shape_old; apply (par_old c1 dead1 I1 x b K)).
    destruct (first_control shape_of c1 (bops (blocks c1) b)) as [s|] eqn:Fc.
    2:{ injection H as <-. exists dead1, B0. split; [exact Gany|]. split; [exact R1|]. split; [exact Keep1|]. intros x K. assert (Ny : forall y, shape_at shape_of c1 x = Some y -> control y = false).
        { intros y Sy. unfold first_control in Fc. pose proof (List.find_none _ _ Fc x K) as F. cbn beta in F. rewrite Sy in F. exact F. }
        split; [exact Ny | apply In1; [exact K | exact Ny]]. }
    bindin H y2 E2. destruct y2 as [c2 bs]. destruct (find_before _ _ _ Fc) as (pre & post & Es & Pre). pose proof Fc as Fc0. apply find_some in Fc0. destruct Fc0 as (Ks & Cs). destruct (Sh1 s Ks) as (ys & Sys). rewrite Sys in Cs.
    assert (Ds : deep c1 P s). { apply deep_here. apply (stands_par c1 dead1 s P I1). exists b. split; [apply (in_bops c1 dead1 s b I1); exact Ks | exact Bp1]. }
    destruct (one_lowering shape_of case_value effect truth equal answer br_kind cond_br_kind cmp_kind bool_type const_kind lit Kb Kc Kk Kq const_effect cmp_effect fuel depth c1 dead1 b s P c2 bs (proj1 Fi1) Bp1 E2) as [(_ & _ & No)|St]; [specialize (No (proj2 Fi1 s Ds) ys Sys); congruence|].
    pose proof (proj1 Fi1) as (_ & T1 & Ba1 & Li1 & Pl1).
    assert (Or : ordered shape_of c1 b s P A0 c2).
    { rewrite Sys in E2. pose proof St as St0. destruct St0 as (dd & m0 & pp & qq & Q0 & l0 & t0 & a0 & L0 & _). assert (Neq : c2 <> c1). { intros ->. pose proof (lo_blen _ _ _ _ _ _ _ _ _ _ _ _ _ _ _ L0). pose proof (lo_blen' _ _ _ _ _ _ _ _ _ _ _ _ _ _ _ L0). lia. }
      destruct ys; try discriminate Cs.
      - destruct (if_ordered shape_of case_value br_kind cond_br_kind const_kind Kb Kc Kk c1 dead1 I1 b s P Bp1 Li1 Pl1 A0 B0 R1 depth c2 bs E2 Sys) as [(K & _)|K]; [contradiction | exact K].
      - destruct (loop_ordered shape_of case_value br_kind const_kind Kb Kk c1 dead1 I1 b s P Bp1 Li1 Pl1 A0 B0 R1 fuel depth c2 bs E2 Sys) as [(K & _)|K]; [contradiction | exact K].
      - destruct (switch_ordered shape_of case_value br_kind cond_br_kind cmp_kind bool_type const_kind Kb Kc Kk Kq c1 dead1 I1 b s P Bp1 Li1 Pl1 A0 B0 R1 depth c2 bs E2 Sys) as [(K & _)|K]; [contradiction | exact K]. }
    destruct (lowering_neat c1 dead1 c2 b s P bs A0 B0 I1 T1 St Or R1) as (N2 & Keep2 & Tl). destruct (settled_progress shape_of case_value effect truth equal answer c1 dead1 c2 b s P bs I1 T1 Ba1 St) as (dead2 & P2 & Bs & y2 & Sy2 & Cy2 & Kl). destruct Or as (_ & (B2 & R2) & _).
    assert (G2 : going P any c1 dead1 c2 dead2) by (split; [exact P2|]; split; [exact N2|]; split; [intros x Lx Sp Nd K; destruct (Sp s y2 Sy2 Cy2) as (Q1 & Q2); destruct (Kl x K) as [K1|[K1|K1]]; contradiction | exact Logic.I]). pose proof (fit_after _ _ _ _ _ _ Fi1 G2) as Fi2. pose proof (proj1 (proj1 Fi2)) as I2.
    assert (Nspre : ~ In s pre). { pose proof (bops_nodup c1 dead1 b I1) as N. rewrite Es in N. apply NoDup_remove_2 in N. intros K. apply N. apply in_or_app. left. exact K. }
    destruct (Tl pre post Es Nspre) as (tail & Eb2 & Tnew).
    assert (Cb2 : bclean c2 b).
    { intros x K. rewrite Eb2 in K. apply in_app_or in K. destruct K as [K|K].
      - assert (Kx : In x (bops (blocks c1) b)) by (rewrite Es; apply in_or_app; left; exact K). assert (Ny : forall y, shape_at shape_of c1 x = Some y -> control y = false) by (intros y Sy; specialize (Pre x K); cbn beta in Pre; rewrite Sy in Pre; exact Pre).
        eapply op_kept; [exact I1 | exact P2 | exact N2 | exists b; exact Kx|]. split; [exact Ny | apply In1; [exact Kx | exact Ny]].
      - split; [intros y Sy; eapply new_plain; [exact N2 | apply Tnew; exact K | exact Sy]|]. intros r Rr. exfalso. apply (rparent_pr shape_of case_value effect truth equal answer _ _ _ _ _ r x P2) in Rr. pose proof (owner_old c1 dead1 I1 r x Rr). specialize (Tnew x K). lia. }
    (* the blocks that came from the bodies *)
    pose (front := fun ca cb : ctx => forall B, rblks (regions ca) P = (A0 ++ [b]) ++ B -> (exists B', rblks (regions cb) P = (A0 ++ [b]) ++ B') /\ forall a, In a (A0 ++ [b]) -> bops (blocks cb) a = bops (blocks ca) a).
    pose (okb := fun (cx : ctx) x => (exists B, rblks (regions cx) P = (A0 ++ [b]) ++ B) /\ In x (rblks (regions cx) P) /\ ~ In x (A0 ++ [b])).
    assert (Fr0 : forall cx, front cx cx) by (intros cx B EB; split; [exists B; exact EB | reflexivity]).
    assert (Frt : forall ca cb cc, front ca cb -> front cb cc -> front ca cc).
    { intros ca cb cc F1 F2 B EB. destruct (F1 B EB) as ((B' & EB') & K1). destruct (F2 B' EB') as (K3 & K4). split; [exact K3|]. intros a Ka. rewrite K4, K1 by exact Ka. reflexivity. }
    destruct (iter_going P front (block_at fuel depth) okb (fun _ _ => True) bs) with (c := c2) (dead := dead2) (c' := c') as (dead3 & (P3 & N3 & X3 & F3) & _).
    - intros cx dx x cy Fx ((B & EB) & Kx & Nx) Hx. rewrite EB in Kx. apply in_app_or in Kx. destruct Kx as [Kx|Kx]; [contradiction|]. apply in_split in Kx. destruct Kx as (U & W & ->).
      destruct (IH P cx dx x cy ((A0 ++ [b]) ++ U) W Fx) as (dy & B' & (Py & Ny & Xy & _) & Ey & Sy & _); [rewrite EB; apply app_assoc | exact Hx|]. exists dy. split; [|exact Logic.I]. split; [exact Py|]. split; [exact Ny|]. split; [exact Xy|]. intros B1 EB1. split.
      + exists (U ++ x :: B'). rewrite Ey. symmetry. apply app_assoc.
      + intros a Ka. apply Sy. apply in_or_app. left. exact Ka.
    - exact Fr0.
    - exact Frt.
    - intros ca da cb db x Fa (Pg & _ & _ & Fr) ((B & EB) & Kx & Nx). split; [apply (proj1 (Fr B EB))|]. split; [|exact Nx]. apply (in_rblks cb db x P); [apply Pg|]. apply (pr_bpar _ _ _ _ _ _ _ _ _ _ _ Pg); [eapply (self_outer shape_of); exact (proj1 (proj2 (proj1 Fa))) | apply (in_rblks ca da x P (proj1 (proj1 Fa))); exact Kx].
    - intros; exact Logic.I.
    - exact Fi2.
    - intros x Kx. destruct (Bs x Kx) as (K1 & K2). split; [exists B2; rewrite R2, <- app_assoc; reflexivity|]. split; [apply (in_rblks c2 dead2 x P I2); exact K1|]. intros Kf. apply K2. apply (in_rblks c1 dead1 x P I1). rewrite R1. apply in_app_or in Kf. apply in_or_app. destruct Kf as [Kf|[->|[]]]; [left; exact Kf | right; left; reflexivity].
    - exact H.
    - destruct (F3 B2) as ((B3 & R3) & Keep3); [rewrite R2, <- app_assoc; reflexivity|]. exists dead3, B3. split; [|split; [|split]].
      + eapply going_trans; [intros; exact Logic.I | exact Fi | exact Gany|]. eapply going_trans; [intros; exact Logic.I | exact Fi1 | exact G2|]. split; [exact P3|]. split; [exact N3|]. split; [exact X3 | exact Logic.I].
      + rewrite R3, <- app_assoc. reflexivity.
      + intros a K. rewrite Keep3 by (apply in_or_app; left; exact K). rewrite Keep2, Keep1 by exact K. reflexivity.
      + eapply bclean_kept; [exact I2 | exact P3 | exact N3 | apply Keep3; apply in_or_app; right; left; reflexivity | exact Cb2].
  Qed.
  Theorem transform_cleans depth fuel c dead P c' : ready c dead P -> all_few c P -> transform_region shape_of br_kind cond_br_kind cmp_kind bool_type const_kind case_value fuel depth c P = Some c' -> clean c' P.
  Proof. intros Rd Fw H. unfold transform_region in H. destruct (loop_cleans P _ fuel (block_cleans depth fuel P) 0 c dead c' (conj Rd Fw) ltac:(intros a []) H) as (dead' & _ & C). exact C. Qed.
  Theorem transform_whole depth fuel c dead P c' : inv c dead -> expected shape_of c dead P -> transform_region shape_of br_kind cond_br_kind cmp_kind bool_type const_kind case_value fuel depth c P = Some c' ->
    exists dead', progress P c dead c' dead' /\ spares c dead c' dead' /\ clean c' P.
  Proof.
    intros I X H. assert (Rd : ready c dead P).
    { split; [exact I|]. split; [apply X|]. split; [intros x d Ed K; apply (ex_ends _ _ _ _ X x d Ed); destruct (shape_of (o_kind d)); try discriminate K; reflexivity|]. split; [apply X|].
      intros o Ro S. unfold shape_at in S. destruct (nth_error (ops c) o) as [d|] eqn:Ed; [|discriminate]. injection S as S. exact (ex_owner _ _ _ _ X o d Ro Ed S). }
    assert (Fw : all_few c P). { intros x D. unfold ScfMain.few, shape_at. destruct (nth_error (ops c) x) as [d|] eqn:Ed; [|exact Logic.I]. exact (ex_results _ _ _ _ X x d D Ed). }
    unfold transform_region in H. destruct (loop_cleans P _ fuel (block_cleans depth fuel P) 0 c dead c' (conj Rd Fw) ltac:(intros a []) H) as (dead' & (Pg & _ & Sx & _) & C). exists dead'. split; [exact Pg|]. split; [exact Sx | exact C].
  Qed.
  Lemma kept_alike depth fuel c dead P c' r args v : inv c dead -> expected shape_of c dead P -> transform_region shape_of br_kind cond_br_kind cmp_kind bool_type const_kind case_value fuel depth c P = Some c' ->
    program_region shape_of c dead P r -> goes_right (seen shape_of case_value effect truth equal answer c r args (fun _ => v)) ->
    alike (seen shape_of case_value effect truth equal answer c r args (fun _ => v)) (seen shape_of case_value effect truth equal answer c' r args (fun _ => v)).
  Proof.
    intros I X H (Ow & Or) Gr. destruct (transform_whole depth fuel c dead P c' I X H) as (dead' & Pg & Sp & _). apply (pr_same _ _ _ _ _ _ _ _ _ _ _ Pg r args (fun _ => v)); [exact Ow | | reflexivity | exact Gr].
    destruct Or as [->|(Lr & Nr)]; [apply (pr_live _ _ _ _ _ _ _ _ _ _ _ Pg); [eapply (self_outer shape_of); apply X | apply X]|].
    intros o Ro. apply (rparent_pr shape_of case_value effect truth equal answer _ _ _ _ _ r o Pg) in Ro. apply Sp; [apply (owner_old c dead I r o Ro) | | apply Lr; exact Ro].
    intros s y Sy Cy. unfold shape_at in Sy. destruct (nth_error (ops c) s) as [d|] eqn:Ed; [|discriminate]. injection Sy as Sy. split.
    - intros ->. assert (F : structured (shape_of (o_kind d)) = false). { apply (Ow s _ Ro). unfold shape_at. rewrite Ed. reflexivity. } rewrite Sy in F. destruct y; discriminate.
    - apply (Nr o s d Ro Ed). rewrite Sy. destruct y; try discriminate Cy; reflexivity.
  Qed.
  Lemma none_left depth fuel c dead P c' : inv c dead -> expected shape_of c dead P -> transform_region shape_of br_kind cond_br_kind cmp_kind bool_type const_kind case_value fuel depth c P = Some c' ->
    forall x d, deep c' P x -> nth_error (ops c') x = Some d -> is_flow (shape_of (o_kind d)) = false.
  Proof.
    intros I X H x d D Ed. destruct (transform_whole depth fuel c dead P c' I X H) as (dead' & _ & _ & C). specialize (C x (shape_of (o_kind d)) D). unfold shape_at in C. rewrite Ed in C. specialize (C eq_refl). destruct (shape_of (o_kind d)); try discriminate C; reflexivity.
  Qed.
End Clean.
