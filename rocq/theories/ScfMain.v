(** Lowering a whole region. *)
From Verif Require Import ScfModel ScfSpec IrProofs IrInvProofs IrMainProofs ScfSim ScfRun ScfArena ScfLower ScfExits ScfObl ScfIf ScfLoop ScfSwitch ScfSwitchMain.
From Coq Require Import Lia.

Section Whole.
  Context {V E A : Type}.
  Variable shape_of : nat -> shape.
  Variable case_value : nat -> nat.
  Variable effect : nat -> list V -> act (V := V) (E := E) (A := A).
  Variable truth : V -> bool.
  Variable equal : V -> nat -> bool.
  Variable answer : list (E * A) -> E -> A.
  Variables br_kind cond_br_kind cmp_kind bool_type : nat.
  Variable const_kind : nat -> nat.
  Variable lit : nat -> V.
  Hypothesis Kb : shape_of br_kind = SBr.
  Hypothesis Kc : shape_of cond_br_kind = SCondBr.
  Hypothesis Kk : forall a, shape_of (const_kind a) = SPlain.
  Hypothesis Kq : shape_of cmp_kind = SPlain.
  Hypothesis const_effect : forall a, effect (const_kind a) [] = Finish [lit a].
  Hypothesis cmp_effect : forall v a, exists w, effect cmp_kind [v; lit a] = Finish [w] /\ truth w = equal v a.
  Local Notation settled := (settled shape_of case_value effect truth equal answer).
  Local Notation seen := (seen shape_of case_value effect truth equal answer).
  Local Notation bare c := (forall x d, nth_error (ops c) x = Some d -> is_exit (shape_of (o_kind d)) = true -> o_regions d = []).

  (** What work inside region [R] keeps. *)
  Record progress (R : nat) (c : ctx) (dead : list nat) (c1 : ctx) (dead1 : list nat) : Prop := {
    pr_inv : inv c1 dead1;
    pr_tidy : tidy c1 dead1;
    pr_bare : bare c1;
    pr_shape : forall x y, shape_at shape_of c x = Some y -> shape_at shape_of c1 x = Some y;
    pr_rpar : forall q, rpar (regions c1) q = rpar (regions c) q;
    pr_dead : forall x, In x dead -> In x dead1;
    pr_outer : forall R' q, outer c R' q -> outer c1 R' q;
    pr_live : forall q, outer c R q -> live c dead q -> live c1 dead1 q;
    pr_bpar : forall q b, outer c R q -> bpar (blocks c) b = Some q -> bpar (blocks c1) b = Some q;
    pr_stands : forall q x, outer c R q -> q <> R -> stands c x q -> stands c1 x q;
    pr_same : forall r args e, owned_by_other shape_of c structured r -> live c1 dead1 r -> (forall v w, e v = e w) ->
                goes_right (seen c r args e) -> alike (seen c r args e) (seen c1 r args e);
  }.
  Lemma alike_refl (x : nat -> option (ending (V := V)) * trace (E := E) (A := A)) : alike x x.
  Proof. split; intros n; exists n; reflexivity. Qed.
  Lemma alike_trans (x y z : nat -> option (ending (V := V)) * trace (E := E) (A := A)) : alike x y -> alike y z -> alike x z.
  Proof.
    intros (A1 & A2) (B1 & B2). split; intros n.
    - destruct (A1 n) as (k & <-). apply B1.
    - destruct (B2 n) as (k & <-). apply A2.
  Qed.
  Lemma right_alike (x y : nat -> option (ending (V := V)) * trace (E := E) (A := A)) : alike x y -> goes_right x -> goes_right y.
  Proof. intros (_ & A2) G n. destruct (A2 n) as (k & <-). apply G. Qed.
  Lemma progress_refl R c dead : inv c dead -> tidy c dead -> bare c -> progress R c dead c dead.
  Proof. intros. constructor; auto. intros. apply alike_refl. Qed.
  Lemma rparent_pr R c dead c1 dead1 q o : progress R c dead c1 dead1 -> (region_parent c1 q o <-> region_parent c q o).
  Proof. intros Pg. rewrite !rpar_in, (pr_rpar _ _ _ _ _ Pg). reflexivity. Qed.
  Lemma live_back R c dead c1 dead1 q : progress R c dead c1 dead1 -> live c1 dead1 q -> live c dead q.
  Proof. intros Pg L o Ro D. apply (L o); [apply (rparent_pr _ _ _ _ _ q o Pg); exact Ro | apply (pr_dead _ _ _ _ _ Pg); exact D]. Qed.
  Lemma owned_kept R c dead c1 dead1 bad q : inv c dead -> progress R c dead c1 dead1 -> owned_by_other shape_of c bad q -> owned_by_other shape_of c1 bad q.
  Proof.
    intros I Pg O o x Ro Sx. apply (rparent_pr _ _ _ _ _ q o Pg) in Ro. destruct (shape_at shape_of c o) as [y|] eqn:Ey.
    - pose proof (pr_shape _ _ _ _ _ Pg o y Ey) as S2. assert (x = y) as -> by congruence. eapply O; eassumption.
    - exfalso. apply rpar_in in Ro. apply (in_oregs c dead q o I) in Ro. unfold oregs in Ro. unfold shape_at in Ey. destruct (nth_error (ops c) o); [discriminate | destruct Ro].
  Qed.
  Lemma progress_trans R c dead c1 dead1 c2 dead2 : inv c dead -> progress R c dead c1 dead1 -> progress R c1 dead1 c2 dead2 -> progress R c dead c2 dead2.
  Proof.
    intros I P1 P2. constructor.
    - apply P2.
    - apply P2.
    - apply P2.
    - intros x y K. apply (pr_shape _ _ _ _ _ P2), (pr_shape _ _ _ _ _ P1), K.
    - intros q. rewrite (pr_rpar _ _ _ _ _ P2). apply (pr_rpar _ _ _ _ _ P1).
    - intros x K. apply (pr_dead _ _ _ _ _ P2), (pr_dead _ _ _ _ _ P1), K.
    - intros R' q K. apply (pr_outer _ _ _ _ _ P2), (pr_outer _ _ _ _ _ P1), K.
    - intros q O K. apply (pr_live _ _ _ _ _ P2); [apply (pr_outer _ _ _ _ _ P1) | apply (pr_live _ _ _ _ _ P1)]; assumption.
    - intros q b O K. apply (pr_bpar _ _ _ _ _ P2); [apply (pr_outer _ _ _ _ _ P1) | apply (pr_bpar _ _ _ _ _ P1)]; assumption.
    - intros q x O N K. apply (pr_stands _ _ _ _ _ P2); [apply (pr_outer _ _ _ _ _ P1) | | apply (pr_stands _ _ _ _ _ P1)]; assumption.
    - intros r args e O L Ee G. assert (L1 : live c1 dead1 r) by (eapply live_back; eassumption). pose proof (pr_same _ _ _ _ _ P1 r args e O L1 Ee G) as A1. eapply alike_trans; [exact A1|]. apply (pr_same _ _ _ _ _ P2); [eapply owned_kept; eassumption | exact L | exact Ee | eapply right_alike; eassumption].
  Qed.
  (** Work inside a region of an operation of [P] is work inside [P]. *)
  Lemma progress_up P r o c dead c1 dead1 : region_parent c r o -> stands c o P -> progress r c dead c1 dead1 -> progress P c dead c1 dead1.
  Proof.
    intros Ro S Pg. assert (Up : forall q, outer c P q -> outer c r q) by (intros q O z Rz D; apply (O z Rz); eapply deep_trans; [apply deep_here; exact S | exact Ro | exact D]).
    constructor; [apply Pg | apply Pg | apply Pg | apply (pr_shape _ _ _ _ _ Pg) | apply (pr_rpar _ _ _ _ _ Pg) | apply (pr_dead _ _ _ _ _ Pg) | apply (pr_outer _ _ _ _ _ Pg) | | | | apply (pr_same _ _ _ _ _ Pg)].
    - intros q O K. apply (pr_live _ _ _ _ _ Pg); [apply Up; exact O | exact K].
    - intros q b O K. apply (pr_bpar _ _ _ _ _ Pg); [apply Up; exact O | exact K].
    - intros q x O N K. apply (pr_stands _ _ _ _ _ Pg); [apply Up; exact O | | exact K]. intros ->. apply (O o Ro). apply deep_here. exact S.
  Qed.
  Lemma self_outer c dead R : tidy c dead -> outer c R R.
  Proof using shape_of. intros T o Ro D. destruct (ti_rank c dead T) as (rank & Rk). pose proof (deep_rank shape_of c rank R o Rk D o Ro) as X. exact (Nat.lt_irrefl _ X). Qed.
  Lemma up_outer c dead r o P : tidy c dead -> region_parent c r o -> stands c o P -> outer c r P /\ P <> r.
  Proof using shape_of.
    intros T Ro S. destruct (ti_rank c dead T) as (rank & Rk). split.
    - intros z Rz D. pose proof (deep_rank shape_of c rank r z Rk D o Ro) as X. pose proof (Rk _ _ _ S Rz) as Y. exact (Nat.lt_asymm _ _ X Y).
    - intros ->. pose proof (Rk _ _ _ S Ro) as X. exact (Nat.lt_irrefl _ X).
  Qed.

  Lemma settled_progress c dead c' b s P bs : inv c dead -> tidy c dead -> bare c -> settled c dead c' b s P bs -> exists dead', progress P c dead c' dead' /\ (forall x, In x bs -> bpar (blocks c') x = Some P /\ bpar (blocks c) x <> Some P) /\
    exists y, shape_at shape_of c s = Some y /\ control y = true /\ forall x, In x dead' -> In x dead \/ x = s \/ inside_op c s x.
  Proof.
    intros I T Ba (dead' & m & pre & post & Q & log & tail & arg & L & En & Ex & On & HB). exists dead'.
    pose proof (s_stands shape_of _ _ _ _ _ _ _ _ _ _ _ _ _ _ I L) as Ss. pose proof (deep_here c P s Ss) as Ds. split; [|split].
    3:{ destruct (lo_shape _ _ _ _ _ _ _ _ _ _ _ _ _ _ _ L) as (y & Sy & Cy). exists y. split; [exact Sy|]. split; [exact Cy|]. intros x K. destruct (lo_killed _ _ _ _ _ _ _ _ _ _ _ _ _ _ _ L x K) as [K1|(K1 & _)]; [left; exact K1 | right; exact K1]. }
    2:{ intros x Kx. destruct (HB x Kx) as (q & Eq & Pq). split; [rewrite (lo_bpar _ _ _ _ _ _ _ _ _ _ _ _ _ _ _ L x (bpar_old c x q Pq)), Pq; cbn [option_map]; rewrite (rho_in P Q q Eq); reflexivity|]. rewrite Pq. intros [= ->]. pose proof (P_not_Q shape_of _ _ _ _ _ _ _ _ _ _ _ _ _ _ I T L) as N. congruence. }
    constructor.
    - exact (lo_inv _ _ _ _ _ _ _ _ _ _ _ _ _ _ _ L).
    - eapply tidy_after; eassumption.
    - intros x d' E' X. destruct (nth_error (ops c) x) as [d|] eqn:E0.
      + destruct (lo_ops _ _ _ _ _ _ _ _ _ _ _ _ _ _ _ L x d E0) as (d2 & E2 & (K1 & _ & K3 & _) & _). assert (d2 = d') as -> by congruence. rewrite K3. apply (Ba x d E0). rewrite <- K1. exact X.
      + apply nth_error_None in E0. apply (lo_new _ _ _ _ _ _ _ _ _ _ _ _ _ _ _ L x d' E0 E').
    - intros x y K. eapply shape_kept'; eassumption.
    - exact (lo_rpar _ _ _ _ _ _ _ _ _ _ _ _ _ _ _ L).
    - exact (lo_dead _ _ _ _ _ _ _ _ _ _ _ _ _ _ _ L).
    - intros R' q O. eapply outer_after; eassumption.
    - intros q O K. eapply outer_live; eassumption.
    - intros q x O K. eapply outer_bpar; eassumption.
    - intros q x O N K. pose proof (outer_not_Q shape_of _ _ _ _ _ _ _ _ _ _ _ _ _ _ L P q Ds O) as Qq. rewrite <- (rho_out P Q q Qq). eapply stands_after; try eassumption.
      + intros ->. apply N. eapply stands_unique; eassumption.
      + destruct (image log x) as [z|] eqn:Im; [|reflexivity]. exfalso. destruct (lo_log _ _ _ _ _ _ _ _ _ _ _ _ _ _ _ L x z Im) as (_ & _ & (q1 & R1 & D1)). destruct D1 as [x S1|x q' o S1 Ro D1].
        * assert (q1 = q) as -> by (eapply stands_unique; eassumption). exact (O s R1 Ds).
        * assert (q' = q) as -> by (eapply stands_unique; eassumption). apply (O o Ro). eapply deep_trans; eassumption.
    - intros r args e O Lr Ee G. eapply region_alike; try eassumption.
      + destruct (Q r) eqn:Qr; [|reflexivity]. exfalso. pose proof (lo_Q _ _ _ _ _ _ _ _ _ _ _ _ _ _ _ L r Qr) as Ch. destruct (lo_shape _ _ _ _ _ _ _ _ _ _ _ _ _ _ _ L) as (x & Sx & Cx). unfold child in Ch. rewrite Sx in Ch. destruct x; try discriminate Cx.
        * pose proof (O _ _ Ch Sx) as F. discriminate F.
        * pose proof (O _ _ Ch Sx) as F. discriminate F.
        * destruct Ch as (y & q' & R1 & [S1|S1] & _); pose proof (O _ _ R1 S1) as F; discriminate F.
      + intros o Ro D. apply (Lr o); [apply rpar_in; rewrite (lo_rpar _ _ _ _ _ _ _ _ _ _ _ _ _ _ _ L); apply rpar_in; exact Ro | apply (lo_dead _ _ _ _ _ _ _ _ _ _ _ _ _ _ _ L); exact D].
  Qed.

  (** ** The recursion *)
  Definition ready (c : ctx) (dead : list nat) (P : nat) : Prop :=
    inv c dead /\ tidy c dead /\ bare c /\ live c dead P /\ (forall o, region_parent c P o -> shape_at shape_of c o <> Some SSwitch).
  Lemma ready_after P c dead c1 dead1 R : ready c dead P -> outer c R P -> progress R c dead c1 dead1 -> ready c1 dead1 P.
  Proof.
    intros (I & T & Ba & Li & Pl) O Pg. split; [apply Pg|]. split; [apply Pg|]. split; [apply Pg|]. split; [apply (pr_live _ _ _ _ _ Pg); assumption|].
    intros o Ro S. assert (X : owned_by_other shape_of c1 (fun x => match x with SSwitch => true | _ => false end) P).
    { eapply owned_kept; [exact I | exact Pg|]. intros z x Rz Sz. specialize (Pl z Rz). destruct x; try reflexivity. contradiction. }
    specialize (X o SSwitch Ro S). discriminate X.
  Qed.
  (** Applying [f] at [x] is work inside [P] that also keeps what [keep] says. *)
  Definition works_on (P : nat) (keep : ctx -> ctx -> Prop) (f : ctx -> nat -> option ctx) (ok : ctx -> nat -> Prop) : Prop :=
    forall c dead x c', ready c dead P -> ok c x -> f c x = Some c' -> exists dead', progress P c dead c' dead' /\ keep c c'.
  Lemma iter_progress P keep f (ok : ctx -> nat -> Prop) l : works_on P keep f ok -> (forall c, keep c c) -> (forall c1 c2 c3, keep c1 c2 -> keep c2 c3 -> keep c1 c3) ->
    (forall c dead c1 dead1 x, ready c dead P -> progress P c dead c1 dead1 -> keep c c1 -> ok c x -> ok c1 x) ->
    forall c dead c', ready c dead P -> (forall x, In x l -> ok c x) -> iter f c l = Some c' -> exists dead', progress P c dead c' dead' /\ keep c c'.
  Proof.
    intros W K0 K2 K. induction l as [|x l IH]; intros c dead c' Rd O H; cbn [iter] in H.
    - injection H as <-. exists dead. split; [|apply K0]. destruct Rd as (I & T & Ba & _). apply progress_refl; assumption.
    - bindin H c1 E1. destruct (W c dead x c1 Rd (O x (or_introl eq_refl)) E1) as (dead1 & P1 & K1). assert (Rd1 : ready c1 dead1 P) by (eapply ready_after; [exact Rd | apply (self_outer c dead); apply Rd | exact P1]).
      destruct (IH c1 dead1 c' Rd1) as (dead2 & P2 & K3); [intros y Hy; eapply K; [exact Rd | exact P1 | exact K1 | apply O; right; exact Hy] | exact H|]. exists dead2. split; [eapply progress_trans; [exact (proj1 Rd) | exact P1 | exact P2] | eapply K2; eassumption].
  Qed.
  Definition anything (c c' : ctx) : Prop := True.
  Lemma loop_progress P block n : works_on P anything block (fun c b => bpar (blocks c) b = Some P) -> forall i c dead c', ready c dead P -> region_loop block n c P i = Some c' -> exists dead', progress P c dead c' dead'.
  Proof.
    intros W. induction n as [|n IH]; intros i c dead c' Rd H; cbn [region_loop] in H; [discriminate|]. bindin H rgd Eg. destruct (nth_error (r_blocks rgd) i) as [b|] eqn:Eb.
    - bindin H c1 E1. assert (Bp : bpar (blocks c) b = Some P). { apply (in_rblks c dead b P); [apply Rd|]. unfold rblks. rewrite Eg. eapply nth_error_In. exact Eb. }
      destruct (W c dead b c1 Rd Bp E1) as (dead1 & P1 & _). assert (Rd1 : ready c1 dead1 P) by (eapply ready_after; [exact Rd | apply (self_outer c dead); apply Rd | exact P1]).
      destruct (IH (S i) c1 dead1 c' Rd1 H) as (dead2 & P2). exists dead2. eapply progress_trans; [exact (proj1 Rd) | exact P1 | exact P2].
    - injection H as <-. exists dead. destruct Rd as (I & T & Ba & _). apply progress_refl; assumption.
  Qed.
  Local Notation block_at := (transform_block shape_of br_kind cond_br_kind cmp_kind bool_type const_kind case_value).
  Definition same_place (P : nat) (c c' : ctx) : Prop := forall x, stands c x P -> stands c' x P.
  (** A region of an operation of [P] that is not structured control flow. *)
  Definition nested (P : nat) (c : ctx) (r : nat) : Prop := exists o, region_parent c r o /\ stands c o P /\ shape_at shape_of c o <> Some SSwitch.
  Lemma nested_ready P c dead r : ready c dead P -> nested P c r -> ready c dead r.
  Proof.
    intros (I & T & Ba & Li & Pl) (o & Ro & S & Sh). split; [exact I|]. split; [exact T|]. split; [exact Ba|]. split.
    - intros z Rz. assert (z = o) as -> by (eapply rparent_unique; eassumption). eapply ti_live; eassumption.
    - intros z Rz. assert (z = o) as -> by (eapply rparent_unique; eassumption). exact Sh.
  Qed.
  Lemma shape_back R c dead c1 dead1 o x : progress R c dead c1 dead1 -> (exists q, stands c o q) -> inv c dead -> shape_at shape_of c o <> Some x -> shape_at shape_of c1 o <> Some x.
  Proof.
    intros Pg (q & S) I N X. apply N. destruct (stands_old c dead I o q S) as (d & Ed). assert (Sd : shape_at shape_of c o = Some (shape_of (o_kind d))) by (unfold shape_at; rewrite Ed; reflexivity).
    pose proof (pr_shape _ _ _ _ _ Pg _ _ Sd). congruence.
  Qed.
  Lemma nested_kept P c dead c1 dead1 r : inv c dead -> progress P c dead c1 dead1 -> same_place P c c1 -> nested P c r -> nested P c1 r.
  Proof.
    intros I Pg Sp (o & Ro & S & Sh). exists o. split; [apply (rparent_pr _ _ _ _ _ r o Pg); exact Ro|]. split; [apply Sp; exact S | eapply shape_back; eauto].
  Qed.
  Lemma region_progress depth fuel n P : (forall R, works_on R anything (block_at fuel depth) (fun c b => bpar (blocks c) b = Some R)) ->
    works_on P (same_place P) (fun c r => region_loop (block_at fuel depth) n c r 0) (nested P).
  Proof.
    intros W c dead r c' Rd Ne H. destruct (loop_progress r _ n (W r) 0 c dead c' (nested_ready _ _ _ _ Rd Ne) H) as (dead' & Pg). exists dead'. destruct Ne as (o & Ro & S & _). split; [eapply progress_up; eassumption|].
    destruct Rd as (I & T & _). destruct (up_outer c dead r o P T Ro S) as (O & N). intros x K. apply (pr_stands _ _ _ _ _ Pg); assumption.
  Qed.
  Lemma nested_progress depth fuel n P : (forall R, works_on R anything (block_at fuel depth) (fun c b => bpar (blocks c) b = Some R)) ->
    works_on P (same_place P) (nested_first shape_of (fun c r => region_loop (block_at fuel depth) n c r 0)) (fun c o => stands c o P).
  Proof.
    intros W c dead o c' Rd S H. unfold nested_first in H. bindin H d Ed. destruct (control (shape_of (o_kind d))) eqn:Ct.
    - injection H as <-. exists dead. split; [|intros x K; exact K]. destruct Rd as (I & T & Ba & _). apply progress_refl; assumption.
    - revert H. apply (iter_progress P (same_place P) _ (nested P) _ (region_progress depth fuel n P W)); [intros c0 x K; exact K | intros c1 c2 c3 K1 K2 x K; apply K2, K1, K | intros; eapply nested_kept; try eassumption; apply H | exact Rd|].
      intros r K. exists o. split; [eapply regions_owned; try eassumption; apply Rd|]. split; [exact S|]. unfold shape_at. rewrite Ed. cbn [option_map]. intros [= X]. rewrite X in Ct. discriminate.
  Qed.
  (** No more results than the lowering can pass on. *)
  Definition few (c : ctx) (s : nat) : Prop :=
    match shape_at shape_of c s with Some SIf | Some SLoop => length (op_results c s) <= 1 | Some SSwitch => op_results c s = [] | _ => True end.
  Lemma one_lowering fuel depth c dead b s P c2 bs : ready c dead P -> bpar (blocks c) b = Some P ->
    match shape_at shape_of c s with
    | Some SIf => lower_if shape_of br_kind cond_br_kind depth c b s
    | Some SLoop => lower_loop shape_of br_kind fuel depth c b s
    | Some SSwitch => lower_switch shape_of br_kind cond_br_kind cmp_kind bool_type const_kind case_value depth c b s
    | _ => Some (c, [])
    end = Some (c2, bs) ->
    (c2 = c /\ bs = [] /\ (few c s -> forall x, shape_at shape_of c s = Some x -> control x = false)) \/ settled c dead c2 b s P bs.
  Proof.
    intros (I & T & Ba & Li & Pl) Bp E2. unfold few. destruct (shape_at shape_of c s) as [[]|] eqn:Sh; try (injection E2 as <- <-; left; split; [reflexivity|]; split; [reflexivity|]; intros _ x [= <-]; reflexivity).
    - destruct (lower_if_settled shape_of case_value effect truth equal answer br_kind cond_br_kind Kb Kc c dead I T Ba b s P Bp Li Pl depth c2 bs E2 Sh) as [(K1 & K2 & K3)|K]; [left; split; [exact K1|]; split; [exact K2|]; intros; lia | right; exact K].
    - destruct (lower_loop_settled shape_of case_value effect truth equal answer br_kind Kb c dead I T Ba b s P Bp Li Pl fuel depth c2 bs E2 Sh) as [(K1 & K2 & K3)|K]; [left; split; [exact K1|]; split; [exact K2|]; intros; lia | right; exact K].
    - destruct (lower_switch_settled shape_of case_value effect truth equal answer br_kind cond_br_kind cmp_kind bool_type const_kind lit Kb Kc Kk Kq const_effect cmp_effect c dead I T Ba b s P Bp Li Pl depth c2 bs E2 Sh) as [(K1 & K2 & K3)|K]; [left; split; [exact K1|]; split; [exact K2|]; intros; contradiction | right; exact K].
  Qed.
  Lemma block_progress depth fuel : forall P, works_on P anything (block_at fuel depth) (fun c b => bpar (blocks c) b = Some P).
  Proof.
    induction fuel as [|fuel IH]; intros P c dead b c' Rd Bp H; cbn [transform_block] in H; [discriminate|]. bindin H bd Eb. bindin H c1 E1.
    assert (Sb : forall x, In x (b_ops bd) -> stands c x P). { intros x K. assert (I : inv c dead) by apply Rd. apply (stands_par c dead x P I). exists b. split; [|exact Bp]. apply (in_bops c dead x b I). unfold bops. rewrite Eb. exact K. }
    destruct (iter_progress P (same_place P) _ _ (b_ops bd) (nested_progress depth fuel fuel P IH) ltac:(intros c0 x K; exact K) ltac:(intros c2 c3 c4 K1 K2 x K; apply K2, K1, K) ltac:(intros c2 dead2 c3 dead3 x _ _ Sp K; apply Sp; exact K) c dead c1 Rd Sb E1) as (dead1 & P1 & _).
    assert (Oc : outer c P P) by (apply (self_outer c dead); apply Rd). assert (Rd1 : ready c1 dead1 P) by (eapply ready_after; eassumption). assert (Bp1 : bpar (blocks c1) b = Some P) by (apply (pr_bpar _ _ _ _ _ P1); assumption).
    destruct (first_control shape_of c1 (b_ops bd)) as [s|] eqn:Fc; [|injection H as <-; exists dead1; split; [exact P1 | exact Logic.I]]. bindin H y2 E2. destruct y2 as [c2 bs].
    assert (Go : exists dead2, progress P c1 dead1 c2 dead2 /\ (forall x, In x bs -> bpar (blocks c2) x = Some P /\ bpar (blocks c1) x <> Some P)).
    { pose proof (one_lowering fuel depth c1 dead1 b s P c2 bs Rd1 Bp1 E2) as J.
      destruct Rd1 as (I & T & Ba & Li & Pl). destruct J as [(-> & -> & _)|J]; [exists dead1; split; [apply progress_refl; assumption | intros x []] | destruct (settled_progress c1 dead1 c2 b s P bs I T Ba J) as (dead2 & K1 & K2 & _); exists dead2; split; assumption]. }
    destruct Go as (dead2 & P2 & Bs). assert (P12 : progress P c dead c2 dead2) by (eapply progress_trans; [exact (proj1 Rd) | exact P1 | exact P2]). assert (Rd2 : ready c2 dead2 P) by (exact (ready_after P c dead c2 dead2 P Rd Oc P12)).
    destruct (iter_progress P anything _ _ bs (IH P) ltac:(intros; exact Logic.I) ltac:(intros; exact Logic.I) ltac:(intros c3 dead3 c4 dead4 x R3 P3 _ K; apply (pr_bpar _ _ _ _ _ P3); [apply (self_outer c3 dead3); apply R3 | exact K]) c2 dead2 c' Rd2 (fun x K => proj1 (Bs x K)) H) as (dead3 & P3 & _).
    exists dead3. split; [|exact Logic.I]. eapply progress_trans; [exact (proj1 Rd) | exact P12 | exact P3].
  Qed.
  Theorem transform_progress depth fuel c dead P c' : ready c dead P -> transform_region shape_of br_kind cond_br_kind cmp_kind bool_type const_kind case_value fuel depth c P = Some c' -> exists dead', progress P c dead c' dead'.
  Proof. intros Rd H. unfold transform_region in H. eapply loop_progress; [apply block_progress | exact Rd | exact H]. Qed.
End Whole.
