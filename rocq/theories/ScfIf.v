(** Lowering one if. *)
From Verif Require Import ScfModel ScfSpec IrProofs IrInvProofs IrMainProofs ScfSim ScfRun ScfArena ScfLower ScfExits ScfObl.
From Coq Require Import Lia.

Lemma moves_refl c : moves c c.
Proof. constructor; try reflexivity. intros x d K E. apply nth_error_None in K. congruence. Qed.

(** ** The first steps of every lowering *)
Section Open.
  Variable shape_of : nat -> shape.
  Variable c : ctx.
  Variable dead : list nat.
  Hypothesis I : inv c dead.
  Variables b s P : nat.
  Hypothesis Bp : bpar (blocks c) b = Some P.
  Hypothesis Li : live c dead P.
  Hypothesis Pl : forall o, region_parent c P o -> shape_at shape_of c o <> Some SSwitch.
  Hypothesis Sh : exists x, shape_at shape_of c s = Some x /\ control x = true.

  Definition opening (c3 : ctx) (m : nat) (result : option nat) : Prop := exists pre post a,
    lowering shape_of c dead c3 dead b s P m pre post (fun _ => false) [] [] (option_map (fun r => (r, a)) result) /\
    parent_region c3 b = Some P /\ length (ops c3) = length (ops c) /\ length (blocks c3) = S (length (blocks c)) /\ m = length (blocks c) /\ length (vals c) <= length (vals c3).
  Definition fits (result : option nat) : Prop := match result with Some r => op_results c s = [r] | None => op_results c s = [] \/ exists r, op_results c s = [r] /\ uses c r = [] end.
  Lemma opened_if result c1 m c2 c3 : split_block c b s = Some (c1, m) -> carry c1 m result = Some c2 -> detach_op c2 s = Some c3 -> fits result -> opening c3 m result.
  Proof.
    intros E1 E2 E3 F. destruct (split_ok c dead b s c1 m E1 I) as (pre & post & P' & X & Y & Hb & Ns & Hp & Hr & Em & M1 & I1 & B1 & P1 & R1 & L1 & _). assert (P' = P) as -> by congruence.
    pose proof (carry_ok c1 dead m result c2 E2 I1) as C. pose proof (ca_inv _ _ _ _ _ C) as I2. destruct (detach_ok c2 dead s c3 E3 I2) as (M3 & I3 & B3 & P3 & R3 & _ & L3).
    assert (Lb : b < length (blocks c)) by (apply (bpar_old c b P); exact Bp).
    assert (Nd : ~ In s post). { pose proof (bops_nodup c dead b I) as N. rewrite Hb in N. apply NoDup_remove_2 in N. rewrite in_app_iff in N. tauto. }
    exists pre, post, (length (vals c1)). split; [|split; [|split; [|split; [|split; [exact Em|]]]]].
    - eapply (start shape_of c dead I b s P m pre post _ c1 c2 c3 X Y); try eassumption.
      + intros x. rewrite B3, (ca_bops _ _ _ _ _ C), B1. destruct (Nat.eqb_spec x b) as [->|Nx]; [apply without_absent; exact Ns|]. destruct (Nat.eqb_spec x m) as [->|].
        * change (s :: post) with ([s] ++ post). rewrite without_app, (without_absent s post Nd). unfold without. cbn [filter]. rewrite Nat.eqb_refl. reflexivity.
        * apply without_absent. intros K. apply (in_bops c dead s x I) in K. assert (K0 : In s (bops (blocks c) b)) by (rewrite Hb; apply in_elt). apply (in_bops c dead s b I) in K0. congruence.
      + intros x. rewrite P3, (ca_bpar _ _ _ _ _ C). apply P1.
      + intros q. rewrite R3, (ca_regions _ _ _ _ _ C). apply R1.
      + rewrite L3, (ca_blen _ _ _ _ _ C). exact L1.
      + destruct result; exact F.
    - unfold parent_region. pose proof (P3 b) as K. rewrite (ca_bpar _ _ _ _ _ C), P1 in K. destruct (Nat.eqb_spec b m); [lia|]. rewrite Bp in K. unfold bpar in K. destruct (nth_error (blocks c3) b) as [bd|]; [exact K | discriminate].
    - rewrite (mv_len _ _ M3), (ca_olen _ _ _ _ _ C), (mv_len _ _ M1). reflexivity.
    - rewrite L3, (ca_blen _ _ _ _ _ C). exact L1.
    - rewrite (mv_vals _ _ M3), <- (mv_vals _ _ M1). apply C.
  Qed.
  Lemma opened_late result c1 m c2 c3 : split_block c b s = Some (c1, m) -> detach_op c1 s = Some c2 -> carry c2 m result = Some c3 -> fits result -> opening c3 m result.
  Proof.
    intros E1 E2 E3 F. destruct (split_ok c dead b s c1 m E1 I) as (pre & post & P' & X & Y & Hb & Ns & Hp & Hr & Em & M1 & I1 & B1 & P1 & R1 & L1 & _). assert (P' = P) as -> by congruence.
    destruct (detach_ok c1 dead s c2 E2 I1) as (M2 & I2 & B2 & P2 & R2 & _ & L2). pose proof (carry_ok c2 dead m result c3 E3 I2) as C. pose proof (ca_inv _ _ _ _ _ C) as I3.
    assert (Lb : b < length (blocks c)) by (apply (bpar_old c b P); exact Bp). pose proof (moves_trans _ _ _ M1 M2) as M.
    assert (Nd : ~ In s post). { pose proof (bops_nodup c dead b I) as N. rewrite Hb in N. apply NoDup_remove_2 in N. rewrite in_app_iff in N. tauto. }
    exists pre, post, (length (vals c2)). split; [|split; [|split; [|split; [|split; [exact Em|]]]]].
    - eapply (start shape_of c dead I b s P m pre post _ c2 c3 c3 X Y); try eassumption.
      + apply moves_refl.
      + intros x. rewrite (ca_bops _ _ _ _ _ C), B2, B1. destruct (Nat.eqb_spec x b) as [->|Nx]; [apply without_absent; exact Ns|]. destruct (Nat.eqb_spec x m) as [->|].
        * change (s :: post) with ([s] ++ post). rewrite without_app, (without_absent s post Nd). unfold without. cbn [filter]. rewrite Nat.eqb_refl. reflexivity.
        * apply without_absent. intros K. apply (in_bops c dead s x I) in K. assert (K0 : In s (bops (blocks c) b)) by (rewrite Hb; apply in_elt). apply (in_bops c dead s b I) in K0. congruence.
      + intros x. rewrite (ca_bpar _ _ _ _ _ C), P2. apply P1.
      + intros q. rewrite (ca_regions _ _ _ _ _ C), R2. apply R1.
      + rewrite (ca_blen _ _ _ _ _ C), L2. exact L1.
      + destruct result; exact F.
    - unfold parent_region. pose proof (ca_bpar _ _ _ _ _ C b) as K. rewrite P2, P1 in K. destruct (Nat.eqb_spec b m); [lia|]. rewrite Bp in K. unfold bpar in K. destruct (nth_error (blocks c3) b) as [bd|]; [exact K | discriminate].
    - rewrite (ca_olen _ _ _ _ _ C), (mv_len _ _ M). reflexivity.
    - rewrite (ca_blen _ _ _ _ _ C), L2. exact L1.
    - rewrite <- (mv_vals _ _ M). apply C.
  Qed.
End Open.

Lemma no_new c P c1 dead1 x q : inv c1 dead1 -> length (ops c1) = length (ops c) -> stands c1 x q -> length (ops c) <= x -> q = P.
Proof. intros I1 E S K. destruct (stands_old c1 dead1 I1 x q S) as (d & Ed). assert (x < length (ops c1)) by (apply nth_error_Some; congruence). lia. Qed.

Section Common.
  Variable shape_of : nat -> shape.
  Variable br_kind : nat.
  Variable c : ctx.
  Variable dead : list nat.
  Hypothesis I : inv c dead.
  Hypothesis T : tidy c dead.
  Variables b s P m : nat.
  Variables pre post : list nat.
  Variable arg : option (nat * nat).
  Local Notation low c1 dead1 Q log tail := (lowering shape_of c dead c1 dead1 b s P m pre post Q log tail arg).

  Lemma first_stage turn c1 dead1 Q tail : low c1 dead1 Q [] tail -> length (ops c1) = length (ops c) -> stage shape_of br_kind c dead b s P m pre post arg turn Q tail c1 dead1 [].
  Proof. intros L E. constructor; [exact L | discriminate|]. intros z d K Ed. assert (z < length (ops c1)) by (apply nth_error_Some; congruence). lia. Qed.
  Lemma own_site c1 dead1 Q log tail b1 r : low c1 dead1 Q log tail -> bpar (blocks c) b1 = Some r -> Q r = true -> site c s P Q c1 dead1 b1 r.
  Proof.
    intros L E EQ. split; [exact E|]. split.
    - intros x Sx. eapply inside_child; [apply L; exact EQ | apply deep_here; exact Sx].
    - rewrite (rho_in P Q r EQ). eapply P_live; eassumption.
  Qed.
  Lemma own_alive c1 dead1 Q log tail : low c1 dead1 Q log tail -> ~ In s dead.
  Proof. intros L. apply (ti_live c dead T s P); [eapply s_stands; eassumption | apply L]. Qed.
  Lemma own_swap c1 dead1 Q log tail d : low c1 dead1 Q log tail -> nth_error (ops c) s = Some d -> map (swap arg) (o_operands d) = o_operands d.
  Proof.
    intros L E. rewrite <- (map_id (o_operands d)) at 2. apply map_ext_in. intros v Kv. destruct (ti_exist c dead T s d v E (own_alive _ _ _ _ _ L) Kv) as (_ & N). pose proof (lo_arg _ _ _ _ _ _ _ _ _ _ _ _ _ _ _ L) as A. unfold swap. destruct arg as [[r a]|]; [|reflexivity].
    destruct (Nat.eqb_spec v r) as [->|]; [|reflexivity]. destruct A as (A & _). rewrite A in N. exfalso. apply N. left. reflexivity.
  Qed.
  Lemma own_vals c1 dead1 Q log tail d v : low c1 dead1 Q log tail -> nth_error (ops c) s = Some d -> In v (o_operands d) -> v < length (vals c1).
  Proof. intros L E K. destruct (ti_exist c dead T s d v E (own_alive _ _ _ _ _ L) K) as (K1 & _). pose proof (lo_vals _ _ _ _ _ _ _ _ _ _ _ _ _ _ _ L). lia. Qed.
End Common.

Ltac bindin H y E := match type of H with obind ?x _ = Some _ => destruct x as [y|] eqn:E; [cbn [obind] in H | discriminate H] end.

(** ** What a lowering leaves *)
Section Settled.
  Context {V E A : Type}.
  Variable shape_of : nat -> shape.
  Variable case_value : nat -> nat.
  Variable effect : nat -> list V -> act (V := V) (E := E) (A := A).
  Variable truth : V -> bool.
  Variable equal : V -> nat -> bool.
  Variable answer : list (E * A) -> E -> A.
  Definition settled (c : ctx) (dead : list nat) (c' : ctx) (b s P : nat) (bs : list nat) : Prop := exists dead' m pre post Q log tail arg,
    lowering shape_of c dead c' dead' b s P m pre post Q log tail arg /\
    enters_ok shape_of case_value effect truth equal answer c dead c' s P post Q log tail arg /\
    exits_ok shape_of case_value effect truth equal answer c dead c' s P post Q log tail arg /\
    only_exits_ok (V := V) (E := E) (A := A) shape_of c dead s P post Q log tail /\
    (forall x, In x bs -> exists q, Q q = true /\ bpar (blocks c) x = Some q).
End Settled.

Lemma logged_kept shape_of br_kind c dead b s P m pre post arg turn Q tail c1 dead1 log c2 dead2 :
  stage shape_of br_kind c dead b s P m pre post arg turn Q tail c1 dead1 log -> keeps c1 dead1 c2 dead2 ->
  forall y z, image log y = Some z -> exists d dz vs t, nth_error (ops c) y = Some d /\ turn (shape_of (o_kind d)) (map (swap arg) (o_operands d)) = Some (vs, t) /\
    nth_error (ops c2) z = Some dz /\ o_kind dz = br_kind /\ o_operands dz = vs /\ o_succs dz = [t].
Proof.
  intros S K y z E. destruct (st_log _ _ _ _ _ _ _ _ _ _ _ _ _ _ _ _ _ S y z E) as (d & dz & vs & t & F1 & F2 & F3 & F4 & F5 & F6 & _). destruct (k_ops _ _ _ _ K z dz F3) as (dw & G1 & (G2 & _ & _ & G3) & G4).
  exists d, dw, vs, t. repeat split; congruence.
Qed.
Lemma nth_hd {X} (l : list X) : nth_error l 0 = hd_error l.
Proof. destruct l; reflexivity. Qed.
Lemma region_of c dead s d i r : inv c dead -> nth_error (ops c) s = Some d -> nth_error (o_regions d) i = Some r -> region_parent c r s.
Proof. intros I E K. apply rpar_in. apply (in_oregs c dead r s I). unfold oregs. rewrite E. eapply nth_error_In. exact K. Qed.
Lemma regions_differ c dead s d i j r : inv c dead -> nth_error (ops c) s = Some d -> nth_error (o_regions d) i = Some r -> nth_error (o_regions d) j = Some r -> i = j.
Proof.
  intros I E K1 K2. assert (N : NoDup (o_regions d)). { destruct I as (_ & (_ & _ & Lr) & _). pose proof (proj2 Lr s) as N. unfold oregs in N. rewrite E in N. exact N. }
  rewrite NoDup_nth_error in N. apply N; [apply nth_error_Some; congruence | congruence].
Qed.

Section If.
  Context {V E A : Type}.
  Variable shape_of : nat -> shape.
  Variable case_value : nat -> nat.
  Variable effect : nat -> list V -> act (V := V) (E := E) (A := A).
  Variable truth : V -> bool.
  Variable equal : V -> nat -> bool.
  Variable answer : list (E * A) -> E -> A.
  Variables br_kind cond_br_kind : nat.
  Hypothesis Kb : shape_of br_kind = SBr.
  Hypothesis Kc : shape_of cond_br_kind = SCondBr.
  Variable c : ctx.
  Variable dead : list nat.
  Hypothesis I : inv c dead.
  Hypothesis T : tidy c dead.
  Hypothesis bare : forall x d, nth_error (ops c) x = Some d -> is_exit (shape_of (o_kind d)) = true -> o_regions d = [].
  Variables b s P : nat.
  Hypothesis Bp : bpar (blocks c) b = Some P.
  Hypothesis Li : live c dead P.
  Hypothesis Pl : forall o, region_parent c P o -> shape_at shape_of c o <> Some SSwitch.
  Local Notation settled := (settled shape_of case_value effect truth equal answer).

  Lemma if_enters m pre post Q log z arg c' dead' d t e tb eb dz cond rest :
    lowering shape_of c dead c' dead' b s P m pre post Q log [z] arg -> shape_at shape_of c s = Some SIf ->
    nth_error (ops c) s = Some d -> o_operands d = cond :: rest -> nth_error (o_regions d) 0 = Some t -> nth_error (o_regions d) 1 = Some e ->
    Q t = true -> Q e = true -> hd_error (rblks (regions c) t) = Some tb -> hd_error (rblks (regions c) e) = Some eb ->
    nth_error (ops c') z = Some dz -> o_kind dz = cond_br_kind -> o_operands dz = [cond] -> o_succs dz = [tb; eb] ->
    enters_ok shape_of case_value effect truth equal answer c dead c' s P post Q log [z] arg.
  Proof.
    intros L Sh Ed Eo Et Ee Qt Qe Ht He Ez Kz Oz Sz en en' k k' tr R K W. exists 0. assert (Es : shape_of (o_kind d) = SIf) by (unfold shape_at in Sh; rewrite Ed in Sh; injection Sh as Sh; exact Sh).
    pose proof (own_swap shape_of c dead I T b s P m pre post arg _ _ _ _ _ d L Ed) as Sw. pose proof (swap_map shape_of _ _ _ _ _ _ _ _ _ _ _ _ _ _ I T L en en' s d R Ed (own_alive shape_of c dead I T b s P m pre post arg _ _ _ _ _ L)) as Sm. rewrite Sw in Sm. rewrite Eo in Sm. cbn [map] in Sm. injection Sm as Sm _.
    destruct (o_regions d) as [|t0 [|e0 rs]] eqn:Er; try discriminate. cbn in Et, Ee. injection Et as ->. injection Ee as ->.
    split; [|intros j Hj; assert (j = 0) as -> by lia; split; reflexivity].
    cbn [ScfSpec.step] in *. rewrite Ed, Es, Er, Eo in *. cbn [map] in *. unfold steps. cbn [Nat.iter nat_rect ScfSpec.step]. rewrite Ez, Kz, Kc, Sz, Oz. cbn [map]. rewrite Sm.
    assert (Fr : forall q0, Q q0 = true -> stack_rel (V := V) (E := E) (A := A) shape_of c dead s P post Q log [z] q0 ({| f_op := s; f_way := Once; f_region := P; f_rest := post |} :: k) k').
    { intros q0 Eq. apply sr_skip; try reflexivity; try assumption. unfold way_ok. cbn. rewrite Sh. left. reflexivity. }
    destruct (truth (en cond)).
    - eapply (body_starts shape_of case_value effect equal) with (q := t); try eassumption; auto.
    - eapply (body_starts shape_of case_value effect equal) with (q := e); try eassumption; auto.
  Qed.

  Theorem lower_if_settled depth c' bs : lower_if shape_of br_kind cond_br_kind depth c b s = Some (c', bs) -> shape_at shape_of c s = Some SIf -> (c' = c /\ bs = [] /\ 2 <= length (op_results c s)) \/ settled c dead c' b s P bs.
  Proof.
    intros H Sh. unfold lower_if in H. bindin H d Ed. bindin H cond Ec. bindin H t Et. bindin H e Ee.
    assert (Go : forall result, fits c s result -> if_blocks shape_of br_kind cond_br_kind depth c b s cond t e result = Some (c', bs) -> settled c dead c' b s P bs).
    2:{ destruct (op_results c s) as [|r [|r2 l]] eqn:Er.
        - right. apply (Go None); [left; exact Er | exact H].
        - right. destruct (uses c r) eqn:Eu; [apply (Go None); [right; exists r; auto | exact H] | apply (Go (Some r)); [exact Er | exact H]].
        - left. injection H as <- <-. cbn. repeat split; lia. }
    clear H. intros result Fi H. unfold if_blocks in H. bindin H y1 E1. destruct y1 as [c1 m]. bindin H c2 E2. bindin H c3 E3.
    assert (Sh' : exists x, shape_at shape_of c s = Some x /\ control x = true) by (exists SIf; auto).
    destruct (opened_if shape_of c dead I b s P Bp Li Pl Sh' result c1 m c2 c3 E1 E2 E3 Fi) as (pre & post & a & L3 & Ep & O3 & B3 & Em & V3).
    rewrite Ep in H. cbn [obind] in H. bindin H y4 E4. destruct y4 as [c4 ts]. bindin H y5 E5. destruct y5 as [c5 es]. bindin H c6 E6. bindin H tb Etb. bindin H eb Eeb. bindin H c7 E7. bindin H c8 E8. bindin H y9 E9. destruct y9 as [c9 z]. bindin H c10 E10. injection H as <- <-.
    set (arg := option_map (fun r => (r, a)) result) in *.
    pose proof (region_of c dead s d 0 t I Ed Et) as Rt. pose proof (region_of c dead s d 1 e I Ed Ee) as Re.
    assert (Ct : child shape_of c s t) by (unfold child; rewrite Sh; exact Rt). assert (Ce : child shape_of c s e) by (unfold child; rewrite Sh; exact Re).
    assert (Nte : e <> t) by (intros ->; pose proof (regions_differ c dead s d 0 1 t I Ed Et Ee); discriminate).
    assert (Lo3 : loose dead c3 dead) by (intros x K; left; exact K).
    destruct (inlined shape_of c dead I T b s P m pre post arg _ _ _ _ _ _ _ _ L3 Lo3 E4 Ct eq_refl) as (L4 & Lo4 & _ & Bt & _ & Ht & _ & _ & O4).
    destruct (inlined shape_of c dead I T b s P m pre post arg _ _ _ _ _ _ _ _ L4 Lo4 E5 Ce) as (L5 & Lo5 & _ & Be & _ & He & _ & _ & O5). { destruct (Nat.eqb_spec e t); [contradiction | reflexivity]. }
    set (Q := fun q => Nat.eqb q e || (Nat.eqb q t || false)) in *. assert (Qt : Q t = true) by (unfold Q; rewrite Nat.eqb_refl, orb_true_r; reflexivity). assert (Qe : Q e = true) by (unfold Q; rewrite Nat.eqb_refl; reflexivity).
    assert (Qi : forall q, Q q = true -> q = e \/ q = t) by (intros q; unfold Q; destruct (Nat.eqb_spec q e); [auto|]; destruct (Nat.eqb_spec q t); [auto | discriminate]).
    assert (O5' : length (ops c5) = length (ops c)) by (rewrite O5, O4; exact O3).
    destruct (discarded shape_of c dead I T b s P m pre post arg depth _ _ _ _ _ _ L5 E6 (fun x q => no_new c P c5 dead x q (lo_inv _ _ _ _ _ _ _ _ _ _ _ _ _ _ _ L5) O5')) as (dead6 & L6 & _ & O6 & _ & _).
    pose proof (first_stage shape_of br_kind c dead b s P m pre post arg (yield_turn m arg) _ _ _ _ L6 ltac:(rewrite O6; exact O5')) as S6.
    destruct (yields_replaced shape_of br_kind Kb c dead I T bare b s P m pre post arg Q [] depth t ts c6 dead6 [] c7 S6) as (dead7 & log7 & A7 & F7). { intros b1 K. eapply own_site; [exact I | exact T | exact L6 | apply Bt; exact K | exact Qt]. } { exact E7. }
    pose proof (r_stage _ _ _ _ _ _ _ _ _ _ _ _ _ _ _ _ _ _ _ _ _ A7) as S7. pose proof (st_low _ _ _ _ _ _ _ _ _ _ _ _ _ _ _ _ _ S7) as L7.
    destruct (yields_replaced shape_of br_kind Kb c dead I T bare b s P m pre post arg Q [] depth e es c7 dead7 log7 c8 S7) as (dead8 & log8 & A8 & F8). { intros b1 K. eapply own_site; [exact I | exact T | exact L7 | apply Be; exact K | exact Qe]. } { exact E8. }
    pose proof (r_stage _ _ _ _ _ _ _ _ _ _ _ _ _ _ _ _ _ _ _ _ _ A8) as S8. pose proof (st_low _ _ _ _ _ _ _ _ _ _ _ _ _ _ _ _ _ S8) as L8.
    assert (Cv : In cond (o_operands d)) by (eapply nth_error_In; exact Ec).
    destruct (created shape_of c dead I b s P m pre post arg _ _ _ _ _ _ _ _ _ _ _ L8 E9) as (L9 & K9 & Ez & _ & _ & _ & Dz & _). { intros v [<-|[]]. eapply own_vals; [exact I | exact T | exact L8 | exact Ed | exact Cv]. }
    assert (Lz : length (ops c) <= z). { rewrite Ez. eapply low_olen. exact L8. }
    destruct (pushed shape_of c dead I b s P m pre post arg _ _ _ _ _ _ _ L9 E10 Lz) as (L10 & K10 & _ & P10 & _). cbn [app] in L10. pose proof (keeps_trans _ _ _ _ _ _ K9 K10) as K.
    destruct (k_ops _ _ _ _ K10 z _ Dz) as (dz & Dz' & (Z1 & _ & _ & Z2) & Z3). cbn [o_kind o_succs o_operands] in Z1, Z2, Z3.
    exists dead8, m, pre, post, Q, log8, [z], arg. split; [exact L10|]. split; [|split; [|split]].
    - assert (exists rest, o_operands d = cond :: rest) as (rest & Eo) by (destruct (o_operands d) as [|w rest]; [discriminate|]; injection Ec as ->; eauto).
      eapply if_enters; try eassumption; [rewrite <- Ht, <- nth_hd; exact Etb | rewrite <- He, <- nth_hd; exact Eeb].
    - eapply (yields_exit shape_of case_value effect truth equal answer br_kind Kb); try eassumption; [left; exact Sh | |].
      + intros y w Im. destruct (logged_kept _ _ _ _ _ _ _ _ _ _ _ _ _ _ _ _ _ _ _ S8 K y w Im) as (dy & dw & vs & tt & G1 & G2 & G3 & G4 & G5 & G6). unfold yield_turn in G2. destruct (shape_of (o_kind dy)) eqn:Sy; try discriminate. injection G2 as <- <-. exists dy, dw. repeat split; assumption.
      + intros y w q Im Sy. destruct (r_Z _ _ _ _ _ _ _ _ _ _ _ _ _ _ _ _ _ _ _ _ _ A8 y w Im) as [Im7|Zy]; [|rewrite (stands_unique c dead y q e I Sy Zy); exact Qe]. destruct (r_Z _ _ _ _ _ _ _ _ _ _ _ _ _ _ _ _ _ _ _ _ _ A7 y w Im7) as [Im6|Zy]; [discriminate | rewrite (stands_unique c dead y q t I Sy Zy); exact Qt].
    - eapply yields_only; [exact I | left; exact Sh|]. intros y q Sy EQ Sy'. pose proof Sy as Sy0. apply (stands_par c dead y q I) in Sy0. destruct Sy0 as (b1 & Py & Pb). apply (in_bops c dead y b1 I) in Py. destruct (Qi q EQ) as [->| ->].
      + apply (F8 b1 y); [apply Be; exact Pb | exact Py | exact Sy'].
      + pose proof (F7 b1 y (proj2 (Bt b1) Pb) Py Sy') as N. destruct (image log7 y) as [w|] eqn:Im; [|contradiction]. rewrite (r_log _ _ _ _ _ _ _ _ _ _ _ _ _ _ _ _ _ _ _ _ _ A8 y w Im). discriminate.
    - intros x Kx. apply in_app_or in Kx; destruct Kx as [Kx|Kx]; [exists t; split; [exact Qt | apply Bt; exact Kx] | exists e; split; [exact Qe | apply Be; exact Kx]].
  Qed.
End If.
