(** Lowering one switch: the comparisons choose the same body. *)
From Verif Require Import ScfModel ScfSpec IrProofs IrInvProofs IrMainProofs ScfSim ScfRun ScfArena ScfLower ScfExits ScfObl ScfIf ScfSwitch.
From Coq Require Import Lia.

Section Switch.
  Context {V E A : Type}.
  Variable shape_of : nat -> shape.
  Variable case_value : nat -> nat.
  Variable effect : nat -> list V -> act (V := V) (E := E) (A := A).
  Variable truth : V -> bool.
  Variable equal : V -> nat -> bool.
  Variable answer : list (E * A) -> E -> A.
  Variables br_kind cond_br_kind cmp_kind bool_type : nat.
  Variable const_kind : nat -> nat.
  Variable lit : nat -> V.
  Hypothesis Kb : shape_of br_kind = SBr.
  Hypothesis Kc : shape_of cond_br_kind = SCondBr.
  Hypothesis Kk : forall a, shape_of (const_kind a) = SPlain.
  Hypothesis Kq : shape_of cmp_kind = SPlain.
  Hypothesis const_effect : forall a, effect (const_kind a) [] = Finish [lit a].
  Hypothesis cmp_effect : forall v a, exists w, effect cmp_kind [v; lit a] = Finish [w] /\ truth w = equal v a.
  Variable c : ctx.
  Variable dead : list nat.
  Hypothesis I : inv c dead.
  Hypothesis T : tidy c dead.
  Hypothesis bare : forall x d, nth_error (ops c) x = Some d -> is_exit (shape_of (o_kind d)) = true -> o_regions d = [].
  Variables b s P : nat.
  Hypothesis Bp : bpar (blocks c) b = Some P.
  Hypothesis Li : live c dead P.
  Hypothesis Pl : forall o, region_parent c P o -> shape_at shape_of c o <> Some SSwitch.
  Local Notation settled := (settled shape_of case_value effect truth equal answer).
  Local Notation step := (step shape_of case_value effect truth equal answer).
  Local Notation steps := (steps shape_of case_value effect truth equal answer).
  Local Notation quiet := (quiet shape_of case_value effect truth equal answer).
  Local Notation env_rel := (env_rel (V := V) c s None).

  Lemma bind_nil (e : env) names : bind (V := V) e names [] = e.
  Proof. destruct names; reflexivity. Qed.
  Lemma fresh_rel v x (en e' : env) : length (vals c) <= v -> env_rel en e' -> env_rel en (fupd e' v x).
  Proof. intros Lv R w Rw. rewrite fupd_other; [apply R; exact Rw|]. cbn. destruct Rw. lia. Qed.
  Lemma quiet_add c' n k x : quiet c' n x -> quiet c' k (steps c' (S n) x) -> trace_of (steps c' (S n) x) = trace_of x -> quiet c' (S n + k) x.
  Proof.
    intros A1 A2 Tr j Hj. destruct (Nat.le_gt_cases j n) as [K|K]; [apply A1; exact K|]. replace j with ((j - S n) + S n) by lia. rewrite steps_add, <- Tr. apply A2. lia.
  Qed.
  (** One comparison. *)
  Lemma one_test c' k q z a e other kv qv disc (e' : env) (k' : list frame) tr :
    described c' k (const_kind a) [] [] [kv] -> described c' q cmp_kind [disc; kv] [] [qv] -> described c' z cond_br_kind [qv] [e; other] [] -> length (vals c) <= kv -> length (vals c) <= qv -> disc < length (vals c) ->
    exists w, steps c' 5 (At P [k; q; z] e' k' tr) = jump c' P (if equal (e' disc) a then e else other) [] (fupd (fupd e' kv (lit a)) qv w) k' tr /\ quiet c' 4 (At P [k; q; z] e' k' tr).
  Proof.
    intros (dk & Ek & Kk' & Ok & _ & Rk) (dq & Eq & Kq' & Oq & _ & Rq) (dz & Ez & Kz' & Oz & Sz & _) L1 L2 L3. destruct (cmp_effect (e' disc) a) as (w & W1 & W2). exists w.
    assert (S1 : step c' (At P [k; q; z] e' k' tr) = Doing k (Finish [lit a]) P [q; z] e' k' tr) by (cbn [ScfSpec.step]; rewrite Ek, Kk', Kk, Ok; cbn [map]; rewrite const_effect; reflexivity).
    assert (S2 : step c' (Doing k (Finish [lit a]) P [q; z] e' k' tr) = At P [q; z] (fupd e' kv (lit a)) k' tr) by (cbn [ScfSpec.step]; rewrite Rk; reflexivity).
    assert (S3 : step c' (At P [q; z] (fupd e' kv (lit a)) k' tr) = Doing q (Finish [w]) P [z] (fupd e' kv (lit a)) k' tr) by (cbn [ScfSpec.step]; rewrite Eq, Kq', Kq, Oq; cbn [map]; rewrite fupd_same, fupd_other by lia; rewrite W1; reflexivity).
    assert (S4 : step c' (Doing q (Finish [w]) P [z] (fupd e' kv (lit a)) k' tr) = At P [z] (fupd (fupd e' kv (lit a)) qv w) k' tr) by (cbn [ScfSpec.step]; rewrite Rq; reflexivity).
    assert (S5 : step c' (At P [z] (fupd (fupd e' kv (lit a)) qv w) k' tr) = jump c' P (if equal (e' disc) a then e else other) [] (fupd (fupd e' kv (lit a)) qv w) k' tr) by (cbn [ScfSpec.step]; rewrite Ez, Kz', Kc, Oz, Sz; cbn [map]; rewrite fupd_same, W2; reflexivity).
    split; [rewrite !steps_S; change (steps c' 0 ?x) with x; rewrite S1, S2, S3, S4; exact S5|].
    intros j Hj. destruct j as [|[|[|[|[|j]]]]]; [| | | | |lia]; rewrite ?steps_S; change (steps c' 0 ?x) with x; rewrite ?S1, ?S2, ?S3, ?S4; split; reflexivity.
  Qed.
  Definition chosen (v : V) (l : list (nat * nat)) (default : nat) : nat := match find (fun p => equal v (fst p)) l with Some p => snd p | None => default end.
  Lemma tests_run c' disc default cases l (en : env) (k' : list frame) tr : tests cond_br_kind cmp_kind const_kind c P c' disc default cases l -> disc < length (vals c) -> ~ In disc (op_results c s) ->
    forall e', env_rel en e' -> exists n e2, steps c' (S n) (At P l e' k' tr) = jump c' P (chosen (en disc) cases default) [] e2 k' tr /\ env_rel en e2 /\ quiet c' n (At P l e' k' tr).
  Proof.
    intros Ts Ld Nd. assert (Rd : readable c s None disc) by (split; [exact Ld | intros _; exact Nd]). induction Ts as [a e k q z kv qv D1 D2 D3 L1 L2|a e k q z kv qv other rest l D1 D2 D3 L1 L2 Po Eo Ts IH]; intros e' R; pose proof (R disc Rd) as Ed; cbn [swap] in Ed.
    - destruct (one_test c' k q z a e default kv qv disc e' k' tr D1 D2 D3 L1 L2 Ld) as (w & S5 & Q5). exists 4, (fupd (fupd e' kv (lit a)) qv w). rewrite S5, Ed. split; [|split; [apply fresh_rel; [exact L2|]; apply fresh_rel; assumption | exact Q5]]. unfold chosen. cbn [find fst]. destruct (equal (en disc) a); reflexivity.
    - destruct (one_test c' k q z a e other kv qv disc e' k' tr D1 D2 D3 L1 L2 Ld) as (w & S5 & Q5). set (e2 := fupd (fupd e' kv (lit a)) qv w) in *. assert (R2 : env_rel en e2) by (apply fresh_rel; [exact L2|]; apply fresh_rel; assumption). unfold chosen. cbn [find fst]. rewrite Ed in S5. destruct (equal (en disc) a).
      + exists 4, e2. split; [exact S5|]. split; [exact R2 | exact Q5].
      + rewrite (jump_to c' P other [] e2 k' tr P k' Po (reached_self P k')), bind_nil, Eo in S5. destruct (IH e2 R2) as (n & e3 & Sn & R3 & Q3). exists (5 + n), e3. split; [|split; [exact R3|]].
        * replace (S (5 + n)) with (S n + 5) by lia. rewrite steps_add, S5. exact Sn.
        * change (5 + n) with (S 4 + n). apply quiet_add; [exact Q5 | rewrite S5; exact Q3 | rewrite S5; reflexivity].
  Qed.

  Lemma hd_nth {X} (l : list X) x : nth_error l 0 = Some x -> exists r, l = x :: r.
  Proof. destruct l as [|y r]; [discriminate|]. intros [= ->]. exists r. reflexivity. Qed.
  Lemma chosen_entry v (cases : list (nat * nat)) entries default : Forall2 (fun r e => hd_error (rblks (regions c) r) = Some e) (map snd cases) entries ->
    match find (fun p => equal v (fst p)) cases with
    | Some p => hd_error (rblks (regions c) (snd p)) = Some (chosen v (combine (map fst cases) entries) default)
    | None => chosen v (combine (map fst cases) entries) default = default
    end.
  Proof.
    unfold chosen. revert entries. induction cases as [|[a r] cases IH]; intros entries F; cbn [map snd fst] in *; inversion F as [|? e ? es He Hes]; subst; [reflexivity|]. cbn [combine find fst]. destruct (equal v a); [exact He | apply IH; exact Hes].
  Qed.
  Lemma combine_nil (cases : list (nat * nat)) entries : Forall2 (fun r e => hd_error (rblks (regions c) r) = Some e) (map snd cases) entries -> cases <> [] -> combine (map fst cases) entries <> [].
  Proof. destruct cases as [|p cases]; [contradiction|]. cbn. intros F _. inversion F; subst. discriminate. Qed.

  Lemma switch_enters m pre post Q log tail c' dead' d disc body cases def entries default :
    lowering shape_of c dead c' dead' b s P m pre post Q log tail None -> shape_at shape_of c s = Some SSwitch -> nth_error (ops c) s = Some d -> nth_error (o_operands d) 0 = Some disc -> nth_error (o_regions d) 0 = Some body ->
    op_results c s = [] -> collect shape_of case_value c (switch_ops c d) = Some (cases, def) ->
    (forall r, In r (map snd cases) -> Q r = true) -> (forall r, def = Some r -> Q r = true) ->
    Forall2 (fun r e => hd_error (rblks (regions c) r) = Some e) (map snd cases) entries -> starts_default br_kind c b P m c' def default ->
    match cases with [] => exists z, tail = [z] /\ described c' z br_kind [] [default] [] | _ => tests cond_br_kind cmp_kind const_kind c P c' disc default (combine (map fst cases) entries) tail end ->
    enters_ok shape_of case_value effect truth equal answer c dead c' s P post Q log tail None.
  Proof.
    intros L Sh Ed Eo Er Rs Co Qc Qd F St Ts en en' k k' tr R K W. assert (Es : shape_of (o_kind d) = SSwitch) by (unfold shape_at in Sh; rewrite Ed in Sh; injection Sh as Sh; exact Sh).
    pose proof (own_alive shape_of c dead I T b s P m pre post None _ _ _ _ _ L) as Al. destruct (ti_exist c dead T s d disc Ed Al (nth_error_In _ _ Eo)) as (Ld & Nd).
    assert (Go : exists n e2, steps c' (S n) (At P tail en' k' tr) = jump c' P (chosen (en disc) (combine (map fst cases) entries) default) [] e2 k' tr /\ env_rel en e2 /\ quiet c' n (At P tail en' k' tr)).
    { destruct cases as [|p cases].
      - destruct Ts as (z & -> & dz & Ez & Kz & Oz & Sz & _). exists 0, en'. split; [|split; [exact R | intros j Hj; assert (j = 0) as -> by lia; split; reflexivity]]. rewrite steps_S. change (steps c' 0 ?x) with x. cbn [ScfSpec.step]. rewrite Ez, Kz, Kb, Sz, Oz. reflexivity.
      - eapply tests_run; eassumption. }
    destruct Go as (n & e2 & Sn & R2 & Qn). pose proof (chosen_entry (en disc) cases entries default F) as Ce. pose proof (collect_selected shape_of case_value equal c (switch_ops c d) (en disc) cases def Co) as Se.
    destruct (hd_nth _ _ Eo) as (rest & Eo'). cbn [ScfSpec.step] in *. rewrite Ed, Es, Eo' in *. cbn [map] in *.
    assert (Fr : forall q0, Q q0 = true -> stack_rel (V := V) (E := E) (A := A) shape_of c dead s P post Q log tail q0 ({| f_op := s; f_way := Once; f_region := P; f_rest := post |} :: k) k').
    { intros q0 Eq. apply sr_skip; try reflexivity; try assumption. unfold way_ok. cbn. right. exact Sh. }
    assert (Body : forall o r bb, selected shape_of case_value equal c (en disc) (switch_ops c d) = Some o -> region_at c o r -> Q r = true -> hd_error (rblks (regions c) r) = Some bb -> chosen (en disc) (combine (map fst cases) entries) default = bb ->
      exists n0 : nat, rel shape_of c dead s P post Q log tail None
        (match selected shape_of case_value equal c (en disc) (switch_ops c d) with
         | Some o' => match nth_error (ops c) o' with Some d' => match o_regions d' with [] => Done Wrong tr | body0 :: _ => enter c body0 [] en ({| f_op := s; f_way := Once; f_region := P; f_rest := post |} :: k) tr end | None => Done Wrong tr end
         | None => At P post en k tr
         end) (steps c' (S n0) (At P tail en' k' tr)) /\ quiet c' n0 (At P tail en' k' tr)).
    { intros o r bb So (do & Eo2 & Ro) Qr Hr Hc. exists n. split; [|exact Qn]. rewrite Sn, Hc. rewrite So, Eo2 in *. destruct (hd_nth _ _ Ro) as (rr & Er2). rewrite Er2 in *. eapply (body_starts shape_of case_value effect equal); try eassumption. apply Fr. exact Qr. }
    destruct (find (fun p => equal (en disc) (fst p)) cases) as [p|] eqn:Fi.
    - destruct Se as (o & So & Ro). eapply Body; [exact So | exact Ro | apply Qc; apply in_map; eapply find_some; exact Fi | exact Ce | reflexivity].
    - destruct def as [r|].
      + destruct Se as (o & So & Ro). eapply Body; [exact So | exact Ro | apply Qd; reflexivity | exact St | exact Ce].
      + rewrite Se. destruct St as (P1 & _ & _ & z & Bz & (dz & Ez & Kz & Oz & Sz & _)). rewrite Ce in Sn. rewrite (jump_to c' P default [] e2 k' tr P k' P1 (reached_self P k')), bind_nil, Bz in Sn.
        assert (Sz' : step c' (At P [z] e2 k' tr) = At P post e2 k' tr). { cbn [ScfSpec.step]. rewrite Ez, Kz, Kb, Sz, Oz. cbn [map]. rewrite (merge_jump shape_of _ _ _ _ _ _ _ _ _ _ _ _ _ _ L P [] e2 k' k' tr (reached_self P k')), bind_nil. reflexivity. }
        exists (S n). split.
        * rewrite steps_S, Sn, Sz'. pose proof (rel_after shape_of case_value effect truth equal _ _ _ _ _ _ _ _ _ _ _ _ _ _ I T L [] en e2 k k' tr R2 K) as X. cbn [firstn width] in X. rewrite !bind_nil in X. exact X.
        * replace (S n) with (S n + 0) by lia. apply quiet_add; [exact Qn | rewrite Sn; intros j Hj; assert (j = 0) as -> by lia; split; reflexivity | rewrite Sn; reflexivity].
  Qed.

  Theorem lower_switch_settled depth c' bs : lower_switch shape_of br_kind cond_br_kind cmp_kind bool_type const_kind case_value depth c b s = Some (c', bs) -> shape_at shape_of c s = Some SSwitch -> (c' = c /\ bs = [] /\ op_results c s <> []) \/ settled c dead c' b s P bs.
  Proof.
    intros H Sh. unfold lower_switch in H. destruct (op_results c s) as [|r0 rl] eqn:Rs; [|left; injection H as <- <-; repeat split; discriminate]. right.
    bindin H d Ed. bindin H disc Eo. bindin H body Er. bindin H rgd Eg. bindin H bb Ebb. bindin H bbd Ebd. bindin H y0 Ey. destruct y0 as [cases def]. bindin H y1 E1. destruct y1 as [c1 m]. bindin H c2 E2.
    assert (Sh' : exists x, shape_at shape_of c s = Some x /\ control x = true) by (exists SSwitch; auto).
    destruct (opened_late shape_of c dead I b s P Bp Li Pl Sh' None c1 m c2 c2 E1 E2 eq_refl (or_introl Rs)) as (pre & post & a & L2 & Ep & O2 & B2 & Em & V2). cbn [option_map] in L2.
    rewrite Ep in H. cbn [obind] in H. bindin H y3 E3. destruct y3 as [c3 [entries inl]]. bindin H y4 E4. destruct y4 as [c4 [default more]]. bindin H c5 E5. bindin H ty E6. bindin H c7 E7. injection H as <- <-.
    pose proof (region_of c dead s d 0 body I Ed Er) as Rb. assert (Sw : switch_ops c d = b_ops bbd). { unfold switch_ops. destruct (hd_nth _ _ Er) as (rr & ->). rewrite Eg. destruct (hd_nth _ _ Ebb) as (rr2 & ->). rewrite Ebd. reflexivity. }
    assert (Sb : forall o, In o (b_ops bbd) -> stands c o body).
    { intros o K. apply (stands_par c dead o body I). exists bb. split; [apply (in_bops c dead o bb I); unfold bops; rewrite Ebd; exact K|]. apply (in_rblks c dead bb body I). unfold rblks. rewrite Eg. eapply nth_error_In. exact Ebb. }
    assert (Ch : forall o r x, In o (b_ops bbd) -> body_of shape_of c o r x -> x = SCase \/ x = SDefault -> child shape_of c s r).
    { intros o r x K (do & E' & S' & R') X. unfold child. rewrite Sh. exists o, body. split; [eapply region_of; eassumption|]. split; [unfold shape_at; rewrite E'; cbn [option_map]; rewrite S'; destruct X as [->| ->]; auto|]. split; [apply Sb; exact K | exact Rb]. }
    assert (Nd : NoDup (b_ops bbd)). { pose proof (bops_nodup c dead bb I) as N. unfold bops in N. rewrite Ebd in N. exact N. }
    assert (Bo2 : bodies shape_of br_kind c dead b s P m pre post None (fun _ => false) c2 dead []). { constructor; [apply first_stage; [exact L2 | exact O2] | discriminate | discriminate]. }
    destruct (all_bodies shape_of br_kind Kb c dead I T bare b s P m pre post None depth (map snd cases) _ c2 dead [] c3 entries inl Bo2) as (Q3 & dead3 & log3 & Bo3 & Lo3 & HQ3 & F3 & HB3).
    { intros x K. left. exact K. } { eapply collect_nodup; eassumption. }
    { intros r K. split; [|reflexivity]. apply in_map_iff in K. destruct K as ([v r'] & <- & K). destruct (collect_case shape_of case_value c _ _ _ Ey v r' K) as (o & K1 & K2). eapply Ch; eauto. } { exact E3. }
    destruct (default_body shape_of br_kind Kb c dead I T bare b s P m pre post None depth Q3 c3 dead3 log3 def c4 default more Bo3 Lo3) as (Q4 & dead4 & log4 & Bo4 & HQ4 & St4 & HB4).
    { intros r K. destruct (collect_default shape_of case_value c _ _ _ Ey r K) as (o & K1 & K2). split; [eapply Ch; eauto|]. destruct (Q3 r) eqn:Qr; [|reflexivity]. exfalso. apply HQ3 in Qr. destruct Qr as [Qr|Qr]; [|discriminate].
      apply in_map_iff in Qr. destruct Qr as ([v r'] & Er' & Kr). cbn in Er'. subst r'. destruct (collect_case shape_of case_value c _ _ _ Ey v r Kr) as (o' & _ & (d1 & F1 & F2 & F3')). destruct K2 as (d2 & G1 & G2 & G3). assert (o' = o) by (eapply rparent_unique; eapply region_of; eassumption). subst o'. congruence. }
    { exact E4. }
    pose proof (bo_stage _ _ _ _ _ _ _ _ _ _ _ _ _ _ _ Bo4) as S4. pose proof (st_low _ _ _ _ _ _ _ _ _ _ _ _ _ _ _ _ _ S4) as L4.
    destruct (discarded shape_of c dead I T b s P m pre post None depth _ _ _ _ _ _ L4 E5) as (dead5 & L5 & K5 & O5 & B5 & R5). { intros x q Sx Lx. eapply new_inside; eassumption. }
    pose proof (own_alive shape_of c dead I T b s P m pre post None _ _ _ _ _ L5) as Al. destruct (ti_exist c dead T s d disc Ed Al (nth_error_In _ _ Eo)) as (Ld & Ndi).
    pose proof (low_blen shape_of c dead b s P m pre post None _ _ _ _ _ L5) as Lc. pose proof (bpar_old c b P Bp) as Lb.
    assert (J : exists tail, lowering shape_of c dead c7 dead5 b s P m pre post Q4 log4 tail None /\ keeps c5 dead5 c7 dead5 /\ (forall x, x < length (blocks c5) -> x <> b -> bops (blocks c7) x = bops (blocks c5) x) /\ (forall x, x < length (blocks c5) -> bpar (blocks c7) x = bpar (blocks c5) x) /\ length (blocks c5) <= length (blocks c7) /\
      match cases with [] => exists z, tail = [z] /\ described c7 z br_kind [] [default] [] | _ => tests cond_br_kind cmp_kind const_kind c P c7 disc default (combine (map fst cases) entries) tail end).
    { assert (Home : forall tail cx dx, lowering shape_of c dead cx dx b s P m pre post Q4 log4 tail None -> bops (blocks cx) b = pre ++ tail).
      { intros tail cx dx Lx. rewrite (lo_bops _ _ _ _ _ _ _ _ _ _ _ _ _ _ _ Lx b Lb), (lo_home _ _ _ _ _ _ _ _ _ _ _ _ _ _ _ Lx). unfold relist. rewrite existsb_app. cbn [existsb]. rewrite Nat.eqb_refl, orb_true_r. f_equal. apply before_split. pose proof (bops_nodup c dead b I) as N. rewrite (lo_home _ _ _ _ _ _ _ _ _ _ _ _ _ _ _ Lx) in N. apply NoDup_remove_2 in N. rewrite in_app_iff in N. tauto. }
      destruct cases as [|p0 cases].
      - bindin E7 y8 E8. destruct y8 as [c6 z]. unfold branch in E8. destruct (made shape_of c dead I b s P m pre post None Q4 log4 c5 dead5 [] b br_kind [] [] [default] c6 z c7 L5 (or_introl eq_refl) E8 ltac:(intros v []) E7) as (t7 & L7 & K7 & O7 & P7 & N7 & R7 & D7 & _).
        exists t7. split; [exact L7|]. split; [exact K7|]. split; [intros x _ Nx; rewrite O7; destruct (Nat.eqb_spec x b); [contradiction | reflexivity]|]. split; [intros x _; apply P7|]. split; [lia|]. exists z. split; [|exact D7]. pose proof (Home _ _ _ L7) as A7. rewrite O7, Nat.eqb_refl, (Home _ _ _ L5), app_nil_r in A7. apply app_inv_head in A7. symmetry. exact A7.
      - destruct (chain_ok shape_of cond_br_kind cmp_kind bool_type const_kind c dead I T b s P m pre post None Q4 log4 disc ty default (combine (map fst (p0 :: cases)) entries) c5 dead5 [] b c7 L5 (or_introl eq_refl)) as (t7 & l7 & L7 & K7 & O7 & Ox7 & Px7 & T7); [eapply combine_nil; [exact F3 | discriminate] | exact Ld | exact E7|].
        exists t7. split; [exact L7|]. split; [exact K7|]. split; [exact Ox7|]. split; [exact Px7|]. split; [apply K7|]. pose proof (Home _ _ _ L7) as A7. rewrite O7, (Home _ _ _ L5), app_nil_r in A7. apply app_inv_head in A7. subst l7. exact T7. }
    destruct J as (tail & L7 & K7 & Ox7 & Px7 & Lb7 & Ts). pose proof (keeps_trans _ _ _ _ _ _ K5 K7) as K57.
    exists dead5, m, pre, post, Q4, log4, tail, None. split; [exact L7|]. split; [|split; [|split]].
    - eapply switch_enters; try eassumption; [rewrite Sw; exact Ey | | |].
      + intros r K. apply HQ4. right. apply HQ3. left. exact K.
      + intros r K. apply HQ4. left. exact K.
      + unfold starts_default in *. destruct def as [r|]; [exact St4|]. destruct St4 as (G1 & G2 & G3 & z & G4 & G5). rewrite <- B5 in G1, G3, G4. split; [rewrite Px7 by exact G3; exact G1|]. split; [exact G2|]. split; [lia|]. exists z. split; [rewrite Ox7 by (exact G3 || exact G2); exact G4 | eapply described_kept; [exact K57 | exact G5]].
    - eapply (yields_exit shape_of case_value effect truth equal answer br_kind Kb); try eassumption; [right; exact Sh | | apply Bo4].
      intros y w Im. destruct (logged_kept _ _ _ _ _ _ _ _ _ _ _ _ _ _ _ _ _ _ _ S4 K57 y w Im) as (dy & dw & vs & tt & G1 & G2 & G3 & G4 & G5 & G6). unfold yield_turn in G2. destruct (shape_of (o_kind dy)) eqn:Sy; try discriminate. injection G2 as <- <-. exists dy, dw. repeat split; assumption.
    - eapply yields_only; [exact I | right; exact Sh | apply Bo4].
    - intros x Kx. apply in_app_or in Kx. destruct Kx as [Kx|Kx]; [destruct (HB3 x Kx) as (r & K1 & K2); exists r; split; [apply HQ4; right; apply HQ3; left; exact K1 | exact K2] | destruct (HB4 x Kx) as (r & K1 & K2); exists r; split; [apply HQ4; left; exact K1 | exact K2]].
  Qed.
End Switch.
