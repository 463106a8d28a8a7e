(** Lowering one loop. *)
From Verif Require Import ScfModel ScfSpec IrProofs IrInvProofs IrMainProofs ScfSim ScfRun ScfArena ScfLower ScfExits ScfObl ScfIf.
From Coq Require Import Lia.

Section Loop.
  Context {V E A : Type}.
  Variable shape_of : nat -> shape.
  Variable case_value : nat -> nat.
  Variable effect : nat -> list V -> act (V := V) (E := E) (A := A).
  Variable truth : V -> bool.
  Variable equal : V -> nat -> bool.
  Variable answer : list (E * A) -> E -> A.
  Variable br_kind : nat.
  Hypothesis Kb : shape_of br_kind = SBr.
  Variable c : ctx.
  Variable dead : list nat.
  Hypothesis I : inv c dead.
  Hypothesis T : tidy c dead.
  Hypothesis bare : forall x d, nth_error (ops c) x = Some d -> is_exit (shape_of (o_kind d)) = true -> o_regions d = [].
  Variables b s P : nat.
  Hypothesis Bp : bpar (blocks c) b = Some P.
  Hypothesis Li : live c dead P.
  Hypothesis Pl : forall o, region_parent c P o -> shape_at shape_of c o <> Some SSwitch.
  Local Notation settled := (settled shape_of case_value effect truth equal answer).

  Lemma loop_enters m pre post Q log z arg c' dead' d body header dz :
    lowering shape_of c dead c' dead' b s P m pre post Q log [z] arg -> shape_at shape_of c s = Some SLoop ->
    nth_error (ops c) s = Some d -> nth_error (o_regions d) 0 = Some body -> Q body = true -> hd_error (rblks (regions c) body) = Some header ->
    nth_error (ops c') z = Some dz -> o_kind dz = br_kind -> o_operands dz = o_operands d -> o_succs dz = [header] ->
    enters_ok shape_of case_value effect truth equal answer c dead c' s P post Q log [z] arg.
  Proof.
    intros L Sh Ed Et Qt Ht Ez Kz Oz Sz en en' k k' tr R K W. exists 0. assert (Es : shape_of (o_kind d) = SLoop) by (unfold shape_at in Sh; rewrite Ed in Sh; injection Sh as Sh; exact Sh).
    pose proof (own_swap shape_of c dead I T b s P m pre post arg _ _ _ _ _ d L Ed) as Sw. pose proof (swap_map shape_of _ _ _ _ _ _ _ _ _ _ _ _ _ _ I T L en en' s d R Ed (own_alive shape_of c dead I T b s P m pre post arg _ _ _ _ _ L)) as Sm. rewrite Sw in Sm.
    destruct (o_regions d) as [|t0 rs] eqn:Er; try discriminate. cbn in Et. injection Et as ->.
    split; [|intros j Hj; assert (j = 0) as -> by lia; split; reflexivity].
    cbn [ScfSpec.step] in *. rewrite Ed, Es, Er in *. unfold steps. cbn [Nat.iter nat_rect ScfSpec.step]. rewrite Ez, Kz, Kb, Sz, Oz, Sm.
    eapply (body_starts shape_of case_value effect equal) with (q := body); try eassumption. apply sr_skip; try reflexivity; try assumption. unfold way_ok. cbn. split; [exact Sh|]. unfold oregs. rewrite Ed, Er. reflexivity.
  Qed.

  Theorem lower_loop_settled fuel depth c' bs : lower_loop shape_of br_kind fuel depth c b s = Some (c', bs) -> shape_at shape_of c s = Some SLoop -> (c' = c /\ bs = [] /\ 2 <= length (op_results c s)) \/ settled c dead c' b s P bs.
  Proof.
    intros H Sh. unfold lower_loop in H. bindin H d Ed. bindin H body Et.
    assert (Go : forall result, fits c s result -> loop_blocks shape_of br_kind fuel depth c b s (o_operands d) body result = Some (c', bs) -> settled c dead c' b s P bs).
    2:{ destruct (op_results c s) as [|r [|r2 l]] eqn:Er.
        - right. apply (Go None); [left; exact Er | exact H].
        - right. apply (Go (Some r)); [exact Er | exact H].
        - left. injection H as <- <-. cbn. repeat split; lia. }
    clear H. intros result Fi H. unfold loop_blocks in H. bindin H y1 E1. destruct y1 as [c1 m]. bindin H c2 E2. bindin H c3 E3.
    assert (Sh' : exists x, shape_at shape_of c s = Some x /\ control x = true) by (exists SLoop; auto).
    destruct (opened_late shape_of c dead I b s P Bp Li Pl Sh' result c1 m c2 c3 E1 E2 E3 Fi) as (pre & post & a & L3 & Ep & O3 & B3 & Em & V3).
    rewrite Ep in H. cbn [obind] in H. bindin H y4 E4. destruct y4 as [c4 ts]. bindin H c5 E5. bindin H header Eh. bindin H c6 E6. bindin H y7 E7. destruct y7 as [c7 z]. bindin H c8 E8. injection H as <- <-.
    set (arg := option_map (fun r => (r, a)) result) in *.
    pose proof (region_of c dead s d 0 body I Ed Et) as Rt. assert (Ct : child shape_of c s body) by (unfold child; rewrite Sh; exact Rt).
    assert (Lo3 : loose dead c3 dead) by (intros x K; left; exact K).
    destruct (inlined shape_of c dead I T b s P m pre post arg _ _ _ _ _ _ _ _ L3 Lo3 E4 Ct eq_refl) as (L4 & Lo4 & _ & Bt & _ & Ht & _ & _ & O4).
    set (Q := fun q => Nat.eqb q body || false) in *. assert (Qi : forall q, Q q = true <-> q = body) by (intros q; unfold Q; rewrite orb_false_r; apply Nat.eqb_eq). pose proof (proj2 (Qi body) eq_refl) as Qt.
    assert (O4' : length (ops c4) = length (ops c)) by (rewrite O4; exact O3).
    destruct (discarded shape_of c dead I T b s P m pre post arg depth _ _ _ _ _ _ L4 E5 (fun x q => no_new c P c4 dead x q (lo_inv _ _ _ _ _ _ _ _ _ _ _ _ _ _ _ L4) O4')) as (dead5 & L5 & _ & O5 & _ & _).
    pose proof (first_stage shape_of br_kind c dead b s P m pre post arg (loop_turn m arg header) _ _ _ _ L5 ltac:(rewrite O5; exact O4')) as S5.
    assert (Qs : forall q, Q q = true -> region_parent c q s) by (intros q K; apply Qi in K; subst q; exact Rt).
    destruct (exits_replaced shape_of br_kind Kb c dead I T bare b s P m pre post arg Q [] header Qs fuel depth body ts c5 dead5 [] c6 S5) as (dead6 & log6 & A6 & F6). { intros b1 K. eapply own_site; [exact I | exact T | exact L5 | apply Bt; exact K | exact Qt]. } { exact E6. }
    pose proof (r_stage _ _ _ _ _ _ _ _ _ _ _ _ _ _ _ _ _ _ _ _ _ A6) as S6. pose proof (st_low _ _ _ _ _ _ _ _ _ _ _ _ _ _ _ _ _ S6) as L6.
    unfold branch in E7.
    destruct (created shape_of c dead I b s P m pre post arg _ _ _ _ _ _ _ _ _ _ _ L6 E7) as (L7 & K7 & Ez & _ & _ & _ & Dz & _). { intros v Kv. eapply own_vals; [exact I | exact T | exact L6 | exact Ed | exact Kv]. }
    assert (Lz : length (ops c) <= z). { rewrite Ez. eapply low_olen. exact L6. }
    destruct (pushed shape_of c dead I b s P m pre post arg _ _ _ _ _ _ _ L7 E8 Lz) as (L8 & K8 & _ & P8 & _). cbn [app] in L8. pose proof (keeps_trans _ _ _ _ _ _ K7 K8) as K.
    destruct (k_ops _ _ _ _ K8 z _ Dz) as (dz & Dz' & (Z1 & _ & _ & Z2) & Z3). cbn [o_kind o_succs o_operands] in Z1, Z2, Z3.
    assert (Hh : hd_error (rblks (regions c) body) = Some header) by (rewrite <- Ht, <- nth_hd; exact Eh).
    assert (Hb : hd_error (oregs (ops c) s) = Some body) by (unfold oregs; rewrite Ed, <- nth_hd; exact Et).
    exists dead6, m, pre, post, Q, log6, [z], arg. split; [exact L8|]. split; [|split; [|split]].
    - eapply loop_enters; eassumption.
    - eapply (loop_exits shape_of case_value effect truth equal answer br_kind Kb); try eassumption.
      + exact (logged_kept _ _ _ _ _ _ _ _ _ _ _ _ _ _ _ _ _ _ _ S6 K).
      + intros y w Im. destruct (r_Z _ _ _ _ _ _ _ _ _ _ _ _ _ _ _ _ _ _ _ _ _ A6 y w Im) as [Im5|Zy]; [discriminate | exact Zy].
    - eapply loop_only; try eassumption. intros y Ry Ly. apply F6; [intros b1 K1; apply Bt; exact K1 | exact Ry | exact Ly].
    - intros x Kx. apply Bt in Kx. exists body. split; assumption.
  Qed.
End Loop.
