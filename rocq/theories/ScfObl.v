(** Leaving a lowered operation. *)
From Verif Require Import ScfModel ScfSpec IrProofs IrInvProofs ScfSim ScfRun ScfExits.
From Coq Require Import Lia.

Section Obl.
  Context {V E A : Type}.
  Variable shape_of : nat -> shape.
  Variable case_value : nat -> nat.
  Variable effect : nat -> list V -> act (V := V) (E := E) (A := A).
  Variable truth : V -> bool.
  Variable equal : V -> nat -> bool.
  Variable answer : list (E * A) -> E -> A.
  Variable br_kind : nat.
  Hypothesis Kb : shape_of br_kind = SBr.
  Notation state := (@state V E A).
  Notation frame := (@frame V E A).
  Notation step := (@step V E A shape_of case_value effect truth equal answer).
  Notation steps := (@steps V E A shape_of case_value effect truth equal answer).

  Variable c : ctx.
  Variable dead : list nat.
  Variable c' : ctx.
  Variable dead' : list nat.
  Variables b0 s P m : nat.
  Variables pre post : list nat.
  Variable Q : nat -> bool.
  Variable log : list (nat * nat).
  Variable tail : list nat.
  Variable arg : option (nat * nat).
  Hypothesis I : inv c dead.
  Hypothesis T : tidy c dead.
  Hypothesis H : lowering shape_of c dead c' dead' b0 s P m pre post Q log tail arg.
  Notation rho := (into Q P).
  Notation L := (relist s log tail).
  Notation env_rel := (@env_rel V c s arg).
  Notation stack_rel := (@stack_rel V E A shape_of c dead s P post Q log tail).
  Notation rel := (@rel V E A shape_of c dead s P post Q log tail arg).
  Notation exits_ok := (@exits_ok V E A shape_of case_value effect truth equal answer c dead c' s P post Q log tail arg).
  Notation only_exits_ok := (@only_exits_ok V E A shape_of c dead s P post Q log tail).

  Local Notation jumped := (jump_rel shape_of case_value effect equal c dead c' dead' b0 s P m pre post Q log tail arg I T H).

  Lemma bpar_nth' cc b q : bpar (blocks cc) b = Some q -> exists bd, nth_error (blocks cc) b = Some bd /\ b_parent bd = Some q /\ bops (blocks cc) b = b_ops bd.
  Proof. unfold bpar, bops. destruct (nth_error (blocks cc) b) as [bd|]; [|discriminate]. intros K. exists bd. repeat split. exact K. Qed.
  Lemma jump_to cc q b vs (e : env) (k : list frame) tr q0 k0 : bpar (blocks cc) b = Some q0 -> reached q q0 k = Some k0 -> jump cc q b vs e k tr = At q0 (bops (blocks cc) b) (bind e (block_args cc b) vs) k0 tr.
  Proof.
    intros Bp R. destruct (bpar_nth' cc b q0 Bp) as (bd & Eb & Ep & ->). unfold jump. rewrite Eb, Ep. unfold reached in R. destruct (Nat.eqb_spec q0 q) as [->|]; [congruence|].
    destruct (unwind (fun f : frame => Nat.eqb (f_region f) q0) k) as [[f k1]|]; cbn in R; [congruence | discriminate].
  Qed.
  Lemma reached_self q (k : list frame) : reached q q k = Some k.
  Proof. unfold reached. rewrite Nat.eqb_refl. reflexivity. Qed.
  Lemma enter_jump q b vs (e : env) (k : list frame) tr : hd_error (rblks (regions c) q) = Some b -> enter c q vs e k tr = jump c q b vs e k tr.
  Proof.
    intros Hd. assert (K : In b (rblks (regions c) q)) by (destruct (rblks (regions c) q); [discriminate|]; injection Hd as ->; left; reflexivity). apply (in_rblks c dead b q I) in K. rewrite (jump_to c q b vs e k tr q k K (reached_self q k)).
    destruct (bpar_nth' c b q K) as (bd & Eb & _ & ->). unfold enter, rblks in *. destruct (nth_error (regions c) q) as [rd|]; [|discriminate]. destruct (r_blocks rd) as [|b1 l]; [discriminate|]. injection Hd as ->. rewrite Eb. reflexivity.
  Qed.
  Lemma enter_hd q vs (e : env) (k : list frame) tr : ~ wrong (enter c q vs e k tr) -> exists b, hd_error (rblks (regions c) q) = Some b.
  Proof.
    unfold enter, rblks. destruct (nth_error (regions c) q) as [rd|]; [|intros W; exfalso; apply W; exists tr; reflexivity]. destruct (r_blocks rd) as [|b1 l]; [intros W; exfalso; apply W; exists tr; reflexivity|]. intros _. exists b1. reflexivity.
  Qed.
  (** The body of [s] starts by a jump in [P]. *)
  Lemma body_starts q b vs (e e' : env) k k' tr : Q q = true -> hd_error (rblks (regions c) q) = Some b -> env_rel e e' -> stack_rel q k k' ->
    ~ wrong (enter c q vs e k tr) -> rel (enter c q vs e k tr) (jump c' P b vs e' k' tr).
  Proof.
    intros EQ Hd R K W. rewrite (enter_jump q b vs e k tr Hd) in *. pose proof (jumped q b vs e e' k k' tr R K) as J. rewrite (rho_in P Q q EQ) in J. apply J; [|exact W]. eapply Q_live; eassumption.
  Qed.
  Lemma merge_jump q vs (e' : env) (k' k0 : list frame) tr : reached q P k' = Some k0 -> jump c' q m vs e' k' tr = At P post (bind e' (block_args c' m) vs) k0 tr.
  Proof. intros R. rewrite (jump_to c' q m vs e' k' tr P k0 (lo_mergepar _ _ _ _ _ _ _ _ _ _ _ _ _ _ _ H) R), (lo_merge _ _ _ _ _ _ _ _ _ _ _ _ _ _ _ H). reflexivity. Qed.
  Lemma env_result xs (e e' : env) : env_rel e e' -> env_rel (bind e (op_results c s) xs) (bind e' (block_args c' m) (firstn (width arg) xs)).
  Proof.
    intros R. pose proof (lo_arg _ _ _ _ _ _ _ _ _ _ _ _ _ _ _ H) as Ar. unfold width. unfold ScfRun.env_rel in *. destruct arg as [[r a]|].
    - destruct Ar as (-> & A1 & _ & -> & _). destruct xs as [|x xs]; cbn [firstn bind]; [exact R|]. intros v Rv. cbn [bind]. unfold fupd, swap. specialize (R v Rv). destruct Rv as (Rv & _). destruct (Nat.eqb_spec v r) as [->|Ne]; [rewrite Nat.eqb_refl; reflexivity|]. destruct (Nat.eqb_spec v a); [lia|]. unfold swap in R. destruct (Nat.eqb_spec v r); [contradiction | exact R].
    - destruct Ar as (-> & [->|(r & Er & _)]); cbn [firstn bind].
      + destruct xs; exact R.
      + rewrite Er. destruct xs as [|x xs]; cbn [bind]; [exact R|]. intros v Rv. unfold fupd. destruct (Nat.eqb_spec v r) as [->|]; [|apply R; exact Rv]. exfalso. apply (proj2 Rv eq_refl). rewrite Er. left. reflexivity.
  Qed.
  Lemma post_spot : spot c P post.
  Proof. exists b0, (pre ++ [s]). split; [apply H|]. rewrite <- app_assoc. apply H. Qed.
  Lemma rel_after xs (e e' : env) k k0 tr : env_rel e e' -> stack_rel P k k0 -> rel (At P post (bind e (op_results c s) xs) k tr) (At P post (bind e' (block_args c' m) (firstn (width arg) xs)) k0 tr).
  Proof.
    intros R K. split; [apply post_spot|]. split; [apply H|]. eexists. eexists. split; [|split; [apply env_result; exact R | exact K]]. rewrite (rho_P _ _ _ _ _ _ _ _ _ _ _ _ _ _ _ I T H), (L_post _ _ _ _ _ _ _ _ _ _ _ _ _ _ _ I T H). reflexivity.
  Qed.
  Lemma swap_map (e e' : env) y d : env_rel e e' -> nth_error (ops c) y = Some d -> ~ In y dead -> map e' (map (swap arg) (o_operands d)) = map e (o_operands d).
  Proof. intros R Ed N. rewrite map_map. apply map_ext_in. intros v Iv. apply R. eapply readable_operand; eassumption. Qed.
  Lemma spot_alive q y : spot c q [y] -> live c dead q -> ~ In y dead.
  Proof. intros Sp Lq. apply (ti_live c dead T y q); [eapply spot_stands; eassumption | exact Lq]. Qed.

  Lemma skipped q k k' : Q q = true -> stack_rel q k k' -> exists f k1, k = f :: k1 /\ f_op f = s /\ f_region f = P /\ f_rest f = post /\ way_ok shape_of c f /\ stack_rel P k1 k'.
  Proof. intros EQ K. destruct K as [q Eq|q f k k' Eq Ef Er El Wf K1|q f k k' Eq Ef]; [congruence | | congruence]. exists f, k. repeat split; assumption. Qed.
  Lemma skipped_only q f k k' : f_op f = s -> stack_rel q (f :: k) k' -> Q q = true.
  Proof. intros Ef K. inversion K; [assumption | contradiction]. Qed.

  (** *** Yields out of an if or a switch *)
  Section Yield.
    Hypothesis Sh : shape_at shape_of c s = Some SIf \/ shape_at shape_of c s = Some SSwitch.
    Hypothesis logged : forall y z, image log y = Some z -> exists d dz, nth_error (ops c) y = Some d /\ shape_of (o_kind d) = SYield /\
      nth_error (ops c') z = Some dz /\ o_kind dz = br_kind /\ o_operands dz = firstn (width arg) (map (swap arg) (o_operands d)) /\ o_succs dz = [m].
    Hypothesis within : forall y z q, image log y = Some z -> stands c y q -> Q q = true.
    Hypothesis complete : forall y q, stands c y q -> Q q = true -> shape_at shape_of c y = Some SYield -> image log y <> None.
    Lemma yields_exit : exits_ok.
    Proof.
      intros y z q e e' k k' tr Im Sp Lq R K W. destruct (logged y z Im) as (d & dz & Ed & Es & Ez & Kz & Oz & Sz). pose proof (within y z q Im (spot_stands _ _ I _ _ _ Sp)) as EQ. pose proof (spot_alive q y Sp Lq) as Ny.
      cbn [ScfSpec.step] in *. rewrite Ed, Es in *. rewrite Ez, Kz, Kb, Sz, Oz. cbn [last] in *. rewrite (rho_in P Q q EQ). rewrite <- firstn_map, (swap_map e e' y d R Ed Ny).
      destruct (skipped q k k' EQ K) as (f & k1 & -> & Ef & Er & El & Wf & K1). rewrite merge_jump with (k0 := k') by apply reached_self.
      unfold way_ok in Wf. rewrite Ef in *. destruct (f_way f) as [|body|g].
      - rewrite Er, El. apply rel_after; assumption.
      - exfalso. destruct Sh as [Sh0|Sh0]; rewrite Sh0 in Wf; destruct Wf; discriminate.
      - exfalso. destruct Sh as [Sh0|Sh0]; rewrite Sh0 in Wf; discriminate.
    Qed.
    Lemma yields_only : only_exits_ok.
    Proof.
      intros x q k k' Im Sp K. split.
      - intros Sx EQ. exfalso. exact (complete x q (spot_stands _ _ I _ _ _ Sp) EQ Sx Im).
      - intros _ f k2 U Ef. apply unwind_In in U. destruct U as (Ik & Pf & _). pose proof (stack_way _ _ _ _ _ _ _ _ _ _ _ _ _ K Ik) as W. unfold way_ok, is_loop in *. destruct (f_way f); try discriminate. rewrite Ef in W. destruct Sh as [Sh0|Sh0]; rewrite Sh0 in W; destruct W; discriminate.
    Qed.
  End Yield.

  (** *** Continues and breaks out of a loop *)
  Section LoopOut.
    Variables body header : nat.
    Hypothesis Sh : shape_at shape_of c s = Some SLoop.
    Hypothesis Hb : hd_error (oregs (ops c) s) = Some body.
    Hypothesis Hh : hd_error (rblks (regions c) body) = Some header.
    Hypothesis Qb : forall q, Q q = true <-> q = body.
    Notation reach := (reach shape_of c).
    Hypothesis logged : forall y z, image log y = Some z -> exists d dz vs t, nth_error (ops c) y = Some d /\ loop_turn m arg header (shape_of (o_kind d)) (map (swap arg) (o_operands d)) = Some (vs, t) /\
      nth_error (ops c') z = Some dz /\ o_kind dz = br_kind /\ o_operands dz = vs /\ o_succs dz = [t].
    Hypothesis within : forall y z, image log y = Some z -> reach body y.
    Hypothesis complete : forall y, reach body y -> leaves shape_of c y -> image log y <> None.
    Lemma body_of_s : region_parent c body s.
    Proof. pose proof (loop_child shape_of c dead I s body Sh Hb) as Ch. unfold child in Ch. rewrite Sh in Ch. exact Ch. Qed.
    Lemma nearest k : forall q k' y f k2, stack_rel q k k' -> stands c y q -> reach body y -> unwind is_loop k = Some (f, k2) -> reached q body k = Some (f :: k2) /\ f_op f = s /\ f_way f = Looping body.
    Proof.
      induction k as [|g k IH]; intros q k' y f k2 K Sy Ry U; [discriminate|]. destruct (Nat.eq_dec q body) as [->|Nq].
      - destruct (skipped body _ _ (proj2 (Qb body) eq_refl) K) as (f0 & k1 & Ek & Ef & Er & El & Wf & K1). injection Ek as <- <-. unfold way_ok in Wf. rewrite Ef, Sh in Wf. cbn [unwind] in U. unfold is_loop at 1 in U. destruct (f_way g) as [|bd|r] eqn:Ew; [destruct Wf; discriminate | | discriminate].
        injection U as <- <-. rewrite reached_self. split; [reflexivity|]. split; [exact Ef|]. destruct Wf as (_ & Wf). rewrite Ew. f_equal. congruence.
      - destruct (frame_child _ _ _ _ _ _ _ _ _ _ _ _ _ _ _ I H q g k k' K) as (Ch & Sg & k3 & K3). destruct (reach_up shape_of c dead I body y Ry q Sy Nq) as (o & x & Ro & Sx & Ex & Reo).
        assert (Wg : way_ok shape_of c g) by (eapply stack_way; [exact K | left; reflexivity]).
        assert (Z : reach body (f_op g) /\ is_loop g = false).
        { unfold child in Ch. unfold is_loop. unfold way_ok in Wg. destruct (shape_at shape_of c (f_op g)) as [[]|] eqn:Sg1; try contradiction.
          - pose proof (rparent_unique _ _ _ _ Ro Ch) as ->. split; [exact Reo|]. destruct (f_way g); [reflexivity | destruct Wg; discriminate | reflexivity].
          - pose proof (rparent_unique _ _ _ _ Ro Ch) as ->. rewrite Sg1 in Sx. injection Sx as <-. discriminate.
          - destruct Ch as (x1 & q1 & C1 & C2 & C3 & C4). pose proof (rparent_unique _ _ _ _ Ro C1) as ->. assert (N1 : q1 <> body). { intros ->. pose proof (rparent_unique _ _ _ _ C4 body_of_s) as Es. rewrite Es, Sh in Sg1. discriminate. }
            destruct (reach_up shape_of c dead I body x1 Reo q1 C3 N1) as (o2 & x2 & Ro2 & _ & _ & Reo2). pose proof (rparent_unique _ _ _ _ Ro2 C4) as ->. split; [exact Reo2|]. destruct (f_way g); [reflexivity | destruct Wg; discriminate | reflexivity].
          - pose proof (rparent_unique _ _ _ _ Ro Ch) as ->. split; [exact Reo|]. destruct (f_way g); [reflexivity | destruct Wg; discriminate | reflexivity]. }
        destruct Z as (Rg & Lg). cbn [unwind] in U. rewrite Lg in U. rewrite reached_frame by congruence. eapply IH; eassumption.
    Qed.
    Lemma loop_reaches k : forall q k' y f k2, stack_rel q k k' -> stands c y q -> unwind is_loop k = Some (f, k2) -> f_op f = s -> reach body y.
    Proof.
      induction k as [|g k IH]; intros q k' y f k2 K Sy U Ef; [discriminate|]. cbn [unwind] in U. assert (Wg : way_ok shape_of c g) by (eapply stack_way; [exact K | left; reflexivity]). destruct (is_loop g) eqn:Lg.
      - injection U as -> ->. pose proof (skipped_only q f k2 k' Ef K) as Eq. apply Qb in Eq. subst q. apply reach_here. exact Sy.
      - destruct (frame_child _ _ _ _ _ _ _ _ _ _ _ _ _ _ _ I H q g k k' K) as (Ch & Sg & k3 & K3). pose proof (IH _ _ _ f k2 K3 Sg U Ef) as Rg. unfold child in Ch. unfold way_ok in Wg. unfold is_loop in Lg.
        destruct (shape_at shape_of c (f_op g)) as [[]|] eqn:Sg1; try contradiction.
        + eapply reach_more; [exact Rg | exact Sg1 | reflexivity | exact Ch | exact Sy].
        + exfalso. destruct (f_way g); [destruct Wg; discriminate | discriminate | discriminate].
        + destruct Ch as (x1 & q1 & C1 & C2 & C3 & C4). assert (R1 : reach body x1) by (eapply reach_more; [exact Rg | exact Sg1 | reflexivity | exact C4 | exact C3]). destruct C2 as [C2|C2]; eapply reach_more; try exact R1; try exact C2; try reflexivity; eassumption.
        + eapply reach_more; [exact Rg | exact Sg1 | reflexivity | exact Ch | exact Sy].
    Qed.
    Lemma loop_exits : exits_ok.
    Proof.
      intros y z q e e' k k' tr Im Sp Lq R K W. destruct (logged y z Im) as (d & dz & vs & t & Ed & Et & Ez & Kz & Oz & Sz). pose proof (spot_stands _ _ I _ _ _ Sp) as Sy. pose proof (spot_alive q y Sp Lq) as Ny. pose proof (within y z Im) as Ry.
      assert (Qt : Q body = true) by (apply Qb; reflexivity).
      cbn [ScfSpec.step] in *. rewrite Ed in *. rewrite Ez, Kz, Kb, Sz, Oz. unfold loop_turn in Et. destruct (shape_of (o_kind d)) eqn:Es; try discriminate; cbn [last] in *.
      - injection Et as <- <-. rewrite (swap_map e e' y d R Ed Ny). destruct (unwind is_loop k) as [[f k2]|] eqn:U; [|destruct (nowrong _ W)]. destruct (nearest k q k' y f k2 K Sy Ry U) as (Re & Ef & Ew). rewrite Ew in *.
        rewrite (enter_jump body header _ e (f :: k2) tr Hh) in *. assert (Bh : bpar (blocks c) header = Some body). { apply (in_rblks c dead header body I). destruct (rblks (regions c) body); [discriminate|]. injection Hh as ->. left. reflexivity. }
        rewrite (jump_to c body header _ e (f :: k2) tr body (f :: k2) Bh (reached_self _ _)), <- (jump_to c q header (map e (o_operands d)) e k tr body (f :: k2) Bh Re) in *. apply jumped; assumption.
      - pose proof (swap_map e e' y d R Ed Ny) as Sm. destruct (o_operands d) as [|v ops]; [discriminate|]. cbn [map] in *. injection Et as <- <-. injection Sm as Sv _. destruct (unwind is_loop k) as [[f k2]|] eqn:U; [|destruct (nowrong _ W)]. destruct (nearest k q k' y f k2 K Sy Ry U) as (Re & Ef & Ew).
        destruct (reached_rel shape_of case_value effect equal _ _ _ _ _ _ _ _ _ _ _ _ _ _ I T H body k q k' (f :: k2) K Re) as (k0 & Re' & K0 & _). rewrite (rho_in P Q body Qt) in Re'. destruct (skipped body _ _ Qt K0) as (f0 & k1 & Ek & Ef0 & Er & El & Wf & K1). injection Ek as <- <-.
        rewrite (merge_jump (rho q) _ e' k' k0 tr Re'). rewrite Er, El, Ef. replace (map e' (if Nat.eqb (width arg) 0 then [] else [swap arg v])) with (firstn (width arg) [e v]); [apply rel_after; assumption|]. unfold width. destruct arg as [[r a]|]; cbn; [rewrite <- Sv; reflexivity | reflexivity].
    Qed.
    Lemma loop_only : only_exits_ok.
    Proof.
      intros x q k k' Im Sp K. split; [intros _ _; exact Sh|]. intros Lv f k2 U Ef. pose proof (spot_stands _ _ I _ _ _ Sp) as Sx. exact (complete x (loop_reaches k q k' x f k2 K Sx U Ef) Lv Im).
    Qed.
  End LoopOut.
End Obl.
