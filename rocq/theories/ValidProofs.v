From Verif Require Import ValidModel ValidSpec IrProps IrWalkProofs.
From Coq Require Import Lia.

Lemma vmem_In x l : vmem x l = true <-> In x l.
Proof. unfold vmem. rewrite existsb_exists. split; [intros (y & I & E); apply Nat.eqb_eq in E; congruence | intros I; exists x; split; [exact I | apply Nat.eqb_refl]]. Qed.
Lemma ocat_In {A B} (f : A -> option (list B)) l : forall r y, ocat f l = Some r -> (In y r <-> exists x a, In x l /\ f x = Some a /\ In y a).
Proof.
  induction l as [|x l IH]; intros r y H; cbn in H.
  - injection H as <-. split; [intros [] | intros (z & a & [] & _)].
  - destruct (f x) as [a|] eqn:E; [|discriminate]. destruct (ocat f l) as [b|]; [|discriminate]. injection H as <-. rewrite in_app_iff, (IH b y eq_refl). split.
    + intros [I|(z & a' & I & E' & Iy)]; [exists x, a; cbn; auto | exists z, a'; cbn; auto].
    + intros (z & a' & [<-|I] & E' & Iy); [left; congruence | right; eauto].
Qed.
Lemma ocat_total {A B} (f : A -> option (list B)) l : (forall x, In x l -> f x <> None) -> ocat f l <> None.
Proof.
  induction l as [|x l IH]; intros H; cbn; [discriminate|]. destruct (f x) as [a|] eqn:E; [|exfalso; apply (H x); cbn; auto].
  destruct (ocat f l) as [b|]; [discriminate|]. exfalso. apply IH; [|reflexivity]. intros y I. apply H. right. exact I.
Qed.
Lemma ocat_some {A B} (f : A -> option (list B)) l r x : ocat f l = Some r -> In x l -> exists a, f x = Some a.
Proof.
  revert r. induction l as [|y l IH]; intros r H I; [destruct I|]. cbn in H. destruct (f y) as [a|] eqn:E; [|discriminate]. destruct (ocat f l) as [b|]; [|discriminate].
  destruct I as [<-|I]; [eauto | apply (IH b eq_refl I)].
Qed.
Lemma each_op_In {B} c (f : nat -> op -> option (list B)) r res y : each_op c f r = Some res ->
  (In y res <-> exists o d a, directly_in c r o /\ nth_error (ops c) o = Some d /\ f o d = Some a /\ In y a).
Proof.
  unfold each_op, directly_in. destruct (nth_error (regions c) r) as [rd|] eqn:Er; [|discriminate]. intros H. rewrite (ocat_In _ _ _ _ H). split.
  - intros (b & l & Ib & Eb & Iy). destruct (nth_error (blocks c) b) as [bd|] eqn:Ebd; [|discriminate]. apply (ocat_In _ _ _ _ Eb) in Iy. destruct Iy as (o & a & Io & Eo & Iy).
    destruct (nth_error (ops c) o) as [d|] eqn:Ed; [|discriminate]. exists o, d, a. split; [eauto 8 | auto].
  - intros (o & d & a & (rd' & b & bd & Er' & Ib & Ebd & Io) & Ed & Ea & Iy). assert (rd' = rd) as -> by congruence.
    destruct (ocat_some _ _ _ b H Ib) as [l El]. exists b, l. split; [exact Ib|]. split; [exact El|]. rewrite Ebd in El.
    apply (ocat_In _ _ _ _ El). exists o, a. rewrite Ed. auto.
Qed.
Lemma each_op_some {B} c (f : nat -> op -> option (list B)) r res o d : each_op c f r = Some res -> directly_in c r o -> nth_error (ops c) o = Some d -> exists a, f o d = Some a.
Proof.
  unfold each_op. intros H (rd & b & bd & Er & Ib & Ebd & Io) Ed. rewrite Er in H. destruct (ocat_some _ _ _ b H Ib) as [l El]. rewrite Ebd in El.
  destruct (ocat_some _ _ _ o El Io) as [a Ea]. rewrite Ed in Ea. eauto.
Qed.
Lemma each_op_total {B} c (f : nat -> op -> option (list B)) r : placed c -> r < List.length (regions c) ->
  (forall o d, directly_in c r o -> nth_error (ops c) o = Some d -> f o d <> None) -> each_op c f r <> None.
Proof.
  intros P L H. unfold each_op. destruct (nth_error (regions c) r) as [rd|] eqn:Er; [|apply nth_error_None in Er; lia].
  apply ocat_total. intros b Ib. assert (X : block_parent c b r) by (apply (pl_block c P); exists rd; auto). destruct X as (bd & Ebd & _). rewrite Ebd.
  apply ocat_total. intros o Io. assert (X : op_parent c o b) by (apply (pl_op c P); exists bd; auto). destruct X as (d & Ed & _). rewrite Ed. apply H; [|exact Ed]. exists rd, b, bd. auto.
Qed.
Lemma top_level_ok c r v : placed c -> r < List.length (regions c) -> (In v (top_level c r) <-> defined_in c r v).
Proof.
  intros P L. unfold top_level, defined_in. destruct (nth_error (regions c) r) as [rd|] eqn:Er; [|apply nth_error_None in Er; lia]. rewrite in_flat_map. split.
  - intros (b & Ib & Iv). exists rd, b. split; [reflexivity|]. split; [exact Ib|]. apply in_app_iff in Iv. destruct Iv as [Iv|Iv]; [left; exact Iv|]. right.
    destruct (nth_error (blocks c) b) as [bd|]; [|destruct Iv]. apply in_flat_map in Iv. destruct Iv as (o & Io & Iv). eauto.
  - intros (rd' & b & E & Ib & Iv). assert (rd' = rd) as -> by congruence. exists b. split; [exact Ib|]. apply in_app_iff. destruct Iv as [Iv|(bd & o & Ebd & Io & Iv)]; [auto|].
    right. rewrite Ebd. apply in_flat_map. eauto.
Qed.
Lemma bad_operands_ok visible o x i vs : forall k, In (x, i) (bad_operands visible o k vs) <-> x = o /\ exists j v, i = k + j /\ nth_error vs j = Some v /\ ~ In v visible.
Proof.
  induction vs as [|w vs IH]; intros k; cbn [bad_operands].
  - split; [intros [] | intros (_ & j & v & _ & E & _); destruct j; discriminate].
  - rewrite in_app_iff, IH. split.
    + intros [I|(-> & j & v & -> & E & N)].
      * destruct (vmem w visible) eqn:M; [destruct I|]. destruct I as [I|[]]. injection I as <- <-. split; [reflexivity|]. exists 0, w. split; [lia|]. split; [reflexivity|].
        intros I. apply vmem_In in I. congruence.
      * split; [reflexivity|]. exists (S j), v. split; [lia | auto].
    + intros (-> & [|j] & v & E & Ev & N).
      * left. injection Ev as ->. destruct (vmem v visible) eqn:M; [apply vmem_In in M; tauto|]. left. f_equal. lia.
      * right. split; [reflexivity|]. exists j, v. split; [lia | auto].
Qed.

(** ** Nesting *)
Section Nest.
  Variables (c : ctx) (rank : nat -> nat).
  Hypotheses (P : placed c) (N : nests c rank).
  Lemma region_owner q z z' d d' : nth_error (ops c) z = Some d -> In q (o_regions d) -> nth_error (ops c) z' = Some d' -> In q (o_regions d') -> z = z'.
  Proof.
    intros E I E' I'. assert (A : region_parent c q z) by (apply (pl_region c P); exists d; auto). assert (B : region_parent c q z') by (apply (pl_region c P); exists d'; auto).
    destruct A as (r1 & E1 & F1), B as (r2 & E2 & F2). congruence.
  Qed.
  Lemma op_region x q r : directly_in c q x -> directly_in c r x -> q = r.
  Proof.
    intros (q1 & b & bd & E1 & I1 & B1 & J1) (q2 & b' & bd' & E2 & I2 & B2 & J2).
    assert (A : op_parent c x b) by (apply (pl_op c P); exists bd; auto). assert (B : op_parent c x b') by (apply (pl_op c P); exists bd'; auto).
    destruct A as (d1 & D1 & F1), B as (d2 & D2 & F2). assert (b' = b) as -> by congruence.
    assert (A : block_parent c b q) by (apply (pl_block c P); exists q1; auto). assert (B : block_parent c b r) by (apply (pl_block c P); exists q2; auto).
    destruct A as (e1 & G1 & H1), B as (e2 & G2 & H2). congruence.
  Qed.
  Lemma nested_directly x o : nested_in c x o <-> exists d q, nth_error (ops c) o = Some d /\ In q (o_regions d) /\ directly_in c q x.
  Proof.
    split.
    - intros (d & r & rd & b & bd & A & B & C & D & E & F). exists d, r. split; [exact A|]. split; [exact B|]. exists rd, b, bd. auto.
    - intros (d & r & A & B & rd & b & bd & C & D & E & F). exists d, r, rd, b, bd. auto 8.
  Qed.
  Lemma inside_directly q x : directly_in c q x -> inside c q x.
  Proof. intros (rd & b & bd & A & B & C & D). eapply inside_top; eauto. Qed.
  (** Inside a region: directly, or inside a region of an operation directly in it. *)
  Lemma inside_first q x : inside c q x -> directly_in c q x \/ exists o d r2, directly_in c q o /\ nth_error (ops c) o = Some d /\ In r2 (o_regions d) /\ inside c r2 x.
  Proof.
    induction 1 as [rd b bd x A B C D|x y I IH Ne].
    - left. exists rd, b, bd. auto.
    - right. apply nested_directly in Ne. destruct Ne as (d & r2 & Ed & Ir & Dx). destruct IH as [Dy|(o & d' & r3 & Do & Ed' & Ir' & I')].
      + exists y, d, r2. auto using inside_directly.
      + exists o, d', r3. split; [exact Do|]. split; [exact Ed'|]. split; [exact Ir'|]. eapply inside_nested; [exact I'|]. apply nested_directly. eauto.
  Qed.
  (** … or directly in a region of an operation inside it. *)
  Lemma inside_last q x : inside c q x -> directly_in c q x \/ exists z d r2, inside c q z /\ nth_error (ops c) z = Some d /\ In r2 (o_regions d) /\ directly_in c r2 x.
  Proof.
    intros [rd b bd x' A B C D|x' y I Ne].
    - left. exists rd, b, bd. auto.
    - right. apply nested_directly in Ne. destruct Ne as (d & r2 & Ed & Ir & Dx). exists y, d, r2. auto.
  Qed.
  Lemma inside_into q z d r2 x : inside c q z -> nth_error (ops c) z = Some d -> In r2 (o_regions d) -> inside c r2 x -> inside c q x.
  Proof.
    intros Iz Ed Ir. induction 1 as [rd b bd x A B C D|x y I IH Ne].
    - eapply inside_nested; [exact Iz|]. exists d, r2, rd, b, bd. auto 8.
    - eapply inside_nested; eauto.
  Qed.
  (** The operation around a region has a larger rank. *)
  Lemma inside_rank z d q x : nth_error (ops c) z = Some d -> In q (o_regions d) -> inside c q x -> rank x < rank z.
  Proof.
    intros Ed Iq. induction 1 as [rd b bd x A B C D|x y I IH Ne].
    - apply N. exists d, q, rd, b, bd. auto 8.
    - apply N in Ne. lia.
  Qed.
  Definition under (r q : nat) : Prop := exists z d, inside c r z /\ nth_error (ops c) z = Some d /\ In q (o_regions d).
  Lemma linear q r x : inside c q x -> inside c r x -> q = r \/ under r q \/ under q r.
  Proof.
    intros Iq. revert r. induction Iq as [rd b bd x A B C D|x y I IH Ne]; intros r Ir.
    - assert (Dx : directly_in c q x) by (exists rd, b, bd; auto). destruct (inside_last _ _ Ir) as [Dr|(z & d & r2 & Iz & Ed & Ir2 & Dr)].
      + left. apply (op_region x); assumption.
      + right; left. rewrite (op_region x q r2 Dx Dr). exists z, d. auto.
    - apply nested_directly in Ne. destruct Ne as (d & r2 & Ed & Ir2 & Dx). destruct (inside_last _ _ Ir) as [Dr|(z & d' & r3 & Iz & Ed' & Ir3 & Dr)].
      + right; right. rewrite (op_region x r r2 Dr Dx). exists y, d. auto.
      + rewrite (op_region x r3 r2 Dr Dx) in Ir3. assert (z = y) as -> by (eapply region_owner; eauto). apply IH, Iz.
  Qed.
  Lemma not_under_self r q : under r q -> under q r -> False.
  Proof.
    intros (z & d & Iz & Ed & Iq) (w & d' & Iw & Ed' & Ir). pose proof (inside_rank _ _ _ _ Ed Iq Iw). pose proof (inside_rank _ _ _ _ Ed' Ir Iz). lia.
  Qed.
  Lemma not_under_itself r : under r r -> False.
  Proof. intros U. exact (not_under_self r r U U). Qed.
End Nest.

(** ** Scope *)
Section Scope.
  Variables (c : ctx) (rank : nat -> nat).
  Hypotheses (P : placed c) (N : nests c rank).
  Definition scope (r x v : nat) : Prop := exists q, (q = r \/ under c r q) /\ inside c q x /\ defined_in c q v.
  Lemma region_exists r x : inside c r x -> r < List.length (regions c).
  Proof.
    intros I. destruct (inside_first c r x I) as [(rd & b & bd & E & _)|(o & d & r2 & (rd & b & bd & E & _) & _)]; apply nth_error_Some; congruence.
  Qed.
  Lemma check_ok : forall n r outer es x i, check_region n c r outer = Some es ->
    (In (x, i) es <-> exists v, inside c r x /\ reads c x i v /\ ~ In v outer /\ ~ scope r x v).
  Proof.
    induction n as [|n IH]; intros r outer es x i H; [discriminate|]. cbn [check_region] in H. rewrite (each_op_In _ _ _ _ _ H). split.
    - intros (o & d & a & Do & Ed & Ea & Ix). pose proof (region_exists r o (inside_directly c r o Do)) as Lr.
      destruct (ocat (fun r2 => check_region n c r2 (outer ++ top_level c r)) (o_regions d)) as [es2|] eqn:E2; [|discriminate]. injection Ea as <-.
      apply in_app_iff in Ix. destruct Ix as [Ix|Ix].
      + apply bad_operands_ok in Ix. destruct Ix as (-> & j & v & -> & Ev & Nv). cbn [Nat.add]. rewrite in_app_iff, (top_level_ok c r v P Lr) in Nv.
        exists v. split; [apply inside_directly, Do|]. split; [exists d; auto|]. split; [tauto|]. intros (q & [->|U] & Iq & Df); [tauto|].
        destruct (linear c P q r o Iq (inside_directly c r o Do)) as [->|[U'|U']]; [tauto| |exact (not_under_self c rank N r q U U')].
        destruct (inside_last c q o Iq) as [Dq|(z & dz & r3 & Iz & Edz & Ir3 & Dq)].
        * rewrite (op_region c P o q r Dq Do) in U. exact (not_under_itself c rank N r U).
        * rewrite (op_region c P o r3 r Dq Do) in Ir3. apply (not_under_self c rank N r q U). exists z, dz. auto.
      + apply (ocat_In _ _ _ _ E2) in Ix. destruct Ix as (r2 & a2 & Ir2 & Ea2 & Ix). apply (IH _ _ _ _ _ Ea2) in Ix. destruct Ix as (v & I2 & R & Nv & Ns).
        rewrite in_app_iff, (top_level_ok c r v P Lr) in Nv. exists v. split; [eapply inside_into; eauto using inside_directly|]. split; [exact R|]. split; [tauto|].
        intros (q & [->|U] & Iq & Df); [tauto|]. apply Ns. exists q. split; [|auto].
        destruct (linear c P q r2 x Iq I2) as [->|[U'|U']]; [auto | auto|]. exfalso.
        (* o would be inside q *)
        destruct U' as (z & dz & Iz & Edz & Irz). assert (z = o) as -> by (eapply region_owner; eauto).
        destruct (inside_last c q o Iz) as [Dq|(z & dz' & r3 & Iz' & Edz' & Ir3 & Dq)].
        * rewrite (op_region c P o q r Dq Do) in U. exact (not_under_itself c rank N r U).
        * rewrite (op_region c P o r3 r Dq Do) in Ir3. apply (not_under_self c rank N r q U). exists z, dz'. auto.
    - intros (v & I & R & No & Ns). pose proof (region_exists r x I) as Lr.
      assert (Nt : ~ In v (outer ++ top_level c r)).
      { rewrite in_app_iff, (top_level_ok c r v P Lr). intros [Q|Q]; [tauto|]. apply Ns. exists r. auto. }
      destruct (inside_first c r x I) as [Dx|(o & d & r2 & Do & Ed & Ir2 & I2)].
      + destruct R as (d & Ed & Ev). destruct (each_op_some _ _ _ _ _ _ H Dx Ed) as [a Ea]. exists x, d, a. split; [exact Dx|]. split; [exact Ed|]. split; [exact Ea|].
        destruct (ocat _ (o_regions d)) as [es2|]; [|discriminate]. injection Ea as <-. apply in_app_iff. left. apply bad_operands_ok. split; [reflexivity|]. exists i, v. auto.
      + destruct (each_op_some _ _ _ _ _ _ H Do Ed) as [a Ea]. exists o, d, a. split; [exact Do|]. split; [exact Ed|]. split; [exact Ea|].
        destruct (ocat (fun r2 => check_region n c r2 (outer ++ top_level c r)) (o_regions d)) as [es2|] eqn:E2; [|discriminate]. injection Ea as <-. apply in_app_iff. right.
        destruct (ocat_some _ _ _ r2 E2 Ir2) as [a2 Ea2]. apply (ocat_In _ _ _ _ E2). exists r2, a2. split; [exact Ir2|]. split; [exact Ea2|]. apply (IH _ _ _ _ _ Ea2).
        exists v. split; [exact I2|]. split; [exact R|]. split; [exact Nt|]. intros (q & Uq & Iq & Df). apply Ns. exists q. split; [|auto]. right.
        destruct Uq as [->|(z & dz & Iz & Edz & Iqz)].
        * exists o, d. auto using inside_directly.
        * exists z, dz. split; [apply (inside_into c r o d r2 z (inside_directly c r o Do) Ed Ir2 Iz) | auto].
  Qed.
  Variable is_function : nat -> bool.
  Lemma validate_In : forall n r es f x i, validate_functions is_function n c r = Some es ->
    (In (f, (x, i)) es <-> exists d r2 m a, inside c r f /\ nth_error (ops c) f = Some d /\ is_function (o_kind d) = true /\ In r2 (o_regions d) /\
       check_region m c r2 [] = Some a /\ In (x, i) a).
  Proof.
    induction n as [|n IH]; intros r es f x i H; [discriminate|]. cbn [validate_functions] in H. rewrite (each_op_In _ _ _ _ _ H). split.
    - intros (o & d & a & Do & Ed & Ea & Ix).
      destruct (if is_function (o_kind d) then ocat (fun r2 => check_region n c r2 []) (o_regions d) else Some []) as [es1|] eqn:E1; [|discriminate].
      destruct (ocat (validate_functions is_function n c) (o_regions d)) as [es2|] eqn:E2; [|discriminate]. injection Ea as <-. apply in_app_iff in Ix. destruct Ix as [Ix|Ix].
      + apply in_map_iff in Ix. destruct Ix as ([x' i'] & E & Ix). injection E as <- <- <-. destruct (is_function (o_kind d)) eqn:K; [|injection E1 as <-; destruct Ix].
        apply (ocat_In _ _ _ _ E1) in Ix. destruct Ix as (r2 & a2 & I2 & Ea2 & Ix). exists d, r2, n, a2. auto 10 using inside_directly.
      + apply (ocat_In _ _ _ _ E2) in Ix. destruct Ix as (r2 & a2 & I2 & Ea2 & Ix). apply (IH _ _ _ _ _ Ea2) in Ix. destruct Ix as (d' & r3 & m & a3 & If & Q).
        exists d', r3, m, a3. split; [eapply inside_into; eauto using inside_directly | exact Q].
    - intros (d & r2 & m & a & If & Ed & K & I2 & Ea & Ix). destruct (inside_first c r f If) as [Df|(o & d' & r3 & Do & Ed' & Ir3 & I3)].
      + destruct (each_op_some _ _ _ _ _ _ H Df Ed) as [a1 Ea1]. exists f, d, a1. split; [exact Df|]. split; [exact Ed|]. split; [exact Ea1|].
        rewrite K in Ea1. destruct (ocat (fun r2 => check_region n c r2 []) (o_regions d)) as [es1|] eqn:E1; [|discriminate].
        destruct (ocat (validate_functions is_function n c) (o_regions d)) as [es2|] eqn:E2; [|discriminate]. injection Ea1 as <-. apply in_app_iff. left. apply in_map.
        destruct (ocat_some _ _ _ r2 E1 I2) as [a2 Ea2]. apply (ocat_In _ _ _ _ E1). exists r2, a2. split; [exact I2|]. split; [exact Ea2|].
        apply (check_ok _ _ _ _ _ _ Ea2). apply (check_ok _ _ _ _ _ _ Ea). exact Ix.
      + destruct (each_op_some _ _ _ _ _ _ H Do Ed') as [a1 Ea1]. exists o, d', a1. split; [exact Do|]. split; [exact Ed'|]. split; [exact Ea1|].
        destruct (if is_function (o_kind d') then ocat (fun r2 => check_region n c r2 []) (o_regions d') else Some []) as [es1|]; [|discriminate].
        destruct (ocat (validate_functions is_function n c) (o_regions d')) as [es2|] eqn:E2; [|discriminate]. injection Ea1 as <-. apply in_app_iff. right.
        destruct (ocat_some _ _ _ r3 E2 Ir3) as [a2 Ea2]. apply (ocat_In _ _ _ _ E2). exists r3, a2. split; [exact Ir3|]. split; [exact Ea2|].
        apply (IH _ _ _ _ _ Ea2). exists d, r2, m, a. auto 10.
  Qed.
  Lemma scope_function f d r x v : nth_error (ops c) f = Some d -> In r (o_regions d) -> inside c r x -> (scope r x v <-> in_scope c f x v).
  Proof.
    intros Ed Ir Ix. split.
    - intros (q & Uq & Iq & Df). exists q. split; [|auto]. destruct Uq as [->|(z & dz & Iz & Edz & Iqz)]; [exists f, d; split; [constructor | auto]|].
      exists z, dz. split; [|auto]. clear Edz Iqz. induction Iz as [rd b bd z A B C D|z y I IH Ne].
      + eapply within_step; [constructor|]. exists d, r, rd, b, bd. auto 8.
      + eapply within_step; eauto.
    - intros (q & (z & dz & W & Edz & Iqz) & Iq & Df). exists q. split; [|auto].
      assert (Wz : z = f \/ exists r', In r' (o_regions d) /\ inside c r' z).
      { clear Edz Iqz Iq. induction W as [|y z W IH Ne]; [auto|]. right. destruct IH as [->|(r' & Ir' & I')].
        - apply nested_directly in Ne. destruct Ne as (d' & r' & Ed' & Ir' & Dz). assert (d' = d) as -> by congruence. exists r'. auto using inside_directly.
        - exists r'. split; [exact Ir'|]. eapply inside_nested; eauto. }
      assert (Same : forall r', In r' (o_regions d) -> inside c r' x -> r' = r).
      { intros r' Ir' I'. destruct (linear c P r' r x I' Ix) as [->|[(w & dw & Iw & Edw & Irw)|(w & dw & Iw & Edw & Irw)]]; [reflexivity| |]; exfalso.
        - assert (w = f) as -> by (eapply region_owner; eauto). pose proof (inside_rank c rank N _ _ _ _ Ed Ir Iw). lia.
        - assert (w = f) as -> by (eapply region_owner; eauto). pose proof (inside_rank c rank N _ _ _ _ Ed Ir' Iw). lia. }
      destruct Wz as [->|(r' & Ir' & I')].
      + left. apply Same; [|exact Iq]. congruence.
      + right. rewrite <- (Same r' Ir'); [exists z, dz; auto|]. eapply inside_into; eauto.
  Qed.
  Lemma validation_exact n r es f x i : validate_functions is_function n c r = Some es ->
    (In (f, (x, i)) es <-> exists d v, inside c r f /\ nth_error (ops c) f = Some d /\ is_function (o_kind d) = true /\ in_body c f x /\ reads c x i v /\ ~ in_scope c f x v).
  Proof.
    intros H. rewrite (validate_In _ _ _ _ _ _ H). split.
    - intros (d & r2 & m & a & If & Ed & K & I2 & Ea & Ix). apply (check_ok _ _ _ _ _ _ Ea) in Ix. destruct Ix as (v & Ix & R & _ & Ns).
      exists d, v. split; [exact If|]. split; [exact Ed|]. split; [exact K|]. split; [exists d, r2; auto|]. split; [exact R|]. rewrite <- (scope_function f d r2 x v Ed I2 Ix). exact Ns.
    - intros (d & v & If & Ed & K & (d' & r2 & Ed' & I2 & Ix) & R & Ns). assert (d' = d) as -> by congruence.
      assert (Ex : exists m a, check_region m c r2 [] = Some a).
      { destruct (inside_first c r f If) as [Df|Q].
        - destruct n as [|n]; [discriminate|]. cbn [validate_functions] in H. destruct (each_op_some _ _ _ _ _ _ H Df Ed) as [a1 Ea1]. rewrite K in Ea1.
          destruct (ocat (fun r2 => check_region n c r2 []) (o_regions d)) as [es1|] eqn:E1; [|discriminate]. destruct (ocat_some _ _ _ r2 E1 I2) as [a2 Ea2]. eauto.
        - clear -H If Ed K I2. revert r es H If. induction n as [|n IHn]; intros r es H If; [discriminate|]. cbn [validate_functions] in H.
          destruct (inside_first c r f If) as [Df|(o & d' & r3 & Do & Ed' & Ir3 & I3)].
          + destruct (each_op_some _ _ _ _ _ _ H Df Ed) as [a1 Ea1]. rewrite K in Ea1.
            destruct (ocat (fun r2 => check_region n c r2 []) (o_regions d)) as [es1|] eqn:E1; [|discriminate]. destruct (ocat_some _ _ _ r2 E1 I2) as [a2 Ea2]. eauto.
          + destruct (each_op_some _ _ _ _ _ _ H Do Ed') as [a1 Ea1].
            destruct (if is_function (o_kind d') then ocat (fun r2 => check_region n c r2 []) (o_regions d') else Some []) as [es1|]; [|discriminate].
            destruct (ocat (validate_functions is_function n c) (o_regions d')) as [es2|] eqn:E2; [|discriminate].
            destruct (ocat_some _ _ _ r3 E2 Ir3) as [a2 Ea2]. exact (IHn _ _ Ea2 I3). }
      destruct Ex as (m & a & Ea). exists d, r2, m, a. repeat (split; [assumption|]). apply (check_ok _ _ _ _ _ _ Ea). exists v. split; [exact Ix|]. split; [exact R|]. split; [auto|].
      rewrite (scope_function f d r2 x v Ed I2 Ix). exact Ns.
  Qed.
  (** Fuel. *)
  Lemma nested_region_exists o d r2 : nth_error (ops c) o = Some d -> In r2 (o_regions d) -> r2 < List.length (regions c).
  Proof.
    intros Ed I. assert (A : region_parent c r2 o) by (apply (pl_region c P); exists d; auto). destruct A as (rd & E & _). apply nth_error_Some. congruence.
  Qed.
  Lemma check_total : forall n r outer, r < List.length (regions c) -> (forall x, inside c r x -> rank x < n) -> check_region (S n) c r outer <> None.
  Proof.
    induction n as [|n IH]; intros r outer L R; cbn [check_region]; apply each_op_total; try assumption; intros o d Do Ed; pose proof (R o (inside_directly c r o Do)) as Ro; [lia|].
    destruct (ocat _ (o_regions d)) as [es|] eqn:E; [discriminate|]. exfalso. revert E. apply ocat_total. intros r2 I2. apply IH; [eapply nested_region_exists; eauto|].
    intros x Ix. pose proof (inside_rank c rank N _ _ _ _ Ed I2 Ix). lia.
  Qed.
  Lemma validate_total : forall n r, r < List.length (regions c) -> (forall x, inside c r x -> rank x < n) -> validate_functions is_function (S n) c r <> None.
  Proof.
    induction n as [|n IH]; intros r L R; cbn [validate_functions]; apply each_op_total; try assumption; intros o d Do Ed; pose proof (R o (inside_directly c r o Do)) as Ro; [lia|].
    assert (Rn : forall r2 x, In r2 (o_regions d) -> inside c r2 x -> rank x < n) by (intros r2 x I2 Ix; pose proof (inside_rank c rank N _ _ _ _ Ed I2 Ix); lia).
    destruct (if is_function (o_kind d) then _ else _) as [es1|] eqn:E1.
    - clear E1. destruct (ocat _ (o_regions d)) as [es2|] eqn:E2; [discriminate|]. exfalso. revert E2. apply ocat_total. intros r2 I2.
      refine (IH r2 _ _); [eapply nested_region_exists; eauto | intros x; apply Rn, I2].
    - exfalso. destruct (is_function (o_kind d)); [|discriminate]. revert E1. apply ocat_total. intros r2 I2. apply check_total; [eapply nested_region_exists; eauto | intros x; apply Rn, I2].
  Qed.
End Scope.

(** ** Use lists *)
Section Uses.
  Variables (c : ctx) (rank : nat -> nat).
  Hypotheses (P : placed c) (N : nests c rank).
  Definition log (l : list nat) (x : nat) : list nat * action Empty_set := (l ++ [x], Advance).
  Lemma each_log {A} (w : list nat -> A -> wres (list nat) Empty_set) (Q : A -> nat -> Prop) xs :
    (forall x s s', In x xs -> w s x = Continued s' -> exists l, s' = s ++ l /\ forall y, In y l <-> Q x y) ->
    forall s s', each w s xs = Continued s' -> exists l, s' = s ++ l /\ forall y, In y l <-> exists x, In x xs /\ Q x y.
  Proof.
    induction xs as [|x xs IH]; intros H s s' E; cbn in E.
    - injection E as <-. exists []. split; [symmetry; apply app_nil_r|]. intros y. split; [intros [] | intros (x & [] & _)].
    - destruct (w s x) as [s1| |] eqn:E1; try discriminate. destruct (H x s s1 (or_introl eq_refl) E1) as (l1 & -> & H1).
      destruct (IH (fun x s s' I => H x s s' (or_intror I)) _ _ E) as (l2 & -> & H2). exists (l1 ++ l2). split; [symmetry; apply app_assoc|].
      intros y. rewrite in_app_iff, H1, H2. split; [intros [Qy|(z & I & Qy)]; [exists x; cbn; auto | exists z; cbn; auto] | intros (z & [<-|I] & Qy); eauto].
  Qed.
  Lemma walk_log : forall n o s s', walk_op n c log s o = Continued s' -> exists l, s' = s ++ l /\ forall x, In x l <-> within c o x.
  Proof.
    induction n as [|n IH]; intros o s s' H; [discriminate|]. cbn [walk_op log] in H. destruct (nth_error (ops c) o) as [d|] eqn:Ed; [|discriminate].
    apply (each_log _ (fun r x => exists y, directly_in c r y /\ within c y x)) in H.
    - destruct H as (l & -> & H). exists (o :: l). split; [rewrite <- app_assoc; reflexivity|]. intros x. cbn [In]. rewrite H. split.
      + intros [<-|(r & Ir & y & D & W)]; [constructor|]. eapply within_trans; [|exact W]. eapply within_step; [constructor|]. apply nested_directly. eauto.
      + intros W. apply within_first in W. destruct W as [->|(k & Ne & W)]; [auto|]. right. apply nested_directly in Ne. destruct Ne as (d' & q & Ed' & Iq & D).
        exists q. split; [congruence | eauto].
    - intros r s1 s2 Ir E. destruct (nth_error (regions c) r) as [rd|] eqn:Er; [|discriminate].
      apply (each_log _ (fun b x => exists bd y, nth_error (blocks c) b = Some bd /\ In y (b_ops bd) /\ within c y x)) in E.
      + destruct E as (l & -> & E). exists l. split; [reflexivity|]. intros x. rewrite E. split.
        * intros (b & Ib & bd & y & Eb & Iy & W). exists y. split; [exists rd, b, bd; auto | exact W].
        * intros (y & (rd' & b & bd & Er' & Ib & Eb & Iy) & W). assert (rd' = rd) as -> by congruence. eauto 10.
      + intros b s3 s4 Ib E'. destruct (nth_error (blocks c) b) as [bd|]; [|discriminate].
        apply (each_log _ (fun o x => within c o x)) in E'; [|intros o' s5 s6 _; apply IH]. destruct E' as (l & -> & E'). exists l. split; [reflexivity|].
        intros x. rewrite E'. split; [intros (y & Iy & W); eauto | intros (bd' & y & Eb & Iy & W); assert (bd' = bd) as -> by congruence; eauto].
  Qed.
  Lemma within_inside q y x : directly_in c q y -> within c y x -> inside c q x.
  Proof. intros D. induction 1 as [|x z W IH Ne]; [apply inside_directly, D | eapply inside_nested; eauto]. Qed.
  Lemma inside_within q x : inside c q x -> exists y, directly_in c q y /\ within c y x.
  Proof.
    induction 1 as [rd b bd x A B C D|x y I (z & D & W) Ne]; [exists x; split; [exists rd, b, bd; auto | constructor]|]. exists z. split; [exact D|]. eapply within_step; eauto.
  Qed.
  Lemma walk_region_log n r s' : walk_region n c log [] r = Continued s' -> forall x, In x s' <-> inside c r x.
  Proof.
    unfold walk_region. destruct (nth_error (regions c) r) as [rd|] eqn:Er; [|discriminate]. intros H.
    apply (each_log _ (fun b x => exists bd y, nth_error (blocks c) b = Some bd /\ In y (b_ops bd) /\ within c y x)) in H.
    - destruct H as (l & -> & H). intros x. cbn [app]. rewrite H. split.
      + intros (b & Ib & bd & y & Eb & Iy & W). eapply within_inside; [|exact W]. exists rd, b, bd. auto.
      + intros I. destruct (inside_within _ _ I) as (y & (rd' & b & bd & Er' & Ib & Eb & Iy) & W). assert (rd' = rd) as -> by congruence. eauto 10.
    - intros b s3 s4 Ib E'. unfold walk_block in E'. destruct (nth_error (blocks c) b) as [bd|]; [|discriminate].
      apply (each_log _ (fun o x => within c o x)) in E'; [|intros o' s5 s6 _; apply walk_log]. destruct E' as (l & -> & E'). exists l. split; [reflexivity|].
      intros x. rewrite E'. split; [intros (y & Iy & W); eauto | intros (bd' & y & Eb & Iy & W); assert (bd' = bd) as -> by congruence; eauto].
  Qed.
  Lemma region_args_ok : forall n r l, region_args n c r = Some l -> forall v,
    In v l <-> exists q rd b, (q = r \/ under c r q) /\ nth_error (regions c) q = Some rd /\ In b (r_blocks rd) /\ In v (block_args c b).
  Proof.
    induction n as [|n IH]; intros r l H v; [discriminate|]. cbn [region_args] in H. destruct (nth_error (regions c) r) as [rd|] eqn:Er; [|discriminate].
    rewrite (ocat_In _ _ _ _ H). split.
    - intros (b & a & Ib & Ea & Iv). destruct (nth_error (blocks c) b) as [bd|] eqn:Eb; [|discriminate].
      destruct (ocat _ (b_ops bd)) as [vs|] eqn:Ev; [|discriminate]. injection Ea as <-. apply in_app_iff in Iv. destruct Iv as [Iv|Iv]; [exists r, rd, b; auto|].
      apply (ocat_In _ _ _ _ Ev) in Iv. destruct Iv as (o & a & Io & Ea & Iv). destruct (nth_error (ops c) o) as [d|] eqn:Ed; [|discriminate].
      apply (ocat_In _ _ _ _ Ea) in Iv. destruct Iv as (r2 & a2 & I2 & Ea2 & Iv). apply (IH _ _ Ea2) in Iv. destruct Iv as (q & rd' & b' & Uq & Eq & Ib' & Iv).
      assert (Io' : inside c r o) by (apply inside_directly; exists rd, b, bd; auto).
      exists q, rd', b'. split; [|auto]. right. destruct Uq as [->|(z & dz & Iz & Edz & Iqz)]; [exists o, d; auto|]. exists z, dz. split; [|auto]. exact (inside_into c r o d r2 z Io' Ed I2 Iz).
    - intros (q & rd' & b' & Uq & Eq & Ib' & Iv).
      assert (Or : q = r \/ exists o d r2, directly_in c r o /\ nth_error (ops c) o = Some d /\ In r2 (o_regions d) /\ (q = r2 \/ under c r2 q)).
      { destruct Uq as [->|(z & dz & Iz & Edz & Iqz)]; [auto|]. right. destruct (inside_first c r z Iz) as [D|(o & d & r2 & Do & Ed & I2 & Iz2)].
        - exists z, dz, q. auto.
        - exists o, d, r2. split; [exact Do|]. split; [exact Ed|]. split; [exact I2|]. right. exists z, dz. auto. }
      destruct Or as [->|(o & d & r2 & (rd'' & b & bd & Er' & Ib & Eb & Io) & Ed & I2 & Uq')].
      + assert (rd' = rd) as -> by congruence. destruct (ocat_some _ _ _ b' H Ib') as [a Ea]. exists b', a. split; [exact Ib'|]. split; [exact Ea|].
        destruct (nth_error (blocks c) b') as [bd|]; [|discriminate]. destruct (ocat _ (b_ops bd)) as [vs|]; [|discriminate]. injection Ea as <-. apply in_app_iff. auto.
      + assert (rd'' = rd) as -> by congruence. destruct (ocat_some _ _ _ b H Ib) as [a Ea]. exists b, a. split; [exact Ib|]. split; [exact Ea|].
        rewrite Eb in Ea. destruct (ocat _ (b_ops bd)) as [vs|] eqn:Ev; [|discriminate]. injection Ea as <-. apply in_app_iff. right. apply (ocat_In _ _ _ _ Ev).
        destruct (ocat_some _ _ _ o Ev Io) as [a Ea]. exists o, a. split; [exact Io|]. split; [exact Ea|]. rewrite Ed in Ea. apply (ocat_In _ _ _ _ Ea).
        destruct (ocat_some _ _ _ r2 Ea I2) as [a2 Ea2]. exists r2, a2. split; [exact I2|]. split; [exact Ea2|]. apply (IH _ _ Ea2). exists q, rd', b'. auto.
  Qed.
  Lemma number_In {A} (l : list A) : forall k i x, In (i, x) (number k l) <-> exists j, i = k + j /\ nth_error l j = Some x.
  Proof.
    induction l as [|y l IH]; intros k i x; cbn [number].
    - split; [intros [] | intros (j & _ & E); destruct j; discriminate].
    - cbn [In]. rewrite IH. split.
      + intros [E|(j & -> & E)]; [injection E as <- <-; exists 0; split; [lia | reflexivity] | exists (S j); split; [lia | exact E]].
      + intros ([|j] & -> & E); [left; injection E as ->; f_equal; lia | right; exists j; split; [lia | exact E]].
  Qed.
  Lemma operands_at_In o v x i : In (v, (x, i)) (operands_at c o) <-> x = o /\ reads c o i v.
  Proof.
    unfold operands_at, reads. destruct (nth_error (ops c) o) as [d|] eqn:Ed.
    - rewrite in_map_iff. split.
      + intros ([j w] & E & I). cbn in E. injection E as <- <- <-. apply number_In in I. destruct I as (j' & -> & E). split; [reflexivity|]. exists d. auto.
      + intros (-> & d' & E & En). injection E as <-. exists (i, v). split; [reflexivity|]. apply number_In. exists i. auto.
    - split; [intros [] | intros (_ & d & E & _); discriminate].
  Qed.
  Lemma uses_report n r missing stale : validate_uses n c r = Some (missing, stale) ->
    (forall v o i, In (v, (o, i)) missing <-> inside c r o /\ reads c o i v /\ ~ In (o, i) (uses c v)) /\
    (forall v o i, In (v, (o, i)) stale <-> concerns c r v /\ In (o, i) (uses c v) /\ ~ (inside c r o /\ reads c o i v)).
  Proof.
    unfold validate_uses. change (fun l x => (l ++ [x], Advance)) with log. destruct (walk_region n c log [] r) as [all_ops| |] eqn:E; try discriminate.
    destruct (region_args n c r) as [args|] eqn:Ea; [|discriminate]. intros H. injection H as <- <-.
    pose proof (walk_region_log _ _ _ E) as Ops. pose proof (region_args_ok _ _ _ Ea) as Args.
    assert (Act : forall v o i, In (v, (o, i)) (flat_map (operands_at c) all_ops) <-> inside c r o /\ reads c o i v).
    { intros v o i. rewrite in_flat_map. split; [intros (x & Ix & I); apply operands_at_In in I; destruct I as (-> & R); rewrite <- Ops; auto | intros (I & R); exists o; rewrite Ops, operands_at_In; auto]. }
    split.
    - intros v o i. rewrite filter_In, Act, negb_true_iff. cbn [fst snd]. split.
      + intros ((I & R) & F). split; [exact I|]. split; [exact R|]. intros U. enough (existsb (fun u : nat * nat => (fst u =? o) && (snd u =? i)) (uses c v) = true) by congruence.
        apply existsb_exists. exists (o, i). cbn. rewrite !Nat.eqb_refl. auto.
      + intros (I & R & U). split; [auto|]. match goal with |- ?b = false => destruct b eqn:X; [|reflexivity] end. exfalso. apply existsb_exists in X. destruct X as ([o' i'] & Iu & X). cbn in X.
        apply andb_true_iff in X. destruct X as [X1 X2]. apply Nat.eqb_eq in X1, X2. subst. tauto.
    - intros v o i. rewrite in_flat_map.
      assert (Chk : forall v, In v (nodup Nat.eq_dec (map fst (flat_map (operands_at c) all_ops) ++ flat_map (op_results c) all_ops ++ args)) <-> concerns c r v).
      { intros w. rewrite nodup_In, !in_app_iff, in_map_iff, in_flat_map, Args. unfold concerns. split.
        - intros [([w' [o' i']] & E1 & I)|[(o' & Io & Iw)|Q]].
          + cbn in E1. subst w'. apply Act in I. left. exists o', i'. exact I.
          + right; left. exists o'. rewrite <- Ops. auto.
          + right; right. exact Q.
        - intros [(o' & i' & I)|[(o' & Io & Iw)|Q]].
          + left. exists (w, (o', i')). rewrite Act. auto.
          + right; left. exists o'. rewrite Ops. auto.
          + right; right. exact Q. }
      assert (Mem : forall v o i, use_mem v (o, i) (flat_map (operands_at c) all_ops) = true <-> inside c r o /\ reads c o i v).
      { intros w o' i'. rewrite <- Act. unfold use_mem. rewrite existsb_exists. split.
        - intros ([w2 [o2 i2]] & I & X). cbn in X. rewrite !andb_true_iff, !Nat.eqb_eq in X. destruct X as ((-> & ->) & ->). exact I.
        - intros I. exists (w, (o', i')). split; [exact I|]. cbn. rewrite !Nat.eqb_refl. reflexivity. }
      split.
      + intros (w & Iw & I). apply in_map_iff in I. destruct I as (u & E1 & I). injection E1 as -> ->. apply filter_In in I. destruct I as (Iu & F). apply negb_true_iff in F.
        split; [apply Chk, Iw|]. split; [exact Iu|]. intros Q. apply Mem in Q. congruence.
      + intros (C & Iu & Nq). exists v. split; [apply Chk, C|]. apply in_map. apply filter_In. split; [exact Iu|]. apply negb_true_iff.
        destruct (use_mem v (o, i) _) eqn:X; [apply Mem in X; tauto | reflexivity].
  Qed.
  (** A module is accepted when nobody outside it reads its values and nothing in it was disposed of. *)
  Lemma uses_accepted n r dead missing stale : uses_exact c dead -> validate_uses n c r = Some (missing, stale) ->
    (missing = [] /\ stale = [] <->
     (forall o i v, inside c r o -> reads c o i v -> ~ In o dead) /\
     (forall v o i, concerns c r v -> ~ In o dead -> reads c o i v -> inside c r o)).
  Proof.
    intros U H. destruct (uses_report _ _ _ _ H) as [M S]. split.
    - intros (-> & ->). split.
      + intros o i v I R D. apply (M v o i). split; [exact I|]. split; [exact R|]. intros Q. apply (proj2 (U v)) in Q. tauto.
      + intros v o i C D R. 
        assert (Q : ~ ~ (inside c r o /\ reads c o i v)).
        { intros Nq. apply (S v o i). split; [exact C|]. split; [apply (proj2 (U v)); auto | exact Nq]. }
        assert (Dec : inside c r o \/ ~ inside c r o).
        { unfold validate_uses in H. change (fun l x => (l ++ [x], Advance)) with log in H. destruct (walk_region n c log [] r) as [all_ops| |] eqn:E; try discriminate.
          destruct (in_dec Nat.eq_dec o all_ops) as [I|I]; rewrite (walk_region_log _ _ _ E) in I; auto. }
        destruct Dec as [I|I]; [exact I|]. exfalso. apply Q. tauto.
    - intros [A B]. split.
      + destruct missing as [|[v [o i]] rest]; [reflexivity|]. exfalso. destruct (proj1 (M v o i) (or_introl eq_refl)) as (I & R & Nu). apply Nu. apply (proj2 (U v)). split; [eapply A; eauto | exact R].
      + destruct stale as [|[v [o i]] rest]; [reflexivity|]. exfalso. destruct (proj1 (S v o i) (or_introl eq_refl)) as (C & Iu & Nq). apply (proj2 (U v)) in Iu. destruct Iu as [D R].
        apply Nq. split; [eapply B; eauto | exact R].
  Qed.
  (** Fuel. *)
  Lemma each_total {A} (w : list nat -> A -> wres (list nat) Empty_set) xs : (forall x s, In x xs -> exists s', w s x = Continued s') -> forall s, exists s', each w s xs = Continued s'.
  Proof.
    induction xs as [|x xs IH]; intros H s; cbn; [eauto|]. destruct (H x s (or_introl eq_refl)) as [s' ->]. apply IH. intros y s2 I. apply H. right. exact I.
  Qed.
  Lemma block_found r rd b : nth_error (regions c) r = Some rd -> In b (r_blocks rd) -> exists bd, nth_error (blocks c) b = Some bd.
  Proof. intros E I. assert (X : block_parent c b r) by (apply (pl_block c P); exists rd; auto). destruct X as (bd & Eb & _). eauto. Qed.
  Lemma op_found b bd o : nth_error (blocks c) b = Some bd -> In o (b_ops bd) -> exists d, nth_error (ops c) o = Some d.
  Proof. intros E I. assert (X : op_parent c o b) by (apply (pl_op c P); exists bd; auto). destruct X as (d & Ed & _). eauto. Qed.
  Lemma walk_total : forall n o s, o < List.length (ops c) -> rank o < n -> exists s', walk_op n c log s o = Continued s'.
  Proof.
    induction n as [|n IH]; intros o s L R; [lia|]. cbn [walk_op log]. destruct (nth_error (ops c) o) as [d|] eqn:Ed; [|apply nth_error_None in Ed; lia].
    apply each_total. intros r s1 Ir. pose proof (nested_region_exists c P o d r Ed Ir) as Lr. destruct (nth_error (regions c) r) as [rd|] eqn:Er; [|apply nth_error_None in Er; lia].
    apply each_total. intros b s2 Ib. destruct (block_found r rd b Er Ib) as [bd Eb]. rewrite Eb. apply each_total. intros x s3 Ix. destruct (op_found b bd x Eb Ix) as [dx Ex].
    apply IH; [apply nth_error_Some; congruence|]. assert (nested_in c x o) by (exists d, r, rd, b, bd; auto 8). pose proof (N _ _ H). lia.
  Qed.
  Lemma region_args_total : forall n r, r < List.length (regions c) -> (forall x, inside c r x -> rank x < n) -> region_args (S n) c r <> None.
  Proof.
    induction n as [|n IH]; intros r L R; cbn [region_args]; (destruct (nth_error (regions c) r) as [rd|] eqn:Er; [|apply nth_error_None in Er; lia]); apply ocat_total; intros b Ib;
      destruct (block_found r rd b Er Ib) as [bd Eb]; rewrite Eb; (match goal with |- match ?X with _ => _ end <> None => destruct X eqn:E2; [discriminate|] end); exfalso; revert E2; apply ocat_total;
      intros o Io; destruct (op_found b bd o Eb Io) as [d Ed]; rewrite Ed; assert (D : inside c r o) by (apply inside_directly; exists rd, b, bd; auto); pose proof (R o D) as Ro; [lia|].
    apply ocat_total. intros r2 I2. refine (IH r2 _ _); [eapply nested_region_exists; eauto|]. intros x Ix. pose proof (inside_rank c rank N _ _ _ _ Ed I2 Ix). lia.
  Qed.
  Lemma validate_uses_total n r : r < List.length (regions c) -> (forall x, inside c r x -> rank x < n) -> validate_uses (S n) c r <> None.
  Proof.
    intros L R. unfold validate_uses. change (fun l x => (l ++ [x], Advance)) with log.
    assert (W : exists s', walk_region (S n) c log [] r = Continued s').
    { unfold walk_region. destruct (nth_error (regions c) r) as [rd|] eqn:Er; [|apply nth_error_None in Er; lia]. apply each_total. intros b s Ib. unfold walk_block.
      destruct (block_found r rd b Er Ib) as [bd Eb]. rewrite Eb. apply each_total. intros o s2 Io. destruct (op_found b bd o Eb Io) as [d Ed].
      apply walk_total; [apply nth_error_Some; congruence|]. assert (D : inside c r o) by (apply inside_directly; exists rd, b, bd; auto). pose proof (R o D). lia. }
    destruct W as [s' ->]. pose proof (region_args_total n r L R) as A. destruct (region_args (S n) c r) as [l|]; [|tauto]. discriminate.
  Qed.
End Uses.
