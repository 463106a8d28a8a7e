(** The simulation between a program and its lowering by one step. *)
From Verif Require Import ScfModel ScfSpec IrProofs IrInvProofs ScfSim.
From Coq Require Import Lia.

Lemma split_unique (s : nat) : forall p l p' l', p ++ s :: l = p' ++ s :: l' -> ~ In s p -> ~ In s p' -> l = l'.
Proof.
  induction p as [|x p IH]; intros l [|y p'] l' E N N'; cbn in E.
  - congruence.
  - injection E as -> _. exfalso. apply N'. left. reflexivity.
  - injection E as -> _. exfalso. apply N. left. reflexivity.
  - injection E as -> E. apply (IH l p' l' E); intros K; [apply N | apply N']; right; exact K.
Qed.

Section Run.
  Context {V E A : Type}.
  Variable shape_of : nat -> shape.
  Variable case_value : nat -> nat.
  Variable effect : nat -> list V -> act (V := V) (E := E) (A := A).
  Variable truth : V -> bool.
  Variable equal : V -> nat -> bool.
  Variable answer : list (E * A) -> E -> A.
  Notation state := (@state V E A).
  Notation frame := (@frame V E A).
  Notation step := (@step V E A shape_of case_value effect truth equal answer).
  Notation steps := (@steps V E A shape_of case_value effect truth equal answer).

  Variable c : ctx.
  Variable dead : list nat.
  Variable c' : ctx.
  Variable dead' : list nat.
  Variables b0 s P m : nat.
  Variables pre post : list nat.
  Variable Q : nat -> bool.
  Variable log : list (nat * nat).
  Variable tail : list nat.
  Variable arg : option (nat * nat).
  Hypothesis I : inv c dead.
  Hypothesis T : tidy c dead.
  Hypothesis H : lowering shape_of c dead c' dead' b0 s P m pre post Q log tail arg.
  Notation rho := (into Q P).
  Notation L := (relist s log tail).

  Definition wrong (x : state) : Prop := exists tr, x = Done Wrong tr.
  Definition spot (q : nat) (l : list nat) : Prop := exists b done, bpar (blocks c) b = Some q /\ bops (blocks c) b = done ++ l.
  Lemma spot_stands q x l : spot q (x :: l) -> stands c x q.
  Proof. intros (b & dn & H1 & H2). apply (stands_par c dead x q I). exists b. split; [|exact H1]. apply (in_bops c dead x b I). rewrite H2. apply in_elt. Qed.
  Lemma spot_next q x l : spot q (x :: l) -> spot q l.
  Proof. intros (b & dn & H1 & H2). exists b, (dn ++ [x]). rewrite <- app_assoc. split; assumption. Qed.
  Lemma spot_s q l : spot q (s :: l) -> q = P /\ l = post.
  Proof.
    intros K. pose proof (spot_stands _ _ _ K) as S. split; [eapply stands_unique; [exact I | exact S | exact (s_stands _ _ _ _ _ _ _ _ _ _ _ _ _ _ _ I H)]|].
    destruct K as (b & dn & H1 & H2). assert (b = b0) as ->.
    { assert (In s (bops (blocks c) b)) by (rewrite H2; apply in_elt). assert (In s (bops (blocks c) b0)) by (rewrite (lo_home _ _ _ _ _ _ _ _ _ _ _ _ _ _ _ H); apply in_elt).
      apply (in_bops c dead s b I) in H0. apply (in_bops c dead s b0 I) in H3. congruence. }
    rewrite (lo_home _ _ _ _ _ _ _ _ _ _ _ _ _ _ _ H) in H2. pose proof (home_once _ _ _ _ _ _ _ _ _ _ _ _ _ _ _ I H) as (N1 & N2).
    assert (N3 : ~ In s dn /\ ~ In s l).
    { pose proof (bops_nodup c dead b0 I) as N. rewrite (lo_home _ _ _ _ _ _ _ _ _ _ _ _ _ _ _ H), H2 in N. apply NoDup_remove_2 in N. rewrite in_app_iff in N. tauto. }
    symmetry. exact (split_unique s pre post dn l H2 N1 (proj1 N3)).
  Qed.

  (** ** Values *)
  Definition readable (v : nat) : Prop := v < length (vals c) /\ (arg = None -> ~ In v (op_results c s)).
  Definition env_rel (e e' : env) : Prop := forall v, readable v -> e' (swap arg v) = e v :> V.
  Lemma swap_self v : v < length (vals c) -> ~ In v (op_results c s) -> swap arg v = v.
  Proof.
    intros B N. unfold swap. pose proof (lo_arg _ _ _ _ _ _ _ _ _ _ _ _ _ _ _ H) as K. destruct arg as [[r a]|]; [|reflexivity]. destruct K as (K & _). destruct (Nat.eqb_spec v r) as [->|]; [|reflexivity]. exfalso. apply N. rewrite K. left. reflexivity.
  Qed.
  Lemma swap_other v w : w < length (vals c) -> v < length (vals c) -> ~ In w (op_results c s) -> swap arg v = w -> v = w.
  Proof.
    intros B Bv N E0. unfold swap in E0. pose proof (lo_arg _ _ _ _ _ _ _ _ _ _ _ _ _ _ _ H) as K. destruct arg as [[r a]|]; [|exact E0]. destruct K as (_ & K & _). destruct (Nat.eqb_spec v r) as [->|]; [lia | exact E0].
  Qed.
  Definition fine (names : list nat) : Prop := forall v, In v names -> v < length (vals c) /\ ~ In v (op_results c s).
  Lemma env_bind names : fine names -> forall xs e e', env_rel e e' -> env_rel (bind e names xs) (bind e' names xs).
  Proof.
    induction names as [|n names IH]; intros F [|x xs] e e' R; cbn; try exact R. apply IH; [intros v K; apply F; right; exact K|]. destruct (F n (or_introl eq_refl)) as [F1 F2].
    intros v Rv. unfold fupd. destruct (Nat.eqb_spec v n) as [->|Ne].
    - rewrite (swap_self n F1 F2), Nat.eqb_refl. reflexivity.
    - destruct (Nat.eqb_spec (swap arg v) n) as [E1|]; [|apply R; exact Rv]. exfalso. apply Ne. eapply swap_other; [exact F1 | apply Rv | exact F2 | exact E1].
  Qed.
  Lemma args_fine b : fine (block_args c b).
  Proof.
    intros v K. destruct I as (_ & _ & D). apply In_nth_error in K. destruct K as (i & K). apply (de_arg c D) in K. split; [apply nth_error_Some; congruence|].
    intros K2. apply In_nth_error in K2. destruct K2 as (j & K2). apply (de_result c D) in K2. congruence.
  Qed.
  Lemma results_fine x : x <> s -> fine (op_results c x).
  Proof.
    intros N v K. destruct I as (_ & _ & D). apply In_nth_error in K. destruct K as (i & K). apply (de_result c D) in K. split; [apply nth_error_Some; congruence|].
    intros K2. apply In_nth_error in K2. destruct K2 as (j & K2). apply (de_result c D) in K2. congruence.
  Qed.
  Lemma readable_operand x d v : nth_error (ops c) x = Some d -> ~ In x dead -> In v (o_operands d) -> readable v.
  Proof.
    intros Ed Nx Iv. destruct (ti_exist c dead T x d v Ed Nx Iv) as [B _]. split; [exact B|]. intros Ea K. pose proof (lo_arg _ _ _ _ _ _ _ _ _ _ _ _ _ _ _ H) as Ar. rewrite Ea in Ar. destruct Ar as (_ & [Er|(r & Er & Eu)]); rewrite Er in K; [destruct K|].
    destruct K as [->|[]]. apply In_nth_error in Iv. destruct Iv as (i & Iv). destruct I as (U & _). assert (K : In (x, i) (uses c v)) by (apply U; split; [exact Nx|]; unfold rd; rewrite Ed; exact Iv). rewrite Eu in K. destruct K.
  Qed.
  Lemma operands_same e e' x d d' : env_rel e e' -> nth_error (ops c) x = Some d -> ~ In x dead -> nth_error (ops c') x = Some d' -> map e' (o_operands d') = map e (o_operands d).
  Proof.
    intros R Ed Nx Ed'. destruct (lo_ops _ _ _ _ _ _ _ _ _ _ _ _ _ _ _ H x d Ed) as (d1 & E1 & _ & O). assert (d1 = d') as -> by congruence. rewrite (O Nx), map_map. apply map_ext_in. intros v Iv. apply R. eapply readable_operand; eassumption.
  Qed.

  (** ** Stacks *)
  Definition way_ok (f : frame) : Prop :=
    match f_way f with
    | Once => shape_at shape_of c (f_op f) = Some SIf \/ shape_at shape_of c (f_op f) = Some SSwitch
    | Looping body => shape_at shape_of c (f_op f) = Some SLoop /\ hd_error (oregs (ops c) (f_op f)) = Some body
    | Resume _ => shape_at shape_of c (f_op f) = Some SPlain
    end.
  Lemma loop_child o body : shape_at shape_of c o = Some SLoop -> hd_error (oregs (ops c) o) = Some body -> child shape_of c o body.
  Proof. intros Sh Hd. unfold child. rewrite Sh. apply rpar_in. apply (in_oregs c dead body o I). destruct (oregs (ops c) o) as [|r l]; [discriminate|]. injection Hd as ->. left. reflexivity. Qed.
  Definition frame_after (f : frame) : frame := {| f_op := f_op f; f_way := f_way f; f_region := rho (f_region f); f_rest := L (f_rest f) |}.
  Inductive stack_rel : nat -> list frame -> list frame -> Prop :=
  | sr_nil q : Q q = false -> stack_rel q [] []
  | sr_skip q f k k' : Q q = true -> f_op f = s -> f_region f = P -> f_rest f = post -> way_ok f -> stack_rel P k k' -> stack_rel q (f :: k) k'
  | sr_keep q f k k' : Q q = false -> f_op f <> s -> child shape_of c (f_op f) q -> spot (f_region f) (f_op f :: f_rest f) -> live c dead (f_region f) -> way_ok f ->
      stack_rel (f_region f) k k' -> stack_rel q (f :: k) (frame_after f :: k').
  Definition rel (x y : state) : Prop :=
    match x with
    | At q l e k tr => spot q l /\ live c dead q /\ exists e' k', y = At (rho q) (L l) e' k' tr /\ env_rel e e' /\ stack_rel q k k'
    | Doing o a q l e k tr => spot q (o :: l) /\ live c dead q /\ o <> s /\ shape_at shape_of c o = Some SPlain /\ exists e' k', y = Doing o a (rho q) (L l) e' k' tr /\ env_rel e e' /\ stack_rel q k k'
    | Done z tr => y = Done z tr
    end.

  Lemma frame_child q f k k' : stack_rel q (f :: k) k' -> child shape_of c (f_op f) q /\ stands c (f_op f) (f_region f) /\ exists k2, stack_rel (f_region f) k k2.
  Proof.
    intros K. inversion K; subst.
    - split; [|split].
      + match goal with E : f_op f = s |- _ => rewrite E end. apply (lo_Q _ _ _ _ _ _ _ _ _ _ _ _ _ _ _ H). assumption.
      + match goal with E : f_op f = s, F : f_region f = P |- _ => rewrite E, F end. exact (s_stands _ _ _ _ _ _ _ _ _ _ _ _ _ _ _ I H).
      + match goal with F : f_region f = P |- _ => rewrite F end. eexists. eassumption.
    - split; [assumption|]. split; [eapply spot_stands; eassumption | eexists; eassumption].
  Qed.
  (** No region occurs twice on a stack. *)
  Lemma stack_ranks rank : (forall x q o, stands c x q -> region_parent c q o -> rank x < rank o) ->
    forall k q k', stack_rel q k k' -> forall f, In f k -> forall x, stands c x q -> rank x < rank (f_op f).
  Proof.
    intros R. induction k as [|f k IH]; intros q k' K g Ig x S; [destruct Ig|]. destruct (frame_child q f k k' K) as (Ch & St & k2 & K2).
    pose proof (child_rank shape_of c rank _ _ _ R Ch S). destruct Ig as [<-|Ig]; [assumption|]. pose proof (IH _ _ K2 g Ig _ St). lia.
  Qed.
  Lemma stack_fresh q k k' f : stack_rel q k k' -> In f k -> f_region f <> q.
  Proof.
    intros K If Ef. destruct (ti_rank c dead T) as (rank & R). assert (S : stands c (f_op f) (f_region f)).
    { clear Ef. revert q k' K If. induction k as [|g k IH]; intros q k' K If; [destruct If|]. destruct (frame_child q g k k' K) as (_ & St & k2 & K2). destruct If as [<-|If]; [exact St | exact (IH _ _ K2 If)]. }
    rewrite Ef in S. pose proof (stack_ranks rank R k q k' K f If _ S). lia.
  Qed.
  Lemma stack_same_region q f k k' : stack_rel q (f :: k) k' -> forall g, In g k -> f_region g <> f_region f.
  Proof. intros K g Ig. destruct (frame_child q f k k' K) as (_ & _ & k2 & K2). eapply stack_fresh; eassumption. Qed.

  Lemma stack_suffix up : forall r g k2 ks, stack_rel r (up ++ g :: k2) ks -> exists r2 ks2, stack_rel r2 (g :: k2) ks2.
  Proof.
    induction up as [|h up IH]; intros r g k2 ks K; [exists r, ks; exact K|]. cbn in K. destruct (frame_child _ _ _ _ K) as (_ & _ & k3 & K3). exact (IH _ _ _ _ K3).
  Qed.
  (** Unwinding to a region. *)
  Lemma unwind_In p (k : list frame) f k2 : unwind p k = Some (f, k2) -> In f k /\ p f = true /\ (exists up, k = up ++ f :: k2).
  Proof.
    induction k as [|g k IH]; cbn; [discriminate|]. destruct (p g) eqn:Ep.
    - intros K. injection K as <- <-. split; [left; reflexivity|]. split; [exact Ep | exists []; reflexivity].
    - intros K. destruct (IH K) as (K1 & K2 & up & K3). split; [right; exact K1|]. split; [exact K2|]. exists (g :: up). rewrite K3. reflexivity.
  Qed.
  Definition reached (q q0 : nat) (k : list frame) : option (list frame) :=
    if Nat.eqb q0 q then Some k else option_map snd (unwind (fun f => Nat.eqb (f_region f) q0) k).
  Lemma reached_frame q q0 f k : q0 <> q -> reached q q0 (f :: k) = reached (f_region f) q0 k.
  Proof. intros N. unfold reached. replace (Nat.eqb q0 q) with false by (symmetry; apply Nat.eqb_neq; exact N). cbn. rewrite (Nat.eqb_sym q0). destruct (Nat.eqb (f_region f) q0); reflexivity. Qed.
  Lemma reached_rel q0 : forall k q k' k0, stack_rel q k k' -> reached q q0 k = Some k0 -> exists k0', reached (rho q) (rho q0) k' = Some k0' /\ stack_rel q0 k0 k0' /\ (q0 = q \/ live c dead q0).
  Proof.
    induction k as [|f k IH]; intros q k' k0 K R0.
    - unfold reached in R0. destruct (Nat.eqb_spec q0 q) as [->|]; [|discriminate]. injection R0 as <-. exists k'. unfold reached. rewrite Nat.eqb_refl. split; [reflexivity | split; [exact K | left; reflexivity]].
    - destruct (Nat.eq_dec q0 q) as [->|N].
      { unfold reached in R0. rewrite Nat.eqb_refl in R0. injection R0 as <-. exists k'. unfold reached. rewrite Nat.eqb_refl. split; [reflexivity | split; [exact K | left; reflexivity]]. }
      rewrite (reached_frame q q0 f k N) in R0.
      (* an active region in Q lies above s *)
      assert (deepQ : forall r ks ks', stack_rel r ks ks' -> reached r q0 ks = Some k0 -> Q q0 = true -> r = P -> False).
      { intros r ks ks' Ks Rs EQ ->. unfold reached in Rs. destruct (Nat.eqb_spec q0 P) as [->|Nq]; [rewrite (P_not_Q _ _ _ _ _ _ _ _ _ _ _ _ _ _ _ I T H) in EQ; discriminate|].
        destruct (unwind _ ks) as [[g k2]|] eqn:Eu; [|discriminate]. apply unwind_In in Eu. destruct Eu as (Ig & Eg & up & Ek). apply Nat.eqb_eq in Eg.
        assert (Sub : forall h, In h (g :: k2) -> In h ks) by (intros h Ih; rewrite Ek; apply in_or_app; right; exact Ih).
        destruct (stack_suffix up P g k2 ks' ltac:(rewrite <- Ek; exact Ks)) as (r2 & ks2 & Kg). clear Ek.
        destruct (frame_child _ _ _ _ Kg) as (_ & _ & k3 & K3). rewrite Eg in K3. inversion K3; subst; try congruence.
        assert (Hp : In f0 ks) by (apply Sub; right; left; reflexivity). exact (stack_fresh P ks ks' f0 Ks Hp ltac:(assumption)). }
      inversion K; subst.
      + (* s itself: q is in Q *)
        match goal with F : f_region f = P |- _ => rewrite F in R0 end. destruct (IH P k' k0 ltac:(assumption) R0) as (k0' & R1 & R2 & R3). exists k0'.
        rewrite (rho_in P Q q ltac:(assumption)). rewrite (rho_P _ _ _ _ _ _ _ _ _ _ _ _ _ _ _ I T H) in R1. split; [exact R1|]. split; [exact R2|]. right.
        destruct R3 as [->|R3]; [exact (lo_live _ _ _ _ _ _ _ _ _ _ _ _ _ _ _ H) | exact R3].
      + match goal with Kk : stack_rel (f_region f) k ?kk |- _ => destruct (IH (f_region f) kk k0 Kk R0) as (k0' & R1 & R2 & R3); exists k0'; rename Kk into Ktail end.
        split; [|split; [exact R2|]].
        * rewrite reached_frame; [exact R1|]. rewrite (rho_out P Q q ltac:(assumption)). intros Er. destruct (Q q0) eqn:EQ.
          -- rewrite (rho_in P Q q0 EQ) in Er. subst q. exact (deepQ P (f :: k) _ K ltac:(rewrite reached_frame by exact N; exact R0) eq_refl eq_refl).
          -- rewrite (rho_out P Q q0 EQ) in Er. contradiction.
        * right. destruct R3 as [->|R3]; assumption.
  Qed.

  (** ** Going to blocks and regions *)
  Lemma block_after b bd q : nth_error (blocks c) b = Some bd -> b_parent bd = Some q ->
    exists bd', nth_error (blocks c') b = Some bd' /\ b_ops bd' = L (b_ops bd) /\ b_parent bd' = Some (rho q) /\ block_args c' b = block_args c b /\ spot q (b_ops bd).
  Proof.
    intros Eb Ep. assert (Lb : b < length (blocks c)) by (apply nth_error_Some; congruence). pose proof (lo_bops _ _ _ _ _ _ _ _ _ _ _ _ _ _ _ H b Lb) as Ho. pose proof (lo_bpar _ _ _ _ _ _ _ _ _ _ _ _ _ _ _ H b Lb) as Hp.
    unfold bops, bpar in Ho, Hp. rewrite Eb in Ho, Hp. rewrite Ep in Hp. cbn in Hp. destruct (nth_error (blocks c') b) as [bd'|]; [|discriminate]. exists bd'. split; [reflexivity|]. split; [exact Ho|]. split; [exact Hp|]. split; [exact (lo_args _ _ _ _ _ _ _ _ _ _ _ _ _ _ _ H b Lb)|].
    exists b, []. unfold bpar, bops. rewrite Eb. split; [exact Ep | reflexivity].
  Qed.
  Lemma jump_rel q b vs e e' k k' tr : env_rel e e' -> stack_rel q k k' -> live c dead q -> ~ wrong (jump c q b vs e k tr) -> rel (jump c q b vs e k tr) (jump c' (rho q) b vs e' k' tr).
  Proof.
    intros R K Lq W. unfold jump in *. destruct (nth_error (blocks c) b) as [bd|] eqn:Eb; [|exfalso; apply W; eexists; reflexivity].
    destruct (b_parent bd) as [q0|] eqn:Ep; [|exfalso; apply W; eexists; reflexivity]. destruct (block_after b bd q0 Eb Ep) as (bd' & -> & Ho & Hp & Ha & Sp). rewrite Hp, Ho, Ha.
    assert (Kr : exists k0, reached q q0 k = Some k0).
    { unfold reached. destruct (Nat.eqb q0 q); [eexists; reflexivity|]. destruct (unwind _ k) as [[f k2]|]; [eexists; reflexivity | exfalso; apply W; eexists; reflexivity]. }
    destruct Kr as (k0 & Kr). destruct (reached_rel q0 k q k' k0 K Kr) as (k0' & Kr' & K0 & Lv). pose proof (env_bind _ (args_fine b) vs e e' R) as R'.
    assert (E1 : (if Nat.eqb q0 q then At q0 (b_ops bd) (bind e (block_args c b) vs) k tr
                  else match unwind (fun f => Nat.eqb (f_region f) q0) k with Some (_, k2) => At q0 (b_ops bd) (bind e (block_args c b) vs) k2 tr | None => Done Wrong tr end)
                 = At q0 (b_ops bd) (bind e (block_args c b) vs) k0 tr).
    { unfold reached in Kr. destruct (Nat.eqb q0 q); [congruence|]. destruct (unwind _ k) as [[f k2]|]; [cbn in Kr; congruence | discriminate]. }
    assert (E2 : (if Nat.eqb (rho q0) (rho q) then At (rho q0) (L (b_ops bd)) (bind e' (block_args c b) vs) k' tr
                  else match unwind (fun f => Nat.eqb (f_region f) (rho q0)) k' with Some (_, k2) => At (rho q0) (L (b_ops bd)) (bind e' (block_args c b) vs) k2 tr | None => Done Wrong tr end)
                 = At (rho q0) (L (b_ops bd)) (bind e' (block_args c b) vs) k0' tr).
    { unfold reached in Kr'. destruct (Nat.eqb (rho q0) (rho q)); [congruence|]. destruct (unwind _ k') as [[f k2]|]; [cbn in Kr'; congruence | discriminate]. }
    rewrite E1, E2. cbn. split; [exact Sp|]. split; [destruct Lv as [->|Lv]; assumption|]. eexists. eexists. split; [reflexivity|]. split; assumption.
  Qed.
  Lemma entry_spot q rd b l bd : nth_error (regions c) q = Some rd -> r_blocks rd = b :: l -> nth_error (blocks c) b = Some bd -> b_parent bd = Some q.
  Proof. intros Er El Eb. assert (K : In b (rblks (regions c) q)) by (unfold rblks; rewrite Er, El; left; reflexivity). apply (in_rblks c dead b q I) in K. unfold bpar in K. rewrite Eb in K. exact K. Qed.
  Lemma enter_rel q vs e e' k k' tr : Q q = false -> env_rel e e' -> stack_rel q k k' -> live c dead q -> ~ wrong (enter c q vs e k tr) -> rel (enter c q vs e k tr) (enter c' q vs e' k' tr).
  Proof.
    intros EQ R K Lq W. unfold enter in *. destruct (nth_error (regions c) q) as [rd|] eqn:Er; [|exfalso; apply W; eexists; reflexivity]. destruct (r_blocks rd) as [|b l] eqn:El; [exfalso; apply W; eexists; reflexivity|].
    destruct (nth_error (blocks c) b) as [bd|] eqn:Eb; [|exfalso; apply W; eexists; reflexivity]. pose proof (entry_spot q rd b l bd Er El Eb) as Ep. destruct (block_after b bd q Eb Ep) as (bd' & Eb' & Ho & Hp & Ha & Sp).
    pose proof (lo_entry _ _ _ _ _ _ _ _ _ _ _ _ _ _ _ H q EQ) as He. unfold rblks in He. rewrite Er, El in He. cbn in He. destruct (nth_error (regions c') q) as [rd'|]; [|discriminate]. destruct (r_blocks rd') as [|b' l']; [discriminate|]. injection He as ->. rewrite Eb', Ho, Ha. cbn.
    split; [exact Sp|]. split; [exact Lq|]. eexists. eexists. split; [rewrite (rho_out P Q q EQ); reflexivity|]. split; [|exact K]. apply env_bind; [apply args_fine | exact R].
  Qed.

  (** ** Switches other than the lowered one *)
  Lemma case_same x v : x < length (ops c) -> matching_case shape_of case_value equal c' v x = matching_case shape_of case_value equal c v x.
  Proof.
    intros Lx. unfold matching_case. destruct (nth_error (ops c) x) as [d|] eqn:Ed; [|apply nth_error_None in Ed; lia]. destruct (lo_ops _ _ _ _ _ _ _ _ _ _ _ _ _ _ _ H x d Ed) as (d' & -> & (-> & _) & _). reflexivity.
  Qed.
  Lemma default_same x : x < length (ops c) -> default_case shape_of c' x = default_case shape_of c x.
  Proof.
    intros Lx. unfold default_case. destruct (nth_error (ops c) x) as [d|] eqn:Ed; [|apply nth_error_None in Ed; lia]. destruct (lo_ops _ _ _ _ _ _ _ _ _ _ _ _ _ _ _ H x d Ed) as (d' & -> & (-> & _) & _). reflexivity.
  Qed.

  Lemma find_filter {X} (f g : X -> bool) l : (forall x, In x l -> f x = true -> g x = true) -> find f (filter g l) = find f l.
  Proof.
    induction l as [|x l IH]; intros K; [reflexivity|]. assert (K' : forall y, In y l -> f y = true -> g y = true) by (intros y Iy; apply K; right; exact Iy). cbn. destruct (g x) eqn:Eg; cbn; [rewrite (IH K'); reflexivity|].
    destruct (f x) eqn:Ef; [rewrite (K x (or_introl eq_refl) Ef) in Eg; discriminate | exact (IH K')].
  Qed.
  Lemma find_none {X} (f : X -> bool) l : (forall x, In x l -> f x = false) -> find f l = None.
  Proof. induction l as [|x l IH]; intros K; [reflexivity|]. cbn. rewrite (K x (or_introl eq_refl)). apply IH. intros y Iy. apply K. right. exact Iy. Qed.
  Lemma find_app {X} (f : X -> bool) l1 l2 : find f (l1 ++ l2) = match find f l1 with Some x => Some x | None => find f l2 end.
  Proof. induction l1 as [|x l IH]; [reflexivity|]. cbn. destruct (f x); [reflexivity | exact IH]. Qed.
  Lemma find_same {X} (f g : X -> bool) l : (forall x, In x l -> f x = g x) -> find f l = find g l.
  Proof. induction l as [|x l IH]; intros K; [reflexivity|]. cbn. rewrite (K x (or_introl eq_refl)). destruct (g x); [reflexivity|]. apply IH. intros y Iy. apply K. right. exact Iy. Qed.
  Lemma filter_rev {X} (g : X -> bool) l : filter g (rev l) = rev (filter g l).
  Proof. induction l as [|x l IH]; [reflexivity|]. cbn. rewrite filter_app, IH. cbn. destruct (g x); cbn; [reflexivity | apply app_nil_r]. Qed.

  Lemma selected_same v l : (forall x, In x l -> x < length (ops c)) -> ~ In s l ->
    selected shape_of case_value equal c' v (L l) = selected shape_of case_value equal c v l.
  Proof.
    intros Old Ns. assert (El : L l = moved log l). { unfold relist. destruct (existsb (Nat.eqb s) l) eqn:Es; [|reflexivity]. exfalso. apply Ns. apply existsb_exists in Es. destruct Es as (y & Iy & Es). apply Nat.eqb_eq in Es. subst. exact Iy. }
    rewrite El. unfold selected, moved. set (M := map snd _). set (g := fun x => match image log x with Some _ => false | None => true end).
    assert (Mc : forall f, (forall z, shape_at shape_of c' z = Some SBr -> f z = false) -> forall z, In z M -> f z = false).
    { intros f Hf z Iz. apply Hf. unfold M in Iz. apply in_map_iff in Iz. destruct Iz as ([y w] & <- & Iz). apply filter_In in Iz. exact (lo_br _ _ _ _ _ _ _ _ _ _ _ _ _ _ _ H y w (image_of _ _ _ (lo_once _ _ _ _ _ _ _ _ _ _ _ _ _ _ _ H) (proj1 Iz))). }
    assert (Kc : forall x, In x l -> matching_case shape_of case_value equal c v x = true -> g x = true).
    { intros x _ Ex. unfold g. destruct (image log x) as [z|] eqn:Ei; [|reflexivity]. destruct (lo_log _ _ _ _ _ _ _ _ _ _ _ _ _ _ _ H x z Ei) as (_ & (y & Ey & Hy) & _). unfold matching_case, shape_at in *. destruct (nth_error (ops c) x); [|discriminate]. cbn in Ey. injection Ey as Ey. rewrite Ey in Ex. destruct y; discriminate. }
    assert (Kd : forall x, In x l -> default_case shape_of c x = true -> g x = true).
    { intros x _ Ex. unfold g. destruct (image log x) as [z|] eqn:Ei; [|reflexivity]. destruct (lo_log _ _ _ _ _ _ _ _ _ _ _ _ _ _ _ H x z Ei) as (_ & (y & Ey & Hy) & _). unfold default_case, shape_at in *. destruct (nth_error (ops c) x); [|discriminate]. cbn in Ey. injection Ey as Ey. rewrite Ey in Ex. destruct y; discriminate. }
    rewrite find_app, (find_none _ M).
    2:{ apply Mc. intros z Hz. unfold matching_case. unfold shape_at in Hz. destruct (nth_error (ops c') z); [|reflexivity]. cbn in Hz. injection Hz as ->. reflexivity. }
    rewrite (find_same _ (matching_case shape_of case_value equal c v) (filter g l)) by (intros x Ix; apply filter_In in Ix; apply case_same, Old, Ix).
    rewrite (find_filter _ g l Kc). destruct (find (matching_case shape_of case_value equal c v) l); [reflexivity|].
    rewrite rev_app_distr, find_app, (find_none _ (rev M)).
    2:{ intros z Iz. apply in_rev in Iz. revert z Iz. apply Mc. intros z Hz. unfold default_case. unfold shape_at in Hz. destruct (nth_error (ops c') z); [|reflexivity]. cbn in Hz. injection Hz as ->. reflexivity. }
    rewrite <- filter_rev. rewrite (find_same _ (default_case shape_of c) (filter g (rev l))) by (intros x Ix; apply filter_In in Ix; apply default_same, Old; apply in_rev; apply Ix).
    apply find_filter. intros x Ix. apply Kd. apply in_rev. exact Ix.
  Qed.

  Lemma not_Q_direct x q : x <> s -> region_parent c q x -> (shape_at shape_of c x <> Some SCase /\ shape_at shape_of c x <> Some SDefault) -> Q q = false.
  Proof.
    intros N Rx (N1 & N2). destruct (Q q) eqn:EQ; [|reflexivity]. exfalso. apply (lo_Q _ _ _ _ _ _ _ _ _ _ _ _ _ _ _ H) in EQ. unfold child in EQ. destruct (shape_at shape_of c s) as [[]|]; try contradiction; try (apply N; eapply rparent_unique; eassumption).
    destruct EQ as (y & q' & H1 & Hs & _). assert (y = x) as -> by (eapply rparent_unique; eassumption). tauto.
  Qed.
  Lemma not_Q_child x q : x <> s -> child shape_of c x q -> Q q = false.
  Proof. intros N Ch. destruct (Q q) eqn:EQ; [|reflexivity]. exfalso. apply (lo_Q _ _ _ _ _ _ _ _ _ _ _ _ _ _ _ H) in EQ. apply N. eapply child_unique; eassumption. Qed.

  Lemma switch_same x d d' : x <> s -> nth_error (ops c) x = Some d -> shape_of (o_kind d) = SSwitch -> nth_error (ops c') x = Some d' -> o_regions d' = o_regions d ->
    switch_ops c' d' = L (switch_ops c d) /\ (forall y, In y (switch_ops c d) -> exists q, stands c y q /\ region_parent c q x) /\ ~ In s (switch_ops c d).
  Proof.
    intros N Ed Sx Ed' Er. assert (Sa : shape_at shape_of c x = Some SSwitch) by (unfold shape_at; rewrite Ed; cbn; rewrite Sx; reflexivity).
    assert (Hin : forall y, In y (switch_ops c d) -> exists q, stands c y q /\ region_parent c q x).
    { intros y Iy. unfold switch_ops in Iy. destruct (o_regions d) as [|body more] eqn:Eg; [destruct Iy|]. destruct (nth_error (regions c) body) as [rd|] eqn:Erd; [|destruct Iy]. destruct (r_blocks rd) as [|b bl] eqn:Ebl; [destruct Iy|]. destruct (nth_error (blocks c) b) as [bd|] eqn:Ebd; [|destruct Iy].
      exists body. split; [|eapply regions_owned; [exact I | exact Ed | rewrite Eg; left; reflexivity]]. apply (stands_par c dead y body I). exists b. split; [apply (in_bops c dead y b I); unfold bops; rewrite Ebd; exact Iy|]. unfold bpar. rewrite Ebd. eapply entry_spot; eassumption. }
    assert (Hs : ~ In s (switch_ops c d)).
    { intros Is. destruct (Hin s Is) as (q & Sq & Rq). assert (q = P) as -> by (eapply stands_unique; [exact I | exact Sq | exact (s_stands _ _ _ _ _ _ _ _ _ _ _ _ _ _ _ I H)]). exact (lo_plain _ _ _ _ _ _ _ _ _ _ _ _ _ _ _ H x Rq Sa). }
    split; [|split; assumption]. clear Hin Hs. unfold switch_ops. rewrite Er. destruct (o_regions d) as [|body more] eqn:Eg; [symmetry; apply relist_nil|].
    assert (EQ : Q body = false). { apply (not_Q_direct x body N); [eapply regions_owned; [exact I | exact Ed | rewrite Eg; left; reflexivity] | rewrite Sa; split; discriminate]. }
    pose proof (lo_entry _ _ _ _ _ _ _ _ _ _ _ _ _ _ _ H body EQ) as He. unfold rblks in He. destruct (nth_error (regions c) body) as [rd|] eqn:Erd.
    - destruct (r_blocks rd) as [|b bl] eqn:Ebl; cbn in He.
      + destruct (nth_error (regions c') body) as [rd'|]; [|symmetry; apply relist_nil]. destruct (r_blocks rd'); [symmetry; apply relist_nil | discriminate].
      + destruct (nth_error (regions c') body) as [rd'|]; [|discriminate]. destruct (r_blocks rd') as [|b' bl']; [discriminate|]. injection He as ->. assert (K : In b (rblks (regions c) body)) by (unfold rblks; rewrite Erd, Ebl; left; reflexivity).
        apply (in_rblks c dead b body I) in K. pose proof (bpar_old c b body K) as Lb. destruct (nth_error (blocks c) b) as [bd|] eqn:Ebd; [|apply nth_error_None in Ebd; lia]. unfold bpar in K. rewrite Ebd in K. destruct (block_after b bd body Ebd K) as (bd' & -> & -> & _). reflexivity.
    - destruct (nth_error (regions c') body) as [rd'|]; [|symmetry; apply relist_nil]. cbn in He. destruct (r_blocks rd'); [symmetry; apply relist_nil | discriminate].
  Qed.

  (** ** Unwinding to loops and calls *)
  Lemma unwind_rel p : (forall f, p (frame_after f) = p f) -> forall k q k' f k2, stack_rel q k k' -> unwind p k = Some (f, k2) -> f_op f <> s ->
    exists k2', unwind p k' = Some (frame_after f, k2') /\ stack_rel (f_region f) k2 k2' /\ spot (f_region f) (f_op f :: f_rest f) /\ live c dead (f_region f) /\ way_ok f /\ exists q', child shape_of c (f_op f) q' /\ (Q q' = false).
  Proof.
    intros Hp. induction k as [|g k IH]; intros q k' f k2 K U N; cbn in U; [discriminate|]. destruct (p g) eqn:Eg.
    - injection U as <- <-. inversion K; subst; [contradiction|]. match goal with Kt : stack_rel (f_region g) k ?kk |- _ => exists kk end. cbn [unwind]. rewrite Hp, Eg. split; [reflexivity|]. repeat (split; [assumption|]). exists q. split; assumption.
    - inversion K; subst.
      + exact (IH P k' f k2 ltac:(assumption) U N).
      + destruct (IH _ _ f k2 ltac:(eassumption) U N) as (k2' & U' & R). exists k2'. cbn [unwind]. rewrite Hp, Eg. split; [exact U' | exact R].
  Qed.
  Lemma unwind_none p : (forall f, p (frame_after f) = p f) -> forall k q k', stack_rel q k k' -> unwind p k = None -> unwind p k' = None.
  Proof.
    intros Hp. induction k as [|g k IH]; intros q k' K U; inversion K; subst; cbn in U; [reflexivity| |]; destruct (p g) eqn:Eg; try discriminate.
    - eapply IH; eassumption.
    - cbn [unwind]. rewrite Hp, Eg. eapply IH; eassumption.
  Qed.
  Lemma s_control : exists x, shape_at shape_of c s = Some x /\ control x = true.
  Proof. exact (lo_shape _ _ _ _ _ _ _ _ _ _ _ _ _ _ _ H). Qed.
  Lemma stack_way k : forall q k' f, stack_rel q k k' -> In f k -> way_ok f.
  Proof. induction k as [|g k IH]; intros q k' f K Ik; [destruct Ik|]. destruct Ik as [<-|Ik]; inversion K; subst; try assumption; eapply IH; eassumption. Qed.
  Lemma call_not_s q k k' f k2 : stack_rel q k k' -> unwind is_call k = Some (f, k2) -> f_op f <> s.
  Proof.
    intros K U Es. apply unwind_In in U. destruct U as (Ik & Pf & _). pose proof (stack_way _ _ _ _ K Ik) as W. unfold way_ok, is_call in *. destruct (f_way f); try discriminate. rewrite Es in W. destruct s_control as (x & Sx & Cx). rewrite W in Sx. injection Sx as <-. discriminate.
  Qed.

  Definition quiet (n : nat) (y : state) : Prop := forall j, j <= n -> ending_of (steps c' j y) = None /\ trace_of (steps c' j y) = trace_of y.
  (** What remains to be shown of each kind of operation: entering it, leaving it at the exits that became branches, and that
      these are all the exits out of it. *)
  Definition enters_ok : Prop := forall e e' k k' tr, env_rel e e' -> stack_rel P k k' -> ~ wrong (step c (At P (s :: post) e k tr)) ->
    exists n, rel (step c (At P (s :: post) e k tr)) (steps c' (S n) (At P tail e' k' tr)) /\ quiet n (At P tail e' k' tr).
  Definition exits_ok : Prop := forall y z q e e' k k' tr, image log y = Some z -> spot q [y] -> live c dead q -> env_rel e e' -> stack_rel q k k' -> ~ wrong (step c (At q [y] e k tr)) ->
    rel (step c (At q [y] e k tr)) (step c' (At (rho q) [z] e' k' tr)).
  Definition only_exits_ok : Prop := forall x q k k', image log x = None -> spot q [x] -> stack_rel q k k' ->
    (shape_at shape_of c x = Some SYield -> Q q = true -> shape_at shape_of c s = Some SLoop) /\
    (shape_at shape_of c x = Some SContinue \/ shape_at shape_of c x = Some SBreak -> forall f k2, unwind is_loop k = Some (f, k2) -> f_op f <> s).

  Hypothesis enters : enters_ok.
  Hypothesis exits : exits_ok.
  Hypothesis only_exits : only_exits_ok.

  Lemma nowrong tr : ~ wrong (Done Wrong tr) -> False.
  Proof. intros K. apply K. exists tr. reflexivity. Qed.
  Lemma frame_rel o w q l k k' q2 : o <> s -> spot q (o :: l) -> live c dead q -> stack_rel q k k' -> child shape_of c o q2 -> image log o = None ->
    way_ok {| f_op := o; f_way := w; f_region := q; f_rest := l |} ->
    stack_rel q2 ({| f_op := o; f_way := w; f_region := q; f_rest := l |} :: k) ({| f_op := o; f_way := w; f_region := rho q; f_rest := L l |} :: k').
  Proof. intros N Sp Lq K Ch Im W. apply (sr_keep q2 {| f_op := o; f_way := w; f_region := q; f_rest := l |} k k'); cbn; try assumption. eapply not_Q_child; eassumption. Qed.

  Lemma step_plain o l q e e' k k' tr : o <> s -> image log o = None -> spot q (o :: l) -> live c dead q -> env_rel e e' -> stack_rel q k k' -> ~ wrong (step c (At q (o :: l) e k tr)) ->
    rel (step c (At q (o :: l) e k tr)) (step c' (At (rho q) (o :: L l) e' k' tr)).
  Proof.
    intros N Im Sp Lq R K W. pose proof (spot_stands _ _ _ Sp) as St. pose proof (ti_live c dead T _ _ St Lq) as Al. destruct (stands_old c dead I _ _ St) as (d & Ed).
    destruct (lo_ops _ _ _ _ _ _ _ _ _ _ _ _ _ _ _ H o d Ed) as (d' & Ed' & (Dk & Dt & Dr & Ds) & _). pose proof (operands_same e e' o d d' R Ed Al Ed') as Eo.
    assert (Sa : shape_at shape_of c o = Some (shape_of (o_kind d))) by (unfold shape_at; rewrite Ed; reflexivity).
    unfold ScfSpec.step in *. rewrite Ed in *. rewrite Ed', Dk, Eo, Dr, Ds. destruct (shape_of (o_kind d)) eqn:Sh.
    - (* if *)
      destruct (map e (o_operands d)) as [|x xs]; [destruct (nowrong _ W)|]. destruct (o_regions d) as [|t [|f more]] eqn:Eg; try (destruct (nowrong _ W)).
      assert (Ch : child shape_of c o (if truth x then t else f)). { unfold child. rewrite Sa. eapply regions_owned; [exact I | exact Ed | rewrite Eg]. destruct (truth x); [left | right; left]; reflexivity. }
      apply enter_rel; [eapply not_Q_child; eassumption | exact R | | eapply child_live; eassumption | exact W]. apply frame_rel; try assumption. left. exact Sa.
    - (* loop *)
      destruct (o_regions d) as [|body more] eqn:Eg; [destruct (nowrong _ W)|].
      assert (Ch : child shape_of c o body). { unfold child. rewrite Sa. eapply regions_owned; [exact I | exact Ed | rewrite Eg; left; reflexivity]. }
      apply enter_rel; [eapply not_Q_child; eassumption | exact R | | eapply child_live; eassumption | exact W]. apply frame_rel; try assumption. split; [exact Sa|]. cbn [f_op]. unfold oregs. rewrite Ed, Eg. reflexivity.
    - (* switch *)
      destruct (map e (o_operands d)) as [|x xs]; [destruct (nowrong _ W)|]. destruct (switch_same o d d' N Ed Sh Ed' Dr) as (E1 & E2 & E3). rewrite E1.
      assert (Old : forall y, In y (switch_ops c d) -> y < length (ops c)). { intros y Iy. destruct (E2 y Iy) as (q2 & S2 & _). destruct (stands_old c dead I _ _ S2) as (d2 & D2). apply nth_error_Some. congruence. }
      rewrite (selected_same x _ Old E3). destruct (selected shape_of case_value equal c x (switch_ops c d)) as [o2|] eqn:Es.
      + assert (I2 : In o2 (switch_ops c d) /\ (shape_at shape_of c o2 = Some SCase \/ shape_at shape_of c o2 = Some SDefault)).
        { unfold selected in Es. destruct (find (matching_case shape_of case_value equal c x) (switch_ops c d)) as [o3|] eqn:Ef.
          - injection Es as ->. apply find_some in Ef. destruct Ef as (Ef1 & Ef2). split; [exact Ef1|]. left. unfold matching_case, shape_at in *. destruct (nth_error (ops c) o2) as [d2|]; [|discriminate]. cbn. destruct (shape_of (o_kind d2)); try discriminate. reflexivity.
          - apply find_some in Es. destruct Es as (Ef1 & Ef2). split; [apply in_rev; exact Ef1|]. right. unfold default_case, shape_at in *. destruct (nth_error (ops c) o2) as [d2|]; [|discriminate]. cbn. destruct (shape_of (o_kind d2)); try discriminate. reflexivity. }
        destruct I2 as (I2 & S2). destruct (E2 o2 I2) as (q2 & St2 & Rq2). destruct (nth_error (ops c) o2) as [d2|] eqn:Ed2; [|destruct (nowrong _ W)].
        destruct (lo_ops _ _ _ _ _ _ _ _ _ _ _ _ _ _ _ H o2 d2 Ed2) as (d2' & -> & (_ & _ & -> & _) & _). destruct (o_regions d2) as [|body more] eqn:Eg; [destruct (nowrong _ W)|].
        assert (Ch : child shape_of c o body). { unfold child. rewrite Sa. exists o2, q2. split; [eapply regions_owned; [exact I | exact Ed2 | rewrite Eg; left; reflexivity]|]. split; [exact S2|]. split; assumption. }
        apply enter_rel; [eapply not_Q_child; eassumption | exact R | | eapply child_live; eassumption | exact W]. apply frame_rel; try assumption. right. exact Sa.
      + cbn. split; [exact (spot_next _ _ _ Sp)|]. split; [exact Lq|]. exists e', k'. split; [reflexivity|]. split; assumption.
    - destruct (nowrong _ W).
    - destruct (nowrong _ W).
    - (* yield *)
      destruct l as [|y l]; cbn [last] in *; [|destruct (nowrong _ W)]. rewrite relist_nil. cbn [last].
      destruct k as [|f k]; inversion K; subst.
      + reflexivity.
      + exfalso. destruct (only_exits o q _ _ Im Sp K) as (Ho & _). specialize (Ho Sa ltac:(assumption)). match goal with Wf : way_ok f, Es : f_op f = s |- _ => unfold way_ok in Wf; rewrite Es, Ho in Wf; rename Wf into Hw end.
        destruct (f_way f); [destruct Hw; discriminate | destruct (nowrong _ W) | discriminate].
      + unfold frame_after at 1. cbn [f_way]. match goal with Wf : way_ok f |- _ => unfold way_ok in Wf; rename Wf into Hw end. destruct (f_way f) as [| |g] eqn:Ew; [| destruct (nowrong _ W) |]; cbn.
        * split; [eapply spot_next; eassumption|]. split; [assumption|]. eexists. eexists. split; [reflexivity|]. split; [|assumption].
          rewrite (lo_results _ _ _ _ _ _ _ _ _ _ _ _ _ _ _ H). 2:{ destruct (stands_old c dead I _ _ (spot_stands _ _ _ ltac:(eassumption))) as (df & Edf). eapply old_op. exact Edf. } apply env_bind; [apply results_fine; assumption | exact R].
        * split; [assumption|]. split; [assumption|]. split; [assumption|]. split; [assumption|]. eexists. eexists. split; [reflexivity|]. split; [exact R | assumption].
    - (* continue *)
      destruct l as [|y l]; cbn [last] in *; [|destruct (nowrong _ W)]. rewrite relist_nil. cbn [last].
      destruct (unwind is_loop k) as [[f k2]|] eqn:U; [|destruct (nowrong _ W)]. destruct (only_exits o q _ _ Im Sp K) as (_ & Ho). specialize (Ho (or_introl Sa) f k2 U).
      destruct (unwind_rel is_loop (fun f => eq_refl) k q k' f k2 K U Ho) as (k2' & U' & K2 & Sf & Lf & Wf & _). rewrite U'. cbn [f_way frame_after]. destruct (f_way f) as [|body|] eqn:Ew; try (destruct (nowrong _ W)).
      assert (Ch : child shape_of c (f_op f) body) by (unfold way_ok in Wf; rewrite Ew in Wf; destruct Wf as (Wf1 & Wf2); eapply loop_child; eassumption).
      apply enter_rel; [eapply not_Q_child; eassumption | exact R | | | exact W].
      + apply (sr_keep body f k2 k2'); try assumption. eapply not_Q_child; eassumption.
      + eapply child_live; [exact T | exact Ch |]. apply (ti_live c dead T _ _ (spot_stands _ _ _ Sf) Lf).
    - (* break *)
      destruct l as [|y l]; cbn [last] in *; [|destruct (nowrong _ W)]. rewrite relist_nil. cbn [last].
      destruct (unwind is_loop k) as [[f k2]|] eqn:U; [|destruct (nowrong _ W)]. destruct (only_exits o q _ _ Im Sp K) as (_ & Ho). specialize (Ho (or_intror Sa) f k2 U).
      destruct (unwind_rel is_loop (fun f => eq_refl) k q k' f k2 K U Ho) as (k2' & U' & K2 & Sf & Lf & Wf & _). rewrite U'. destruct (map e (o_operands d)) as [|x xs]; [destruct (nowrong _ W)|]. cbn.
      split; [eapply spot_next; eassumption|]. split; [assumption|]. eexists. eexists. split; [reflexivity|]. split; [|assumption].
      rewrite (lo_results _ _ _ _ _ _ _ _ _ _ _ _ _ _ _ H). 2:{ destruct (stands_old c dead I _ _ (spot_stands _ _ _ Sf)) as (df & Edf). eapply old_op. exact Edf. } apply (env_bind _ (results_fine _ Ho) [x] e e' R).
    - (* br *)
      destruct (o_succs d) as [|b more]; [destruct (nowrong _ W)|]. apply jump_rel; assumption.
    - (* cond_br *)
      destruct (map e (o_operands d)) as [|x xs]; [destruct (nowrong _ W)|]. destruct (o_succs d) as [|t [|f more]]; try (destruct (nowrong _ W)). apply jump_rel; assumption.
    - (* plain *)
      cbn. split; [exact Sp|]. split; [exact Lq|]. split; [exact N|]. split; [exact Sa|]. exists e', k'. split; [reflexivity|]. split; assumption.
  Qed.

  Lemma step_rel x y : rel x y -> ending_of x = None -> ~ wrong (step c x) -> exists n, rel (step c x) (steps c' (S n) y) /\ quiet n y.
  Proof.
    intros R0 Nd W. destruct x as [q l e k tr | o a q l e k tr | z tr]; [| |discriminate].
    - destruct R0 as (Sp & Lq & e' & k' & -> & R & K). destruct l as [|o l]; [destruct (nowrong _ W)|]. destruct (Nat.eq_dec o s) as [->|N].
      + destruct (spot_s q l Sp) as (-> & ->). rewrite relist_here, (rho_P _ _ _ _ _ _ _ _ _ _ _ _ _ _ _ I T H). exact (enters e e' k k' tr R K W).
      + exists 0. assert (Qt : forall l', quiet 0 (At (rho q) l' e' k' tr)) by (intros l' j Hj; replace j with 0 by lia; split; reflexivity). split; [|apply Qt]. change (steps c' 1 ?y) with (step c' y). destruct (image log o) as [z|] eqn:Im.
        * destruct (lo_log _ _ _ _ _ _ _ _ _ _ _ _ _ _ _ H o z Im) as (_ & (x & Sx & Ex) & _).
          assert (l = []) as ->. { destruct l as [|y l]; [reflexivity|]. exfalso. apply W. unfold ScfSpec.step. unfold shape_at in Sx. destruct (nth_error (ops c) o) as [d|]; [|discriminate]. cbn in Sx. injection Sx as Sx. rewrite Sx. destruct x; try discriminate; cbn; eexists; reflexivity. }
          rewrite (relist_exit s log tail o z (lo_once _ _ _ _ _ _ _ _ _ _ _ _ _ _ _ H) N Im). eapply exits; eassumption.
        * rewrite relist_cons by assumption. apply step_plain; assumption.
    - destruct R0 as (Sp & Lq & N & Sa & e' & k' & -> & R & K). exists 0. split; [|intros j Hj; replace j with 0 by lia; split; reflexivity]. change (steps c' 1 ?y) with (step c' y).
      pose proof (spot_stands _ _ _ Sp) as St. pose proof (ti_live c dead T _ _ St Lq) as Al. destruct (stands_old c dead I _ _ St) as (d & Ed). assert (Im : image log o = None).
      { destruct (image log o) as [z|] eqn:Im; [|reflexivity]. destruct (lo_log _ _ _ _ _ _ _ _ _ _ _ _ _ _ _ H o z Im) as (_ & (x & Sx & Ex) & _). rewrite Sa in Sx. injection Sx as <-. discriminate. }
      destruct (lo_ops _ _ _ _ _ _ _ _ _ _ _ _ _ _ _ H o d Ed) as (d' & Ed' & (Dk & Dt & Dr & Ds) & _). unfold ScfSpec.step in *. destruct a as [rs|i vs|vs| |ev g|i vs g].
      + cbn. split; [exact (spot_next _ _ _ Sp)|]. split; [exact Lq|]. eexists. eexists. split; [reflexivity|]. split; [|exact K]. rewrite (lo_results _ _ _ _ _ _ _ _ _ _ _ _ _ _ _ H) by (eapply old_op; exact Ed). apply env_bind; [apply results_fine; exact N | exact R].
      + rewrite Ed in *. rewrite Ed', Ds. destruct (nth_error (o_succs d) i) as [b|]; [|destruct (nowrong _ W)]. apply jump_rel; assumption.
      + destruct (unwind is_call k) as [[f k2]|] eqn:U.
        * pose proof (call_not_s _ _ _ _ _ K U) as Ns. destruct (unwind_rel is_call (fun f => eq_refl) k q k' f k2 K U Ns) as (k2' & U' & K2 & Sf & Lf & Wf & _). rewrite U'. unfold way_ok in Wf. cbn [f_way frame_after]. destruct (f_way f) as [| |g] eqn:Ew; try (destruct (nowrong _ W)). cbn.
          split; [assumption|]. split; [assumption|]. split; [assumption|]. split; [assumption|]. eexists. eexists. split; [reflexivity|]. split; assumption.
        * rewrite (unwind_none is_call (fun f => eq_refl) k q k' K U). reflexivity.
      + reflexivity.
      + cbn. split; [exact Sp|]. split; [exact Lq|]. split; [exact N|]. split; [exact Sa|]. exists e', k'. split; [reflexivity|]. split; assumption.
      + rewrite Ed in *. rewrite Ed', Dr. destruct (nth_error (o_regions d) i) as [r|] eqn:Er; [|destruct (nowrong _ W)].
        assert (Ch : child shape_of c o r). { unfold child. rewrite Sa. eapply regions_owned; [exact I | exact Ed | eapply nth_error_In; exact Er]. }
        apply enter_rel; [eapply not_Q_child; eassumption | exact R | | eapply child_live; eassumption | exact W]. apply frame_rel; try assumption.
  Qed.

  (** ** Whole runs *)
  Lemma steps_S n x : steps c (S n) x = step c (steps c n x).
  Proof. reflexivity. Qed.
  Lemma steps_add n k x : steps c' (k + n) x = steps c' k (steps c' n x).
  Proof. induction k as [|k IH]; [reflexivity|]. cbn [Nat.add]. change (step c' (steps c' (k + n) x) = step c' (steps c' k (steps c' n x))). rewrite IH. reflexivity. Qed.
  Lemma done_stays n z tr : steps c' n (Done z tr) = Done z tr.
  Proof. induction n as [|n IH]; [reflexivity|]. change (step c' (steps c' n (Done z tr)) = Done z tr). rewrite IH. reflexivity. Qed.
  Definition shows (x : state) := (ending_of x, trace_of x).
  Lemma rel_shows x y : rel x y -> shows y = shows x.
  Proof. destruct x; cbn; [intros (_ & _ & e' & k' & -> & _) | intros (_ & _ & _ & _ & e' & k' & -> & _) | intros ->]; reflexivity. Qed.
  (** After [n] steps of the source, some number of steps of the target: all target states so far show something the source has shown. *)
  Lemma runs_alike x y : rel x y -> (forall n, ~ wrong (steps c n x)) -> forall n, exists m, rel (steps c n x) (steps c' m y) /\ n <= m + (match ending_of (steps c n x) with Some _ => n | None => 0 end) /\ forall j, j <= m -> exists i, i <= n /\ shows (steps c' j y) = shows (steps c i x).
  Proof.
    intros R W. induction n as [|n (k & IH1 & IH2 & IH3)].
    - exists 0. split; [exact R|]. split; [lia|]. intros j Hj. exists 0. replace j with 0 by lia. split; [lia | apply rel_shows; exact R].
    - rewrite steps_S. destruct (ending_of (steps c n x)) as [z|] eqn:Ez.
      + assert (Ed : step c (steps c n x) = steps c n x) by (destruct (steps c n x); try discriminate; reflexivity). rewrite Ed. exists k. split; [exact IH1|]. rewrite Ez. split; [lia|]. intros j Hj. destruct (IH3 j Hj) as (i & Hi & E0). exists i. split; [lia | exact E0].
      + specialize (W (S n)). rewrite steps_S in W. destruct (step_rel _ _ IH1 Ez W) as (t & R1 & Qt). exists (S t + k). rewrite steps_add. split; [exact R1|]. split; [lia|]. intros j Hj. destruct (Nat.le_gt_cases j k) as [Hk|Hk].
        * destruct (IH3 j Hk) as (i & Hi & E0). exists i. split; [lia | exact E0].
        * replace j with ((j - k) + k) by lia. rewrite steps_add. destruct (Nat.eq_dec (j - k) (S t)) as [->|Ne].
          -- exists (S n). split; [lia|]. rewrite steps_S. apply rel_shows. exact R1.
          -- exists n. split; [lia|]. destruct (Qt (j - k)) as (Q1 & Q2); [lia|]. rewrite <- (rel_shows _ _ IH1). unfold shows. rewrite Q1, Q2. pose proof (rel_shows _ _ IH1) as Sh. unfold shows in *. rewrite Ez in Sh. congruence.
  Qed.
  Lemma region_alike r args (e : env) : Q r = false -> live c dead r -> (forall v w, e v = e w) ->
    goes_right (seen shape_of case_value effect truth equal answer c r args e) ->
    alike (seen shape_of case_value effect truth equal answer c r args e) (seen shape_of case_value effect truth equal answer c' r args e).
  Proof.
    intros EQ Lr Ee G. set (x := enter c r args e [] [] : state). set (y := enter c' r args e [] [] : state).
    assert (W : forall n, ~ wrong (steps c n x)). { intros n (tr & K). apply (G n). unfold seen. fold x. rewrite K. reflexivity. }
    assert (R : rel x y). { apply enter_rel; [exact EQ | intros v _; apply Ee | apply sr_nil; exact EQ | exact Lr | exact (W 0)]. }
    pose proof (runs_alike x y R W) as RA. split.
    - intros n. destruct (RA n) as (k & R1 & _ & _). exists k. unfold seen. fold x y. apply rel_shows in R1. unfold shows in R1. exact R1.
    - intros k. destruct (RA k) as (j & R1 & B & Sh). unfold seen. fold x y. destruct (Nat.le_gt_cases k j) as [Hk|Hk].
      + destruct (Sh k Hk) as (i & _ & E0). exists i. symmetry. exact E0.
      + exists k. destruct (ending_of (steps c k x)) as [z|] eqn:Ez; [|lia]. assert (Hs : steps c' k y = steps c' (k - j) (steps c' j y)) by (rewrite <- steps_add; f_equal; lia). rewrite Hs. pose proof (rel_shows _ _ R1) as Sx. unfold shows in Sx. destruct (steps c' j y) as [| |z' tr'] eqn:Ey; try (cbn in Sx; rewrite Ez in Sx; discriminate). rewrite done_stays. cbn in *. congruence.
  Qed.
End Run.
