From Verif Require Import CastModel CastSpec ValidModel ValidSpec IrProofs IrInvProofs IrMainProofs IrWalkProofs ValidProofs CastProofs.
From Coq Require Import Lia.

Section Main.
  Variable is_cast : nat -> bool.
  Variable convert : nat -> option nat.
  Variable materialize : nat -> nat -> option (list item * ref).
  Variables (c0 : ctx) (dead0 : list nat) (r : nat) (rank : nat -> nat).
  Hypotheses (I0 : inv c0 dead0) (N : nests c0 rank).
  Hypothesis Leaf : forall x d, inside c0 r x -> nth_error (ops c0) x = Some d -> is_cast (o_kind d) = true -> o_regions d = [].
  Hypothesis Live : forall x, inside c0 r x -> ~ In x dead0.
  Lemma P0 : placed c0. Proof. apply pok_placed, I0. Qed.

  Record good (c : ctx) (dead : list nat) (log : list replacement) (rep : list (nat * (nat * nat))) : Prop := {
    g_inv : inv c dead;
    g_dead : forall x, In x dead <-> In x dead0 \/ removed log x;
    g_res : resolved is_cast convert materialize c0 dead0 r c log;
    g_len : length (ops c0) <= length (ops c);
    g_vals : exists more, vals c = vals c0 ++ more;
    g_rep : forall q, In q rep -> reported is_cast convert materialize c0 r c log q;
    g_once : NoDup (map fst rep);
  }.

  Lemma snoc_split {A} (l : list A) e before x after : l ++ [e] = before ++ x :: after -> (l = before /\ x = e /\ after = []) \/ exists after', after = after' ++ [e] /\ l = before ++ x :: after'.
  Proof.
    destruct after as [|z after _] using rev_ind; intros H.
    - left. apply app_inj_tail in H. destruct H as [-> ->]. auto.
    - right. rewrite app_comm_cons, app_assoc in H. apply app_inj_tail in H. destruct H as [-> ->]. exists after. auto.
  Qed.
  Lemma log_cast c log e : resolved is_cast convert materialize c0 dead0 r c log -> In e log -> inside c0 r (r_cast e) /\ r_cast e < length (ops c0) /\ (forall o, In o (r_ops e) -> length (ops c0) <= o) /\ In (r_old e) (op_results c0 (r_cast e)).
  Proof.
    intros R I. apply in_split in I. destruct I as (a & b & E). destruct (rs_why _ _ _ _ _ _ _ _ R a e b E) as [J (L & M)]. split; [apply (j_inside _ _ _ _ _ _ _ _ J)|]. split; [|split].
    - destruct (j_cast _ _ _ _ _ _ _ _ J) as (i & o & (d & _ & _ & Ed & _) & _). apply nth_error_Some. congruence.
    - intros o Io. apply In_nth_error in Io. destruct Io as [k Ek]. destruct (nth_error (r_plan e) k) as [p|] eqn:Ep.
      + apply (M k p o Ep Ek).
      + exfalso. apply nth_error_None in Ep. assert (k < length (r_ops e)) by (apply nth_error_Some; congruence). lia.
    - eapply nth_error_In, (j_result _ _ _ _ _ _ _ _ J).
  Qed.
  Lemma in_place_none log x : ~ removed log x -> in_place_of log x = [x].
  Proof.
    intros H. unfold in_place_of. destruct (find _ log) as [e|] eqn:E; [|reflexivity]. apply find_some in E. destruct E as [E1 E2]. apply Nat.eqb_eq in E2. exfalso. apply H. exists e. auto.
  Qed.
  Lemma removed_snoc log e x : removed (log ++ [e]) x <-> removed log x \/ x = r_cast e.
  Proof.
    unfold removed. split.
    - intros (f & I & E). apply in_app_iff in I. destruct I as [I|[<-|[]]]; [left; eauto | right; auto].
    - intros [(f & I & E)|E]; [exists f | exists e]; rewrite in_app_iff; cbn; auto.
  Qed.
  Lemma in_place_removed log x : removed log x -> exists e, In e log /\ in_place_of log x = r_ops e.
  Proof.
    intros (e & I & E). unfold in_place_of. destruct (find _ log) as [f|] eqn:F; [apply find_some in F; exists f; tauto|]. exfalso. apply (find_none _ _ F e) in I. rewrite E, Nat.eqb_refl in I. discriminate.
  Qed.
  Lemma removed_dec log x : removed log x \/ ~ removed log x.
  Proof.
    destruct (existsb (fun e => Nat.eqb (r_cast e) x) log) eqn:E.
    - left. apply existsb_exists in E. destruct E as (e & I & Q). apply Nat.eqb_eq in Q. exists e. auto.
    - right. intros (e & I & Q). assert (existsb (fun e => Nat.eqb (r_cast e) x) log = true) by (apply existsb_exists; exists e; split; [exact I | apply Nat.eqb_eq, Q]). congruence.
  Qed.
  Lemma find_app {A} (f : A -> bool) a b : find f (a ++ b) = match find f a with Some x => Some x | None => find f b end.
  Proof. induction a as [|x a IH]; [reflexivity|]. cbn. destruct (f x); [reflexivity | exact IH]. Qed.
  Definition put (e : replacement) (y : nat) : list nat := if Nat.eqb y (r_cast e) then r_ops e else [y].
  Lemma put_none e l : ~ In (r_cast e) l -> flat_map (put e) l = l.
  Proof.
    induction l as [|y l IH]; intros H; [reflexivity|]. cbn. unfold put at 1. destruct (Nat.eqb_spec y (r_cast e)) as [->|]; [exfalso; apply H; left; reflexivity|]. cbn. f_equal. apply IH. intros I. apply H. right. exact I.
  Qed.
  (** The order of replacement does not matter, as new operations are never removed. *)
  Lemma in_place_snoc log e x : ~ removed log (r_cast e) -> (forall f, In f log -> ~ In (r_cast e) (r_ops f)) -> in_place_of (log ++ [e]) x = flat_map (put e) (in_place_of log x).
  Proof.
    intros Nr Nf. unfold in_place_of. rewrite find_app. destruct (find _ log) as [f|] eqn:F.
    - symmetry. apply put_none, Nf. apply find_some in F. tauto.
    - cbn. unfold put. rewrite Nat.eqb_sym. destruct (Nat.eqb x (r_cast e)); [rewrite app_nil_r; reflexivity | reflexivity].
  Qed.
  Lemma flat_map_comp {A B C} (f : B -> list C) (g : A -> list B) l : flat_map f (flat_map g l) = flat_map (fun x => flat_map f (g x)) l.
  Proof. induction l as [|x l IH]; [reflexivity|]. cbn. rewrite flat_map_app, IH. reflexivity. Qed.

  Lemma value_kept c dead b c' e v t : effect c dead b c' e -> value_ty c v = Some t -> value_ty c' v = Some t.
  Proof.
    intros F H. apply (value_ty_kept c c' v t H (ef_vals _ _ _ _ _ F)).
    - intros x d Ed. destruct (ef_ops _ _ _ _ _ F x d Ed) as (d' & E & (_ & Rt & _) & _). exists d'. auto.
    - intros x bd Ex. destruct (ef_blocks _ _ _ _ _ F) as (bd0 & A & B & Eb & _ & _ & _ & Bx). rewrite Bx. destruct (Nat.eqb_spec x b) as [->|]; [|exists bd; auto]. assert (bd0 = bd) as -> by congruence. eexists. split; reflexivity.
  Qed.

  Lemma good_replace c dead log rep b c' e : good c dead log rep -> effect c dead b c' e -> justified is_cast convert materialize c0 c' r log e -> ~ In (r_cast e) dead ->
    ~ In (r_cast e) (map fst rep) -> good c' (dead ++ [r_cast e]) (log ++ [e]) rep.
  Proof.
    intros G F J Nd Nr. destruct G as [Gi Gd Gr Gl (more & Gv) Gp Go].
    assert (Nlog : ~ removed log (r_cast e)) by (intros K; apply Nd, Gd; auto).
    assert (Lc : r_cast e < length (ops c0)) by (destruct (j_cast _ _ _ _ _ _ _ _ J) as (i & o & (d & _ & _ & Ed & _) & _); apply nth_error_Some; congruence).
    assert (Nf : forall f, In f log -> ~ In (r_cast e) (r_ops f)) by (intros f If K; apply (log_cast c log f Gr If) in K; lia).
    assert (Dead0 : forall x, In x dead -> x < length (ops c0)).
    { intros x K. apply Gd in K. destruct K as [K|(f & If & <-)]; [apply (proj2 (proj2 (proj1 I0))), K | apply (log_cast c log f Gr If)]. }
    constructor.
    - apply (ef_inv _ _ _ _ _ F).
    - intros x. rewrite in_app_iff, Gd, removed_snoc. cbn. intuition.
    - constructor.
      + intros before f after E. apply snoc_split in E. destruct E as [(<- & -> & ->)|(after' & -> & E)].
        * split; [exact J|]. destruct (ef_made _ _ _ _ _ F) as [L M]. split; [exact L|]. intros k p o Ep Eo. destruct (M k p o Ep Eo) as (Lo & d & X). split; [lia|]. exists d. exact X.
        * destruct (rs_why _ _ _ _ _ _ _ _ Gr before f after' E) as [[Q1 Q2 Q3 Q4 Q5 Q6] (L & M)]. split; [constructor; try assumption; eapply value_kept; eauto|].
          split; [exact L|]. intros k p o Ep Eo. destruct (M k p o Ep Eo) as (Lo & d & Ed & X1 & X2 & X3 & X4 & X5 & X6). split; [exact Lo|].
          destruct (ef_ops _ _ _ _ _ F o d Ed) as (d' & Ed' & (Y1 & Y2 & Y3 & Y4) & _ & Y5). exists d'. split; [exact Ed'|]. split; [congruence|]. split; [congruence|]. split; [congruence|]. split; [congruence|]. split.
          -- rewrite Y5 by (intros K; apply Dead0 in K; lia). rewrite X5, map_map. apply map_ext. intros y. rewrite (app_comm_cons after' [e] f), follow_snoc. reflexivity.
          -- rewrite (ef_results _ _ _ _ _ F); [exact X6 | apply nth_error_Some; congruence].
      + rewrite map_app. cbn [map]. apply NoDup_rev in Nr || idtac. pose proof (rs_once _ _ _ _ _ _ _ _ Gr) as Nd0. apply NoDup_Add with (a := r_cast e) (l := map r_cast log); [rewrite <- (app_nil_r (map r_cast log)) at 1; apply Add_app|]. split; [exact Nd0|].
        intros K. apply in_map_iff in K. destruct K as (f & E & If). apply Nlog. exists f. auto.
      + rewrite (ef_regions _ _ _ _ _ F). apply (rs_regions _ _ _ _ _ _ _ _ Gr).
      + intros x. destruct (ef_blocks _ _ _ _ _ F) as (bd & A & B & Eb & EAB & Na & Nb & Bx). rewrite Bx. pose proof (rs_blocks _ _ _ _ _ _ _ _ Gr) as RB.
        assert (Ext : forall l, flat_map (in_place_of (log ++ [e])) l = flat_map (put e) (flat_map (in_place_of log) l)).
        { intros l. rewrite flat_map_comp. apply flat_map_ext. intros y. apply in_place_snoc; assumption. }
        destruct (Nat.eqb_spec x b) as [->|Hx].
        * pose proof (RB b) as E. rewrite Eb in E. destruct (nth_error (blocks c0) b) as [bd0|] eqn:E0; [|discriminate]. cbn in E. injection E as E. cbn [option_map]. f_equal. rewrite Ext.
          assert (E2 : flat_map (in_place_of log) (b_ops bd0) = A ++ r_cast e :: B) by (rewrite <- EAB, E; reflexivity). rewrite E2, flat_map_app. cbn [flat_map]. unfold put at 2. rewrite Nat.eqb_refl, !put_none by assumption.
          rewrite E. reflexivity.
        * rewrite (RB x). destruct (nth_error (blocks c0) x) as [bd0|] eqn:E0; [|reflexivity]. cbn. do 2 f_equal. rewrite Ext. symmetry. apply put_none. intros K.
          assert (Pc : placed c) by (apply pok_placed, Gi). assert (K1 : op_parent c (r_cast e) x) by (apply (pl_op c Pc); eexists; split; [rewrite (RB x), E0; reflexivity | exact K]).
          assert (K2 : op_parent c (r_cast e) b) by (apply (pl_op c Pc); exists bd; split; [exact Eb | rewrite EAB; apply in_or_app; right; left; reflexivity]).
          destruct K1 as (d1 & X1 & X2), K2 as (d2 & X3 & X4). congruence.
      + intros x d Ed. destruct (rs_ops _ _ _ _ _ _ _ _ Gr x d Ed) as (d1 & E1 & Q1 & Q2 & Q3 & Q4 & Q5 & Q6). destruct (ef_ops _ _ _ _ _ F x d1 E1) as (d2 & E2 & (Y1 & Y2 & Y3 & Y4) & Y5 & Y6).
        exists d2. split; [exact E2|]. split; [congruence|]. split; [congruence|]. split; [congruence|]. split; [congruence|]. split.
        * intros K. rewrite removed_snoc in K. rewrite Y5, Q5 by tauto. reflexivity.
        * intros K0 K. rewrite removed_snoc in K. rewrite Y6, Q6, map_map by (try rewrite Gd; tauto). apply map_ext. intros y. rewrite follow_snoc. reflexivity.
      + intros x Lx. rewrite (ef_results _ _ _ _ _ F) by lia. apply (rs_results _ _ _ _ _ _ _ _ Gr), Lx.
      + rewrite (ef_args _ _ _ _ _ F). apply (rs_args _ _ _ _ _ _ _ _ Gr).
      + intros f If. apply in_app_iff in If. destruct If as [If|[<-|[]]]; [|apply (ef_gone _ _ _ _ _ F)]. apply (ef_keep _ _ _ _ _ F); [apply (rs_gone _ _ _ _ _ _ _ _ Gr), If|].
        destruct (log_cast c log f Gr If) as (_ & _ & _ & Io). apply In_nth_error in Io. destruct Io as [i Ei]. apply (de_result c0 (proj2 (proj2 I0))) in Ei. rewrite Gv, app_length. assert (r_old f < length (vals c0)) by (apply nth_error_Some; congruence). lia.
    - pose proof (ef_len _ _ _ _ _ F). lia.
    - destruct (ef_vals _ _ _ _ _ F) as [more2 ->]. rewrite Gv, <- app_assoc. eauto.
    - intros [x [from to]] Iq. destruct (Gp _ Iq) as (X1 & X2 & input & original & before & after & X3 & X4 & X5 & X6 & X7 & X8). split; [exact X1|]. split.
      + rewrite removed_snoc. intros [K| ->]; [tauto|]. apply Nr. change (r_cast e) with (fst (r_cast e, (from, to))). apply in_map, Iq.
      + exists input, original, before, (after ++ [e]). split; [exact X3|]. split; [exact X4|]. split; [rewrite X5, <- app_assoc; reflexivity|]. split; [eapply value_kept; eauto | auto].
    - exact Go.
  Qed.
  Lemma good_report c dead log rep x from to : good c dead log rep -> reported is_cast convert materialize c0 r c log (x, (from, to)) -> ~ In x (map fst rep) -> good c dead log (rep ++ [(x, (from, to))]).
  Proof.
    intros [Gi Gd Gr Gl Gv Gp Go] R Nx. constructor; try assumption.
    - intros q Iq. apply in_app_iff in Iq. destruct Iq as [Iq|[<-|[]]]; auto.
    - rewrite map_app. cbn [map fst]. apply NoDup_Add with (a := x) (l := map fst rep); [rewrite <- (app_nil_r (map fst rep)) at 1; apply Add_app|]. auto.
  Qed.

  (** ** Zones *)
  Definition touched (log : list replacement) (rep : list (nat * (nat * nat))) (x : nat) : Prop := removed log x \/ In x (map fst rep).
  Definition proper (x : nat) : Prop := exists input original, cast_in is_cast c0 x input original.
  Definition handles (f : state -> option state) (Z : nat -> Prop) : Prop :=
    forall c dead log rep s', good c dead log rep -> (forall x, Z x -> ~ touched log rep x) -> f (c, (length log, rep)) = Some s' ->
      exists c' dead' log2 rep2, s' = (c', (length (log ++ log2), rep ++ rep2)) /\ good c' dead' (log ++ log2) (rep ++ rep2) /\
        (forall x, touched log2 rep2 x -> Z x) /\ (forall x, Z x -> proper x -> touched log2 rep2 x).
  Lemma touched_app a b a' b' x : touched (a ++ b) (a' ++ b') x <-> touched a a' x \/ touched b b' x.
  Proof.
    unfold touched, removed. rewrite map_app, in_app_iff. split.
    - intros [(e & I & E)|[I|I]]; [apply in_app_iff in I; destruct I|..]; intuition eauto.
    - intros [[(e & I & E)|I]|[(e & I & E)|I]]; [left; exists e; rewrite in_app_iff; auto | tauto | left; exists e; rewrite in_app_iff; auto | tauto].
  Qed.
  Lemma loop_handles {A} (f : state -> A -> option state) (Z : A -> nat -> Prop) l : NoDup l -> (forall a, In a l -> handles (fun s => f s a) (Z a)) ->
    (forall a b x, In a l -> In b l -> a <> b -> Z a x -> Z b x -> False) -> handles (fun s => loop f s l) (fun x => exists a, In a l /\ Z a x).
  Proof.
    induction l as [|a l IH]; intros Nd H D c dead log rep s' G Zn E; cbn [loop] in E.
    - injection E as <-. exists c, dead, [], []. rewrite !app_nil_r. split; [reflexivity|]. split; [exact G|]. split; [intros x [(e & [] & _)|[]] | intros x (a & [] & _)].
    - destruct (f (c, (length log, rep)) a) as [s1|] eqn:E1; [|discriminate].
      destruct (H a (or_introl eq_refl) c dead log rep s1 G) as (c1 & dead1 & log1 & rep1 & -> & G1 & T1 & C1); [intros x Zx; apply Zn; exists a; cbn; auto | exact E1|].
      destruct (IH (proj2 (proj1 (NoDup_cons_iff a l) Nd)) (fun b Ib => H b (or_intror Ib)) (fun x y z Ix Iy => D x y z (or_intror Ix) (or_intror Iy)) _ _ _ _ s' G1) as (c2 & dead2 & log2 & rep2 & -> & G2 & T2 & C2); [|exact E|].
      + intros x (b & Ib & Zb). rewrite touched_app. intros [K|K]; [revert K; apply Zn; exists b; cbn; auto|]. apply T1 in K. apply (D a b x); cbn; auto. intros ->. inversion Nd. contradiction.
      + exists c2, dead2, (log1 ++ log2), (rep1 ++ rep2). rewrite !app_assoc. split; [reflexivity|]. split; [exact G2|]. split.
        * intros x K. apply touched_app in K. destruct K as [K|K]; [exists a; cbn; auto|]. apply T2 in K. destruct K as (b & Ib & Zb). exists b. cbn. auto.
        * intros x (b & [<-|Ib] & Zb) Px; apply touched_app; [left; apply C1; auto | right; apply C2; eauto].
  Qed.

  Definition op_zone (o x : nat) : Prop := x = o \/ exists d q, nth_error (ops c0) o = Some d /\ In q (o_regions d) /\ inside c0 q x.
  Definition block_zone (b x : nat) : Prop := exists bd o, nth_error (blocks c0) b = Some bd /\ In o (b_ops bd) /\ op_zone o x.
  Lemma not_sideways q y y' d' r2 : directly_in c0 q y -> directly_in c0 q y' -> nth_error (ops c0) y' = Some d' -> In r2 (o_regions d') -> inside c0 r2 y -> False.
  Proof.
    intros Dy Dy' Ed' Ir I. destruct (inside_last c0 r2 y I) as [D|(z & d & r3 & Iz & Ed & Ir3 & D)].
    - rewrite (op_region c0 P0 y q r2 Dy D) in Dy'. pose proof (inside_rank c0 rank N _ _ _ _ Ed' Ir (inside_directly c0 _ _ Dy')). lia.
    - rewrite (op_region c0 P0 y q r3 Dy D) in Dy'. pose proof (inside_rank c0 rank N _ _ _ _ Ed' Ir Iz). pose proof (inside_rank c0 rank N _ _ _ _ Ed Ir3 (inside_directly c0 _ _ Dy')). lia.
  Qed.
  Lemma op_zones q y y' x : directly_in c0 q y -> directly_in c0 q y' -> y <> y' -> op_zone y x -> op_zone y' x -> False.
  Proof.
    intros Dy Dy' Ne [->|(d & r2 & Ed & Ir & I)] [->|(d' & r2' & Ed' & Ir' & I')].
    - congruence.
    - exact (not_sideways q y y' d' r2' Dy Dy' Ed' Ir' I').
    - exact (not_sideways q y' y d r2 Dy' Dy Ed Ir I).
    - destruct (linear c0 P0 r2 r2' x I I') as [->|[(z & dz & Iz & Ez & Irz)|(z & dz & Iz & Ez & Irz)]].
      + apply Ne. exact (region_owner c0 P0 r2' y y' d d' Ed Ir Ed' Ir').
      + rewrite (region_owner c0 P0 r2 z y dz d Ez Irz Ed Ir) in Iz. exact (not_sideways q y y' d' r2' Dy Dy' Ed' Ir' Iz).
      + rewrite (region_owner c0 P0 r2' z y' dz d' Ez Irz Ed' Ir') in Iz. exact (not_sideways q y' y d r2 Dy' Dy Ed Ir Iz).
  Qed.
  Lemma block_zones q rd b b' x : nth_error (regions c0) q = Some rd -> In b (r_blocks rd) -> In b' (r_blocks rd) -> b <> b' -> block_zone b x -> block_zone b' x -> False.
  Proof.
    intros Eq Ib Ib' Ne (bd & y & Eb & Iy & Z) (bd' & y' & Eb' & Iy' & Z'). apply (op_zones q y y' x); try assumption; [exists rd, b, bd; auto | exists rd, b', bd'; auto|].
    intros ->. assert (A : op_parent c0 y' b) by (apply (pl_op c0 P0); exists bd; auto). assert (B : op_parent c0 y' b') by (apply (pl_op c0 P0); exists bd'; auto).
    destruct A as (d1 & D1 & F1), B as (d2 & D2 & F2). congruence.
  Qed.
  Lemma region_zones o d q q' x : nth_error (ops c0) o = Some d -> In q (o_regions d) -> In q' (o_regions d) -> q <> q' -> inside c0 q x -> inside c0 q' x -> False.
  Proof.
    intros Ed Iq Iq' Ne I I'. destruct (linear c0 P0 q q' x I I') as [E|[(z & dz & Iz & Ez & Irz)|(z & dz & Iz & Ez & Irz)]]; [exact (Ne E)| |].
    - rewrite (region_owner c0 P0 q z o dz d Ez Irz Ed Iq) in Iz. pose proof (inside_rank c0 rank N _ _ _ _ Ed Iq' Iz). lia.
    - rewrite (region_owner c0 P0 q' z o dz d Ez Irz Ed Iq') in Iz. pose proof (inside_rank c0 rank N _ _ _ _ Ed Iq Iz). lia.
  Qed.
  Lemma handles_ext f Z Z' : (forall x, Z x <-> Z' x) -> handles f Z -> handles f Z'.
  Proof.
    intros E H c dead log rep s' G Zn Ef. destruct (H c dead log rep s' G) as (c' & dead' & log2 & rep2 & X1 & X2 & X3 & X4); [intros x Zx; apply Zn, E, Zx | exact Ef|].
    exists c', dead', log2, rep2. split; [exact X1|]. split; [exact X2|]. split; intros x K; [apply E, X3, K | intros Px; apply X4; [apply E, K | exact Px]].
  Qed.

  Lemma nothing c dead log rep (Z : nat -> Prop) : good c dead log rep -> (forall x, Z x -> proper x -> False) ->
    exists c' dead' log2 rep2, (c, (length log, rep)) = (c', (length (log ++ log2), rep ++ rep2)) /\ good c' dead' (log ++ log2) (rep ++ rep2) /\
        (forall x, touched log2 rep2 x -> Z x) /\ (forall x, Z x -> proper x -> touched log2 rep2 x).
  Proof.
    intros G H. exists c, dead, [], []. rewrite !app_nil_r. split; [reflexivity|]. split; [exact G|]. split; [intros x [(e & [] & _)|[]] | intros x Zx Px; destruct (H x Zx Px)].
  Qed.
  Lemma one_removed log rep c' dead' e o : good c' dead' (log ++ [e]) rep -> r_cast e = o ->
    exists c1 dead1 log2 rep2, (c', (S (length log), rep)) = (c1, (length (log ++ log2), rep ++ rep2)) /\ good c1 dead1 (log ++ log2) (rep ++ rep2) /\
        (forall x, touched log2 rep2 x -> x = o) /\ (forall x, x = o -> proper x -> touched log2 rep2 x).
  Proof.
    intros G E. exists c', dead', [e], []. rewrite app_nil_r. split; [rewrite app_length; cbn; do 2 f_equal; lia|]. split; [exact G|]. split.
    - intros x [(f & [<-|[]] & <-)|[]]. exact E.
    - intros x -> _. left. exists e. cbn. auto.
  Qed.
  Lemma try_handles depth b o : inside c0 r o -> (exists d, nth_error (ops c0) o = Some d /\ is_cast (o_kind d) = true /\ o_parent d = Some b) ->
    handles (fun s => try_resolve convert materialize depth s b o) (fun x => x = o).
  Proof.
    intros Io (d0 & Ed0 & Kd0 & Pd0) c dead log rep s' G Zn E. pose proof (Zn o eq_refl) as Nt. assert (Nrem : ~ removed log o) by (intros K; apply Nt; left; exact K).
    assert (Nrep : ~ In o (map fst rep)) by (intros K; apply Nt; right; exact K). assert (Nd : ~ In o dead) by (rewrite (g_dead _ _ _ _ G); intros [K|K]; [exact (Live o Io K) | tauto]).
    destruct (rs_ops _ _ _ _ _ _ _ _ (g_res _ _ _ _ G) o d0 Ed0) as (d & Ed & Kd & Td & Rd & _ & Pd & Od). specialize (Pd Nrem). specialize (Od (Live o Io) Nrem).
    assert (Lo : o < length (ops c0)) by (apply nth_error_Some; congruence). pose proof (rs_results _ _ _ _ _ _ _ _ (g_res _ _ _ _ G) o Lo) as Ro.
    unfold try_resolve in E. rewrite Ed in E. destruct (o_operands d) as [|input ins] eqn:Eo.
    { injection E as <-. apply (nothing c dead log rep (fun x => x = o)); [exact G|]. intros x -> (i & t & (d1 & m & m' & E1 & _ & E2 & _)). assert (d1 = d0) as -> by congruence. rewrite E2 in Od. discriminate. }
    destruct (o_result_types d) as [|original more] eqn:Et.
    { injection E as <-. apply (nothing c dead log rep (fun x => x = o)); [exact G|]. intros x -> (i & t & (d1 & m & m' & E1 & _ & _ & E2)). assert (d1 = d0) as -> by congruence. congruence. }
    destruct (o_operands d0) as [|input0 ins0] eqn:Eo0; [discriminate|]. cbn [map] in Od. injection Od as Ein Eins.
    assert (Cast : cast_in is_cast c0 o input0 original) by (exists d0, ins0, more; auto).
    cbv zeta in E. fold (target convert original) in E. set (to := target convert original) in *.
    destruct (value_ty c input) as [from|] eqn:Ev; [|discriminate]. destruct (nth_error (op_results c o) 0) as [result|] eqn:Er; [|discriminate].
    assert (Pc : placed c) by (apply pok_placed, (g_inv _ _ _ _ G)). assert (Ib : op_in c o b) by (apply (pl_op c Pc); exists d; split; congruence). destruct Ib as (bd & Eb & _).
    assert (Lv : length (vals c0) <= length (vals c)) by (destruct (g_vals _ _ _ _ G) as [m ->]; rewrite app_length; lia).
    destruct (Nat.eqb_spec from to) as [Eft|Nft].
    - destruct (erase_op depth (replace_all_uses c result input) o) as [c1|] eqn:E3; [|discriminate]. injection E as <-.
      pose proof (replace_step depth c dead b o d bd result input [] Input c [] c c1 (g_inv _ _ _ _ G) Ed Nd) as F. cbn [value_of create_all insert_all] in F.
      specialize (F ltac:(congruence) ltac:(rewrite Rd; exact (Leaf o d0 Io Ed0 Kd0)) Eb ltac:(rewrite Eo; reflexivity) Er eq_refl eq_refl E3 from to).
      match type of F with effect _ _ _ _ ?e => set (ev := e) in * end. apply (one_removed log rep c1 (dead ++ [o]) ev o); [|reflexivity]. apply (good_replace c dead log rep b c1 ev); try assumption.
      constructor; cbn [ev r_cast r_old r_input r_from r_to r_new r_plan r_base r_ops].
      + exact Io.
      + exists input0, original. split; [exact Cast|]. split; [congruence | reflexivity].
      + congruence.
      + eapply value_kept; [exact F | exact Ev].
      + left. auto.
      + exact Lv.
    - destruct (materialize from to) as [[plan v]|] eqn:Em.
      + destruct (create_all c (length (vals c)) input plan) as [[c1 os]|] eqn:E1; [|discriminate]. destruct (insert_all c1 b o os) as [c2|] eqn:E2; [|discriminate].
        destruct (erase_op depth _ o) as [c3|] eqn:E3; [|discriminate]. injection E as <-.
        pose proof (replace_step depth c dead b o d bd result input plan v c1 os c2 c3 (g_inv _ _ _ _ G) Ed Nd) as F.
        specialize (F ltac:(congruence) ltac:(rewrite Rd; exact (Leaf o d0 Io Ed0 Kd0)) Eb ltac:(rewrite Eo; reflexivity) Er E1 E2 E3 from to).
        match type of F with effect _ _ _ _ ?e => set (ev := e) in * end. apply (one_removed log rep c3 (dead ++ [o]) ev o); [|reflexivity]. apply (good_replace c dead log rep b c3 ev); try assumption.
        constructor; cbn [ev r_cast r_old r_input r_from r_to r_new r_plan r_base r_ops].
        * exact Io.
        * exists input0, original. split; [exact Cast|]. split; [congruence | reflexivity].
        * congruence.
        * eapply value_kept; [exact F | exact Ev].
        * right. split; [exact Nft|]. exists v. auto.
        * exact Lv.
      + injection E as <-. exists c, dead, [], [(o, (from, to))]. rewrite app_nil_r. split; [reflexivity|]. split; [|split].
        * apply good_report; [exact G | | exact Nrep]. split; [exact Io|]. split; [exact Nrem|]. exists input0, original, log, []. rewrite app_nil_r. split; [exact Cast|]. split; [reflexivity|]. split; [reflexivity|].
          split; [rewrite <- Ein; exact Ev | auto].
        * intros x [(f & [] & _)|[<-|[]]]. reflexivity.
        * intros x -> _. right. left. reflexivity.
  Qed.
  Lemma flat_same log l : (forall x, In x l -> ~ removed log x) -> flat_map (in_place_of log) l = l.
  Proof. induction l as [|x l IH]; intros H; [reflexivity|]. cbn [flat_map]. rewrite in_place_none by (apply H; left; reflexivity). cbn. f_equal. apply IH. intros y I. apply H. right. exact I. Qed.
  Lemma op_handles (region : state -> nat -> option state) depth b q o :
    (forall q, (forall x, inside c0 q x -> inside c0 r x) -> handles (fun s => region s q) (inside c0 q)) ->
    (forall x, inside c0 q x -> inside c0 r x) -> directly_in c0 q o -> op_parent c0 o b -> handles (fun s => resolve_op is_cast convert materialize region depth b s o) (op_zone o).
  Proof.
    intros H Iq Do (d0 & Ed0 & Pd0) c dead log rep s' G Zn E. assert (Io : inside c0 r o) by (apply Iq, inside_directly, Do).
    assert (Nrem : ~ removed log o) by (intros K; apply (Zn o (or_introl eq_refl)); left; exact K).
    destruct (rs_ops _ _ _ _ _ _ _ _ (g_res _ _ _ _ G) o d0 Ed0) as (d & Ed & Kd & Td & Rd & _ & Pd & Od). specialize (Pd Nrem).
    unfold resolve_op in E. cbn [fst] in E. rewrite Ed, Pd, Pd0, Nat.eqb_refl, Kd, Rd in E. destruct (is_cast (o_kind d0)) eqn:K.
    - assert (X : handles (fun s => try_resolve convert materialize depth s b o) (op_zone o)).
      { apply (handles_ext _ (fun x => x = o)); [|apply try_handles; [exact Io | exists d0; auto]]. intros x. split; [intros ->; left; reflexivity|]. intros [->|(d1 & q1 & E1 & I1 & _)]; [reflexivity|].
        assert (d1 = d0) as -> by congruence. rewrite (Leaf o d0 Io Ed0 K) in I1. destruct I1. }
      apply (X c dead log rep s' G Zn E).
    - assert (X : handles (fun s => loop region s (o_regions d0)) (fun x => exists q, In q (o_regions d0) /\ inside c0 q x)).
      { apply loop_handles.
        - apply (pl_region_once c0 P0 o d0 Ed0).
        - intros q1 I1. apply H. intros x Ix. apply (inside_into c0 r o d0 q1 x Io Ed0 I1 Ix).
        - intros q1 q2 x I1 I2 Ne. exact (region_zones o d0 q1 q2 x Ed0 I1 I2 Ne). }
      destruct (X c dead log rep s' G) as (c' & dead' & log2 & rep2 & X1 & X2 & X3 & X4); [intros x (q1 & I1 & J1); apply Zn; right; exists d0, q1; auto | exact E|].
      exists c', dead', log2, rep2. split; [exact X1|]. split; [exact X2|]. split.
      + intros x T. apply X3 in T. destruct T as (q1 & I1 & J1). right. exists d0, q1. auto.
      + intros x [->|(d1 & q1 & E1 & I1 & J1)] Px.
        * destruct Px as (i & t & (d1 & m & m' & E1 & K1 & _)). congruence.
        * apply X4; [|exact Px]. assert (d1 = d0) as -> by congruence. eauto.
  Qed.
  (** The body of the loop over blocks in [resolve_region]. *)
  Definition block_step (region : state -> nat -> option state) (depth : nat) (s : state) (b : nat) : option state :=
    match nth_error (blocks (fst s)) b with None => None | Some bd => loop (resolve_op is_cast convert materialize region depth b) s (b_ops bd) end.
  Lemma zone_blocks q rd x : nth_error (regions c0) q = Some rd -> (inside c0 q x <-> exists b, In b (r_blocks rd) /\ block_zone b x).
  Proof.
    intros Eq. split.
    - intros I. destruct (inside_first c0 q x I) as [(rd' & b & bd & E1 & I1 & E2 & I2)|(o & d & r2 & (rd' & b & bd & E1 & I1 & E2 & I2) & Ed & Ir & J)]; assert (rd' = rd) as -> by congruence.
      + exists b. split; [exact I1|]. exists bd, x. split; [exact E2|]. split; [exact I2|]. left. reflexivity.
      + exists b. split; [exact I1|]. exists bd, o. split; [exact E2|]. split; [exact I2|]. right. exists d, r2. auto.
    - intros (b & I1 & bd & o & E2 & I2 & [->|(d & r2 & Ed & Ir & J)]); [apply inside_directly; exists rd, b, bd; auto|]. apply (inside_into c0 q o d r2 x); try assumption. apply inside_directly. exists rd, b, bd. auto.
  Qed.
  Lemma block_handles region depth q rd b : nth_error (regions c0) q = Some rd -> (forall x, inside c0 q x -> inside c0 r x) ->
    (forall q, (forall x, inside c0 q x -> inside c0 r x) -> handles (fun s => region s q) (inside c0 q)) -> In b (r_blocks rd) -> handles (fun s => block_step region depth s b) (block_zone b).
  Proof.
    intros Eq Iq H Ib c dead log rep s' G Zn E. unfold block_step in E. cbn [fst] in E. rewrite (rs_blocks _ _ _ _ _ _ _ _ (g_res _ _ _ _ G)) in E.
    destruct (nth_error (blocks c0) b) as [bd|] eqn:Eb; [|discriminate]. cbn [option_map b_ops set_bops] in E. rewrite flat_same in E by (intros x Ix K; apply (Zn x); [exists bd, x; split; [exact Eb|]; split; [exact Ix | left; reflexivity] | left; exact K]).
    assert (Y : handles (fun s => loop (resolve_op is_cast convert materialize region depth b) s (b_ops bd)) (fun x => exists o, In o (b_ops bd) /\ op_zone o x)).
    { apply loop_handles.
      - apply (pl_op_once c0 P0 b bd Eb).
      - intros o Io. apply (op_handles _ depth b q o H Iq); [exists rd, b, bd; auto | apply (pl_op c0 P0); exists bd; auto].
      - intros y y' x Iy Iy' Ne. apply (op_zones q); [exists rd, b, bd; auto | exists rd, b, bd; auto | exact Ne]. }
    refine (handles_ext _ _ (block_zone b) _ Y c dead log rep s' G Zn E).
    intros x. split; [intros (o & Io & Z); exists bd, o; auto | intros (bd' & o & E' & Io & Z); assert (bd' = bd) as -> by congruence; eauto].
  Qed.
  Lemma region_handles depth : forall fuel q, (forall x, inside c0 q x -> inside c0 r x) -> handles (fun s => resolve_region is_cast convert materialize fuel depth s q) (inside c0 q).
  Proof.
    induction fuel as [|n IH]; intros q Iq c dead log rep s' G Zn E; [discriminate|]. cbn [resolve_region fst] in E. rewrite (rs_regions _ _ _ _ _ _ _ _ (g_res _ _ _ _ G)) in E.
    destruct (nth_error (regions c0) q) as [rd|] eqn:Eq; [|discriminate].
    assert (X : handles (fun s => loop (block_step (resolve_region is_cast convert materialize n depth) depth) s (r_blocks rd)) (inside c0 q)).
    { apply (handles_ext _ (fun x => exists b, In b (r_blocks rd) /\ block_zone b x)); [intros x; symmetry; apply (zone_blocks q rd x Eq)|]. apply loop_handles.
      - apply (pl_block_once c0 P0 q rd Eq).
      - intros b Ib. exact (block_handles _ depth q rd b Eq Iq IH Ib).
      - intros b b' x Ib Ib' Ne. exact (block_zones q rd b b' x Eq Ib Ib' Ne). }
    apply (X c dead log rep s' G Zn E).
  Qed.

  Lemma good_start : good c0 dead0 [] [].
  Proof.
    constructor.
    - exact I0.
    - intros x. split; [auto|]. intros [K|(e & [] & _)]. exact K.
    - constructor.
      + intros [|? ?] e after K; discriminate.
      + constructor.
      + reflexivity.
      + intros b. destruct (nth_error (blocks c0) b) as [bd|]; [|reflexivity]. cbn. rewrite flat_same by (intros x _ (e & [] & _)). destruct bd; reflexivity.
      + intros x d Ed. exists d. repeat split; auto. intros _ _. symmetry. apply map_id.
      + reflexivity.
      + reflexivity.
      + intros e [].
    - lia.
    - exists []. symmetry. apply app_nil_r.
    - intros q [].
    - constructor.
  Qed.
  Lemma resolve_ok fuel depth s' : resolve_casts is_cast convert materialize fuel depth c0 r = Some s' ->
    exists c' log rep, s' = (c', (length log, rep)) /\ resolved is_cast convert materialize c0 dead0 r c' log /\ (forall q, In q rep -> reported is_cast convert materialize c0 r c' log q) /\ NoDup (map fst rep) /\
      (forall x, inside c0 r x -> proper x -> removed log x \/ In x (map fst rep)) /\ (exists dead', good c' dead' log rep).
  Proof.
    intros E. destruct (region_handles depth fuel r (fun _ I => I) c0 dead0 [] [] s' good_start) as (c' & dead' & log & rep & X1 & X2 & X3 & X4); [intros x _ [(e & [] & _)|[]] | exact E|].
    cbn [app] in *. exists c', log, rep. split; [exact X1|]. split; [apply X2|]. split; [apply X2|]. split; [apply X2|]. split; [exact X4|]. exists dead'. exact X2.
  Qed.

  (** ** What is left afterwards *)
  Lemma remaining c dead log rep x : good c dead log rep -> inside c r x -> (inside c0 r x /\ ~ removed log x) \/ exists e, In e log /\ In x (r_ops e).
  Proof.
    intros G. pose proof (g_res _ _ _ _ G) as Gr. assert (Block : forall b bd y, nth_error (blocks c) b = Some bd -> In y (b_ops bd) ->
      (exists e, In e log /\ In y (r_ops e)) \/ exists bd0, nth_error (blocks c0) b = Some bd0 /\ In y (b_ops bd0) /\ ~ removed log y).
    { intros b bd y Eb Iy. rewrite (rs_blocks _ _ _ _ _ _ _ _ Gr) in Eb. destruct (nth_error (blocks c0) b) as [bd0|] eqn:E0; [|discriminate]. cbn in Eb. injection Eb as <-. cbn [b_ops set_bops] in Iy.
      apply in_flat_map in Iy. destruct Iy as (z & Iz & Iy). destruct (removed_dec log z) as [R|R].
      - destruct (in_place_removed log z R) as (e & Ie & Ee). rewrite Ee in Iy. left. exists e. auto.
      - rewrite (in_place_none log z R) in Iy. destruct Iy as [<-|[]]. right. exists bd0. auto. }
    induction 1 as [rd b bd x A B C D|x y I IH Ne].
    - rewrite (rs_regions _ _ _ _ _ _ _ _ Gr) in A. destruct (Block b bd x C D) as [K|(bd0 & E0 & I0' & R)]; [right; exact K|]. left. split; [|exact R]. eapply inside_top; eauto.
    - destruct Ne as (d & q & rd & b & bd & Ed & Iq & Eq & Ib & Eb & Ix). destruct IH as [[Iy Ry]|(e & Ie & Iy)].
      + destruct (Block b bd x Eb Ix) as [K|(bd0 & E0 & I0' & R)]; [right; exact K|]. left. split; [|exact R]. eapply inside_nested; [exact Iy|].
        assert (Ly : exists d0, nth_error (ops c0) y = Some d0) by (destruct (inside_first c0 r y Iy) as [(r1 & b1 & d1 & _ & _ & X1 & X2)|(o & d2 & r2 & _ & _ & _ & J)];
          [assert (Z : op_parent c0 y b1) by (apply (pl_op c0 P0); exists d1; auto); destruct Z as (d0 & Z & _); eauto|
           destruct J as [rd1 b1 bd1 y X0 X1 X2 X3|y z J (d3 & q3 & rd3 & b3 & bd3 & _ & _ & _ & _ & X2 & X3)];
             [assert (Z : op_parent c0 y b1) by (apply (pl_op c0 P0); exists bd1; auto) | assert (Z : op_parent c0 y b3) by (apply (pl_op c0 P0); exists bd3; auto)]; destruct Z as (d0 & Z & _); eauto]).
        destruct Ly as [d0 Ed0]. destruct (rs_ops _ _ _ _ _ _ _ _ Gr y d0 Ed0) as (d' & Ed' & _ & _ & Rd & _). assert (d' = d) as -> by congruence. rewrite Rd in Iq. rewrite (rs_regions _ _ _ _ _ _ _ _ Gr) in Eq.
        exists d0, q, rd, b, bd0. auto 8.
      + exfalso. apply in_split in Ie. destruct Ie as (l1 & l2 & E). destruct (rs_why _ _ _ _ _ _ _ _ Gr l1 e l2 E) as [_ (L & M)]. apply In_nth_error in Iy. destruct Iy as [k Ek].
        destruct (nth_error (r_plan e) k) as [p|] eqn:Ep; [|apply nth_error_None in Ep; assert (k < length (r_ops e)) by (apply nth_error_Some; congruence); lia].
        destruct (M k p y Ep Ek) as (_ & d' & Ed' & _ & _ & Rd & _). assert (d' = d) as -> by congruence. rewrite Rd in Iq. destruct Iq.
  Qed.

  (** ** Types *)
  Lemma locate plan : forall k (t : nat), nth_error (concat (map i_types plan)) k = Some t ->
    exists j p i, nth_error plan j = Some p /\ nth_error (i_types p) i = Some t /\ k = list_sum (map (fun q => length (i_types q)) (firstn j plan)) + i.
  Proof.
    induction plan as [|p plan IH]; intros k t H; [destruct k; discriminate|]. cbn [map concat] in H. destruct (Nat.lt_ge_cases k (length (i_types p))) as [L|L].
    - rewrite nth_error_app1 in H by exact L. exists 0, p, k. auto.
    - rewrite nth_error_app2 in H by exact L. destruct (IH _ _ H) as (j & q & i & E1 & E2 & E3). exists (S j), q, i. split; [exact E1|]. split; [exact E2|].
      cbn [firstn map list_sum fold_right]. fold (list_sum (map (fun q0 => length (i_types q0)) (firstn j plan))). lia.
  Qed.
  Lemma planned_value c e after k t : dok c -> made c0 c e after -> nth_error (concat (map i_types (r_plan e))) k = Some t -> value_ty c (r_base e + k) = Some t.
  Proof.
    intros D (L & M) H. destruct (locate _ _ _ H) as (j & p & i & Ep & Ei & ->). destruct (nth_error (r_ops e) j) as [o|] eqn:Eo; [|apply nth_error_None in Eo; assert (j < length (r_plan e)) by (apply nth_error_Some; congruence); lia].
    destruct (M j p o Ep Eo) as (_ & d & Ed & _ & Td & _ & _ & _ & Rs). assert (Li : i < length (i_types p)) by (apply nth_error_Some; congruence).
    assert (E : nth_error (op_results c o) i = Some (r_base e + (list_sum (map (fun q => length (i_types q)) (firstn j (r_plan e))) + i))).
    { rewrite Rs, nth_seq, (proj2 (Nat.ltb_lt _ _) Li). f_equal. lia. }
    apply (de_result c D) in E. unfold value_ty. rewrite E, Ed, Td. exact Ei.
  Qed.
  Lemma typed_replacement c dead log rep e : good c dead log rep ->
    (forall from to plan v, materialize from to = Some (plan, v) -> match v with Input => from = to | Made k => nth_error (concat (map i_types plan)) k = Some to end) ->
    In e log -> value_ty c (r_new e) = Some (r_to e).
  Proof.
    intros G H I. apply in_split in I. destruct I as (l1 & l2 & E). destruct (rs_why _ _ _ _ _ _ _ _ (g_res _ _ _ _ G) l1 e l2 E) as [J M]. pose proof (j_from _ _ _ _ _ _ _ _ J) as Jf.
    destruct (j_new _ _ _ _ _ _ _ _ J) as [(E1 & E2 & _)|(Ne & v & Em & En)]; [congruence|]. rewrite En. specialize (H _ _ _ _ Em). destruct v as [|k]; [contradiction|].
    apply (planned_value c e l2); [apply (g_inv _ _ _ _ G) | exact M | exact H].
  Qed.

  Lemma resolve_outcome fuel depth c' count unresolved : resolve_casts is_cast convert materialize fuel depth c0 r = Some (c', (count, unresolved)) ->
    exists log, resolution is_cast convert materialize c0 dead0 r c' count unresolved log /\ (honest materialize -> forall e, In e log -> value_ty c' (r_new e) = Some (r_to e)).
  Proof.
    intros E. destruct (resolve_ok fuel depth _ E) as (c1 & log & rep & Es & Rs & Rp & Nd & Al & (dead' & G)). injection Es as <- -> ->. exists log. split.
    - constructor; try assumption; [reflexivity | |].
      + intros x input original I C. apply Al; [exact I|]. exists input, original. exact C.
      + intros x d I Ed K. destruct (remaining c' dead' log rep x G I) as [[I' R]|]; [|auto].
        assert (Lx : exists d0, nth_error (ops c0) x = Some d0) by (destruct I' as [rd b bd x A B C D|x y J (d3 & q3 & rd3 & b3 & bd3 & _ & _ & _ & _ & X2 & X3)];
          [assert (Z : op_parent c0 x b) by (apply (pl_op c0 P0); exists bd; auto) | assert (Z : op_parent c0 x b3) by (apply (pl_op c0 P0); exists bd3; auto)]; destruct Z as (d0 & Z & _); eauto).
        destruct Lx as [d0 Ed0]. destruct (rs_ops _ _ _ _ _ _ _ _ Rs x d0 Ed0) as (d' & Ed' & Kd & _). assert (d' = d) as -> by congruence. rewrite Kd in K.
        destruct (o_operands d0) as [|input ins] eqn:Eo; [right; left; exists d0; auto|]. destruct (o_result_types d0) as [|original ts] eqn:Et; [right; left; exists d0; auto|].
        left. destruct (Al x I'); [exists input, original, d0, ins, ts; auto | contradiction | assumption].
    - intros H e I. exact (typed_replacement c' dead' log rep e G H I).
  Qed.

  (** ** Success *)
  Section Total.
    Variable vrank : nat -> nat.
    Hypothesis One : forall x d, inside c0 r x -> nth_error (ops c0) x = Some d -> is_cast (o_kind d) = true -> length (o_result_types d) <= 1.
    Hypothesis Real : forall x input original, inside c0 r x -> cast_in is_cast c0 x input original -> input < length (vals c0).
    Hypothesis Order : forall x input original v, inside c0 r x -> cast_in is_cast c0 x input original -> In v (op_results c0 x) -> vrank input < vrank v.
    Hypothesis Plans : forall from to plan k, materialize from to = Some (plan, Made k) -> k < length (concat (map i_types plan)).

    Lemma typed_values c : dok c -> forall v, v < length (vals c) -> value_ty c v <> None.
    Proof.
      intros D v L. unfold value_ty. destruct (nth_error (vals c) v) as [[o i|b i]|] eqn:E; [| |apply nth_error_None in E; lia].
      - apply (de_result c D) in E. assert (Lo : o < length (ops c)).
        { destruct (Nat.lt_ge_cases o (length (ops c))) as [Q|Q]; [exact Q|]. rewrite (de_result_range c D o Q) in E. destruct i; discriminate. }
        destruct (nth_error (ops c) o) as [d|] eqn:Ed; [|apply nth_error_None in Ed; lia]. apply nth_error_Some. rewrite <- (de_result_count c D o d Ed). apply nth_error_Some. congruence.
      - apply (de_arg c D) in E. assert (Lo : b < length (blocks c)).
        { destruct (Nat.lt_ge_cases b (length (blocks c))) as [Q|Q]; [exact Q|]. rewrite (de_arg_range c D b Q) in E. destruct i; discriminate. }
        destruct (nth_error (blocks c) b) as [d|] eqn:Ed; [|apply nth_error_None in Ed; lia]. apply nth_error_Some. rewrite <- (de_arg_count c D b d Ed). apply nth_error_Some. congruence.
    Qed.
    Lemma follow_down c dead log rep w : good c dead log rep -> w < length (vals c0) -> value_ty c (follow log w) <> None /\ (length (vals c0) <= follow log w \/ vrank (follow log w) <= vrank w).
    Proof.
      intros G L. pose proof (g_res _ _ _ _ G) as Gr. pose proof (g_inv _ _ _ _ G) as (_ & _ & D).
      assert (K : forall before after, log = before ++ after -> forall w, w < length (vals c0) -> value_ty c (follow before w) <> None /\ (length (vals c0) <= follow before w \/ vrank (follow before w) <= vrank w)).
      { clear w L. intros before. induction before as [|e before IH] using rev_ind; intros after E w L.
        - cbn. split; [|right; lia]. apply typed_values; [exact D|]. destruct (g_vals _ _ _ _ G) as [m ->]. rewrite app_length. lia.
        - rewrite <- app_assoc in E. cbn [app] in E. destruct (rs_why _ _ _ _ _ _ _ _ Gr before e after E) as [J M]. destruct (IH _ E w L) as [K1 K2]. rewrite follow_snoc.
          destruct (Nat.eqb_spec (follow before w) (r_old e)) as [Eo|]; [|auto]. destruct (j_cast _ _ _ _ _ _ _ _ J) as (input & original & Ci & Ei & _). pose proof (j_inside _ _ _ _ _ _ _ _ J) as Ji.
          destruct (IH _ E input (Real _ _ _ Ji Ci)) as [K3 K4]. rewrite <- Ei in K3, K4.
          pose proof (j_result _ _ _ _ _ _ _ _ J) as Jr. pose proof (Order _ _ _ (r_old e) Ji Ci (nth_error_In _ _ Jr)) as Lt. rewrite Eo in K2.
          assert (Ld : r_old e < length (vals c0)) by (apply (de_result c0 (proj2 (proj2 I0))) in Jr; apply nth_error_Some; congruence).
          destruct (j_new _ _ _ _ _ _ _ _ J) as [(_ & -> & _)|(_ & v & Em & ->)]; [split; [exact K3 | destruct K4; [left; assumption | right; lia]]|].
          destruct v as [|k]; cbn [value_of]; [split; [exact K3 | destruct K4; [left; assumption | right; lia]]|]. split; [|left; pose proof (j_fresh _ _ _ _ _ _ _ _ J); lia].
          pose proof (Plans _ _ _ _ Em) as Lk. destruct (nth_error (concat (map i_types (r_plan e))) k) as [t|] eqn:Et; [|apply nth_error_None in Et; lia].
          rewrite (planned_value c e after k t D M Et). discriminate. }
      apply (K log []); [symmetry; apply app_nil_r | exact L].
    Qed.
    Lemma create_all_total base input plan : forall c, create_all c base input plan <> None.
    Proof. induction plan as [|p plan IH]; intros c; [discriminate|]. cbn [create_all]. unfold create_op. cbn [link_regions]. match goal with |- match create_all ?x _ _ _ with _ => _ end <> None => specialize (IH x); destruct (create_all x base input plan) as [[? ?]|] end; [discriminate | congruence]. Qed.
    Lemma insert_all_total b o os : forall c, (exists bd, nth_error (blocks c) b = Some bd /\ In o (b_ops bd)) -> (forall x, In x os -> exists d, nth_error (ops c) x = Some d /\ o_parent d = None) -> NoDup os ->
      insert_all c b o os <> None.
    Proof.
      induction os as [|n os IH]; intros c (bd & Eb & Io) H Nd; [discriminate|]. cbn [insert_all]. destruct (H n (or_introl eq_refl)) as (d & Ed & Ep). unfold insert_op_before. rewrite Ed, Eb, Ep.
      destruct (position o (b_ops bd)) as [p|] eqn:Epos.
      - apply IH.
        + eexists. cbn [blocks set_ops set_blocks]. rewrite nth_upd, Nat.eqb_refl, Eb. split; [reflexivity|]. cbn [b_ops set_bops]. rewrite in_app_iff. cbn. rewrite <- (firstn_skipn p (b_ops bd)), in_app_iff in Io. tauto.
        + intros x Ix. destruct (H x (or_intror Ix)) as (dx & Ex & Px). exists dx. cbn [ops set_ops set_blocks]. rewrite nth_upd. destruct (Nat.eqb_spec x n) as [->|]; [inversion Nd; contradiction | auto].
        + inversion Nd. assumption.
      - exfalso. clear -Epos Io. induction (b_ops bd) as [|y l IH]; [destruct Io|]. cbn in Epos. destruct (Nat.eqb_spec y o) as [->|]; [discriminate|]. destruct (position o l); [discriminate|]. destruct Io; [congruence | auto].
    Qed.
    Lemma erase_total depth c o d b bd : nth_error (ops c) o = Some d -> o_parent d = Some b -> o_regions d = [] -> nth_error (blocks c) b = Some bd -> (forall v, In v (op_results c o) -> uses c v = []) ->
      erase_op (S depth) c o <> None.
    Proof.
      intros Ed Ep Er Eb H. unfold erase_op, detach_op. rewrite Ed, Ep. unfold remove_op_from_block. rewrite Ed, Eb, Ep, Nat.eqb_refl. unfold remove_op. cbn [ops set_ops set_blocks]. rewrite nth_upd, Nat.eqb_refl, Ed. cbn [option_map o_parent set_parent].
      match goal with |- match (if ?x then _ else _) with _ => _ end <> None => assert (F : x = true) end.
      { apply forallb_forall. intros v Iv. cbn [op_results set_ops set_blocks uses] in *. rewrite (H v Iv). reflexivity. }
      rewrite F. cbn [walk_op ops set_ops set_blocks]. rewrite nth_upd, Nat.eqb_refl, Ed. cbn [option_map o_regions set_parent]. rewrite Er. cbn [each]. discriminate.
    Qed.
    Lemma unused_after c dead b o d result new depth : inv c dead -> ~ In o dead -> nth_error (ops c) o = Some d -> o_parent d = Some b -> o_regions d = [] -> op_results c o = [result] -> new <> result ->
      erase_op (S depth) (replace_all_uses c result new) o <> None.
    Proof.
      intros I Nd Ed Ep Er Rs Ne. destruct (replace_operands c dead result new o d I Ed) as (d2 & Ed2 & Sh & _). destruct (replace_all_frame c result new) as (_ & FB & _ & FRs & _ & _).
      assert (Pc : placed c) by (apply pok_placed, I). assert (Ib : op_in c o b) by (apply (pl_op c Pc); exists d; auto). destruct Ib as (bd & Eb & _).
      apply (erase_total depth _ o d2 b bd); [exact Ed2 | transitivity (o_parent (shell d2)); [reflexivity | rewrite Sh; exact Ep] | transitivity (o_regions (shell d2)); [reflexivity | rewrite Sh; exact Er] | congruence|].
      intros v Iv. rewrite FRs, Rs in Iv. destruct Iv as [<-|[]]. destruct I as (U & _). destruct (replace_all_char c dead result new ltac:(congruence) U) as (_ & H & _). rewrite H.
      destruct (Nat.eqb_spec result new); [congruence|]. rewrite Nat.eqb_refl. reflexivity.
    Qed.

    Definition goes (f : state -> option state) (Z : nat -> Prop) : Prop :=
      forall c dead log rep, good c dead log rep -> (forall x, Z x -> ~ touched log rep x) -> f (c, (length log, rep)) <> None.
    Lemma loop_goes {A} (f : state -> A -> option state) (Z : A -> nat -> Prop) l : NoDup l -> (forall a, In a l -> handles (fun s => f s a) (Z a)) -> (forall a, In a l -> goes (fun s => f s a) (Z a)) ->
      (forall a b x, In a l -> In b l -> a <> b -> Z a x -> Z b x -> False) -> goes (fun s => loop f s l) (fun x => exists a, In a l /\ Z a x).
    Proof.
      induction l as [|a l IH]; intros Nd H T D c dead log rep G Zn; cbn [loop]; [discriminate|].
      destruct (f (c, (length log, rep)) a) as [s1|] eqn:E1; [|intros _; apply (T a (or_introl eq_refl) c dead log rep G); [intros x Zx; apply Zn; exists a; cbn; auto | exact E1]].
      destruct (H a (or_introl eq_refl) c dead log rep s1 G) as (c1 & dead1 & log1 & rep1 & -> & G1 & T1 & C1); [intros x Zx; apply Zn; exists a; cbn; auto | exact E1|].
      apply (IH (proj2 (proj1 (NoDup_cons_iff a l) Nd)) (fun b Ib => H b (or_intror Ib)) (fun b Ib => T b (or_intror Ib)) (fun x y z Ix Iy => D x y z (or_intror Ix) (or_intror Iy)) c1 dead1 _ _ G1).
      intros x (b & Ib & Zb). rewrite touched_app. intros [K|K]; [revert K; apply Zn; exists b; cbn; auto|]. apply T1 in K. apply (D a b x); cbn; auto. intros ->. inversion Nd. contradiction.
    Qed.
    Lemma try_goes depth b o : inside c0 r o -> (exists d, nth_error (ops c0) o = Some d /\ is_cast (o_kind d) = true /\ o_parent d = Some b) ->
      goes (fun s => try_resolve convert materialize (S depth) s b o) (fun x => x = o).
    Proof.
      intros Io (d0 & Ed0 & Kd0 & Pd0) c dead log rep G Zn. pose proof (Zn o eq_refl) as Nt. assert (Nrem : ~ removed log o) by (intros K; apply Nt; left; exact K).
      assert (Nd : ~ In o dead) by (rewrite (g_dead _ _ _ _ G); intros [K|K]; [exact (Live o Io K) | tauto]).
      destruct (rs_ops _ _ _ _ _ _ _ _ (g_res _ _ _ _ G) o d0 Ed0) as (d & Ed & Kd & Td & Rd & _ & Pd & Od). specialize (Pd Nrem). specialize (Od (Live o Io) Nrem).
      assert (Lo : o < length (ops c0)) by (apply nth_error_Some; congruence). pose proof (rs_results _ _ _ _ _ _ _ _ (g_res _ _ _ _ G) o Lo) as Ro.
      unfold try_resolve. rewrite Ed. destruct (o_operands d) as [|input ins] eqn:Eo; [discriminate|]. destruct (o_result_types d) as [|original more] eqn:Et; [discriminate|].
      destruct (o_operands d0) as [|input0 ins0] eqn:Eo0; [discriminate|]. cbn [map] in Od. injection Od as Ein Eins.
      assert (Cast : cast_in is_cast c0 o input0 original) by (exists d0, ins0, more; auto).
      pose proof (Real _ _ _ Io Cast) as Li. destruct (follow_down c dead log rep input0 G Li) as [Ty Down]. rewrite <- Ein in Ty, Down. pose proof (One o d0 Io Ed0 Kd0) as L1. rewrite <- Td in L1.
      assert (Rs : exists result, op_results c0 o = [result]).
      { pose proof (de_result_count c0 (proj2 (proj2 I0)) o d0 Ed0) as Q. rewrite <- Td in Q. cbn [length] in Q, L1. destruct (op_results c0 o) as [|v [|]]; cbn in Q; try lia. eauto. }
      destruct Rs as [result Rs]. pose proof (Order o input0 original result Io Cast) as Lt. rewrite Rs in Lt. specialize (Lt (or_introl eq_refl)). rewrite Rs in Ro.
      assert (Lr : result < length (vals c0)) by (assert (E : nth_error (op_results c0 o) 0 = Some result) by (rewrite Rs; reflexivity); apply (de_result c0 (proj2 (proj2 I0))) in E; apply nth_error_Some; congruence).
      assert (Ne : input <> result) by (intros ->; destruct Down; lia).
      destruct (value_ty c input) as [from|] eqn:Ev; [|congruence]. rewrite Ro. cbn [nth_error]. set (to := match convert original with Some t => t | None => original end).
      assert (Er : o_regions d = []) by (rewrite Rd; exact (Leaf o d0 Io Ed0 Kd0)).
      assert (Lv : length (vals c0) <= length (vals c)) by (destruct (g_vals _ _ _ _ G) as [m ->]; rewrite app_length; lia).
      destruct (Nat.eqb from to).
      - pose proof (unused_after c dead b o d result input depth (g_inv _ _ _ _ G) Nd Ed ltac:(congruence) Er Ro Ne) as Q. destruct (erase_op _ _ _); [discriminate | congruence].
      - destruct (materialize from to) as [[plan v]|] eqn:Em; [|discriminate]. destruct (create_all c (length (vals c)) input plan) as [[c1 os]|] eqn:E1; [|exfalso; exact (create_all_total _ _ _ _ E1)].
        destruct (create_all_ok _ _ dead _ _ _ _ E1 (g_inv _ _ _ _ G)) as (I1 & O1 & Eos & B1 & R1 & A1 & _ & Rs1 & _). assert (Loc : o < length (ops c)) by (apply nth_error_Some; congruence).
        assert (Pc : placed c) by (apply pok_placed, (g_inv _ _ _ _ G)). assert (Ib : op_in c o b) by (apply (pl_op c Pc); exists d; split; congruence). destruct Ib as (bd & Eb & Iob).
        assert (Fresh : forall x, In x os -> length (ops c) <= x) by (intros x Ix; rewrite Eos in Ix; apply in_seq in Ix; lia). assert (Ndos : NoDup os) by (rewrite Eos; apply seq_NoDup).
        destruct (insert_all c1 b o os) as [c2|] eqn:E2.
        2:{ exfalso. revert E2. apply insert_all_total; [exists bd; split; [congruence | exact Iob] | | exact Ndos]. intros x Ix. rewrite Eos in Ix. apply in_seq in Ix.
            destruct (nth_error plan (x - length (ops c))) as [p|] eqn:Ep; [|apply nth_error_None in Ep; lia]. exists (mk (length (vals c)) input p). rewrite O1, nth_error_app2 by lia. rewrite nth_error_map, Ep. auto. }
        apply in_split in Iob. destruct Iob as (A & B & EAB). pose proof (pl_op_once c Pc b bd Eb) as Nodup. rewrite EAB in Nodup. apply NoDup_remove_2 in Nodup.
        assert (Na : ~ In o A) by (intros K; apply Nodup; apply in_or_app; auto). assert (No : ~ In o os) by (intros K; apply Fresh in K; lia).
        destruct (insert_all_ok b o dead os c1 c2 A B bd E2 I1 ltac:(congruence) EAB Na No Ndos) as (I2 & B2 & O2 & V2 & R2 & Rs2 & A2).
        assert (Ed2 : nth_error (ops c2) o = Some d).
        { rewrite O2. destruct (vmem o os) eqn:M; [apply vmem_In in M; contradiction|]. rewrite O1, nth_error_app1 by exact Loc. exact Ed. }
        assert (Nv : value_of (length (vals c)) input v <> result) by (destruct v as [|k]; cbn; [exact Ne | lia]).
        pose proof (unused_after c2 dead b o d result _ depth I2 Nd Ed2 ltac:(congruence) Er ltac:(rewrite Rs2, Rs1 by exact Loc; exact Ro) Nv) as Q. destruct (erase_op _ _ _); [discriminate | congruence].
    Qed.
    Lemma op_goes (region : state -> nat -> option state) depth b q o :
      (forall q, (forall x, inside c0 q x -> inside c0 r x) -> handles (fun s => region s q) (inside c0 q)) ->
      (forall d q, nth_error (ops c0) o = Some d -> In q (o_regions d) -> goes (fun s => region s q) (inside c0 q)) ->
      (forall x, inside c0 q x -> inside c0 r x) -> directly_in c0 q o -> op_parent c0 o b -> goes (fun s => resolve_op is_cast convert materialize region (S depth) b s o) (op_zone o).
    Proof.
      intros H T Iq Do (d0 & Ed0 & Pd0) c dead log rep G Zn. assert (Io : inside c0 r o) by (apply Iq, inside_directly, Do).
      assert (Nrem : ~ removed log o) by (intros K; apply (Zn o (or_introl eq_refl)); left; exact K).
      destruct (rs_ops _ _ _ _ _ _ _ _ (g_res _ _ _ _ G) o d0 Ed0) as (d & Ed & Kd & Td & Rd & _ & Pd & Od). specialize (Pd Nrem).
      unfold resolve_op. cbn [fst]. rewrite Ed, Pd, Pd0, Nat.eqb_refl, Kd, Rd. destruct (is_cast (o_kind d0)) eqn:K.
      - apply (try_goes depth b o Io ltac:(exists d0; auto) c dead log rep G). intros x ->. apply Zn. left. reflexivity.
      - assert (X : goes (fun s => loop region s (o_regions d0)) (fun x => exists q, In q (o_regions d0) /\ inside c0 q x)).
        { apply loop_goes.
          - apply (pl_region_once c0 P0 o d0 Ed0).
          - intros q1 I1. apply H. intros x Ix. apply (inside_into c0 r o d0 q1 x Io Ed0 I1 Ix).
          - intros q1 I1. apply (T d0 q1 Ed0 I1).
          - intros q1 q2 x I1 I2 Ne. exact (region_zones o d0 q1 q2 x Ed0 I1 I2 Ne). }
        apply (X c dead log rep G). intros x (q1 & I1 & J1). apply Zn. right. exists d0, q1. auto.
    Qed.
    Lemma goes_ext f Z Z' : (forall x, Z x <-> Z' x) -> goes f Z -> goes f Z'.
    Proof. intros E H c dead log rep G Zn. apply (H c dead log rep G). intros x Zx. apply Zn, E, Zx. Qed.
    Lemma body_goes region depth q rd : nth_error (regions c0) q = Some rd -> (forall x, inside c0 q x -> inside c0 r x) ->
      (forall q, (forall x, inside c0 q x -> inside c0 r x) -> handles (fun s => region s q) (inside c0 q)) ->
      (forall o d q', directly_in c0 q o -> nth_error (ops c0) o = Some d -> In q' (o_regions d) -> goes (fun s => region s q') (inside c0 q')) ->
      goes (fun s => loop (block_step region (S depth)) s (r_blocks rd)) (inside c0 q).
    Proof.
      intros Eq Iq H T. apply (goes_ext _ (fun x => exists b, In b (r_blocks rd) /\ block_zone b x)); [intros x; symmetry; apply (zone_blocks q rd x Eq)|]. apply loop_goes.
      - apply (pl_block_once c0 P0 q rd Eq).
      - intros b Ib. exact (block_handles region (S depth) q rd b Eq Iq H Ib).
      - intros b Ib c dead log rep G Zn. unfold block_step. cbn [fst]. rewrite (rs_blocks _ _ _ _ _ _ _ _ (g_res _ _ _ _ G)).
        assert (Pb : block_parent c0 b q) by (apply (pl_block c0 P0); exists rd; auto). destruct Pb as (bd & Eb & _). rewrite Eb. cbn [option_map b_ops set_bops].
        rewrite flat_same by (intros x Ix K; apply (Zn x); [exists bd, x; split; [exact Eb|]; split; [exact Ix | left; reflexivity] | left; exact K]).
        assert (Y : goes (fun s => loop (resolve_op is_cast convert materialize region (S depth) b) s (b_ops bd)) (fun x => exists o, In o (b_ops bd) /\ op_zone o x)).
        { apply loop_goes.
          - apply (pl_op_once c0 P0 b bd Eb).
          - intros o Io. apply (op_handles _ (S depth) b q o H Iq); [exists rd, b, bd; auto | apply (pl_op c0 P0); exists bd; auto].
          - intros o Io. assert (Do : directly_in c0 q o) by (exists rd, b, bd; auto). apply (op_goes _ depth b q o H); [intros d q' Ed Iq'; exact (T o d q' Do Ed Iq') | exact Iq | exact Do | apply (pl_op c0 P0); exists bd; auto].
          - intros y y' x Iy Iy' Ne. apply (op_zones q); [exists rd, b, bd; auto | exists rd, b, bd; auto | exact Ne]. }
        apply (Y c dead log rep G). intros x (o & Io & Z). apply Zn. exists bd, o. auto.
      - intros b b' x Ib Ib' Ne. exact (block_zones q rd b b' x Eq Ib Ib' Ne).
    Qed.
    Lemma region_goes depth : forall fuel q, q < length (regions c0) -> (forall x, inside c0 q x -> inside c0 r x) -> (forall x, inside c0 q x -> rank x < fuel) ->
      goes (fun s => resolve_region is_cast convert materialize (S fuel) (S depth) s q) (inside c0 q).
    Proof.
      induction fuel as [fuel IH] using lt_wf_ind; intros q Lq Iq Rk c dead log rep G Zn.
      cbn [resolve_region fst]. rewrite (rs_regions _ _ _ _ _ _ _ _ (g_res _ _ _ _ G)). destruct (nth_error (regions c0) q) as [rd|] eqn:Eq; [|apply nth_error_None in Eq; lia].
      refine (body_goes (resolve_region is_cast convert materialize fuel (S depth)) depth q rd Eq Iq (region_handles (S depth) fuel) _ c dead log rep G Zn).
      intros o d q' Do Ed Iq'. pose proof (Rk o (inside_directly c0 q o Do)) as Lo. destruct fuel as [|n]; [lia|]. apply (IH n); [lia| | |].
      - assert (X : region_parent c0 q' o) by (apply (pl_region c0 P0); exists d; auto). destruct X as (rd' & E' & _). apply nth_error_Some. congruence.
      - intros x Ix. apply Iq. apply (inside_into c0 q o d q' x (inside_directly c0 q o Do) Ed Iq' Ix).
      - intros x Ix. pose proof (inside_rank c0 rank N _ _ _ _ Ed Iq' Ix). lia.
    Qed.
    Lemma resolve_goes fuel depth : r < length (regions c0) -> (forall x, inside c0 r x -> rank x < fuel) -> resolve_casts is_cast convert materialize (S fuel) (S depth) c0 r <> None.
    Proof. intros L Rk. apply (region_goes depth fuel r L (fun _ I => I) Rk c0 dead0 [] [] good_start). intros x _ [(e & [] & _)|[]]. Qed.
  End Total.
End Main.
